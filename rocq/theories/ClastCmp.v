(** The comparison of expressions, clast.c:383-460. *)
From Coq Require Import ZArith List Bool Arith String Ascii Lia.
From Verif Require Import ClastModel ClastSpec ClastBounds.
Import ListNotations.
Local Open Scope Z_scope.

(** induction on expressions *)
Section Ind.
Variable Q : expr -> Prop.
Hypothesis Hname : forall s, Q (EName s).
Hypothesis Hterm : forall v x, match x with Some e => Q e | None => True end -> Q (ETerm v x).
Hypothesis Hbin : forall t l r, Q l -> Q (EBin t l r).
Hypothesis Hred : forall t l, Forall Q l -> Q (ERed t l).
Fixpoint expr_ind' (e : expr) : Q e :=
  match e with
  | EName s => Hname s
  | ETerm v None => Hterm v None I
  | ETerm v (Some x) => Hterm v (Some x) (expr_ind' x)
  | EBin t l r => Hbin t l r (expr_ind' l)
  | ERed t l => Hred t l ((fix go (l : list expr) : Forall Q l :=
                             match l with [] => Forall_nil _ | e :: l' => Forall_cons e (expr_ind' e) (go l') end) l)
  end.
End Ind.

Fixpoint cmp_list (a b : list expr) : Z :=
  match a, b with x :: a', y :: b' => first_nz (expr_cmp x y) (cmp_list a' b') | _, _ => 0 end.
Lemma cmp_red t1 m1 t2 m2 : expr_cmp (ERed t1 m1) (ERed t2 m2) =
  if (List.length m1 =? 1)%nat && (List.length m2 =? 1)%nat then cmp_list m1 m2
  else if negb (red_num t1 =? red_num t2) then red_num t1 - red_num t2
  else if negb (List.length m1 =? List.length m2)%nat then Z.of_nat (List.length m1) - Z.of_nat (List.length m2)
  else cmp_list m1 m2.
Proof.
  cbn [expr_cmp]. match goal with |- _ = ?rhs => set (R := rhs) end. match goal with |- context [?f m1 m2] => assert (E : forall a b, f a b = cmp_list a b) end.
  { induction a as [|x a IH]; intros [|y b]; reflexivity. }
  rewrite E. reflexivity.
Qed.

(** *** the comparisons of names and numbers *)
Lemma int_cmp_refl a : int_cmp a a = 0.
Proof. unfold int_cmp. rewrite Z.compare_refl. reflexivity. Qed.
Lemma int_cmp_sgn a b : Z.sgn (int_cmp a b) = - Z.sgn (int_cmp b a).
Proof. unfold int_cmp. rewrite (Z.compare_antisym b a). destruct (b ?= a); reflexivity. Qed.
Lemma int_cmp_eq a b : int_cmp a b = 0 <-> a = b.
Proof. unfold int_cmp. destruct (Z.compare_spec a b); cbn; split; try lia; auto. Qed.
Lemma int_cmp_lt a b : int_cmp a b < 0 <-> a < b.
Proof. unfold int_cmp. destruct (Z.compare_spec a b); cbn; lia. Qed.
Lemma ascii_eq a b : Ascii.compare a b = Eq <-> a = b.
Proof. split; [apply Ascii.compare_eq_iff|]. intros ->. unfold Ascii.compare. apply N.compare_refl. Qed.
Lemma ascii_antisym a b : Ascii.compare a b = CompOpp (Ascii.compare b a).
Proof. apply Ascii.compare_antisym. Qed.
Lemma str_cmp_refl a : str_cmp a a = 0.
Proof. unfold str_cmp. induction a as [|c a IH]; [reflexivity|]. cbn. rewrite (proj2 (ascii_eq c c) eq_refl). exact IH. Qed.
Lemma str_cmp_sgn a b : Z.sgn (str_cmp a b) = - Z.sgn (str_cmp b a).
Proof. unfold str_cmp. rewrite (String.compare_antisym a b). destruct (String.compare b a); reflexivity. Qed.
Lemma str_cmp_eq a b : str_cmp a b = 0 <-> a = b.
Proof.
  split; [|intros ->; apply str_cmp_refl]. unfold str_cmp. destruct (String.compare a b) eqn:E; cbn; try discriminate. intros _. apply String.compare_eq_iff. exact E.
Qed.
Lemma str_lt_trans a : forall b c, String.compare a b = Lt -> String.compare b c = Lt -> String.compare a c = Lt.
Proof.
  induction a as [|x a IH]; intros [|y b] [|z c]; cbn; try discriminate; auto.
  destruct (Ascii.compare x y) eqn:E1; try discriminate; destruct (Ascii.compare y z) eqn:E2; try discriminate; intros H1 H2.
  - apply ascii_eq in E1, E2. subst. rewrite (proj2 (ascii_eq z z) eq_refl). eapply IH; eassumption.
  - apply ascii_eq in E1. subst. rewrite E2. reflexivity.
  - apply ascii_eq in E2. subst. rewrite E1. reflexivity.
  - assert (E : Ascii.compare x z = Lt). { unfold Ascii.compare in *. rewrite N.compare_lt_iff in *. lia. } rewrite E. reflexivity.
Qed.
Lemma str_cmp_trans a b c : str_cmp a b < 0 -> str_cmp b c < 0 -> str_cmp a c < 0.
Proof.
  unfold str_cmp. destruct (String.compare a b) eqn:E1; cbn; try lia. destruct (String.compare b c) eqn:E2; cbn; try lia. rewrite (str_lt_trans a b c E1 E2). cbn. lia.
Qed.
Lemma first_nz_sgn a b a' b' : Z.sgn a = - Z.sgn a' -> Z.sgn b = - Z.sgn b' -> Z.sgn (first_nz a b) = - Z.sgn (first_nz a' b').
Proof. unfold first_nz. destruct (Z.eqb_spec a 0), (Z.eqb_spec a' 0); subst; cbn; try lia; intros H; destruct a'; cbn in H; try lia; destruct a; cbn in H; lia. Qed.
Lemma first_nz_zero a b : first_nz a b = 0 <-> a = 0 /\ b = 0.
Proof. unfold first_nz. destruct (Z.eqb_spec a 0); split; try tauto; intros; lia. Qed.
Lemma first_nz_neg a b : first_nz a b < 0 <-> a < 0 \/ a = 0 /\ b < 0.
Proof. unfold first_nz. destruct (Z.eqb_spec a 0); lia. Qed.

(** *** reflexive, antisymmetric *)
Lemma cmp_refl e : expr_cmp e e = 0.
Proof.
  induction e as [s|v [x|] IH|t l r IH|t l IH] using expr_ind'.
  - apply str_cmp_refl.
  - cbn [expr_cmp]. rewrite IH, int_cmp_refl. reflexivity.
  - apply int_cmp_refl.
  - cbn [expr_cmp]. rewrite Z.eqb_refl, int_cmp_refl, IH. reflexivity.
  - rewrite cmp_red, Z.eqb_refl, Nat.eqb_refl. cbn [negb]. assert (E : cmp_list l l = 0) by (induction IH as [|e l H _ IHl]; [reflexivity|cbn; rewrite H, IHl; reflexivity]).
    rewrite E. destruct (_ && _); reflexivity.
Qed.
Lemma cmp_sgn a : forall b, Z.sgn (expr_cmp a b) = - Z.sgn (expr_cmp b a).
Proof.
  induction a as [s|v [x|] IH|t l r IH|t l IH] using expr_ind'; intros [s'|v' [x'|]|t' l' r'|t' l']; try reflexivity.
  - apply str_cmp_sgn.
  - cbn [expr_cmp]. apply first_nz_sgn; [apply IH|apply int_cmp_sgn].
  - apply int_cmp_sgn.
  - cbn [expr_cmp]. rewrite (Z.eqb_sym (bin_num t') (bin_num t)). destruct (Z.eqb_spec (bin_num t) (bin_num t')); [|lia]. apply first_nz_sgn; [apply int_cmp_sgn|apply IH].
  - rewrite !cmp_red. assert (E : Z.sgn (cmp_list l l') = - Z.sgn (cmp_list l' l)).
    { revert l'. induction IH as [|e l H _ IHl]; intros [|e' l']; try reflexivity. cbn. apply first_nz_sgn; [apply H|apply IHl]. }
    rewrite andb_comm, (Z.eqb_sym (red_num t')), (Nat.eqb_sym (List.length l') (List.length l)). destruct (_ && _); [exact E|]. destruct (Z.eqb_spec (red_num t) (red_num t')); cbn [negb]; [|lia].
    destruct (Nat.eqb_spec (List.length l) (List.length l')); cbn [negb]; [exact E|lia].
Qed.
(** *** equal expressions *)
Lemma red_num_inj a b : red_num a = red_num b -> a = b.
Proof. destruct a, b; cbn; intros; try reflexivity; lia. Qed.
Lemma bin_num_inj a b : bin_num a = bin_num b -> a = b.
Proof. destruct a, b; cbn; intros; try reflexivity; lia. Qed.
(** the shape of equal reductions *)
Lemma red_equal t1 m1 t2 m2 : expr_cmp (ERed t1 m1) (ERed t2 m2) = 0 <->
  List.length m1 = List.length m2 /\ (List.length m1 = 1%nat \/ t1 = t2) /\ cmp_list m1 m2 = 0.
Proof.
  rewrite cmp_red. destruct (Nat.eqb_spec (List.length m1) 1), (Nat.eqb_spec (List.length m2) 1); cbn [andb].
  1: { split; [intros H; split; [lia|]; split; [left; assumption|exact H]|tauto]. }
  all: destruct (Z.eqb_spec (red_num t1) (red_num t2)) as [E|E]; cbn [negb]; [apply red_num_inj in E|]; destruct (Nat.eqb_spec (List.length m1) (List.length m2)); cbn [negb]; split; try lia; try tauto.
  all: intros (A & B & C); try lia; destruct B as [B|B]; try lia; subst; congruence.
Qed.
Lemma equal_trans a : forall b c, expr_cmp a b = 0 -> expr_cmp b c = 0 -> expr_cmp a c = 0.
Proof.
  induction a as [s|v [x|] IH|t l r IH|t l IH] using expr_ind'; intros [s'|v' [x'|]|t' l' r'|t' l'] [s''|v'' [x''|]|t'' l'' r''|t'' l'']; try (cbn [expr_cmp expr_num]; lia).
  - cbn [expr_cmp]. rewrite !str_cmp_eq. congruence.
  - cbn [expr_cmp]. rewrite !first_nz_zero, !int_cmp_eq. intros (A & B) (C & D). split; [eapply IH; eassumption|congruence].
  - cbn [expr_cmp]. rewrite !int_cmp_eq. congruence.
  - cbn [expr_cmp]. destruct (Z.eqb_spec (bin_num t) (bin_num t')) as [E|E]; [|lia]. destruct (Z.eqb_spec (bin_num t') (bin_num t'')) as [E'|E']; [|lia].
    rewrite E, E', Z.eqb_refl, !first_nz_zero, !int_cmp_eq. intros (A & B) (C & D). split; [congruence|eapply IH; eassumption].
  - rewrite !red_equal. intros (A & B & C) (D & E & F). split; [lia|]. split.
    + destruct B as [B| ->]; [left; exact B|]. destruct E as [E| ->]; [left; lia|right; reflexivity].
    + clear B E. revert l' l'' A C D F. induction IH as [|e l H _ IHl]; intros [|e' l'] [|e'' l'']; cbn; try discriminate; try reflexivity.
      rewrite !first_nz_zero. intros A (A1 & B) D (C & F). split; [eapply H; eassumption|eapply IHl; try eassumption; lia].
Qed.
Lemma list_equal_vals rho l : forall l', List.length l = List.length l' -> cmp_list l l' = 0 ->
  Forall (fun a => forall b, expr_cmp a b = 0 -> eval rho a = eval rho b) l -> vals rho l = vals rho l'.
Proof.
  induction l as [|a l IH]; intros [|b l'] Hl Hc Hv; try discriminate; [reflexivity|]. inversion Hv; subst. cbn [cmp_list] in Hc. apply first_nz_zero in Hc. cbn [vals].
  rewrite (H1 b), (IH l'); [reflexivity|cbn in Hl; lia|tauto|assumption|tauto].
Qed.
Lemma equal_eval rho a : forall b, expr_cmp a b = 0 -> eval rho a = eval rho b.
Proof.
  induction a as [s|v [x|] IH|t l r IH|t l IH] using expr_ind'; intros [s'|v' [x'|]|t' l' r'|t' l']; try (cbn [expr_cmp expr_num]; lia).
  - cbn [expr_cmp]. rewrite str_cmp_eq. intros ->. reflexivity.
  - cbn [expr_cmp]. rewrite first_nz_zero, int_cmp_eq. intros (A & ->). cbn [eval]. rewrite (IH _ A). reflexivity.
  - cbn [expr_cmp]. rewrite int_cmp_eq. intros ->. reflexivity.
  - cbn [expr_cmp]. destruct (Z.eqb_spec (bin_num t) (bin_num t')) as [E|E]; [|lia]. apply bin_num_inj in E. rewrite first_nz_zero, int_cmp_eq. intros (-> & A). subst t'. cbn [eval]. rewrite (IH _ A). reflexivity.
  - rewrite red_equal. intros (A & B & C). rewrite !eval_red, (list_equal_vals rho l l' A C IH). destruct B as [B| ->]; [|reflexivity].
    destruct l' as [|e [|e' l']]; try (cbn in *; lia). cbn [vals]. destruct (eval rho e); reflexivity.
Qed.
(** *** the order *)
(** no min or max of a single expression inside *)
Fixpoint no_single (e : expr) : bool :=
  match e with
  | EName _ => true
  | ETerm _ None => true
  | ETerm _ (Some x) => no_single x
  | EBin _ l _ => no_single l
  | ERed t l => (match t with RSum => true | _ => negb (List.length l =? 1)%nat end) && forallb no_single l
  end.
Lemma neg_pos a b : expr_cmp a b < 0 <-> 0 < expr_cmp b a.
Proof. pose proof (cmp_sgn a b). lia. Qed.
Lemma zero_sym a b : expr_cmp a b = 0 <-> expr_cmp b a = 0.
Proof. pose proof (cmp_sgn a b). lia. Qed.
(** equal expressions compare alike *)
Definition leq (a b : expr) : Prop := expr_cmp a b <= 0.
Lemma red_less t1 m1 t2 m2 : no_single (ERed t1 m1) = true -> no_single (ERed t2 m2) = true ->
  (expr_cmp (ERed t1 m1) (ERed t2 m2) <= 0 <->
   red_num t1 < red_num t2 \/ t1 = t2 /\ ((List.length m1 < List.length m2)%nat \/ List.length m1 = List.length m2 /\ cmp_list m1 m2 <= 0)).
Proof.
  cbn [no_single]. rewrite !andb_true_iff. intros (A & _) (B & _). rewrite cmp_red.
  assert (Hi : red_num t1 = red_num t2 <-> t1 = t2) by (split; [apply red_num_inj|intros ->; reflexivity]).
  assert (Hs : forall t (l : list expr), match t with RSum => true | _ => negb (List.length l =? 1)%nat end = true -> List.length l = 1%nat -> t = RSum).
  { intros [] l H E; try reflexivity; rewrite E in H; discriminate. }
  specialize (Hs t1 m1 A) as Hs1. specialize (Hs t2 m2 B) as Hs2. destruct (Nat.eqb_spec (List.length m1) 1), (Nat.eqb_spec (List.length m2) 1); cbn [andb].
  1: { rewrite Hs1, Hs2 by assumption. split; [intros H; right; split; [reflexivity|]; right; split; [lia|exact H]|intros [H|(_ & [H|(_ & H)])]; lia]. }
  all: destruct (Z.eqb_spec (red_num t1) (red_num t2)) as [E|E]; cbn [negb]; destruct (Nat.eqb_spec (List.length m1) (List.length m2)); cbn [negb].
  all: split; [intros H|intros [H|(H & [K|(K1 & K2)])]]; try lia; try (apply Hi in H; lia).
  all: try (left; lia).
  all: right; split; [apply Hi; assumption|]; try (right; split; lia); try (left; lia).
Qed.
Definition chain (a b c : expr) : Prop := leq a b -> leq b c -> leq a c /\ (expr_cmp a c = 0 -> expr_cmp a b = 0).
Lemma list_trans l : Forall (fun a => forall b c, no_single a = true -> no_single b = true -> no_single c = true -> chain a b c) l ->
  forall l' l'', forallb no_single l = true -> forallb no_single l' = true -> forallb no_single l'' = true ->
  List.length l = List.length l' -> List.length l' = List.length l'' -> cmp_list l l' <= 0 -> cmp_list l' l'' <= 0 ->
  cmp_list l l'' <= 0 /\ (cmp_list l l'' = 0 -> cmp_list l l' = 0).
Proof.
  induction 1 as [|a l H _ IH]; intros [|b l'] [|c l'']; cbn [cmp_list forallb List.length]; try discriminate; try lia.
  rewrite !andb_true_iff. intros (A1 & A2) (B1 & B2) (C1 & C2) L1 L2 H1 H2.
  specialize (IH l' l'' A2 B2 C2 ltac:(lia) ltac:(lia)). specialize (H b c A1 B1 C1). unfold chain, leq in H. unfold first_nz in *.
  destruct (Z.eqb_spec (expr_cmp a b) 0) as [E1|E1], (Z.eqb_spec (expr_cmp b c) 0) as [E2|E2], (Z.eqb_spec (expr_cmp a c) 0) as [E3|E3]; try lia.
  exfalso. apply E2. eapply equal_trans; [apply zero_sym; exact E1|exact E3].
Qed.
Lemma order_chain a : forall b c, no_single a = true -> no_single b = true -> no_single c = true -> chain a b c.
Proof.
  induction a as [s|v x IH|t l r IH|t l IH] using expr_ind'; intros b c Ha Hb Hc.
  - destruct b as [s'|v' [x'|]|t' l' r'|t' l'], c as [s''|v'' [x''|]|t'' l'' r''|t'' l'']; unfold chain, leq; cbn [expr_cmp expr_num]; try lia.
    intros H1 H2. pose proof (str_cmp_trans s s' s''). pose proof (str_cmp_eq s s'). pose proof (str_cmp_eq s' s''). pose proof (str_cmp_eq s s''). pose proof (str_cmp_sgn s s').
    destruct (Z.eq_dec (str_cmp s s') 0) as [E|E].
    + apply str_cmp_eq in E. subst s'. split; [exact H2|]. intros _. apply str_cmp_refl.
    + destruct (Z.eq_dec (str_cmp s' s'') 0) as [E'|E'].
      * apply str_cmp_eq in E'. subst s'. split; [exact H1|tauto].
      * split; [lia|]. intros E''. lia.
  - destruct x as [x|]; destruct b as [s'|v' [x'|]|t' l' r'|t' l'], c as [s''|v'' [x''|]|t'' l'' r''|t'' l'']; unfold chain, leq; cbn [expr_cmp expr_num]; try lia.
    + cbn [no_single] in *. specialize (IH x' x'' Ha Hb Hc). unfold chain, leq in IH. unfold first_nz, int_cmp.
      destruct (Z.eqb_spec (expr_cmp x x') 0) as [E1|E1], (Z.eqb_spec (expr_cmp x' x'') 0) as [E2|E2], (Z.eqb_spec (expr_cmp x x'') 0) as [E3|E3]; try lia.
      * destruct (Z.compare_spec v v'), (Z.compare_spec v' v''), (Z.compare_spec v v''); cbn; lia.
      * exfalso. apply E2. eapply equal_trans; [apply zero_sym; exact E1|exact E3].
    + unfold int_cmp. destruct (Z.compare_spec v v'), (Z.compare_spec v' v''), (Z.compare_spec v v''); cbn; lia.
  - destruct b as [s'|v' [x'|]|t' l' r'|t' l'], c as [s''|v'' [x''|]|t'' l'' r''|t'' l'']; unfold chain, leq; cbn [expr_cmp expr_num]; try lia.
    cbn [no_single] in *. specialize (IH l' l'' Ha Hb Hc). unfold chain, leq in IH. unfold first_nz, int_cmp.
    destruct (Z.eqb_spec (bin_num t) (bin_num t')), (Z.eqb_spec (bin_num t') (bin_num t'')), (Z.eqb_spec (bin_num t) (bin_num t'')); try lia.
    destruct (Z.compare_spec r r'), (Z.compare_spec r' r''), (Z.compare_spec r r''); cbn [cmp_sign Z.eqb]; try lia.
  - destruct b as [s'|v' [x'|]|t' l' r'|t' l'], c as [s''|v'' [x''|]|t'' l'' r''|t'' l'']; try (unfold chain, leq; cbn [expr_cmp expr_num]; lia).
    unfold chain, leq. rewrite (red_less t l t' l'), (red_less t' l' t'' l''), (red_less t l t'' l'') by assumption. rewrite !red_equal.
    pose proof (list_trans l IH l' l'') as LT.
    assert (Ha' := Ha). assert (Hb' := Hb). assert (Hc' := Hc). cbn [no_single] in Ha', Hb', Hc'. apply andb_true_iff in Ha', Hb', Hc'. destruct Ha' as (A1 & A2), Hb' as (B1 & B2), Hc' as (C1 & C2). specialize (LT A2 B2 C2).
    assert (Hone : forall t0 t1 (m0 m1 : list expr), red_num t0 < red_num t1 -> List.length m0 = 1%nat -> List.length m1 = 1%nat ->
       match t0 with RSum => true | _ => negb (List.length m0 =? 1)%nat end = true -> match t1 with RSum => true | _ => negb (List.length m1 =? 1)%nat end = true -> False).
    { intros t0 t1 m0 m1 Hlt E0 E1 F0 F1. rewrite E0 in F0. rewrite E1 in F1. destruct t0, t1; cbn in *; try discriminate; lia. }
    assert (Hno : forall t0 t1 (m0 m1 : list expr), red_num t0 < red_num t1 ->
       match t0 with RSum => true | _ => negb (List.length m0 =? 1)%nat end = true -> match t1 with RSum => true | _ => negb (List.length m1 =? 1)%nat end = true ->
       List.length m0 = List.length m1 /\ (List.length m0 = 1%nat \/ t0 = t1) /\ cmp_list m0 m1 = 0 -> False).
    { intros t0 t1 m0 m1 Hlt F0 F1 (L & [O|O] & _); [eapply (Hone t0 t1 m0 m1); eauto; lia|subst; lia]. }
    intros [H1|(E1 & H1)] [H2|(E2 & H2)].
    + split; [left; lia|]. intros X. exfalso. eapply (Hno t t''); [lia| | |exact X]; assumption.
    + subst t''. split; [left; lia|]. intros X. exfalso. eapply (Hno t t'); [lia| | |exact X]; assumption.
    + subst t'. split; [left; lia|]. intros X. exfalso. eapply (Hno t t''); [lia| | |exact X]; assumption.
    + subst t' t''. destruct H1 as [H1|(H1 & K1)], H2 as [H2|(H2 & K2)].
      * split; [right; split; [reflexivity|left; lia]|]. intros (L & _). lia.
      * split; [right; split; [reflexivity|left; lia]|]. intros (L & _). lia.
      * split; [right; split; [reflexivity|left; lia]|]. intros (L & _). lia.
      * destruct (LT H1 H2 K1 K2) as (M1 & M2). split; [right; split; [reflexivity|right; split; [lia|exact M1]]|]. intros (L & O & Q). split; [exact H1|]. split; [right; reflexivity|apply M2; exact Q].
Qed.
