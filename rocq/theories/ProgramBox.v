(** Concrete scatterings for the box library: finite tables of dates.  They show that the
    hypotheses of the theorems about cloog_program_alloc can be met and serve to run it on
    examples.  They are not a model of isl. *)
From Coq Require Import ZArith List Bool Arith Lia.
From Verif Require Import LoopModel LoopSpec LoopBox ProgramModel ProgramSpec.
Import ListNotations.
Local Open Scope nat_scope.
Local Arguments Nat.ltb : simpl never.
Local Arguments Nat.leb : simpl never.
Local Arguments Nat.eqb : simpl never.
Local Arguments Nat.sub : simpl never.

Definition zl_eqb (a b : list Z) : bool := if list_eq_dec Z.eq_dec a b then true else false.
Lemma zl_eqb_eq : forall a b, zl_eqb a b = true <-> a = b.
Proof. intros a b. unfold zl_eqb. destruct (list_eq_dec Z.eq_dec a b); split; congruence. Qed.

Record table := { td : nat; tp : list (list Z * list Z) }.
Definition entries (s : table) : list (list Z * list Z) := filter (fun p => length (fst p) =? td s) (tp s).
Definition drop_at (k : nat) (t : list Z) : list Z := firstn k t ++ skipn (S k) t.
Definition all_same (l : list Z) : option Z :=
  match l with [] => None | v :: r => if forallb (Z.eqb v) r then Some v else None end.
Definition point (x : list Z) : box := map (fun v => (Some v, Some v)) x.
Definition BoxScat : Scat BoxPoly := {|
  smap := table;
  s_dim := td;
  s_scalar := fun s k => if k <? td s then all_same (map (fun p => nth k (fst p) 0%Z) (entries s)) else None;
  s_erase := fun s k => {| td := td s - 1; tp := map (fun p => (drop_at k (fst p), snd p)) (entries s) |};
  s_delta := fun s1 s2 k => all_same (flat_map (fun p => flat_map (fun q =>
     if zl_eqb (snd p) (snd q) then [(nth k (fst q) 0 - nth k (fst p) 0)%Z] else []) (entries s2)) (entries s1));
  s_injective := fun ss => let all := flat_map (fun a => map (fun p => (a, p)) (entries (nth a ss {| td := 0; tp := [] |}))) (seq 0 (length ss)) in
     forallb (fun x => forallb (fun y => negb (zl_eqb (fst (snd x)) (fst (snd y))) || ((fst x =? fst y) && zl_eqb (snd (snd x)) (snd (snd y)))) all) all;
  s_scatter := fun (d : dom BoxPoly) s => {| bd := td s + bd d; bs := map (fun p => point (fst p ++ snd p)) (filter (fun p => bmem d (snd p)) (entries s)) |}
|}.
Definition BoxRel : ScatSem BoxScat := fun (s : table) t i => existsb (fun p => zl_eqb (fst p) t && zl_eqb (snd p) i) (entries s).

Lemma box_rel : forall s t i, BoxRel s t i = true <-> In (t, i) (entries s).
Proof.
  intros s t i. unfold BoxRel. rewrite existsb_exists. split.
  - intros ([t' i'] & Hin & H). apply andb_true_iff in H. cbn in H. rewrite !zl_eqb_eq in H. destruct H as [-> ->]. exact Hin.
  - intros H. exists (t, i). split; [exact H|]. cbn. apply andb_true_iff. rewrite !zl_eqb_eq. auto.
Qed.
Lemma all_same_in : forall l v x, all_same l = Some v -> In x l -> x = v.
Proof.
  intros [|y r] v x H Hx; [destruct Hx|]. cbn in H. destruct (forallb (Z.eqb y) r) eqn:E; [|discriminate]. injection H as <-.
  destruct Hx as [|Hx]; [congruence|]. rewrite forallb_forall in E. apply E in Hx. apply Z.eqb_eq in Hx. congruence.
Qed.
Lemma drop_at_length : forall k t, k < length t -> length (drop_at k t) = length t - 1.
Proof. intros k t H. unfold drop_at. rewrite app_length, firstn_length, skipn_length. lia. Qed.
Lemma drop_at_insert : forall k t v, k < length t -> nth k t 0%Z = v -> t = firstn k (drop_at k t) ++ v :: skipn k (drop_at k t).
Proof.
  induction k as [|k IH]; intros [|x t] v Hl Hv; cbn in *; try lia; subst; [reflexivity|].
  f_equal. apply IH; [lia|reflexivity].
Qed.
Lemma insert_drop_at : forall k t v, k <= length t -> drop_at k (firstn k t ++ v :: skipn k t) = t.
Proof.
  induction k as [|k IH]; intros t v Hl; [reflexivity|]. destruct t as [|x t]; cbn in *; [lia|].
  unfold drop_at in *. cbn. f_equal. apply IH. lia.
Qed.
Lemma point_in : forall y x, inb (point y) x = true <-> x = y.
Proof.
  induction y as [|v y IH]; intros [|w x]; cbn; split; intros H; try discriminate; try reflexivity.
  - apply andb_true_iff in H. destruct H as [H1 H2]. apply IH in H2. subst x. unfold ini, ge_lo, le_hi in H1. cbn in H1.
    apply andb_true_iff in H1. f_equal. lia.
  - injection H as -> ->. apply andb_true_iff. split; [|apply IH; reflexivity]. unfold ini, ge_lo, le_hi. cbn. apply andb_true_iff. lia.
Qed.
Lemma inb_length : forall p x, inb p x = true -> length p = length x.
Proof. induction p as [|i p IH]; intros [|v x] H; cbn in *; try discriminate; [reflexivity|]. apply andb_true_iff in H. f_equal. apply IH. tauto. Qed.
Lemma inb_nempty : forall p x, inb p x = true -> bempty p = false.
Proof.
  induction p as [|i p IH]; intros [|v x] H; cbn in *; try discriminate; [reflexivity|]. apply andb_true_iff in H. destruct H as [H1 H2].
  apply orb_false_iff. split; [|eapply IH; eauto]. destruct i as [[a|] [b|]]; try reflexivity. cbn in *.
  unfold ini, ge_lo, le_hi in H1. cbn in H1. apply andb_true_iff in H1. lia.
Qed.
Lemma inb_nth : forall p x k, inb p x = true -> k < length x -> ini (nth k p full) (nth k x 0%Z) = true.
Proof.
  induction p as [|i p IH]; intros [|v x] k H Hk; cbn in *; try discriminate; try lia. apply andb_true_iff in H. destruct H as [H1 H2].
  destruct k; [exact H1|]. apply IH; [exact H2|lia].
Qed.

Theorem box_scat_laws : ScatLaws BoxPoly BoxSem BoxScat BoxRel.
Proof.
  constructor.
  - intros s t i H. apply box_rel in H. apply filter_In in H. destruct H as [_ H]. apply Nat.eqb_eq in H. exact H.
  - intros s k v H. cbn in *. destruct (Nat.ltb_spec k (td s)) as [Hk|]; [|discriminate]. split; [exact Hk|].
    intros t i Hr. apply box_rel in Hr. eapply all_same_in; [exact H|]. apply in_map_iff. exists (t, i). auto.
  - intros s k _. reflexivity.
  - intros s k v t i H Hl. cbn in H, Hl. destruct (Nat.ltb_spec k (td s)) as [Hk|]; [|discriminate].
    assert (Hb : forall a b, (a = true <-> b = true) -> a = b) by (intros [] []; intuition congruence).
    apply Hb. rewrite !box_rel. split; intros Hin.
    + apply filter_In in Hin. destruct Hin as [Hin _]. cbn in Hin. apply in_map_iff in Hin.
      destruct Hin as ([t0 i0] & E & Hin). cbn in E. injection E as <- <-.
      assert (Hl0 : length t0 = td s) by (apply filter_In in Hin; destruct Hin as [_ Q]; apply Nat.eqb_eq in Q; exact Q).
      assert (Hv : nth k t0 0%Z = v) by (eapply all_same_in; [exact H|]; apply in_map_iff; exists (t0, i0); auto).
      rewrite <- (drop_at_insert k t0 v) by (auto; lia). exact Hin.
    + apply filter_In. cbn. split; [|apply Nat.eqb_eq; exact Hl]. apply in_map_iff.
      exists (firstn k t ++ v :: skipn k t, i). split; [|exact Hin]. cbn. rewrite insert_drop_at by lia. reflexivity.
  - intros s1 s2 k v t1 t2 i H H1 H2. apply box_rel in H1, H2. cbn in H.
    assert (E : (nth k t2 0 - nth k t1 0)%Z = v); [|lia]. eapply all_same_in; [exact H|].
    apply in_flat_map. exists (t1, i). split; [exact H1|]. apply in_flat_map. exists (t2, i). split; [exact H2|]. cbn.
    assert (E : zl_eqb i i = true) by (apply zl_eqb_eq; reflexivity). rewrite E. left. reflexivity.
  - intros ss a b s1 s2 t i1 i2 H Ha Hb H1 H2. apply box_rel in H1, H2. cbn in H. change (smap BoxScat) with table in *.
    set (all := flat_map _ _) in H.
    assert (Hall : forall n s p, nth_error ss n = Some s -> In p (entries s) -> In (n, p) all).
    { intros n s p Hn Hp. apply in_flat_map. exists n. assert (n < length ss) by (apply nth_error_Some; congruence).
      split; [apply in_seq; split; [lia|assumption]|]. rewrite (nth_error_nth _ _ _ Hn). apply in_map. exact Hp. }
    rewrite forallb_forall in H. specialize (H (a, (t, i1)) (Hall _ _ _ Ha H1)). cbn in H.
    rewrite forallb_forall in H. specialize (H (b, (t, i2)) (Hall _ _ _ Hb H2)). cbn in H.
    assert (E : zl_eqb t t = true) by (apply zl_eqb_eq; reflexivity). rewrite E in H. cbn in H.
    apply andb_true_iff in H. destruct H as [Q1 Q2]. apply Nat.eqb_eq in Q1. apply zl_eqb_eq in Q2. auto.
  - intros d s. reflexivity.
  - intros d s t i Hl. assert (Hb : forall a b, (a = true <-> b = true) -> a = b) by (intros [] []; intuition congruence).
    apply Hb. cbn in Hl |- *. unfold bmem at 1. cbn [bd bs]. rewrite !andb_true_iff, box_rel, existsb_exists. split.
    + intros (_ & p & Hp & Hin). apply in_map_iff in Hp. destruct Hp as ([t' i'] & <- & Hp). apply point_in in Hin. cbn in Hin.
      apply filter_In in Hp. destruct Hp as [Hp Hm]. cbn in Hm.
      assert (Hl' : length t' = td s) by (apply filter_In in Hp; destruct Hp as [_ Q]; apply Nat.eqb_eq in Q; exact Q).
      assert (E : t = t' /\ i = i').
      { clear - Hin Hl Hl'. rewrite <- Hl in Hl'. clear Hl. revert t' Hin Hl'. induction t as [|x t IH]; intros [|y t'] H Hl; try discriminate; cbn in *; [auto|].
        injection H as -> H. destruct (IH t' H) as [-> ->]; auto. }
      destruct E as [-> ->]. auto.
    + intros (Hin & Hm). split.
      * apply Nat.eqb_eq. rewrite app_length, Hl. unfold bmem in Hm. apply andb_true_iff in Hm. destruct Hm as [Q _]. apply Nat.eqb_eq in Q. lia.
      * exists (point (t ++ i)). split; [|apply point_in; reflexivity]. apply in_map_iff. exists (t, i). split; [reflexivity|].
        apply filter_In. auto.
  - intros d k v x H Hm. cbn in H, Hm. unfold bmem in Hm. apply andb_true_iff in Hm. destruct Hm as [Hl Hx]. apply Nat.eqb_eq in Hl.
    apply existsb_exists in Hx. destruct Hx as (p & Hp & Hin).
    assert (Hg : In p (good d)).
    { apply filter_In. split; [exact Hp|]. rewrite (inb_length _ _ Hin), Hl, Nat.eqb_refl, (inb_nempty _ _ Hin). reflexivity. }
    destruct (good d) as [|q [|]]; try discriminate. destruct Hg as [->|[]].
    destruct (nth k p full) as [[a|] [b|]] eqn:Ek; try discriminate. destruct (Z.eqb_spec a b) as [<-|]; [|discriminate]. injection H as ->.
    destruct (Nat.lt_ge_cases k (length x)) as [Hk|Hk].
    + pose proof (inb_nth p x k Hin Hk) as Q. rewrite Ek in Q. unfold ini, ge_lo, le_hi in Q. cbn in Q. apply andb_true_iff in Q. lia.
    + rewrite nth_overflow in Ek by (rewrite (inb_length _ _ Hin); exact Hk). discriminate.
Qed.
