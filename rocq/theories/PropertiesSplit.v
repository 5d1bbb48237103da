(** Property C55: the pieces in which merged loops get their bounds. *)
From Coq Require Import ZArith List Bool Lia Arith.
From Verif Require Import StrideModel UnrollModel UnrollSpec PropertiesUnroll SplitModel SplitSpec.
Import ListNotations.
Local Open Scope Z_scope.
Local Arguments Nat.sub : simpl never.

(** ** the pieces *)
Definition apart (s : list bset) : Prop :=
  forall i j b b' x p, i <> j -> nth_error s i = Some b -> nth_error s j = Some b' -> inside b x p -> inside b' x p -> False.
Definition covers (np : nat) (s : list bset) : Prop := forall x p, length p = np -> point_of s x p.

Lemma value_sign np i (nn : bool) x p e : (i < np)%nat -> length p = np ->
  value (sign_of_param np i nn) x p e = if nn then nth i p 0 else - nth i p 0 - 1.
Proof.
  intros Hi Hp. unfold value, sign_of_param. cbn [c_iter c_par c_div c_const]. rewrite prod_one by assumption.
  destruct x, e, nn; cbn [prod]; lia.
Qed.
Lemma inside_with c b x p : inside (with_con c b) x p <-> exists e, length e = n_div b /\ Forall (fun c => holds c x p e) (cons_of b) /\ holds c x p e.
Proof.
  unfold inside, with_con. cbn [n_div cons_of]. split.
  - intros (e & He & Hf). apply Forall_app in Hf. destruct Hf as [Hf Hc]. inversion Hc; subst. now exists e.
  - intros (e & He & Hf & Hc). exists e. split; [exact He|]. apply Forall_app. split; [exact Hf|]. constructor; [exact Hc|constructor].
Qed.
Lemma inside_sign np i (nn : bool) b x p : (i < np)%nat -> length p = np ->
  (inside (with_con (sign_of_param np i nn) b) x p <-> inside b x p /\ if nn then 0 <= nth i p 0 else nth i p 0 < 0).
Proof.
  intros Hi Hp. rewrite inside_with. unfold holds. replace (c_eq (sign_of_param np i nn)) with false by reflexivity. split.
  - intros (e & He & Hf & Hv). rewrite (value_sign np i nn x p e Hi Hp) in Hv. split; [now exists e|]. destruct nn; lia.
  - intros [(e & He & Hf) Hv]. exists e. split; [exact He|]. split; [exact Hf|]. fold (holds (sign_of_param np i nn) x p e). rewrite (value_sign np i nn x p e Hi Hp). destruct nn; lia.
Qed.

(** every point is in exactly one of the sets *)
Definition parts (np : nat) (s : list bset) : Prop :=
  forall x p, length p = np -> exists i b, nth_error s i = Some b /\ inside b x p /\ forall j b', nth_error s j = Some b' -> inside b' x p -> j = i.
Definition two (np i : nat) (b : bset) := [with_con (sign_of_param np i true) b; with_con (sign_of_param np i false) b].
Lemma split_nth np i s : forall k, nth_error (split_param np s i) k = match nth_error s (Nat.div2 k) with Some b => nth_error (two np i b) (if Nat.odd k then 1 else 0) | None => None end.
Proof.
  induction s as [|b s IH]; intros k.
  - cbn. destruct k; [reflexivity|]. cbn. destruct k; [reflexivity|]. now destruct (Nat.div2 k).
  - cbn [split_param flat_map app]. destruct k as [|[|k]]; [reflexivity|reflexivity|]. cbn [nth_error Nat.div2]. fold (split_param np s i). rewrite IH.
    replace (Nat.odd (S (S k))) with (Nat.odd k) by (rewrite Nat.odd_succ, Nat.even_succ; reflexivity). reflexivity.
Qed.
Lemma half_eq j k : Nat.div2 j = Nat.div2 k -> Nat.odd j = Nat.odd k -> j = k.
Proof. intros H1 H2. rewrite (Nat.div2_odd j), (Nat.div2_odd k), H1, H2. reflexivity. Qed.
Lemma split_parts np i s : (i < np)%nat -> parts np s -> parts np (split_param np s i).
Proof.
  intros Hi HP x p Hp. destruct (HP x p Hp) as (k & b & Hk & Hb & U). set (nn := 0 <=? nth i p 0).
  assert (Hnn : if nn then 0 <= nth i p 0 else nth i p 0 < 0) by (unfold nn; destruct (Z.leb_spec 0 (nth i p 0)); assumption).
  exists (2 * k + if nn then 0 else 1)%nat, (with_con (sign_of_param np i nn) b).
  assert (D : Nat.div2 (2 * k + if nn then 0 else 1) = k).
  { destruct nn; [rewrite Nat.add_0_r; apply Nat.div2_double|]. replace (2 * k + 1)%nat with (S (2 * k)) by lia. apply Nat.div2_succ_double. }
  assert (O : Nat.odd (2 * k + if nn then 0 else 1) = negb nn).
  { destruct nn; [rewrite Nat.add_0_r|]; [rewrite Nat.odd_mul; reflexivity|rewrite Nat.odd_add, Nat.odd_mul; reflexivity]. }
  split; [rewrite split_nth, D, Hk, O; destruct nn; reflexivity|]. split; [apply inside_sign; auto|].
  intros j b' Hj Hb'. rewrite split_nth in Hj. destruct (nth_error s (Nat.div2 j)) as [b0|] eqn:E0; [|discriminate].
  assert (X : exists nn', b' = with_con (sign_of_param np i nn') b0 /\ Nat.odd j = negb nn').
  { destruct (Nat.odd j); injection Hj as <-; [now exists false|now exists true]. }
  destruct X as (nn' & -> & Oj). apply inside_sign in Hb'; [|assumption|assumption]. destruct Hb' as [Hb0 Hs]. apply half_eq.
  - rewrite D. exact (U _ _ E0 Hb0).
  - rewrite O, Oj. f_equal. destruct nn, nn'; auto; lia.
Qed.

(** in every set the parameter [i] has one sign *)
Definition signed (np : nat) (s : list bset) (i : nat) : Prop :=
  Forall (fun b => (forall x p, length p = np -> inside b x p -> 0 <= nth i p 0) \/ (forall x p, length p = np -> inside b x p -> nth i p 0 < 0)) s.
Lemma split_signed np i s : (i < np)%nat -> signed np (split_param np s i) i.
Proof.
  intros Hi. unfold signed. rewrite Forall_forall. intros b Hb. apply in_flat_map in Hb. destruct Hb as (b0 & _ & [<- |[<- |[]]]).
  - left. intros x p Hp H. now apply inside_sign in H.
  - right. intros x p Hp H. now apply inside_sign in H.
Qed.
Lemma split_keeps np i j s : (i < np)%nat -> signed np s j -> signed np (split_param np s i) j.
Proof.
  intros Hi H. unfold signed in *. rewrite Forall_forall in *. intros b Hb. apply in_flat_map in Hb. destruct Hb as (b0 & H0 & Hb).
  assert (X : exists nn, b = with_con (sign_of_param np i nn) b0) by (destruct Hb as [<- |[<- |[]]]; eauto). destruct X as (nn & ->).
  destruct (H b0 H0) as [A|A]; [left|right]; intros x p Hp Hin; apply (A x p Hp); apply inside_sign in Hin; tauto.
Qed.
Lemma fold_split np c : forall l s, (forall i, In i l -> (i < np)%nat) ->
  let s' := fold_left (fun s i => if nth i (c_par c) 0 =? 0 then s else split_param np s i) l s in
  (parts np s -> parts np s') /\ (forall j, signed np s j -> signed np s' j) /\ (forall j, In j l -> nth j (c_par c) 0 <> 0 -> signed np s' j).
Proof.
  induction l as [|i l IH]; intros s Hl; cbn [fold_left].
  - split; [auto|]. split; [auto|]. intros j [].
  - destruct (IH (if nth i (c_par c) 0 =? 0 then s else split_param np s i) ltac:(intros; apply Hl; now right)) as (A & B & D).
    assert (Hi : (i < np)%nat) by (apply Hl; now left). destruct (Z.eqb_spec (nth i (c_par c) 0) 0) as [E|E].
    + split; [exact A|]. split; [exact B|]. intros j [<- |Hj] Hn; [contradiction|now apply D].
    + split; [intro H; apply A; now apply split_parts|]. split; [intros j Hj; apply B; now apply split_keeps|].
      intros j [<- |Hj] Hn; [apply B; now apply split_signed|now apply D].
Qed.
Definition handled (np : nat) (s : list bset) (c : con) : Prop := forall j, (j < np)%nat -> nth j (c_par c) 0 <> 0 -> signed np s j.
Lemma split_constraint_facts np c s : (parts np s -> parts np (split_constraint np c s)) /\ (forall j, signed np s j -> signed np (split_constraint np c s) j) /\ handled np (split_constraint np c s) c.
Proof.
  destruct (fold_split np c (seq 0 np) s ltac:(intros i Hi; apply in_seq in Hi; lia)) as (A & B & D). split; [exact A|]. split; [exact B|].
  intros j Hj Hn. apply D; [apply in_seq; lia|exact Hn].
Qed.
(** what a step of the loops leaves unchanged *)
Definition finer (np : nat) (u u' : cbs) : Prop := (parts np (s_set u) -> parts np (s_set u')) /\ forall j, signed np (s_set u) j -> signed np (s_set u') j.
Lemma finer_refl np u : finer np u u. Proof. split; auto. Qed.
Lemma finer_trans np u v w : finer np u v -> finer np v w -> finer np u w. Proof. intros [A B] [D E]. split; auto. Qed.
Lemma finer_handled np u u' c : finer np u u' -> handled np (s_set u) c -> handled np (s_set u') c.
Proof. intros [_ B] H j Hj Hn. apply B. now apply H. Qed.
Definition pos (level : nat) (c : con) : bool := 0 <? nth (level - 1) (c_iter c) 0.
Definition neg (level : nat) (c : con) : bool := nth (level - 1) (c_iter c) 0 <? 0.
(** the first constraint that bounds from below (if none was found before), and from above, is taken *)
Lemma step_facts np level u c u' r : constraint_bound_split np level u c = (u', r) ->
  finer np u u' /\ r = (s_lower u' && s_upper u')%bool /\ s_lower u' = (s_lower u || pos level c)%bool /\ s_upper u' = (s_upper u || neg level c)%bool /\
  (s_lower u = false -> pos level c = true -> handled np (s_set u') c) /\ (s_upper u = false -> neg level c = true -> handled np (s_set u') c).
Proof.
  unfold constraint_bound_split. intros E. apply pair_equal_spec in E. destruct E as [<- <-]. fold (pos level c). fold (neg level c).
  pose proof (split_constraint_facts np c (s_set u)) as (A & B & D).
  assert (PN : pos level c = true -> neg level c = true -> False) by (unfold pos, neg; rewrite Z.ltb_lt, Z.ltb_lt; lia).
  destruct (s_lower u) eqn:EL, (s_upper u) eqn:EU, (pos level c) eqn:Ep, (neg level c) eqn:En; cbn [negb andb orb s_set s_lower s_upper]; rewrite ?EL, ?EU;
    try (exfalso; now apply PN); (split; [first [exact (finer_refl np u)|split; assumption]|]); repeat (split; [try reflexivity|]); try discriminate; try (intros; exact D).
Qed.
Lemma loop_facts np level l : forall u u' r, foreach_stop (constraint_bound_split np level) l u = (u', r) ->
  finer np u u' /\ (r = true -> s_lower u' = true /\ s_upper u' = true) /\
  (s_lower u = false -> forall c, find (pos level) l = Some c -> handled np (s_set u') c) /\
  (s_upper u = false -> forall c, find (neg level) l = Some c -> handled np (s_set u') c).
Proof.
  induction l as [|c l IH]; intros u u' r E; cbn [foreach_stop] in E.
  - apply pair_equal_spec in E. destruct E as [<- <-]. split; [apply finer_refl|]. split; [discriminate|]. split; intros _ c H; discriminate H.
  - destruct (constraint_bound_split np level u c) as [u1 r1] eqn:E1. destruct (step_facts np level u c u1 r1 E1) as (F & R1 & L1 & U1 & HL & HU). destruct r1.
    + apply pair_equal_spec in E. destruct E as [<- <-]. split; [exact F|]. symmetry in R1. apply andb_prop in R1. destruct R1 as [RL RU]. split; [auto|].
      split; intros H0 c0; cbn [find].
      * rewrite H0, RL in L1. cbn [orb] in L1. rewrite <- L1. intros [= <-]. apply HL; auto.
      * rewrite H0, RU in U1. cbn [orb] in U1. rewrite <- U1. intros [= <-]. apply HU; auto.
    + destruct (IH u1 u' r E) as (F' & R' & HL' & HU'). split; [eapply finer_trans; eassumption|]. split; [exact R'|].
      split; intros H0 c0; cbn [find].
      * rewrite H0 in L1. cbn [orb] in L1. destruct (pos level c) eqn:Ep; [intros [= <-]; eapply finer_handled; [exact F'|apply HL; auto]|]. apply HL'. exact L1.
      * rewrite H0 in U1. cbn [orb] in U1. destruct (neg level c) eqn:Ep; [intros [= <-]; eapply finer_handled; [exact F'|apply HU; auto]|]. apply HU'. exact U1.
Qed.
(** what is handled for a basic set *)
Definition handled_set (np level : nat) (s : list bset) (b : bset) : Prop :=
  (forall c, find (pos level) (cons_of b) = Some c -> handled np s c) /\ (forall c, find (neg level) (cons_of b) = Some c -> handled np s c).
Lemma basic_facts np level u b u' r : basic_set_bound_split np level u b = (u', r) -> r = false /\ finer np u u' /\ handled_set np level (s_set u') b.
Proof.
  unfold basic_set_bound_split. intro E. destruct (foreach_stop _ _ _) as [u1 r1] eqn:E1. apply loop_facts in E1. destruct E1 as (F & R & HL & HU).
  apply pair_equal_spec in E. destruct E as [<- <-]. split; [|split].
  - destruct r1; [|apply andb_false_r]. destruct (R eq_refl) as [-> ->]. reflexivity.
  - exact F.
  - split; [now apply HL|now apply HU].
Qed.
Lemma sets_facts np level set : forall u u' r, foreach_stop (basic_set_bound_split np level) set u = (u', r) ->
  r = false /\ finer np u u' /\ Forall (handled_set np level (s_set u')) set.
Proof.
  induction set as [|b set IH]; intros u u' r E; cbn [foreach_stop] in E.
  - apply pair_equal_spec in E. destruct E as [<- <-]. split; [reflexivity|]. split; [apply finer_refl|constructor].
  - destruct (basic_set_bound_split np level u b) as [u1 r1] eqn:E1. apply basic_facts in E1. destruct E1 as (-> & F & H).
    destruct (IH _ _ _ E) as (-> & F' & H'). split; [reflexivity|]. split; [eapply finer_trans; eassumption|]. constructor; [|exact H'].
    destruct H as [H1 H2]. split; intros c Hc; eapply finer_handled; eauto.
Qed.
Lemma splitter_facts np set level : exists s, domain_bound_splitter np set level = Some s /\ parts np s /\ Forall (handled_set np level s) set.
Proof.
  unfold domain_bound_splitter. destruct (foreach_stop _ _ _) as [u r] eqn:E. apply sets_facts in E. destruct E as (-> & [F _] & H).
  exists (s_set u). split; [reflexivity|]. split; [|exact H]. apply F. intros x p _. exists 0%nat, {| n_div := 0; cons_of := [] |}. split; [reflexivity|]. split; [exists []; split; [reflexivity|constructor]|].
  intros [|[|j]] b' E _; [reflexivity|discriminate|discriminate].
Qed.

(** ** C55 *)
(** The assertion in the function holds, and whatever the values of iterators and parameters, they are in
    exactly one of the pieces. *)
Theorem C55_pieces :
  forall (np : nat) (set : list bset) (level : nat),
  exists s, domain_bound_splitter np set level = Some s /\
    forall x p, length p = np ->
      (exists b, In b s /\ inside b x p) /\
      (forall i j b b', nth_error s i = Some b -> nth_error s j = Some b' -> inside b x p -> inside b' x p -> i = j).
Proof.
  intros np set level. destruct (splitter_facts np set level) as (s & E & HP & _). exists s. split; [exact E|]. intros x p Hp.
  destruct (HP x p Hp) as (k & b & Hk & Hb & U). split; [exists b; split; [eapply nth_error_In; exact Hk|exact Hb]|].
  intros i j b1 b2 H1 H2 I1 I2. rewrite (U _ _ H1 I1), (U _ _ H2 I2). reflexivity.
Qed.
Print Assumptions C55_pieces.

(** *** bounds *)
Lemma prod_only i a : forall l x, (i < length l)%nat -> length x = length l -> nth i l 0 = a -> (forall j, j <> i -> nth j l 0 = 0) -> prod l x = a * nth i x 0.
Proof.
  induction i as [|i IH]; intros [|k l] [|v x] Hi Hx Ha H; cbn [length] in *; try lia.
  - cbn [nth prod] in *. rewrite prod_zeros; [lia|]. rewrite Forall_forall. intros z Hz. apply In_nth with (d := 0) in Hz. destruct Hz as (n & _ & <-). apply (H (S n)). lia.
  - pose proof (H 0%nat ltac:(lia)) as H0. cbn [nth prod] in *. subst k. rewrite (IH l x); [lia|lia|lia|exact Ha|]. intros j Hj. apply (H (S j)). lia.
Qed.
(** The absolute values of the coefficients, with the signs that the parameters have. *)
Definition sgn (s : nat -> bool) (i : nat) : Z := if s i then 1 else -1.
Fixpoint with_signs (n : nat) (l : list Z) (s : nat -> bool) : list Z :=
  match n with O => [] | S n => Z.abs (hd 0 l) * sgn s 0 :: with_signs n (tl l) (fun i => s (S i)) end.
Fixpoint add_rows (a b : list Z) : list Z := match a, b with x :: a, y :: b => x + y :: add_rows a b | _, _ => [] end.
Lemma prod_add : forall a b p, length a = length b -> prod (add_rows a b) p = prod a p + prod b p.
Proof. induction a as [|x a IH]; intros [|y b] [|v p] H; try discriminate; cbn [add_rows prod]; try lia. rewrite IH by (injection H; auto). lia. Qed.
Lemma add_len : forall a b, length a = length b -> length (add_rows a b) = length a.
Proof. induction a as [|x a IH]; intros [|y b] H; try discriminate; cbn; [reflexivity|]. rewrite IH; [reflexivity|]. now injection H. Qed.
Lemma signs_len n : forall l s, length (with_signs n l s) = n. Proof. induction n; intros; cbn; [reflexivity|now rewrite IHn]. Qed.
(** [s] tells the signs of the parameters that occur in [l] *)
Definition fits (l : list Z) (s : nat -> bool) (p : list Z) : Prop :=
  forall i, (i < length p)%nat -> nth i l 0 <> 0 -> 0 <= sgn s i * nth i p 0.
Lemma signs_bound : forall p l s, fits l s p -> Z.abs (prod l p) <= prod (with_signs (length p) l s) p.
Proof.
  induction p as [|v p IH]; intros l s F; [destruct l; cbn; lia|]. cbn [length with_signs prod].
  assert (F' : fits (tl l) (fun i => s (S i)) p). { intros i Hi Hn. apply (F (S i)); [cbn; lia|]. destruct l; [now destruct i|exact Hn]. }
  specialize (IH _ _ F'). pose proof (F 0%nat ltac:(cbn; lia)) as F0. destruct l as [|k l]; cbn [prod hd tl nth] in *.
  - change (Z.abs 0) with 0 in *. assert (0 <= prod (with_signs (length p) [] (fun i => s (S i))) p) by lia. lia.
  - unfold sgn in *. destruct (Z.eq_dec k 0) as [-> |Hk]; [cbn; lia|]. specialize (F0 Hk). destruct (s 0%nat); nia.
Qed.

Lemma total_le {A} (f g : A -> Z) l : Forall (fun a => f a <= g a) l -> total f l <= total g l.
Proof. induction 1; cbn [total fold_right]; unfold total in *; lia. Qed.
Lemma total_scale {A} k (f : A -> Z) l : k * total f l = total (fun a => k * f a) l.
Proof. induction l; cbn [total fold_right]; [lia|]. fold (total f l). fold (total (fun a => k * f a) l). lia. Qed.
Lemma total_plus {A} (f g : A -> Z) l : total (fun a => f a + g a) l = total f l + total g l.
Proof. induction l; cbn [total fold_right]; [lia|]. fold (total f l). fold (total g l). fold (total (fun a => f a + g a) l). lia. Qed.
Lemma total_ext {A} (f g : A -> Z) l : (forall a, In a l -> f a = g a) -> total f l = total g l.
Proof. induction l as [|a l IH]; intro H; cbn; [reflexivity|]. rewrite (H a) by now left. fold (total f l). fold (total g l). rewrite IH; [reflexivity|]. intros; apply H; now right. Qed.
Lemma total_nonneg {A} (f : A -> Z) l : (forall a, In a l -> 0 <= f a) -> 0 <= total f l.
Proof. induction l as [|a l IH]; intro H; cbn; [lia|]. fold (total f l). pose proof (H a ltac:(now left)). assert (0 <= total f l) by (apply IH; intros; apply H; now right). lia. Qed.
Lemma total_in {A} (f : A -> Z) l a : (forall a, In a l -> 0 <= f a) -> In a l -> f a <= total f l.
Proof.
  induction l as [|b l IH]; [intros _ []|]. intros H [-> |Ha]; cbn; fold (total f l).
  - assert (0 <= total f l) by (apply total_nonneg; intros; apply H; now right). lia.
  - pose proof (H b ltac:(now left)). assert (f a <= total f l) by (apply IH; [intros; apply H; now right|exact Ha]). lia.
Qed.
(** a linear form is the mean of its values *)
Lemma prod_mean : forall up (ps : list (Z * list Z)) W p, Forall (fun q => length (snd q) = length p) ps ->
  (forall i, W * nth i p 0 = total (fun q => fst q * nth i (snd q) 0) ps) -> W * prod up p = total (fun q => fst q * prod up (snd q)) ps.
Proof.
  induction up as [|k up IH]; intros ps W p HL HW.
  - replace (prod [] p) with 0 by reflexivity. rewrite Z.mul_0_r. symmetry. induction ps as [|q ps IHp]; [reflexivity|]. cbn. inversion HL. fold (total (fun q => fst q * 0) ps).
    assert (total (fun q : Z * list Z => fst q * 0) ps = 0); [|lia]. clear. induction ps; cbn; [reflexivity|]. fold (total (fun q : Z * list Z => fst q * 0) ps). lia.
  - destruct p as [|v p].
    + cbn [prod]. rewrite Z.mul_0_r. symmetry. clear - HL. induction HL as [|q ps Hq _ IHp]; [reflexivity|]. destruct q as [w y]. cbn [fst snd total fold_right] in *. destruct y; [|discriminate Hq]. cbn [prod]. unfold total in IHp. lia.
    + cbn [prod]. rewrite Z.mul_add_distr_l. replace (W * (k * v)) with (k * (W * v)) by lia. pose proof (HW 0%nat) as H0. cbn [nth] in H0. rewrite H0.
      set (tls := map (fun q : Z * list Z => (fst q, tl (snd q))) ps).
      rewrite (IH tls W p).
      * unfold tls. rewrite total_scale. clear - HL. induction HL as [|q ps Hq _ IHp]; [reflexivity|]. destruct q as [w0 y0]. cbn [total fold_right map fst snd] in *.
        destruct y0 as [|w y]; [discriminate Hq|]. cbn [nth tl prod]. unfold total in IHp. lia.
      * unfold tls. apply Forall_map. eapply Forall_impl; [|exact HL]. intros [w0 y0] Hq. cbn [snd] in *. destruct y0; [discriminate Hq|]. cbn in *. lia.
      * intros i. specialize (HW (S i)). cbn [nth] in HW. rewrite HW. unfold tls. clear - HL. induction HL as [|q ps Hq _ IHp]; [reflexivity|]. destruct q as [w0 y0]. cbn [total fold_right map fst snd] in *.
        destruct y0 as [|w y]; [discriminate Hq|]. cbn [nth tl]. unfold total in IHp. lia.
Qed.
Lemma choose_bool n (Q : nat -> bool -> Prop) : (forall i, (i < n)%nat -> exists b, Q i b) -> exists f, forall i, (i < n)%nat -> Q i (f i).
Proof.
  induction n as [|n IH]; intro H; [exists (fun _ => true); lia|]. destruct IH as [f Hf]; [intros; apply H; lia|]. destruct (H n ltac:(lia)) as [b Hb].
  exists (fun i => if Nat.eqb i n then b else f i). intros i Hi. destruct (Nat.eqb_spec i n) as [-> |E]; [exact Hb|apply Hf; lia].
Qed.

(** the constraint taken as a bound from above (below) really is one *)
Lemma find_app {A} (f : A -> bool) a b : find f (a ++ b) = match find f a with Some c => Some c | None => find f b end.
Proof. induction a as [|x a IH]; cbn; [reflexivity|]. destruct (f x); [reflexivity|exact IH]. Qed.
Lemma find_some_of {A} (f : A -> bool) l a : In a l -> f a = true -> exists b, find f l = Some b /\ In b l /\ f b = true.
Proof. intros Hi Hf. destruct (find f l) as [b|] eqn:E; [exists b; split; [reflexivity|]; now apply find_some in E|]. pose proof (find_none _ _ E a Hi). congruence. Qed.
Definition chosen (level : nat) (b : bset) : list con :=
  match find (pos level) (cons_of b) with Some c => [c] | None => [] end ++ match find (neg level) (cons_of b) with Some c => [c] | None => [] end.
Lemma chosen_in level b c : In c (chosen level b) -> In c (cons_of b) /\ nth (level - 1) (c_iter c) 0 <> 0 /\ (find (pos level) (cons_of b) = Some c \/ find (neg level) (cons_of b) = Some c).
Proof.
  unfold chosen. intros H. apply in_app_iff in H. destruct H as [H|H].
  - destruct (find (pos level) _) as [c'|] eqn:E; [|destruct H]. destruct H as [-> |[]]. pose proof (find_some _ _ E) as [I1 P1]. unfold pos in P1. apply Z.ltb_lt in P1. split; [exact I1|]. split; [lia|now left].
  - destruct (find (neg level) _) as [c'|] eqn:E; [|destruct H]. destruct H as [-> |[]]. pose proof (find_some _ _ E) as [I1 P1]. unfold neg in P1. apply Z.ltb_lt in P1. split; [exact I1|]. split; [lia|now right].
Qed.
Lemma first_eq (level : nat) b c (f : con -> bool) : equalities_first b -> In c (cons_of b) -> c_eq c = true -> f c = true -> exists c', find f (cons_of b) = Some c' /\ f c' = true /\ c_eq c' = true.
Proof.
  intros (es & is_ & -> & He & Hi) Hc Ee Hf. rewrite Forall_forall in He, Hi. apply in_app_iff in Hc. destruct Hc as [Hc|Hc]; [|rewrite (Hi c Hc) in Ee; discriminate].
  destruct (find_some_of f es c Hc Hf) as (c' & E & I1 & F1). exists c'. rewrite find_app, E. auto.
Qed.
Lemma chosen_below level b : equalities_first b -> has_bounds level b -> exists c, In c (chosen level b) /\ bounds_below level c.
Proof.
  intros EF ((c & Hc & [A|[Ee A]]) & _).
  - destruct (find_some_of (pos level) (cons_of b) c Hc) as (c' & E & _ & P1); [now apply Z.ltb_lt|]. exists c'. unfold chosen. rewrite E. split; [now left|]. left. now apply Z.ltb_lt.
  - destruct (Z.lt_total 0 (nth (level - 1) (c_iter c) 0)) as [L|[L|L]]; [|congruence|].
    + destruct (first_eq level b c (pos level) EF Hc Ee) as (c' & E & P1 & _); [now apply Z.ltb_lt|]. exists c'. unfold chosen. rewrite E. split; [now left|]. left. now apply Z.ltb_lt.
    + destruct (first_eq level b c (neg level) EF Hc Ee) as (c' & E & P1 & E1); [now apply Z.ltb_lt|]. exists c'. unfold chosen. rewrite E. split; [apply in_app_iff; right; now left|]. right. split; [exact E1|]. unfold neg in P1. apply Z.ltb_lt in P1. lia.
Qed.
Lemma chosen_above level b : equalities_first b -> has_bounds level b -> exists c, In c (chosen level b) /\ bounds_above level c.
Proof.
  intros EF (_ & c & Hc & [A|[Ee A]]).
  - destruct (find_some_of (neg level) (cons_of b) c Hc) as (c' & E & _ & P1); [now apply Z.ltb_lt|]. exists c'. unfold chosen. rewrite E. split; [apply in_app_iff; right; now left|]. left. now apply Z.ltb_lt.
  - destruct (Z.lt_total 0 (nth (level - 1) (c_iter c) 0)) as [L|[L|L]]; [|congruence|].
    + destruct (first_eq level b c (pos level) EF Hc Ee) as (c' & E & P1 & E1); [now apply Z.ltb_lt|]. exists c'. unfold chosen. rewrite E. split; [now left|]. right. split; [exact E1|]. unfold pos in P1. apply Z.ltb_lt in P1. lia.
    + destruct (first_eq level b c (neg level) EF Hc Ee) as (c' & E & P1 & _); [now apply Z.ltb_lt|]. exists c'. unfold chosen. rewrite E. split; [apply in_app_iff; right; now left|]. left. now apply Z.ltb_lt.
Qed.

Definition weight (np : nat) (sg : nat -> bool) (c : con) (p : list Z) : Z := prod (with_signs np (c_par c) sg) p + Z.abs (c_const c).
Lemma sum_rows np sg (cs : list con) : exists up, length up = np /\ forall p, prod up p = total (fun c => prod (with_signs np (c_par c) sg) p) cs.
Proof.
  induction cs as [|c cs (up & Hu & IH)].
  - exists (repeat 0 np). split; [apply repeat_length|]. intro p. cbn. apply prod_zeros. rewrite Forall_forall. intros z Hz. now apply repeat_spec in Hz.
  - exists (add_rows (with_signs np (c_par c) sg) up). split; [rewrite add_len; rewrite signs_len; auto|]. intro p. rewrite prod_add by (rewrite signs_len; auto). rewrite IH. reflexivity.
Qed.
Lemma con_bounds nd level b c x p : (1 <= level <= nd)%nat -> length x = nd -> shaped nd b -> bounds_in_params level b -> In c (cons_of b) -> inside b x p -> nth (level - 1) (c_iter c) 0 <> 0 ->
  let M := Z.abs (prod (c_par c) p) + Z.abs (c_const c) in
  (bounds_below level c -> - M <= nth (level - 1) x 0) /\ (bounds_above level c -> nth (level - 1) x 0 <= M).
Proof.
  intros Hl Hx Hs Hb Hc (e & He & Hf) Hn. unfold shaped, bounds_in_params in *. rewrite Forall_forall in Hs, Hb, Hf. destruct (Hs c Hc) as [S1 S2]. destruct (Hb c Hc Hn) as [O1 O2]. specialize (Hf c Hc).
  unfold holds, value in Hf. rewrite (prod_only (level - 1) _ (c_iter c) x ltac:(lia) ltac:(lia) eq_refl O1) in Hf. rewrite (prod_zeros _ O2) in Hf. cbv zeta.
  set (a := nth (level - 1) (c_iter c) 0) in *. set (i := nth (level - 1) x 0) in *.
  unfold bounds_below, bounds_above. cbv zeta. fold a. split; intros [A|[Ee A]].
  - assert (a * i + prod (c_par c) p + c_const c >= 0) by (destruct (c_eq c); lia). nia.
  - rewrite Ee in Hf. assert (a * i = - (prod (c_par c) p + c_const c)) by lia. nia.
  - assert (a * i + prod (c_par c) p + c_const c >= 0) by (destruct (c_eq c); lia). nia.
  - rewrite Ee in Hf. assert (a * i = - (prod (c_par c) p + c_const c)) by lia. nia.
Qed.

(** The convex hull of a domain with bounds that depend on the parameters only is bounded in every piece, by
    linear functions of the parameters. *)
Theorem C55_hull_bounded_partial :
  forall (nd np : nat) (set s : list bset) (level : nat) (piece : bset),
  (1 <= level <= nd)%nat -> Forall (shaped nd) set -> Forall (has_bounds level) set -> Forall (bounds_in_params level) set -> Forall equalities_first set ->
  domain_bound_splitter np set level = Some s -> In piece s ->
  exists up k, forall x p, length x = nd -> length p = np -> hull (fun x p => point_of set x p /\ inside piece x p) x p ->
    - (prod up p + k) <= nth (level - 1) x 0 <= prod up p + k.
Proof.
  intros nd np set s level piece Hl HS HB HP HE E Hpc. destruct (splitter_facts np set level) as (s' & E' & _ & HH). rewrite E' in E. injection E as ->.
  set (cs := flat_map (chosen level) set). rewrite Forall_forall in HS, HB, HP, HE, HH.
  assert (C1 : forall c, In c cs -> handled np s c).
  { intros c Hc. apply in_flat_map in Hc. destruct Hc as (b & Hb & Hc). destruct (chosen_in _ _ _ Hc) as (_ & _ & [F|F]); destruct (HH b Hb) as [H1 H2]; auto. }
  destruct (choose_bool np (fun i g => (exists c, In c cs /\ nth i (c_par c) 0 <> 0) -> forall x p, length p = np -> inside piece x p -> 0 <= (if g then 1 else -1) * nth i p 0)) as [sg Hsg].
  { intros i Hi. destruct (existsb (fun c => negb (nth i (c_par c) 0 =? 0)) cs) eqn:Ex.
    - apply existsb_exists in Ex. destruct Ex as (c & Hc & Hn). apply negb_true_iff, Z.eqb_neq in Hn. pose proof (C1 c Hc i Hi Hn) as Sg. unfold signed in Sg. rewrite Forall_forall in Sg.
      destruct (Sg piece Hpc) as [A|A]; [exists true|exists false]; intros _ x p Hp Hin; pose proof (A x p Hp Hin); lia.
    - exists true. intros (c & Hc & Hn). assert (X : existsb (fun c => negb (nth i (c_par c) 0 =? 0)) cs = true) by (apply existsb_exists; exists c; split; [exact Hc|]; apply negb_true_iff, Z.eqb_neq; exact Hn). congruence. }
  destruct (sum_rows np sg cs) as (up & _ & Hup). exists up, (total (fun c => Z.abs (c_const c)) cs).
  assert (K : forall x p, length x = nd -> length p = np -> point_of set x p -> inside piece x p -> Z.abs (nth (level - 1) x 0) <= prod up p + total (fun c => Z.abs (c_const c)) cs).
  { intros x p Hx Hp (b & Hb & Hin) Hpi. rewrite Hup, <- total_plus.
    assert (W : forall c, In c cs -> Z.abs (prod (c_par c) p) <= prod (with_signs np (c_par c) sg) p).
    { intros c Hc. rewrite <- Hp. apply signs_bound. intros i Hi Hn. unfold sgn. rewrite Hp in Hi. apply (Hsg i Hi (ex_intro _ c (conj Hc Hn)) x p Hp Hpi). }
    assert (T : forall c, In c cs -> Z.abs (prod (c_par c) p) + Z.abs (c_const c) <= total (fun c => prod (with_signs np (c_par c) sg) p + Z.abs (c_const c)) cs).
    { intros c Hc. pose proof (W c Hc). pose proof (total_in (fun c => prod (with_signs np (c_par c) sg) p + Z.abs (c_const c)) cs c) as T. cbv beta in T. assert (Y : forall a, In a cs -> 0 <= prod (with_signs np (c_par a) sg) p + Z.abs (c_const a)) by (intros a Ha; specialize (W a Ha); lia).
      specialize (T Y Hc). lia. }
    destruct (chosen_below level b (HE b Hb) (HB b Hb)) as (c1 & I1 & B1). destruct (chosen_above level b (HE b Hb) (HB b Hb)) as (c2 & I2 & B2).
    destruct (chosen_in _ _ _ I1) as (M1 & N1 & _). destruct (chosen_in _ _ _ I2) as (M2 & N2 & _).
    destruct (con_bounds nd level b c1 x p Hl Hx (HS b Hb) (HP b Hb) M1 Hin N1) as [L1 _]. destruct (con_bounds nd level b c2 x p Hl Hx (HS b Hb) (HP b Hb) M2 Hin N2) as [_ L2].
    specialize (L1 B1). specialize (L2 B2).
    pose proof (T c1 ltac:(apply in_flat_map; now exists b)). pose proof (T c2 ltac:(apply in_flat_map; now exists b)). lia. }
  intros x p Hx Hp (ps & Hps & Wp & Wx & Wq). set (W := total fst ps) in *. set (k := total (fun c => Z.abs (c_const c)) cs) in *.
  rewrite Forall_forall in Hps.
  assert (MP : W * prod up p = total (fun q => fst q * prod up (snd (snd q))) ps).
  { rewrite (prod_mean up (map (fun q => (fst q, snd (snd q))) ps) W p).
    - clear. induction ps as [|q ps IH]; [reflexivity|]. cbn [map total fold_right fst snd]. unfold total in IH. lia.
    - apply Forall_map. rewrite Forall_forall. intros q Hq. now destruct (Hps q Hq) as (_ & _ & L & _).
    - intros i. rewrite Wq. clear. induction ps as [|q ps IH]; [reflexivity|]. cbn [map total fold_right fst snd]. unfold total in IH. lia. }
  assert (MK : W * k = total (fun q : Z * (list Z * list Z) => fst q * k) ps).
  { unfold W. rewrite Z.mul_comm, total_scale. apply total_ext. intros; lia. }
  assert (U1 : W * nth (level - 1) x 0 <= W * (prod up p + k)).
  { rewrite Wx, Z.mul_add_distr_l, MP, MK, <- total_plus. apply total_le. rewrite Forall_forall. intros q Hq. destruct (Hps q Hq) as (Q1 & Q2 & Q3 & Q4 & Q5). pose proof (K (fst (snd q)) (snd (snd q)) ltac:(congruence) ltac:(congruence) Q4 Q5). nia. }
  assert (U2 : W * (- nth (level - 1) x 0) <= W * (prod up p + k)).
  { replace (W * - nth (level - 1) x 0) with (-1 * (W * nth (level - 1) x 0)) by lia. rewrite Wx, total_scale, Z.mul_add_distr_l, MP, MK, <- total_plus. apply total_le. rewrite Forall_forall. intros q Hq. destruct (Hps q Hq) as (Q1 & Q2 & Q3 & Q4 & Q5). pose proof (K (fst (snd q)) (snd (snd q)) ltac:(congruence) ltac:(congruence) Q4 Q5). nia. }
  nia.
Qed.
Print Assumptions C55_hull_bounded_partial.

(** The domain {0 <= i <= N} u {M <= i <= 0}: its convex hull has no bounds, in the four pieces it has. *)
Definition ge (it par : list Z) (k : Z) : con := {| c_eq := false; c_iter := it; c_par := par; c_div := []; c_const := k |}.
Definition set55 : list bset := [{| n_div := 0; cons_of := [ge [1] [0; 0] 0; ge [-1] [1; 0] 0] |}; {| n_div := 0; cons_of := [ge [1] [0; -1] 0; ge [-1] [0; 0] 0] |}].
Lemma mean_of (Q : list Z -> list Z -> Prop) x1 p1 x2 p2 x p : Q x1 p1 -> Q x2 p2 -> length x1 = length x -> length x2 = length x -> length p1 = length p -> length p2 = length p ->
  (forall i, 2 * nth i x 0 = nth i x1 0 + nth i x2 0) -> (forall i, 2 * nth i p 0 = nth i p1 0 + nth i p2 0) -> hull Q x p.
Proof.
  intros. exists [(1, (x1, p1)); (1, (x2, p2))]. split; [|split; [|split]].
  - apply Forall_cons; [cbn [fst snd]; repeat split; try assumption; lia|]. apply Forall_cons; [cbn [fst snd]; repeat split; try assumption; lia|constructor].
  - cbn. lia.
  - intro i. cbn [total fold_right fst snd]. change (1 + (1 + 0)) with 2. rewrite H5. lia.
  - intro i. cbn [total fold_right fst snd]. change (1 + (1 + 0)) with 2. rewrite H6. lia.
Qed.
Ltac pt := exists []; split; [reflexivity|]; cbn [cons_of]; repeat (apply Forall_cons; [unfold holds, value; cbn [ge c_eq c_iter c_par c_div c_const prod]; lia|]); apply Forall_nil.
Example C55_example :
  Forall (shaped 1) set55 /\ Forall (has_bounds 1) set55 /\ Forall (bounds_in_params 1) set55 /\ Forall equalities_first set55 /\
  (exists s, domain_bound_splitter 2 set55 1 = Some s /\ length s = 4%nat) /\
  (forall up k, exists x p, length x = 1%nat /\ length p = 2%nat /\ hull (point_of set55) x p /\ ~ - (prod up p + k) <= nth 0 x 0 <= prod up p + k).
Proof.
  split; [|split; [|split; [|split; [|split]]]].
  - repeat (apply Forall_cons; [repeat (apply Forall_cons; [split; reflexivity|]); constructor|]). constructor.
  - unfold set55. apply Forall_cons; [|apply Forall_cons; [|apply Forall_nil]].
    + split; [exists (ge [1] [0; 0] 0)|exists (ge [-1] [1; 0] 0)]; (split; [cbn; auto|left; reflexivity]).
    + split; [exists (ge [1] [0; -1] 0)|exists (ge [-1] [0; 0] 0)]; (split; [cbn; auto|left; reflexivity]).
  - repeat (apply Forall_cons; [repeat (apply Forall_cons; [intros _; split; [intros [|[|i]] Hi; [exfalso; apply Hi; reflexivity|reflexivity|reflexivity]|constructor]|]); constructor|]). constructor.
  - repeat (apply Forall_cons; [exists []; eexists; split; [reflexivity|]; split; [constructor|]; repeat (apply Forall_cons; [reflexivity|]); constructor|]). constructor.
  - eexists. split; reflexivity.
  - intros up k. set (B := Z.abs k + 1). exists [B], [0; 0]. split; [reflexivity|]. split; [reflexivity|]. split.
    + apply (mean_of _ [2 * B] [2 * B; 0] [0] [- (2 * B); 0]); try reflexivity.
      * eexists. split; [now left|]. pt.
      * eexists. split; [right; now left|]. pt.
      * intros [|[|i]]; cbn [nth]; lia.
      * intros [|[|[|i]]]; cbn [nth]; lia.
    + cbn [nth]. replace (prod up [0; 0]) with 0; [lia|]. destruct up as [|a [|b up]]; cbn [prod]; try lia. destruct up; cbn [prod]; lia.
Qed.

(** Bounds in terms of outer iterators do not do: here every basic set bounds the second iterator (by 0
    and the first one, or to 0), there is one piece, and in it the convex hull has no upper bound. *)
Theorem C55_outer_bounds_refuted : exists (nd np : nat) (set s : list bset) (level : nat) (piece : bset),
  (1 <= level <= nd)%nat /\ Forall (shaped nd) set /\ Forall (has_bounds level) set /\ Forall equalities_first set /\
  domain_bound_splitter np set level = Some s /\ In piece s /\
  (forall x p, length x = nd -> length p = np -> point_of set x p -> 0 <= nth (level - 1) x 0 <= Z.abs (nth 0 x 0)) /\
  forall K, exists x p, length x = nd /\ length p = np /\ hull (fun x p => point_of set x p /\ inside piece x p) x p /\ nth 0 x 0 = 0 /\ K < nth (level - 1) x 0.
Proof.
  exists 2%nat, 0%nat, [{| n_div := 0; cons_of := [ge [0; 1] [] 0; ge [1; -1] [] 0] |}; {| n_div := 0; cons_of := [{| c_eq := true; c_iter := [0; 1]; c_par := []; c_div := []; c_const := 0 |}] |}],
    [{| n_div := 0; cons_of := [] |}], 2%nat, {| n_div := 0; cons_of := [] |}.
  split; [lia|]. split; [|split; [|split; [|split; [|split; [|split]]]]].
  - repeat (apply Forall_cons; [repeat (apply Forall_cons; [split; reflexivity|]); constructor|]). constructor.
  - apply Forall_cons; [|apply Forall_cons; [|constructor]]; split.
    + eexists. split; [now left|]. left. reflexivity.
    + eexists. split; [right; now left|]. left. reflexivity.
    + eexists. split; [now left|]. left. reflexivity.
    + eexists. split; [now left|]. right. split; [reflexivity|]. cbn. discriminate.
  - apply Forall_cons; [|apply Forall_cons; [|constructor]].
    + exists []. eexists. split; [reflexivity|]. split; [constructor|]. repeat (apply Forall_cons; [reflexivity|]). constructor.
    + eexists. exists []. split; [rewrite app_nil_r; reflexivity|]. split; [|constructor]. repeat (apply Forall_cons; [reflexivity|]). constructor.
  - reflexivity.
  - now left.
  - intros [|j [|i [|? ?]]] [|? ?] Hx Hp (b & Hb & e & He & Hf); try discriminate. change (2 - 1)%nat with 1%nat. cbn [nth].
    destruct Hb as [<- |[<- |[]]]; cbn [cons_of] in Hf.
    + inversion_clear Hf as [|? ? F1 F2]. inversion_clear F2 as [|? ? F3 _]. destruct e; [|discriminate]. unfold holds, value in F1, F3. cbn [ge c_eq c_iter c_par c_div c_const prod] in F1, F3. lia.
    + inversion_clear Hf as [|? ? F1 _]. destruct e; [|discriminate]. unfold holds, value in F1. cbn [c_eq c_iter c_par c_div c_const prod] in F1. lia.
  - intro K. set (B := Z.abs K + 1). exists [0; B], []. split; [reflexivity|]. split; [reflexivity|]. split; [|split; [reflexivity|]; change (2 - 1)%nat with 1%nat; cbn [nth]; lia].
    apply (mean_of _ [2 * B; 2 * B] [] [- (2 * B); 0] []); try reflexivity.
    + split; [|exists []; split; [reflexivity|constructor]]. eexists. split; [now left|]. pt.
    + split; [|exists []; split; [reflexivity|constructor]]. eexists. split; [right; now left|]. pt.
    + intros [|[|[|i]]]; cbn [nth]; lia.
    + intros [|i]; cbn [nth]; lia.
Qed.
Print Assumptions C55_outer_bounds_refuted.
