(** Maxima and minima of bounds, and the guards on outer iterators and parameters. *)
From Coq Require Import ZArith List Bool Arith String Sorted Permutation Lia.
From Verif Require Import LoopModel LoopSpec ClastModel ClastSpec ClastBounds.
Import ListNotations.
Local Open Scope Z_scope.
Local Arguments Nat.ltb : simpl never. Local Arguments Nat.leb : simpl never. Local Arguments Nat.eqb : simpl never. Local Arguments Nat.sub : simpl never.
Local Arguments Z.mul : simpl never. Local Arguments Z.add : simpl never.

Section Guards.
Variable iter_name : nat -> string.
Variable par_name : nat -> string.
Variable sort_exprs : list expr -> list expr.
Variable sort_eqns : list eqn -> list eqn.
Hypothesis sort_exprs_perm : forall l, Permutation l (sort_exprs l).
Hypothesis sort_eqns_perm : forall l, Permutation l (sort_eqns l).
Notation variable_expr := (variable_expr iter_name par_name).
Notation bound_from_constraint := (bound_from_constraint iter_name par_name).
Notation minmax := (minmax iter_name par_name sort_exprs).
Notation guard_dim := (guard_dim iter_name par_name sort_exprs).
Notation guard_eqns := (guard_eqns iter_name par_name sort_exprs).
Notation insert_guard := (insert_guard iter_name par_name sort_exprs sort_eqns).
Notation knows := (knows iter_name par_name).

(** ** maxima and minima *)
Definition next_stride (st : option (Z * Z)) (z : Z) : Z :=
  match st with Some (s, o) => cdiv (z - o) s * s + o | None => z end.
Lemma bounds_list rho n v w st rows :
  Forall (fun r => coef r v <> 0 /\ r_eq r = false /\ knows rho n r v w) rows ->
  (st = None \/ Forall (fun r => forall i, i <> v -> coef r i = 0) rows) ->
  exists l zs, fold_right (fun c acc => match acc, bound_from_constraint n c (S v) with
                                   | Some l, Some e => Some (update_lower_bound e st :: l)
                                   | _, _ => None end) (Some []) rows = Some l
    /\ vals rho l = Some zs /\ zs = map (fun r => next_stride st (bound_val r v w)) rows.
Proof.
  intros H Hst. induction rows as [|r rows IH].
  - exists [], []. repeat split.
  - inversion H as [|? ? (Ha & He & K) H']; subst. destruct IH as (l & zs & E1 & E2 & E3); [exact H'|destruct Hst as [Hst|Hst]; [left; exact Hst|right; inversion Hst; assumption]|].
    destruct (bound_eval iter_name par_name rho n r v w Ha K) as (e & Be & Bv).
    exists (update_lower_bound e st :: l), (next_stride st (bound_val r v w) :: zs). cbn [fold_right map]. rewrite E1, Be. split; [reflexivity|]. split; [|rewrite E3; reflexivity].
    cbn [vals]. rewrite E2. assert (G : eval rho (update_lower_bound e st) = Some (next_stride st (bound_val r v w))).
    { destruct st as [[s o]|]; [|exact Bv]. destruct Hst as [Hst|Hst]; [discriminate|]. inversion Hst as [|? ? Hc _]; subst.
      assert (Ee : e = ETerm (bound_val r v w) None).
      { unfold ClastModel.bound_from_constraint in Be. rewrite Nat.sub_succ, Nat.sub_0_r in Be. destruct (Z.eqb_spec (coef r v) 0); [contradiction|].
        assert (T : ClastModel.bound_terms iter_name par_name n r (S v) (- Z.sgn (coef r v)) = []).
        { unfold ClastModel.bound_terms. assert (Z0 : forall (f : nat -> list expr) l0, (forall i, In i l0 -> f i = []) -> flat_map f l0 = []) by (intros f l0; induction l0 as [|i l0 IHl]; intros Hf; [reflexivity|cbn; rewrite (Hf i (or_introl eq_refl)); apply IHl; intros; apply Hf; right; assumption]). apply Z0. intros i Hi. apply in_seq in Hi. destruct (Nat.eqb_spec i (S v)); [reflexivity|].
          rewrite (Hc (i - 1)%nat) by lia. reflexivity. }
        rewrite T, He in Be. repeat match type of Be with context [if ?c then _ else _] => destruct c eqn:? end; injection Be as <-; cbn [eval] in Bv; congruence. }
      subst e. reflexivity. }
    rewrite G. reflexivity.
Qed.
Lemma vals_perm rho l l' : Permutation l l' -> forall zs, vals rho l = Some zs -> exists zs', vals rho l' = Some zs' /\ Permutation zs zs'.
Proof.
  intros H. induction H; intros zs Hv.
  - exists zs. split; [exact Hv|reflexivity].
  - cbn in Hv. destruct (eval rho x) eqn:E; [|discriminate]. destruct (vals rho l) as [zl|] eqn:El; [|discriminate]. injection Hv as <-.
    destruct (IHPermutation zl eq_refl) as (zs' & H1 & H2). exists (z :: zs'). cbn. rewrite E, H1. split; [reflexivity|constructor; exact H2].
  - cbn in Hv. destruct (eval rho y) eqn:Ey; [|discriminate]. destruct (eval rho x) eqn:Ex; [|discriminate]. destruct (vals rho l) as [zl|] eqn:El; [|discriminate].
    injection Hv as <-. exists (z0 :: z :: zl). cbn. rewrite Ex, Ey, El. split; [reflexivity|constructor].
  - destruct (IHPermutation1 zs Hv) as (z1 & H1 & H2). destruct (IHPermutation2 z1 H1) as (z2 & H3 & H4). exists z2. split; [exact H3|]. etransitivity; eassumption.
Qed.
Lemma max_value rho l zs : vals rho l = Some zs -> l <> [] ->
  exists z, eval rho (ERed RMax (sort_exprs l)) = Some z /\ In z zs /\ forall t, z <= t <-> Forall (fun y => y <= t) zs.
Proof.
  intros Hv Hl. destruct (vals_perm rho _ _ (sort_exprs_perm l) zs Hv) as (zs' & H1 & H2). rewrite eval_red, H1.
  destruct zs' as [|z zs']. { apply Permutation_sym, Permutation_nil in H2. subst. destruct l; [congruence|]. cbn in Hv. destruct (eval rho e), (vals rho l); discriminate. }
  exists (fold_left (red_val RMax) zs' z). split; [reflexivity|]. split.
  - apply (Permutation_in _ (Permutation_sym H2)). clear. revert z. induction zs' as [|y zs' IH]; intros z; [left; reflexivity|]. cbn [fold_left red_val].
    destruct (IH (Z.max z y)) as [E|E]; [|right; right; exact E]. rewrite <- E. destruct (Z.max_spec z y) as [[_ ->]|[_ ->]]; [right; left; reflexivity|left; reflexivity].
  - intros t. rewrite fold_max. split; [intros [A B]; apply (Permutation_Forall (Permutation_sym H2)); constructor; assumption|].
    intros A. apply (Permutation_Forall H2) in A. inversion A; subst; split; assumption.
Qed.
Lemma min_value rho l zs : vals rho l = Some zs -> l <> [] ->
  exists z, eval rho (ERed RMin (sort_exprs l)) = Some z /\ forall t, t <= z <-> Forall (fun y => t <= y) zs.
Proof.
  intros Hv Hl. destruct (vals_perm rho _ _ (sort_exprs_perm l) zs Hv) as (zs' & H1 & H2). rewrite eval_red, H1.
  destruct zs' as [|z zs']. { apply Permutation_sym, Permutation_nil in H2. subst. destruct l; [congruence|]. cbn in Hv. destruct (eval rho e), (vals rho l); discriminate. }
  exists (fold_left (red_val RMin) zs' z). split; [reflexivity|].
  intros t. rewrite fold_min. split; [intros [A B]; apply (Permutation_Forall (Permutation_sym H2)); constructor; assumption|].
    intros A. apply (Permutation_Forall H2) in A. inversion A; subst; split; assumption.
Qed.
Lemma next_stride_spec s o z : 0 < s -> let u := next_stride (Some (s, o)) z in
  (u - o) mod s = 0 /\ forall t, (t - o) mod s = 0 -> (u <= t <-> z <= t).
Proof.
  intros Hs u. subst u. cbn [next_stride]. split.
  - replace (cdiv (z - o) s * s + o - o) with (cdiv (z - o) s * s) by lia. apply Z.mod_mul. lia.
  - intros t Ht. assert (exists q, t = q * s + o) as (q & ->).
    { exists ((t - o) / s). pose proof (Z.div_mod (t - o) s ltac:(lia)). lia. }
    unfold cdiv. pose proof (cdiv_le (z - o) s q Hs). nia.
Qed.

(** [w] with another value for [v] *)
Definition at_v (w : list Z) (v : nat) (t : Z) (w' : list Z) : Prop := nth v w' 0 = t /\ forall i, i <> v -> nth i w' 0 = nth i w 0.
Lemma bound_at r v w t w' : at_v w v t w' -> bound_val r v w = bound_val r v w'.
Proof. intros [_ H]. apply bound_ext. intros i Hi _. symmetry. apply H. exact Hi. Qed.

Definition valid_low (level guard : nat) (ne : bool) (rows : list row) := filter (valid_bound level true guard ne) rows.
Definition valid_up (level guard : nat) (ne : bool) (rows : list row) := filter (valid_bound level false guard ne) rows.
Lemma valid_low_in v guard ne rows r : In r (valid_low (S v) guard ne rows) ->
  In r rows /\ 0 < coef r v /\ r_eq r = false.
Proof.
  unfold valid_low, valid_bound. intros H. apply filter_In in H. destruct H as (Hi & H). rewrite Nat.sub_succ, Nat.sub_0_r in H.
  apply andb_true_iff in H. destruct H as (H & _). apply andb_true_iff in H. destruct H as (H & _). apply andb_true_iff in H. destruct H as (H1 & H2).
  unfold is_lower_bound in H1. apply Z.ltb_lt in H1. apply negb_true_iff in H2. auto.
Qed.
Lemma valid_up_in v guard ne rows r : In r (valid_up (S v) guard ne rows) ->
  In r rows /\ coef r v < 0 /\ r_eq r = false.
Proof.
  unfold valid_up, valid_bound. intros H. apply filter_In in H. destruct H as (Hi & H). rewrite Nat.sub_succ, Nat.sub_0_r in H.
  apply andb_true_iff in H. destruct H as (H & _). apply andb_true_iff in H. destruct H as (H & _). apply andb_true_iff in H. destruct H as (H1 & H2).
  unfold is_upper_bound in H1. apply Z.ltb_lt in H1. apply negb_true_iff in H2. auto.
Qed.
Lemma minmax_low rho n rows v guard ne st w :
  valid_low (S v) guard ne rows <> [] ->
  Forall (fun r => knows rho n r v w) (valid_low (S v) guard ne rows) ->
  match st with None => True | Some (s, o) => 0 < s /\ Forall (fun r => forall i, i <> v -> coef r i = 0) (valid_low (S v) guard ne rows) end ->
  exists e z, minmax n rows (S v) true guard ne st = Some e /\ eval rho e = Some z /\
    match st with None => True | Some (s, o) => (z - o) mod s = 0 end /\
    forall t w', at_v w v t w' -> match st with None => True | Some (s, o) => (t - o) mod s = 0 end ->
      (z <= t <-> Forall (row_holds w') (valid_low (S v) guard ne rows)).
Proof.
  intros Hne K Hst. unfold ClastModel.minmax. fold (valid_low (S v) guard ne rows). set (V := valid_low (S v) guard ne rows) in *.
  assert (HV : forall r, In r V -> In r rows /\ 0 < coef r v /\ r_eq r = false) by (intros r; apply valid_low_in).
  destruct (bounds_list rho n v w st V) as (l & zs & E1 & E2 & E3).
  { apply Forall_forall. intros r Hr. destruct (HV r Hr) as (_ & A & B). rewrite Forall_forall in K. split; [lia|]. split; [exact B|apply K; exact Hr]. }
  { destruct st as [[s o]|]; [right; apply Hst|left; reflexivity]. }
  assert (Hl : l <> []). { intros ->. cbn in E2. injection E2 as <-. destruct V; [congruence|discriminate]. }
  destruct V as [|r0 V0] eqn:EV; [congruence|]. rewrite <- EV in *. rewrite E1.
  destruct (max_value rho l zs E2 Hl) as (z & Hz & Hin & Hmax). exists (ERed RMax (sort_exprs l)), z. split; [reflexivity|]. split; [exact Hz|].
  split.
  - destruct st as [[s o]|]; [|exact I]. rewrite E3 in Hin. apply in_map_iff in Hin. destruct Hin as (r & <- & _).
    apply next_stride_spec. apply Hst.
  - intros t w' Hw Ht. rewrite Hmax, E3. rewrite Forall_map. rewrite !Forall_forall. split; intros H r Hr; specialize (H r Hr); destruct (HV r Hr) as (_ & A & B).
    + apply (bound_lower r v w' B A). rewrite (proj1 Hw). rewrite <- (bound_at r v w t w' Hw). destruct st as [[s o]|]; [|exact H].
      apply (proj2 (next_stride_spec s o (bound_val r v w) (proj1 Hst)) t Ht). exact H.
    + apply (bound_lower r v w' B A) in H. rewrite (proj1 Hw) in H. rewrite <- (bound_at r v w t w' Hw) in H. destruct st as [[s o]|]; [|exact H].
      apply (proj2 (next_stride_spec s o (bound_val r v w) (proj1 Hst)) t Ht). exact H.
Qed.
Lemma minmax_up rho n rows v guard ne w :
  valid_up (S v) guard ne rows <> [] ->
  Forall (fun r => knows rho n r v w) (valid_up (S v) guard ne rows) ->
  exists e z, minmax n rows (S v) false guard ne None = Some e /\ eval rho e = Some z /\
    forall t w', at_v w v t w' -> (t <= z <-> Forall (row_holds w') (valid_up (S v) guard ne rows)).
Proof.
  intros Hne K. unfold ClastModel.minmax. fold (valid_up (S v) guard ne rows). set (V := valid_up (S v) guard ne rows) in *.
  assert (HV : forall r, In r V -> In r rows /\ coef r v < 0 /\ r_eq r = false) by (intros r; apply valid_up_in).
  destruct (bounds_list rho n v w None V) as (l & zs & E1 & E2 & E3).
  { apply Forall_forall. intros r Hr. destruct (HV r Hr) as (_ & A & B). rewrite Forall_forall in K. split; [lia|]. split; [exact B|apply K; exact Hr]. }
  { left; reflexivity. }
  assert (Hl : l <> []). { intros ->. cbn in E2. injection E2 as <-. destruct V; [congruence|discriminate]. }
  destruct V as [|r0 V0] eqn:EV; [congruence|]. rewrite <- EV in *. rewrite E1.
  destruct (min_value rho l zs E2 Hl) as (z & Hz & Hmin). exists (ERed RMin (sort_exprs l)), z. split; [reflexivity|]. split; [exact Hz|].
  intros t w' Hw. rewrite Hmin, E3. rewrite Forall_map. rewrite !Forall_forall. split; intros H r Hr; specialize (H r Hr); destruct (HV r Hr) as (_ & A & B).
  - apply (bound_upper r v w' B A). rewrite (proj1 Hw). rewrite <- (bound_at r v w t w' Hw). exact H.
  - apply (bound_upper r v w' B A) in H. rewrite (proj1 Hw) in H. rewrite <- (bound_at r v w t w' Hw) in H. exact H.
Qed.
Lemma minmax_none_low n rows v guard ne st : valid_low (S v) guard ne rows = [] -> minmax n rows (S v) true guard ne st = None.
Proof. unfold valid_low, ClastModel.minmax. intros ->. reflexivity. Qed.

(** ** guards *)
(** constraints on the iterator of the loop itself are not part of the guard *)
Definition own (n level : nat) (r : row) : bool := negb (level =? 0)%nat && (level <=? n)%nat && involves r (level - 1).
(** [i] is the first variable of the constraint *)
Definition leads (i : nat) (r : row) : bool := involves r (i - 1) && negb (existsb (fun k => involves r k) (seq 0 (i - 1))).
Lemma skip_spec n level i r : skip_guard n level i r = negb (leads i r && negb (own n level r)).
Proof. unfold skip_guard, leads, own. destruct (involves r (i - 1)), (existsb (fun k => involves r k) (seq 0 (i - 1))), (negb (level =? 0)%nat && (level <=? n)%nat && involves r (level - 1)); reflexivity. Qed.
Definition informed (rho : env) (n level : nat) (rows : list row) (w : list Z) : Prop :=
  forall r, In r rows -> own n level r = false -> forall i, coef r i <> 0 -> eval rho (variable_expr n (S i)) = Some (nth i w 0).

Lemma set_nth_nth {A} (d a : A) : forall l n i, (n < List.length l)%nat -> nth i (set_nth l n a) d = if (i =? n)%nat then a else nth i l d.
Proof.
  induction l as [|x l IH]; intros n i Hn; [cbn in Hn; lia|]. destruct n as [|n], i as [|i]; try reflexivity.
  cbn [set_nth nth]. rewrite IH by (cbn in Hn; lia). destruct (Nat.eqb_spec i n), (Nat.eqb_spec (S i) (S n)); try lia; reflexivity.
Qed.
Lemma set_nth_length {A} (a : A) : forall l n, List.length (set_nth l n a) = List.length l.
Proof. induction l as [|x l IH]; intros [|n]; cbn; auto. Qed.
Lemma set_coef_coef r v z i : (v < List.length (r_co r))%nat -> coef (set_coef r v z) i = if (i =? v)%nat then z else coef r i.
Proof. intros H. unfold coef, set_coef. cbn. apply set_nth_nth. exact H. Qed.
Lemma set_coef_rest r v z w : (v < List.length (r_co r))%nat -> rest (set_coef r v z) v w = rest r v w.
Proof.
  intros H. unfold rest. cbn [set_coef r_co r_k]. rewrite set_nth_length. do 2 f_equal. apply map_ext. intros i.
  destruct (Nat.eqb_spec i v) as [->|Hne]; [reflexivity|]. change {| r_eq := r_eq r; r_co := set_nth (r_co r) v z; r_k := r_k r |} with (set_coef r v z).
  rewrite set_coef_coef by exact H. destruct (Nat.eqb_spec i v); [contradiction|reflexivity].
Qed.

(** one constraint by itself *)
Lemma single_guard rho n r i w s : involves r i = true ->
  (forall k, coef r k <> 0 -> eval rho (variable_expr n (S k)) = Some (nth k w 0)) ->
  s = (if r_eq r then 0 else if 0 <? coef r i then 1 else -1) ->
  exists b, eqn_holds rho {| e_lhs := ETerm (Z.abs (coef r i)) (Some (variable_expr n (S i)));
      e_rhs := bound_from_constraint n (set_coef r i (if coef r i <? 0 then -1 else 1)) (S i); e_sign := s |} = Some b
    /\ (b = true <-> row_holds w r).
Proof.
  intros Hi K Hs. pose proof (involves_lt r i Hi) as Hlt. assert (Ha : coef r i <> 0) by (unfold involves in Hi; apply negb_true_iff, Z.eqb_neq in Hi; exact Hi).
  set (z := if coef r i <? 0 then -1 else 1) in *. set (r' := set_coef r i z) in *.
  assert (Hz : coef r' i = z) by (unfold r'; rewrite set_coef_coef by exact Hlt; rewrite Nat.eqb_refl; reflexivity).
  assert (Hz1 : z = Z.sgn (coef r i)) by (unfold z; destruct (Z.ltb_spec (coef r i) 0); [rewrite Z.sgn_neg|rewrite Z.sgn_pos]; lia).
  assert (Hz0 : coef r' i <> 0) by (rewrite Hz; unfold z; destruct (coef r i <? 0); lia).
  assert (K' : knows rho n r' i w). { intros k Hk Hc. apply K. unfold r' in Hc. rewrite set_coef_coef in Hc by exact Hlt. destruct (Nat.eqb_spec k i); [contradiction|exact Hc]. }
  destruct (bound_eval iter_name par_name rho n r' i w Hz0 K') as (e & He & Hv). unfold eqn_holds. cbn [e_lhs e_rhs e_sign]. rewrite He. cbn [eval eval_opt].
  change (rho (if (S i <=? n)%nat then iter_name (S i) else par_name (S i - n - 1))) with (eval rho (variable_expr n (S i))).
  rewrite (K i Ha), Hv. eexists. split; [reflexivity|].
  assert (Hb : bound_val r' i w = - Z.sgn (coef r i) * rest r i w).
  { unfold bound_val. rewrite Hz. assert (R : rest r' i w = rest r i w) by (apply set_coef_rest; exact Hlt). rewrite R. cbn [r_eq r' set_coef].
    assert (E1 : Z.abs z = 1) by (unfold z; destruct (coef r i <? 0); reflexivity). assert (E2 : Z.sgn z = Z.sgn (coef r i)) by (rewrite Hz1; apply Z.sgn_sgn).
    rewrite E1, E2, Z.quot_1_r, !Z.div_1_r. destruct (r_eq r); [reflexivity|]. destruct (0 <? z); lia. }
  rewrite Hb. unfold row_holds. rewrite (row_rest r i w). subst s. destruct (r_eq r).
  - cbn [Z.eqb]. rewrite Z.eqb_eq. pose proof (Z.sgn_abs (coef r i)). destruct (Z.lt_total (coef r i) 0) as [L|[L|L]]; [rewrite Z.abs_neq, Z.sgn_neg by lia; lia|lia|rewrite Z.abs_eq, Z.sgn_pos by lia; lia].
  - destruct (Z.ltb_spec 0 (coef r i)) as [L|L]; cbn [Z.eqb Z.ltb Z.compare]; rewrite Z.leb_le.
    + rewrite Z.abs_eq, Z.sgn_pos by lia. lia.
    + rewrite Z.abs_neq, Z.sgn_neg by lia. lia.
Qed.

Definition low_class (n level i : nat) (r : row) : bool := leads i r && negb (own n level r) && negb (r_eq r) && is_lower_bound r (i - 1).
Definition up_class (n level i : nat) (r : row) : bool := leads i r && negb (own n level r) && negb (r_eq r) && is_upper_bound r (i - 1).
Lemma valid_low_class n level i rows : (level <> 0)%nat ->
  filter (valid_bound (S i) true (if (level <=? n)%nat then level else 0%nat) true) rows = filter (low_class n level (S i)) rows.
Proof.
  intros Hl. apply filter_ext. intros r. unfold valid_bound, low_class, leads, own, is_lower_bound. rewrite Nat.sub_succ, Nat.sub_0_r.
  destruct (Nat.leb_spec level n) as [G|G].
  - destruct (Nat.eqb_spec level 0); [lia|]. cbn [negb andb]. unfold involves. destruct (Z.ltb_spec 0 (coef r i)) as [C|C].
    + destruct (Z.eqb_spec (coef r i) 0); [lia|]. cbn [negb andb]. destruct (existsb _ _), (r_eq r), (negb (coef r (level - 1) =? 0)); reflexivity.
    + destruct (existsb _ _), (r_eq r), (negb (coef r (level - 1) =? 0)), (negb (coef r i =? 0)); reflexivity.
  - destruct (negb (level =? 0)%nat); cbn [negb andb Nat.eqb]; unfold involves; destruct (Z.ltb_spec 0 (coef r i)) as [C|C];
      (destruct (Z.eqb_spec (coef r i) 0); [lia|]) || idtac; cbn [negb andb]; destruct (existsb _ _), (r_eq r); try reflexivity;
      destruct (negb (coef r i =? 0)); reflexivity.
Qed.
Lemma valid_up_class n level i rows : (level <> 0)%nat ->
  filter (valid_bound (S i) false (if (level <=? n)%nat then level else 0%nat) true) rows = filter (up_class n level (S i)) rows.
Proof.
  intros Hl. apply filter_ext. intros r. unfold valid_bound, up_class, leads, own, is_upper_bound. rewrite Nat.sub_succ, Nat.sub_0_r.
  destruct (Nat.leb_spec level n) as [G|G].
  - destruct (Nat.eqb_spec level 0); [lia|]. cbn [negb andb]. unfold involves. destruct (Z.ltb_spec (coef r i) 0) as [C|C].
    + destruct (Z.eqb_spec (coef r i) 0); [lia|]. cbn [negb andb]. destruct (existsb _ _), (r_eq r), (negb (coef r (level - 1) =? 0)); reflexivity.
    + destruct (existsb _ _), (r_eq r), (negb (coef r (level - 1) =? 0)), (negb (coef r i =? 0)); reflexivity.
  - destruct (negb (level =? 0)%nat); cbn [negb andb Nat.eqb]; unfold involves; destruct (Z.ltb_spec (coef r i) 0) as [C|C];
      (destruct (Z.eqb_spec (coef r i) 0); [lia|]) || idtac; cbn [negb andb]; destruct (existsb _ _), (r_eq r); try reflexivity;
      destruct (negb (coef r i =? 0)); reflexivity.
Qed.
Definition class_holds (n level i : nat) (mn mx : bool) (all : list row) (w : list Z) (j : row) : Prop :=
  leads i j = true -> own n level j = false ->
  if (level =? 0)%nat || r_eq j then row_holds w j
  else if is_lower_bound j (i - 1) then mx = false -> Forall (row_holds w) (filter (low_class n level i) all)
  else mn = false -> Forall (row_holds w) (filter (up_class n level i) all).
Lemma at_v_self w v : at_v w v (nth v w 0) w.
Proof. split; auto. Qed.
Lemma guard_dim_holds rho n all level v w : informed rho n level all w ->
  forall rows mn mx, incl rows all ->
  exists b, all_hold rho (guard_dim n all level (S v) mn mx rows) = Some b /\
    (b = true <-> Forall (class_holds n level (S v) mn mx all w) rows).
Proof.
  intros K. induction rows as [|j rows IH]; intros mn mx Hin.
  - exists true. split; [reflexivity|]. split; [constructor|reflexivity].
  - assert (Hin' : incl rows all) by (intros r Hr; apply Hin; right; exact Hr). assert (Hj : In j all) by (apply Hin; left; reflexivity).
    cbn [ClastModel.guard_dim]. rewrite skip_spec. destruct (leads (S v) j) eqn:El; [|
      destruct (IH mn mx Hin') as (b & H1 & H2); exists b; split; [exact H1|]; rewrite H2; split; intros H; [constructor; [intros A; congruence|exact H]|inversion H; assumption]].
    destruct (own n level j) eqn:Eo; [
      destruct (IH mn mx Hin') as (b & H1 & H2); exists b; split; [exact H1|]; rewrite H2; split; intros H; [constructor; [intros _ A; congruence|exact H]|inversion H; assumption]|].
    cbn [negb andb]. rewrite Nat.sub_succ, Nat.sub_0_r.
    assert (Hinv : involves j v = true). { unfold leads in El. rewrite Nat.sub_succ, Nat.sub_0_r in El. apply andb_true_iff in El. apply El. }
    assert (Ha : coef j v <> 0) by (unfold involves in Hinv; apply negb_true_iff, Z.eqb_neq in Hinv; exact Hinv).
    destruct ((level =? 0)%nat || r_eq j) eqn:Ec.
    + destruct (single_guard rho n j v w (if negb (level =? 0)%nat || r_eq j then 0 else if 0 <? coef j v then 1 else -1) Hinv (K j Hj Eo)) as (b0 & B1 & B2).
      { destruct (r_eq j); [rewrite orb_true_r; reflexivity|]. rewrite orb_false_r in Ec. rewrite Ec. reflexivity. }
      destruct (IH mn mx Hin') as (b & H1 & H2). cbn [all_hold]. rewrite B1, H1. exists (b0 && b). split; [reflexivity|].
      rewrite andb_true_iff, B2, H2. unfold class_holds at 2. split.
      * intros [A B]. constructor; [intros _ _; rewrite Ec; exact A|exact B].
      * intros A. inversion A as [|? ? A1 A2]; subst. split; [|exact A2]. specialize (A1 El Eo). rewrite Ec in A1. exact A1.
    + apply orb_false_iff in Ec. destruct Ec as (Ec1 & Ec2). assert (Hl0 : (level <> 0)%nat) by (apply Nat.eqb_neq; exact Ec1).
      assert (Hud : is_upper_bound j v = negb (is_lower_bound j v)).
      { unfold is_upper_bound, is_lower_bound. destruct (Z.ltb_spec (coef j v) 0), (Z.ltb_spec 0 (coef j v)); try reflexivity; lia. }
      assert (Kv : forall r, In r all -> own n level r = false -> knows rho n r v w) by (intros r Hr Ho i _ Hc; apply (K r Hr Ho i Hc)).
      set (V := filter (if is_lower_bound j v then low_class n level (S v) else up_class n level (S v)) all).
      assert (HVin : forall r, In r V -> In r all /\ own n level r = false /\ leads (S v) r = true /\ coef r v <> 0).
      { intros r Hr. unfold V in Hr. apply filter_In in Hr. destruct Hr as (Hr & Hc). split; [exact Hr|].
        assert (G : leads (S v) r && negb (own n level r) = true).
        { destruct (is_lower_bound j v); [unfold low_class in Hc|unfold up_class in Hc]; apply andb_true_iff in Hc; destruct Hc as (Hc & _); apply andb_true_iff in Hc; apply Hc. }
        apply andb_true_iff in G. destruct G as (G1 & G2). apply negb_true_iff in G2. split; [exact G2|]. split; [exact G1|].
        unfold leads in G1. apply andb_true_iff in G1. destruct G1 as (G1 & _). unfold involves in G1. rewrite Nat.sub_succ, Nat.sub_0_r in G1. apply negb_true_iff, Z.eqb_neq in G1. exact G1. }
      assert (HjV : In j V).
      { unfold V. apply filter_In. split; [exact Hj|]. destruct (is_lower_bound j v) eqn:E.
        - unfold low_class. rewrite Nat.sub_succ, Nat.sub_0_r, El, Eo, Ec2, E. reflexivity.
        - unfold up_class. rewrite Nat.sub_succ, Nat.sub_0_r, El, Eo, Ec2, Hud. reflexivity. }
      assert (HV0 : V <> []) by (intros E; rewrite E in HjV; destruct HjV).
      assert (HE : exists b0, eqn_holds rho {| e_lhs := ETerm 1 (Some (variable_expr n (S v)));
          e_rhs := minmax n all (S v) (is_lower_bound j v) (if (level <=? n)%nat then level else 0%nat) true None;
          e_sign := if is_lower_bound j v then 1 else -1 |} = Some b0 /\ (b0 = true <-> Forall (row_holds w) V)).
      { unfold eqn_holds. cbn [e_lhs e_rhs e_sign eval]. change (rho (if (S v <=? n)%nat then iter_name (S v) else par_name (S v - n - 1))) with (eval rho (variable_expr n (S v))).
        rewrite (K j Hj Eo v Ha). unfold V. unfold V in HV0, HVin. clear HjV V. destruct (is_lower_bound j v).
        - destruct (minmax_low rho n all v (if (level <=? n)%nat then level else 0%nat) true None w) as (e & z & M1 & M2 & _ & M3).
          + unfold valid_low. rewrite valid_low_class by exact Hl0. exact HV0.
          + unfold valid_low. rewrite valid_low_class by exact Hl0. apply Forall_forall. intros r Hr. destruct (HVin r Hr) as (A & B & _). apply Kv; assumption.
          + exact I.
          + rewrite M1. cbn [eval_opt]. rewrite M2. eexists. split; [reflexivity|]. cbn [Z.eqb Z.ltb Z.compare]. rewrite Z.leb_le.
            specialize (M3 (nth v w 0) w (at_v_self w v) I). unfold valid_low in M3. rewrite valid_low_class in M3 by exact Hl0.
            replace (1 * nth v w 0) with (nth v w 0) by lia. exact M3.
        - destruct (minmax_up rho n all v (if (level <=? n)%nat then level else 0%nat) true w) as (e & z & M1 & M2 & M3).
          + unfold valid_up. rewrite valid_up_class by exact Hl0. exact HV0.
          + unfold valid_up. rewrite valid_up_class by exact Hl0. apply Forall_forall. intros r Hr. destruct (HVin r Hr) as (A & B & _). apply Kv; assumption.
          + rewrite M1. cbn [eval_opt]. rewrite M2. eexists. split; [reflexivity|]. cbn [Z.eqb Z.ltb Z.compare]. rewrite Z.leb_le.
            specialize (M3 (nth v w 0) w (at_v_self w v)). unfold valid_up in M3. rewrite valid_up_class in M3 by exact Hl0.
            replace (1 * nth v w 0) with (nth v w 0) by lia. exact M3. }
      destruct HE as (b0 & B1 & B2).
      assert (Hcl : forall mn' mx' r, class_holds n level (S v) mn' mx' all w r <->
         (leads (S v) r = true -> own n level r = false -> if r_eq r then row_holds w r
          else if is_lower_bound r v then mx' = false -> Forall (row_holds w) (filter (low_class n level (S v)) all)
               else mn' = false -> Forall (row_holds w) (filter (up_class n level (S v)) all))).
      { intros mn' mx' r. unfold class_holds. rewrite Ec1, Nat.sub_succ, Nat.sub_0_r. cbn [orb]. reflexivity. }
      destruct ((mx && is_lower_bound j v) || (mn && is_upper_bound j v)) eqn:Em.
      * destruct (IH mn mx Hin') as (b & H1 & H2). exists b. split; [exact H1|]. rewrite H2. split; intros H; [|inversion H; assumption].
        constructor; [|exact H]. apply Hcl. intros _ _. rewrite Ec2. rewrite Hud in Em. destruct (is_lower_bound j v).
        -- intros Emx. rewrite Emx in Em. rewrite andb_false_r in Em. discriminate.
        -- intros Emn. rewrite Emn in Em. rewrite andb_false_r in Em. discriminate.
      * cbn [all_hold]. rewrite B1. destruct (IH (mn || negb (is_lower_bound j v)) (mx || is_lower_bound j v) Hin') as (b & H1 & H2). rewrite H1.
        exists (b0 && b). split; [reflexivity|]. rewrite andb_true_iff, B2, H2. rewrite Hud in Em. apply orb_false_iff in Em. destruct Em as (Em1 & Em2).
        unfold V. rewrite !Forall_forall. split.
        -- intros (HV & Hr) r Hr'. apply Hcl. intros Lr Or. destruct Hr' as [<-|Hr'].
           { rewrite Ec2. destruct (is_lower_bound j v); intros _; apply Forall_forall; exact HV. }
           specialize (Hr r Hr'). apply Hcl in Hr; [|exact Lr|exact Or]. destruct (r_eq r); [exact Hr|].
           destruct (is_lower_bound j v) eqn:Ej, (is_lower_bound r v) eqn:Er.
           ++ intros _. apply Forall_forall. exact HV.
           ++ intros Hmn. apply Hr. rewrite Hmn. reflexivity.
           ++ intros Hmx. apply Hr. rewrite Hmx. reflexivity.
           ++ intros _. apply Forall_forall. exact HV.
        -- intros Hr. split.
           ++ specialize (Hr j (or_introl eq_refl)). apply Hcl in Hr; [|exact El|exact Eo]. rewrite Ec2 in Hr.
              destruct (is_lower_bound j v); apply Forall_forall; apply Hr; [rewrite andb_true_r in Em1; exact Em1|cbn in Em2; rewrite andb_true_r in Em2; exact Em2].
           ++ intros r Hr'. specialize (Hr r (or_intror Hr')). apply Hcl. intros Lr Or. apply Hcl in Hr; [|exact Lr|exact Or]. destruct (r_eq r); [exact Hr|].
              destruct (is_lower_bound r v); intros Hf; apply Hr; apply orb_false_iff in Hf; apply Hf.
Qed.
Lemma all_hold_app rho a b : all_hold rho (a ++ b) = match all_hold rho a, all_hold rho b with Some x, Some y => Some (x && y) | _, _ => None end.
Proof.
  induction a as [|q a IH]; cbn [app all_hold]; [destruct (all_hold rho b) as [y|]; [cbn; reflexivity|reflexivity]|].
  rewrite IH. destruct (eqn_holds rho q), (all_hold rho a), (all_hold rho b); try reflexivity. rewrite andb_assoc. reflexivity.
Qed.
Lemma all_hold_perm rho a b : Permutation a b -> all_hold rho a = all_hold rho b.
Proof.
  intros H. induction H; cbn [all_hold].
  - reflexivity.
  - rewrite IHPermutation. reflexivity.
  - destruct (eqn_holds rho x) as [[]|], (eqn_holds rho y) as [[]|], (all_hold rho l) as [[]|]; reflexivity.
  - congruence.
Qed.
Lemma first_variable r i : involves r i = true -> exists v, (v <= i)%nat /\ leads (S v) r = true.
Proof.
  revert i. induction i as [i IH] using lt_wf_ind. intros Hi.
  destruct (existsb (fun k => involves r k) (seq 0 i)) eqn:E.
  - apply existsb_exists in E. destruct E as (k & Hk & Ik). apply in_seq in Hk. destruct (IH k ltac:(lia) Ik) as (v & Hv & Hl). exists v. split; [lia|exact Hl].
  - exists i. split; [lia|]. unfold leads. rewrite Nat.sub_succ, Nat.sub_0_r, Hi, E. reflexivity.
Qed.
(** the guard of a loop, resp. of a statement *)
Theorem guard_holds rho n np rows level w :
  informed rho n level rows w ->
  Forall (fun r => (List.length (r_co r) <= n + np)%nat /\ exists i, involves r i = true) rows ->
  exists b, all_hold rho (guard_eqns n np rows level) = Some b /\
    (b = true <-> Forall (fun r => own n level r = false -> row_holds w r) rows).
Proof.
  intros K Hvar. unfold ClastModel.guard_eqns.
  assert (G : forall dims, (forall i, In i dims -> (1 <= i)%nat) -> exists b, all_hold rho (flat_map (fun i => guard_dim n rows level i false false rows) dims) = Some b /\
     (b = true <-> Forall (fun i => Forall (class_holds n level i false false rows w) rows) dims)).
  { induction dims as [|i dims IH]; intros Hd.
    - exists true. split; [reflexivity|split; [constructor|reflexivity]].
    - destruct IH as (b & H1 & H2); [intros k Hk; apply Hd; right; exact Hk|]. pose proof (Hd i (or_introl eq_refl)) as Hi. destruct i as [|v]; [lia|].
      destruct (guard_dim_holds rho n rows level v w K rows false false (incl_refl _)) as (b0 & B1 & B2).
      cbn [flat_map]. rewrite all_hold_app, B1, H1. exists (b0 && b). split; [reflexivity|]. rewrite andb_true_iff, B2, H2. split.
      + intros [A B]. constructor; assumption.
      + intros A. inversion A; subst. split; assumption. }
  destruct (G (seq 1 (n + np))) as (b & H1 & H2); [intros i Hi; apply in_seq in Hi; lia|]. exists b. split; [exact H1|]. rewrite H2. clear H1 H2 b G.
  rewrite !Forall_forall. split.
  - intros H r Hr Ho. rewrite Forall_forall in Hvar. destruct (Hvar r Hr) as (Hlen & i & Hi). destruct (first_variable r i Hi) as (v & Hv & Hl).
    pose proof (involves_lt r i Hi) as Hlt.
    assert (Hc : class_holds n level (S v) false false rows w r).
    { assert (A : Forall (class_holds n level (S v) false false rows w) rows) by (apply H; apply in_seq; lia). rewrite Forall_forall in A. apply A. exact Hr. }
    specialize (Hc Hl Ho). destruct ((level =? 0)%nat || r_eq r) eqn:E; [exact Hc|]. apply orb_false_iff in E. destruct E as (_ & E).
    assert (Hnz : coef r v <> 0). { unfold leads in Hl. apply andb_true_iff in Hl. destruct Hl as (Hl & _). unfold involves in Hl. rewrite Nat.sub_succ, Nat.sub_0_r in Hl. apply negb_true_iff, Z.eqb_neq in Hl. exact Hl. }
    rewrite Nat.sub_succ, Nat.sub_0_r in Hc. destruct (is_lower_bound r v) eqn:Eb.
    + specialize (Hc eq_refl). rewrite Forall_forall in Hc. apply Hc. apply filter_In. split; [exact Hr|]. unfold low_class. rewrite Nat.sub_succ, Nat.sub_0_r, Hl, Ho, E, Eb. reflexivity.
    + specialize (Hc eq_refl). rewrite Forall_forall in Hc. apply Hc. apply filter_In. split; [exact Hr|]. unfold up_class. rewrite Nat.sub_succ, Nat.sub_0_r, Hl, Ho, E.
      unfold is_lower_bound in Eb. apply Z.ltb_ge in Eb. cbn [negb andb]. unfold is_upper_bound. apply Z.ltb_lt. lia.
  - intros H i Hi. apply Forall_forall. intros r Hr Hl Ho. destruct ((level =? 0)%nat || r_eq r); [apply H; assumption|].
    destruct (is_lower_bound r (i - 1)); intros _; apply Forall_forall; intros s Hs; apply filter_In in Hs; destruct Hs as (Hs & Hc); apply H; [exact Hs| |exact Hs|].
    + unfold low_class in Hc. apply andb_true_iff in Hc. destruct Hc as (Hc & _). apply andb_true_iff in Hc. destruct Hc as (Hc & _). apply andb_true_iff in Hc. destruct Hc as (_ & Hc). apply negb_true_iff in Hc. exact Hc.
    + unfold up_class in Hc. apply andb_true_iff in Hc. destruct Hc as (Hc & _). apply andb_true_iff in Hc. destruct Hc as (Hc & _). apply andb_true_iff in Hc. destruct Hc as (_ & Hc). apply negb_true_iff in Hc. exact Hc.
Qed.

(** ** running the guard *)
Lemma exec1_list s rho : exec1 s rho = match s with
  | SAss x e => match eval_opt rho e with Some v => Some (assign rho x v, []) | None => None end
  | SUser num subs => match eval_all rho subs with Some vs => Some (rho, [(num, vs)]) | None => None end
  | SBlock body => exec body rho
  | SFor it lb ub step body =>
      match eval_opt rho lb, eval_opt rho ub with
      | Some l, Some u => if 0 <? step then iterate (exec body) it step (trip_count l u step) l rho else None
      | _, _ => None
      end
  | SGuard qs th => match all_hold rho qs with
                    | Some true => exec th rho
                    | Some false => Some (rho, [])
                    | None => None
                    end
  end.
Proof.
  set (ex := fix execs (l : list stmt) (rho : env) : option (env * list event) :=
    match l with
    | [] => Some (rho, [])
    | s :: l' => match exec1 s rho with
                 | None => None
                 | Some (rho1, t1) => match execs l' rho1 with None => None | Some (rho2, t2) => Some (rho2, t1 ++ t2) end
                 end
    end).
  assert (E : forall l r, ex l r = exec l r). { induction l as [|s0 l IH]; intros r; [reflexivity|]. cbn. destruct (exec1 s0 r) as [[r1 t1]|]; [|reflexivity]. rewrite IH. reflexivity. }
  destruct s; cbn [exec1]; fold ex; try reflexivity; try (rewrite E; reflexivity).
Qed.
Lemma exec_single s rho : exec [s] rho = exec1 s rho.
Proof. cbn [exec]. destruct (exec1 s rho) as [[r t]|]; [|reflexivity]. rewrite app_nil_r. reflexivity. Qed.
Lemma exec_app a b rho : exec (a ++ b) rho = match exec a rho with
  | None => None | Some (r1, t1) => match exec b r1 with None => None | Some (r2, t2) => Some (r2, t1 ++ t2) end end.
Proof.
  revert rho. induction a as [|s a IH]; intros rho; cbn [app exec]; [destruct (exec b rho) as [[r t]|]; reflexivity|].
  destruct (exec1 s rho) as [[r1 t1]|]; [|reflexivity]. rewrite IH. destruct (exec a r1) as [[r2 t2]|]; [|reflexivity]. destruct (exec b r2) as [[r3 t3]|]; [|reflexivity].
  rewrite app_assoc. reflexivity.
Qed.
Lemma plug_app a b body : plug (a ++ b) body = plug a (plug b body).
Proof. unfold plug. apply fold_right_app. Qed.
Theorem exec_guard rho n np rows level w body :
  informed rho n level rows w ->
  Forall (fun r => (List.length (r_co r) <= n + np)%nat /\ exists i, involves r i = true) rows ->
  (Forall (fun r => own n level r = false -> row_holds w r) rows /\ exec (plug (insert_guard n np rows level) body) rho = exec body rho) \/
  (~ Forall (fun r => own n level r = false -> row_holds w r) rows /\ exec (plug (insert_guard n np rows level) body) rho = Some (rho, [])).
Proof.
  intros K Hv. destruct (guard_holds rho n np rows level w K Hv) as (b & H1 & H2). unfold ClastModel.insert_guard.
  destruct (guard_eqns n np rows level) as [|q qs] eqn:E.
  - cbn in H1. injection H1 as <-. left. split; [apply H2; reflexivity|reflexivity].
  - cbn [plug fold_right plug1]. rewrite exec_single, exec1_list. rewrite <- (all_hold_perm rho _ _ (sort_eqns_perm (q :: qs))), H1. destruct b.
    + left. split; [apply H2; reflexivity|reflexivity].
    + right. split; [intros H; apply H2 in H; discriminate|reflexivity].
Qed.
End Guards.
