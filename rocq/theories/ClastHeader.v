(** What clast.c puts around the body of one loop runs the body exactly for the values of the
    iterator that belong to the loop, in ascending order. *)
From Coq Require Import ZArith List Bool Arith String Sorted Permutation Lia.
From Verif Require Import LoopModel LoopSpec ClastModel ClastSpec ClastBounds ClastGuards ClastModulo.
Import ListNotations.
Local Open Scope Z_scope.
Local Arguments Nat.ltb : simpl never. Local Arguments Nat.leb : simpl never. Local Arguments Nat.eqb : simpl never. Local Arguments Nat.sub : simpl never.
Local Arguments Z.mul : simpl never. Local Arguments Z.add : simpl never. Local Arguments Z.modulo : simpl never.

Section Header.
Variable iter_name : nat -> string.
Variable par_name : nat -> string.
Variable sort_exprs : list expr -> list expr.
Variable sort_eqns : list eqn -> list eqn.
Variable reduce : list (option (eqtype * row)) -> list row -> nat -> list row.
Variable P : Poly.
Variable Se : Sem P.
Variable rows_of : dom P -> list row.
Variable pv : list Z.
Variable o : copts.
Hypothesis sort_exprs_perm : forall l, Permutation l (sort_exprs l).
Hypothesis sort_eqns_perm : forall l, Permutation l (sort_eqns l).
Hypothesis iter_inj : forall i j, iter_name (S i) = iter_name (S j) -> i = j.
Hypothesis iter_par : forall i j, (j < List.length pv)%nat -> iter_name (S i) <> par_name j.
Hypothesis reduce_ok : reduce_right pv reduce.
Notation np := (List.length pv).
Notation variable_expr := (variable_expr iter_name par_name).
Notation bound_from_constraint := (bound_from_constraint iter_name par_name).
Notation minmax := (minmax iter_name par_name sort_exprs).
Notation modulo_guard := (modulo_guard iter_name par_name reduce).
Notation knows := (knows iter_name par_name).

Definition env_ok (rho : env) (x : list Z) (spread : list bool) : Prop :=
  (forall i, (i < np)%nat -> rho (par_name i) = Some (nth i pv 0)) /\
  (forall i, (i < List.length x)%nat -> nth i spread false = false -> rho (iter_name (S i)) = Some (nth i x 0)).
Definition keeps (n : nat) (rho rho' : env) : Prop :=
  (forall i, (i < np)%nat -> rho' (par_name i) = rho (par_name i)) /\
  (forall i, (i < n)%nat -> rho' (iter_name (S i)) = rho (iter_name (S i))).
Definition info_ok (nfo : infos) (x : list Z) (spread : list bool) : Prop :=
  List.length (i_eqs nfo) = List.length x /\ List.length (i_strides nfo) = List.length x /\ List.length spread = List.length x /\
  (forall i t r, nth_error (i_eqs nfo) i = Some (Some (t, r)) ->
     r_eq r = true /\ List.length (r_co r) = (S i + np)%nat /\ coef r i <> 0 /\ row_holds (firstn (S i) x ++ pv) r /\ avoids (firstn i spread) r) /\
  (forall i, nth i spread false = true -> exists t r, nth_error (i_eqs nfo) i = Some (Some (t, r))) /\
  (forall i s off, nth_error (i_strides nfo) i = Some (Some (s, off)) -> 0 < s /\ (nth i x 0 - off) mod s = 0).

Lemma keeps_refl n rho : keeps n rho rho.
Proof. split; auto. Qed.
Lemma keeps_trans n a b c : keeps n a b -> keeps n b c -> keeps n a c.
Proof. intros [A1 A2] [B1 B2]. split; intros i Hi; [rewrite B1, A1|rewrite B2, A2]; auto. Qed.
Lemma keeps_le n m a b : (n <= m)%nat -> keeps m a b -> keeps n a b.
Proof. intros H [A1 A2]. split; [exact A1|]. intros i Hi. apply A2. lia. Qed.
Lemma assign_same rho x v : assign rho x v x = Some v.
Proof. unfold assign. rewrite String.eqb_refl. reflexivity. Qed.
Lemma assign_other rho x v y : x <> y -> assign rho x v y = rho y.
Proof. intros H. unfold assign. destruct (String.eqb_spec x y); [contradiction|reflexivity]. Qed.
Lemma keeps_assign n m rho v : (n <= m)%nat -> keeps n rho (assign rho (iter_name (S m)) v).
Proof.
  intros H. split; intros i Hi; apply assign_other; [apply iter_par; exact Hi|]. intros E. apply iter_inj in E. lia.
Qed.
Lemma env_keeps rho rho' x spread : env_ok rho x spread -> keeps (List.length x) rho rho' -> env_ok rho' x spread.
Proof. intros [A B] [C D]. split; intros i Hi; [rewrite C by exact Hi; apply A; exact Hi|]. intros Hs. rewrite D by exact Hi. apply B; assumption. Qed.
Lemma env_snoc rho x spread v sp : env_ok rho x spread -> List.length spread = List.length x ->
  (sp = false -> rho (iter_name (S (List.length x))) = Some v) -> env_ok rho (x ++ [v]) (spread ++ [sp]).
Proof.
  intros [A B] Hl H. split; [exact A|]. intros i Hi Hs. rewrite app_length in Hi. cbn in Hi. destruct (Nat.eq_dec i (List.length x)) as [->|Hne].
  - rewrite app_nth2, Nat.sub_diag by lia. rewrite app_nth2 in Hs by lia. rewrite Hl, Nat.sub_diag in Hs. apply H. exact Hs.
  - rewrite app_nth1 by lia. rewrite app_nth1 in Hs by lia. apply B; [lia|exact Hs].
Qed.

(** *** values of variables *)
Lemma loop_known rho x spread r v : env_ok rho x spread -> (List.length (r_co r) = S (List.length x) + np)%nat -> avoids spread r ->
  knows rho (S (List.length x)) r (List.length x) (x ++ v :: pv).
Proof.
  intros [A B] Hl Hav i Hi Hc. pose proof (involves_lt r i) as L. unfold involves in L. destruct (Z.eqb_spec (coef r i) 0); [contradiction|]. specialize (L eq_refl).
  unfold ClastModel.variable_expr. cbn [eval]. destruct (Nat.leb_spec (S i) (S (List.length x))) as [G|G].
  - rewrite app_nth1 by lia. apply B; [lia|]. destruct (nth i spread false) eqn:E; [|reflexivity]. exfalso. apply Hc. apply Hav. exact E.
  - rewrite app_nth2 by lia. replace (i - List.length x)%nat with (S (i - S (List.length x))) by lia. cbn [nth].
    replace (S i - S (List.length x) - 1)%nat with (i - S (List.length x))%nat by lia. apply A. lia.
Qed.
Lemma stmt_known rho x spread r : env_ok rho x spread -> (List.length (r_co r) = List.length x + np)%nat -> avoids spread r ->
  forall i, coef r i <> 0 -> eval rho (variable_expr (List.length x) (S i)) = Some (nth i (x ++ pv) 0).
Proof.
  intros [A B] Hl Hav i Hc. pose proof (involves_lt r i) as L. unfold involves in L. destruct (Z.eqb_spec (coef r i) 0); [contradiction|]. specialize (L eq_refl).
  unfold ClastModel.variable_expr. cbn [eval]. destruct (Nat.leb_spec (S i) (List.length x)) as [G|G].
  - rewrite app_nth1 by lia. apply B; [lia|]. destruct (nth i spread false) eqn:E; [|reflexivity]. exfalso. apply Hc. apply Hav. exact E.
  - rewrite app_nth2 by lia. replace (S i - List.length x - 1)%nat with (i - List.length x)%nat by lia. apply A. lia.
Qed.

(** *** modulo guards *)
Definition the_rows (upper : row) (lower : option row) : list row := upper :: match lower with Some l => [l] | None => [] end.
Lemma modulo_guard_ok rho x spread nfo st upper lower : let n := List.length x in
  env_ok rho x spread -> info_ok nfo x spread ->
  Forall (fun r => List.length (r_co r) = S n + np)%nat (the_rows upper lower) -> Forall (avoids spread) (the_rows upper lower) ->
  coef upper n <> 0 ->
  match lower with
  | None => r_eq upper = true
  | Some l => r_eq upper = false /\ r_eq l = false /\ opposite upper l = true /\ 0 <= r_k upper + r_k l /\ coef upper n < -1
  end ->
  exists sat fs b, modulo_guard (S n) {| i_eqs := i_eqs nfo; i_strides := i_strides nfo ++ [st] |} upper lower (S n) = Some (sat, fs) /\ opens fs rho b /\
    (sat && b = true <-> exists v, Forall (row_holds (x ++ v :: pv)) (the_rows upper lower)).
Proof.
  intros n He Hi Hlen Hav Ha Hlow. unfold ClastModel.modulo_guard. rewrite Nat.sub_succ, Nat.sub_0_r.
  assert (Hex : match lower with None => True | Some l => (exists v, Forall (row_holds (x ++ v :: pv)) (the_rows upper lower)) <->
     exists v, row_holds (x ++ v :: pv) upper /\ row_holds (x ++ v :: pv) l end).
  { destruct lower as [l|]; [|exact I]. cbn. split; intros (v & Hv); exists v; [inversion Hv as [|? ? H1 H2]; subst; inversion H2; subst; auto|destruct Hv as [? ?]; repeat constructor; assumption]. }
  destruct (Z.eqb_spec (Z.abs (coef upper n)) 1) as [E1|E1].
  { exists true, [], true. split; [reflexivity|]. split; [apply opens_nil|]. split; [intros _|reflexivity]. destruct lower as [l|]; [lia|].
    apply (solve_eq upper x pv Hlow) in Ha. fold n in Ha. rewrite E1, Z.mod_1_r in Ha. destruct Ha as (Ha & _). destruct (Ha eq_refl) as (v & Hv).
    exists v. constructor; [exact Hv|constructor]. }
  set (red := match lower with Some l => (coef l n - 1 =? r_k upper + r_k l) | None => false end).
  destruct red eqn:Er.
  { exists true, [], true. split; [reflexivity|]. split; [apply opens_nil|]. split; [intros _|reflexivity]. unfold red in Er. destruct lower as [l|]; [|discriminate].
    apply Z.eqb_eq in Er. destruct Hlow as (L1 & L2 & L3 & L4 & L5). apply Hex. apply (solve_pair upper l x pv); try assumption.
    fold n. destruct (opposite_spec _ _ L3) as (_ & L6). rewrite L6 in Er. rewrite <- Er, Z.abs_neq by lia. apply Z.lt_succ_r.
    replace (Z.succ (- coef upper n - 1)) with (- coef upper n) by lia. apply Z.mod_pos_bound. lia. }
  clear red Er. cbn [i_eqs i_strides]. destruct Hi as (I1 & I2 & I3 & I4 & I5 & I6).
  assert (Ef : firstn n (i_eqs nfo) = i_eqs nfo) by (apply firstn_all2; unfold n; lia). rewrite Ef.
  fold (the_rows upper lower). assert (Hgr : guard_rows n (the_rows upper lower)).
  { assert (Hinv : involves upper n = true) by (unfold involves; apply negb_true_iff, Z.eqb_neq; exact Ha). destruct lower as [l|]; cbn; [destruct Hlow as (L1 & L2 & L3 & L4 & L5); auto|auto]. }
  pose proof (reduce_ok (i_eqs nfo) (the_rows upper lower) x Hgr Hlen) as R. cbv zeta in R.
  assert (R0 : forall i t r, nth_error (i_eqs nfo) i = Some (Some (t, r)) -> row_holds (firstn (S i) x ++ pv) r) by (intros i t r Hr; apply (I4 i t r Hr)).
  specialize (R R0). fold n in R. destruct R as (Rex & Rlen & Rav & Rshape).
  set (rows' := reduce (i_eqs nfo) (the_rows upper lower) (S n)) in *.
  assert (Hav' : Forall (avoids spread) rows').
  { apply Forall_forall. intros r Hr i Hs. destruct (Nat.lt_ge_cases i n) as [G|G].
    - assert (Z0 : Forall (fun r => coef r i = 0) rows').
      { apply Rav; [exact G| |].
        - apply Forall_forall. intros r' Hr'. rewrite Forall_forall in Hav. apply (Hav r' Hr'). exact Hs.
        - intros j t r' Hr' Hj. destruct (I4 j t r' Hr') as (_ & _ & _ & _ & A). apply A.
          assert (Hlj : (j < List.length (i_eqs nfo))%nat) by (apply nth_error_Some; congruence).
          rewrite <- Hs. assert (Hsp : (j < List.length spread)%nat) by lia. revert Hj. clear. revert i j. induction spread as [|b sp IH]; intros i j Hj; [destruct j; reflexivity|].
          destruct j as [|j]; [lia|]. cbn [firstn]. destruct i as [|i]; [reflexivity|]. cbn [nth]. apply IH. lia. }
      rewrite Forall_forall in Z0. apply Z0. exact Hr.
    - rewrite nth_overflow in Hs by (unfold n in G; lia). discriminate. }
  assert (Hst : strides_hold (x ++ 0 :: pv) (List.combine (seq 1 n) (firstn n (i_strides nfo ++ [st])))).
  { rewrite firstn_app. replace (n - List.length (i_strides nfo))%nat with 0%nat by (unfold n; lia). rewrite firstn_all2 by (unfold n; lia). cbn [firstn]. rewrite app_nil_r.
    intros i s off Hin. apply (In_nth_error) in Hin. destruct Hin as (k & Hk).
    assert (Hk2 : nth_error (seq 1 n) k = Some i /\ nth_error (i_strides nfo) k = Some (Some (s, off))).
    { clear - Hk. revert k Hk. generalize (seq 1 n) as l1. generalize (i_strides nfo) as l2. intros l2 l1. revert l2. induction l1 as [|a l1 IH]; intros [|b l2] [|k] Hk; cbn in Hk; try discriminate; [injection Hk as -> ->; split; reflexivity|]. cbn [nth_error]. apply IH. exact Hk. }
    destruct Hk2 as (Hk1 & Hk2). assert (Hkn : (k < n)%nat). { assert (A : (k < List.length (seq 1 n))%nat) by (apply nth_error_Some; congruence). rewrite seq_length in A. exact A. }
    apply nth_error_nth with (d := 0%nat) in Hk1. rewrite seq_nth in Hk1 by exact Hkn. subst i. replace (1 + k - 1)%nat with k by lia.
    rewrite app_nth1 by exact Hkn. apply (I6 k s off Hk2). }
  assert (Hlen' : forall r, In r rows' -> (List.length (r_co r) = S n + np)%nat) by (apply Forall_forall; exact Rlen).
  assert (Kn : forall r, In r rows' -> forall i, i <> n -> coef r i <> 0 -> eval rho (variable_expr (S n) (S i)) = Some (nth i (x ++ 0 :: pv) 0)).
  { intros r Hr. apply (loop_known rho x spread r 0 He (Hlen' r Hr)). rewrite Forall_forall in Hav'. apply Hav'. exact Hr. }
  destruct rows' as [|c rest] eqn:Erw.
  { exists true, [], true. split; [reflexivity|]. split; [apply opens_nil|]. split; [intros _|reflexivity]. apply Rex. exists 0. constructor. }
  set (bound := fold_right (fun r s => r_k r + s) 0 (c :: rest)). set (nfo1 := {| i_eqs := i_eqs nfo; i_strides := i_strides nfo ++ [st] |}).
  assert (Hs1 : strides_hold (x ++ 0 :: pv) (List.combine (seq 1 n) (firstn n (i_strides nfo1)))) by exact Hst.
  destruct lower as [l|].
  - cbn [the_rows] in Rshape. destruct Rshape as [Rs|(Rs1 & Rs2)]; [discriminate|]. destruct rest as [|d [|? ?]]; try (cbn in Rs1; lia). destruct Hlow as (L1 & L2 & L3 & L4 & L5).
    destruct Rs2 as (S1 & S2 & S3 & S4 & S5).
    assert (Hc0 : coef c n <> 0) by (unfold involves in S3; apply negb_true_iff, Z.eqb_neq in S3; exact S3).
    assert (Hb : bound = r_k c + r_k d) by (unfold bound; cbn; lia).
    destruct (modulo_constraint iter_name par_name rho (S n) nfo1 c true bound n (x ++ 0 :: pv) Hc0 (nth_mid x 0 pv) (Kn c (or_introl eq_refl)) Hs1) as (sat & fs & b & M1 & M2 & M3); [intros _; lia|].
    exists sat, fs, b. split; [exact M1|]. split; [exact M2|]. rewrite M3, Hb. unfold n. rewrite (solve_pair c d x pv S1 S2 Hc0 S4). rewrite <- Rex.
    split; intros (v & Hv); exists v; [destruct Hv as [? ?]; repeat constructor; assumption|inversion Hv as [|? ? H1 H2]; subst; inversion H2; subst; auto].
  - cbn [the_rows] in Rshape. destruct Rshape as [Rs|(Rs1 & Rs2)]; [discriminate|]. destruct rest as [|d rest]; [|cbn in Rs1; lia]. destruct Rs2 as (S1 & S3).
    assert (Hc0 : coef c n <> 0) by (unfold involves in S3; apply negb_true_iff, Z.eqb_neq in S3; exact S3).
    destruct (modulo_constraint iter_name par_name rho (S n) nfo1 c false bound n (x ++ 0 :: pv) Hc0 (nth_mid x 0 pv) (Kn c (or_introl eq_refl)) Hs1) as (sat & fs & b & M1 & M2 & M3); [discriminate|].
    exists sat, fs, b. split; [exact M1|]. split; [exact M2|]. rewrite M3.
    replace (target c n (x ++ 0 :: pv) bound) with (target c n (x ++ 0 :: pv) 0) by (unfold target; rewrite S1; reflexivity).
    unfold n. rewrite (solve_eq c x pv S1 Hc0). rewrite <- Rex.
    split; intros (v & Hv); exists v; [constructor; [exact Hv|constructor]|inversion Hv; assumption].
Qed.

(** *** loops *)
Lemma iterate_ok n (body : env -> option (env * list event)) step (T : Z -> list event) (ok : Z -> env -> Prop) :
  forall k v rho,
  (forall u rho1, In u (map (fun i => v + step * Z.of_nat i) (seq 0 k)) -> keeps n rho rho1 -> rho1 (iter_name (S n)) = Some u ->
     exists rho2, body rho1 = Some (rho2, T u) /\ keeps n rho1 rho2) ->
  exists rho', iterate body (iter_name (S n)) step k v rho = Some (rho', flat_map T (map (fun i => v + step * Z.of_nat i) (seq 0 k))) /\ keeps n rho rho'.
Proof.
  induction k as [|k IH]; intros v rho Hb.
  - exists (assign rho (iter_name (S n)) v). split; [reflexivity|]. apply keeps_assign. lia.
  - cbn [iterate]. destruct (Hb v (assign rho (iter_name (S n)) v)) as (rho2 & B1 & B2).
    { left. cbn. lia. } { apply keeps_assign. lia. } { apply assign_same. }
    rewrite B1. assert (K2 : keeps n rho rho2) by (eapply keeps_trans; [apply (keeps_assign n n rho v); lia|exact B2]).
    assert (Es : map (fun i => v + step * Z.of_nat i) (seq 0 (S k)) = v :: map (fun i => (v + step) + step * Z.of_nat i) (seq 0 k)).
    { cbn [seq map]. f_equal; [lia|]. rewrite <- seq_shift, map_map. apply map_ext. intros i. lia. }
    destruct (IH (v + step) rho2) as (rho3 & I1 & I2).
    { intros u rho1 Hu Hk He. apply Hb; [rewrite Es; right; exact Hu|eapply keeps_trans; eassumption|exact He]. }
    rewrite I1. exists rho3. split; [rewrite Es; reflexivity|]. eapply keeps_trans; eassumption.
Qed.
Lemma trip_spec lb ub step v : 0 < step ->
  (In v (map (fun i => lb + step * Z.of_nat i) (seq 0 (trip_count lb ub step))) <-> lb <= v <= ub /\ (v - lb) mod step = 0).
Proof.
  intros Hs. rewrite in_map_iff. unfold trip_count. split.
  - intros (i & <- & Hi). apply in_seq in Hi. destruct (Z.ltb_spec ub lb) as [G|G]; [lia|].
    assert (Hq : Z.of_nat i <= (ub - lb) / step) by lia. split; [|replace (lb + step * Z.of_nat i - lb) with (Z.of_nat i * step) by lia; apply Z.mod_mul; lia].
    pose proof (Z.div_mod (ub - lb) step ltac:(lia)). pose proof (Z.mod_pos_bound (ub - lb) step Hs). nia.
  - intros ((H1 & H2) & H3). exists (Z.to_nat ((v - lb) / step)). pose proof (Z.div_mod (v - lb) step ltac:(lia)) as D. rewrite H3 in D.
    assert (0 <= (v - lb) / step) by (apply Z.div_pos; lia). rewrite Z2Nat.id by assumption. split; [lia|]. apply in_seq.
    destruct (Z.ltb_spec ub lb) as [G|G]; [lia|]. assert ((v - lb) / step <= (ub - lb) / step) by (apply Z.div_le_mono; lia). lia.
Qed.
Lemma trip_sorted lb step k : 0 < step -> forall s, StronglySorted Z.lt (map (fun i => lb + step * Z.of_nat i) (seq s k)).
Proof.
  intros Hs. induction k as [|k IH]; intros s; [constructor|]. cbn [seq map]. constructor; [apply IH|].
  apply Forall_map, Forall_forall. intros i Hi. apply in_seq in Hi. nia.
Qed.

(** one value, assigned or not *)
Lemma run_spread n fs rho b (T : Z -> list event) body vs : opens fs rho b ->
  (b = true -> exists v rho', vs = [v] /\ exec body rho = Some (rho', T v) /\ keeps n rho rho') -> (b = false -> vs = []) ->
  exists rho', exec (plug fs body) rho = Some (rho', flat_map T vs) /\ keeps n rho rho'.
Proof.
  intros Ho H1 H2. rewrite (Ho body). destruct b.
  - destruct (H1 eq_refl) as (v & rho' & -> & E & K). exists rho'. split; [|exact K]. rewrite E. cbn [flat_map]. rewrite app_nil_r. reflexivity.
  - rewrite (H2 eq_refl). exists rho. split; [reflexivity|apply keeps_refl].
Qed.

Lemma own_loop n r : own (S n) (S n) r = involves r n.
Proof. unfold own. destruct (Nat.eqb_spec (S n) 0); [lia|]. rewrite Nat.leb_refl, Nat.sub_succ, Nat.sub_0_r. reflexivity. Qed.
Lemma not_own_any x v v' r : involves r (List.length x) = false -> (row_holds (x ++ v :: pv) r <-> row_holds (x ++ v' :: pv) r).
Proof.
  intros H. apply row_holds_ext. intros i Hi. apply nth_other. intros ->. unfold involves in H. destruct (Z.eqb_spec (coef r (List.length x)) 0); [contradiction|discriminate].
Qed.
Lemma last_iterator_self n r : last_iterator (S n) (S n) r = involves r n.
Proof. unfold last_iterator. rewrite Nat.sub_succ, Nat.sub_0_r, Nat.sub_diag. cbn [seq forallb]. apply andb_true_r. Qed.
Lemma involves_ne r i : involves r i = true -> coef r i <> 0.
Proof. unfold involves. intros H. apply negb_true_iff, Z.eqb_neq in H. exact H. Qed.
Lemma involves_not r i : involves r i = false -> coef r i = 0.
Proof. unfold involves. intros H. apply negb_false_iff, Z.eqb_eq in H. exact H. Qed.
Lemma row_eqb_eq r s : row_eqb r s = true -> r = s.
Proof.
  unfold row_eqb. intros H. apply andb_true_iff in H. destruct H as (H & H3). apply andb_true_iff in H. destruct H as (H1 & H2).
  apply Bool.eqb_prop in H1. apply Z.eqb_eq in H2. destruct (list_eq_dec Z.eq_dec (r_co r) (r_co s)) as [E|]; [|discriminate].
  destruct r, s; cbn in *; subst; reflexivity.
Qed.

(** the infos of the body *)
Lemma info_snoc nfo x spread v e st sp : info_ok nfo x spread ->
  (forall t r, e = Some (t, r) -> r_eq r = true /\ List.length (r_co r) = (S (List.length x) + np)%nat /\ coef r (List.length x) <> 0 /\ row_holds (x ++ v :: pv) r /\ avoids spread r) ->
  (sp = true -> e <> None) -> (forall s off, st = Some (s, off) -> 0 < s /\ (v - off) mod s = 0) ->
  info_ok {| i_eqs := i_eqs nfo ++ [e]; i_strides := i_strides nfo ++ [st] |} (x ++ [v]) (spread ++ [sp]).
Proof.
  intros (I1 & I2 & I3 & I4 & I5 & I6) He Hsp Hst. unfold info_ok. cbn [i_eqs i_strides]. rewrite !app_length. cbn [List.length].
  split; [lia|]. split; [lia|]. split; [lia|]. split; [|split].
  - intros i t r Hn. destruct (Nat.lt_ge_cases i (List.length x)) as [G|G].
    + rewrite nth_error_app1 in Hn by lia. destruct (I4 i t r Hn) as (A & B & C & D & E). split; [exact A|]. split; [exact B|]. split; [exact C|].
      rewrite !firstn_app. replace (S i - List.length x)%nat with 0%nat by lia. replace (i - List.length spread)%nat with 0%nat by lia. cbn [firstn]. rewrite !app_nil_r. split; assumption.
    + rewrite nth_error_app2 in Hn by lia. rewrite I1 in Hn. destruct (i - List.length x)%nat as [|k] eqn:Ek; cbn in Hn; [|destruct k; discriminate]. injection Hn as Hn.
      assert (i = List.length x) by lia. subst i. destruct (He t r Hn) as (A & B & C & D & E). split; [exact A|]. split; [exact B|]. split; [exact C|].
      rewrite (firstn_all2 (n := S (List.length x)) (x ++ [v])) by (rewrite app_length; cbn; lia). rewrite <- app_assoc. split; [exact D|].
      rewrite firstn_app. rewrite I3, Nat.sub_diag. cbn [firstn]. rewrite app_nil_r, firstn_all2 by lia. exact E.
  - intros i Hi. destruct (Nat.lt_ge_cases i (List.length x)) as [G|G].
    + rewrite app_nth1 in Hi by lia. rewrite nth_error_app1 by lia. apply I5. exact Hi.
    + rewrite app_nth2 in Hi by lia. destruct (i - List.length spread)%nat as [|k] eqn:Ek; cbn in Hi; [|destruct k; discriminate]. rewrite nth_error_app2 by lia.
      replace (i - List.length (i_eqs nfo))%nat with 0%nat by lia. cbn. destruct e as [[t r]|]; [eauto|]. exfalso. apply Hsp; [exact Hi|reflexivity].
  - intros i s off Hn. destruct (Nat.lt_ge_cases i (List.length x)) as [G|G].
    + rewrite nth_error_app1 in Hn by lia. rewrite app_nth1 by exact G. apply (I6 i s off Hn).
    + rewrite nth_error_app2 in Hn by lia. rewrite I2 in Hn. rewrite app_nth2 by exact G. destruct (i - List.length x)%nat as [|k]; cbn in Hn; [|destruct k; discriminate].
      injection Hn as Hn. cbn [nth]. apply Hst. exact Hn.
Qed.

(** *** the loop itself *)
Notation insert_header := (insert_header iter_name par_name sort_exprs reduce P rows_of).
Notation insert_equation := (insert_equation iter_name par_name reduce).
Notation insert_for := (insert_for iter_name par_name sort_exprs).
Definition guard_true (x : list Z) (rows : list row) : Prop :=
  Forall (fun r => own (S (List.length x)) (S (List.length x)) r = false -> row_holds (x ++ 0 :: pv) r) rows.
(** the result of a header: [fs] around a body run it for the values [vs] *)
Definition runs_for (x : list Z) (spread : list bool) (sp : bool) (vs : list Z) (fs : list frame) : Prop :=
  forall rho body (T : Z -> list event), env_ok rho x spread ->
    (forall v rho1, In v vs -> env_ok rho1 (x ++ [v]) (spread ++ [sp]) ->
       exists rho2, exec body rho1 = Some (rho2, T v) /\ keeps (S (List.length x)) rho1 rho2) ->
    exists rho', exec (plug fs body) rho = Some (rho', flat_map T vs) /\ keeps (List.length x) rho rho'.
Definition header_right (x : list Z) (spread : list bool) (nfo : infos) (st : option (Z * Z)) (l : loop P)
    (res : option (list frame * option (eqtype * row) * bool)) : Prop :=
  exists vs, StronglySorted Z.lt vs /\ (forall v, In v vs <-> enters P Se l (x ++ [v])) /\
  match res with
  | None => vs = []
  | Some (fs, e, _) =>
      (forall v, In v vs -> info_ok {| i_eqs := i_eqs nfo ++ [e]; i_strides := i_strides nfo ++ [st] |} (x ++ [v]) (spread ++ [is_spread P rows_of o (l_dom P l)])) /\
      runs_for x spread (is_spread P rows_of o (l_dom P l)) vs fs
  end.

Lemma mem_rows d x v : rows_exact P Se rows_of pv d -> dim P d = S (List.length x) -> guard_true x (rows_of d) ->
  (mem Se d (x ++ [v]) = true <-> Forall (fun r => involves r (List.length x) = true -> row_holds (x ++ v :: pv) r) (rows_of d)).
Proof.
  intros (_ & Hex) Hd Hg. rewrite <- Hex by (rewrite app_length; cbn; lia). rewrite <- app_assoc. cbn [app]. unfold guard_true in Hg. rewrite !Forall_forall in *. split.
  - intros H r Hr _. apply H. exact Hr.
  - intros H r Hr. destruct (involves r (List.length x)) eqn:E; [apply H; assumption|]. apply (not_own_any x v 0 r E). apply Hg; [exact Hr|]. rewrite own_loop. exact E.
Qed.
Lemma st_const l st x v : const_stride P l = Some st -> st_ok P Se (l_st P l) (x ++ [v]) = match st with Some (s, off) => ((v - off) mod s =? 0) | None => true end.
Proof.
  unfold const_stride, st_ok. destruct (l_st P l) as [[[s off] [c|]]|]; intros H; try discriminate; injection H as <-; [|reflexivity]. rewrite last_last. reflexivity.
Qed.
Lemma one_sorted v : StronglySorted Z.lt [v].
Proof. repeat constructor. Qed.

(** equality or pair of inequalities, turned into an assignment *)
Lemma equation_right x spread nfo st l upper lower (res : option (list frame * option (eqtype * row))) rho0 : let d := l_dom P l in let n := List.length x in
  env_ok rho0 x spread -> info_ok nfo x spread -> const_stride P l = Some st ->
  rows_exact P Se rows_of pv d -> dim P d = S n -> Forall (avoids spread) (rows_of d) -> guard_true x (rows_of d) ->
  stride_usable P Se rows_of l -> has_equation P rows_of d = true -> (co_otl o = false -> unit_equation P rows_of d) ->
  incl (the_rows upper lower) (rows_of d) -> coef upper n <> 0 ->
  match lower with
  | None => r_eq upper = true /\ defining_equality (S n) (rows_of d) (S n) = Some upper
  | Some l => r_eq upper = false /\ r_eq l = false /\ opposite upper l = true /\ 0 <= r_k upper + r_k l < - coef upper n /\ coef upper n < -1 /\
      defining_equality (S n) (rows_of d) (S n) = None
  end ->
  (forall r, In r (rows_of d) -> involves r n = true -> In r (the_rows upper lower)) ->
  insert_equation o (S n) {| i_eqs := i_eqs nfo; i_strides := i_strides nfo ++ [st] |} st upper lower (S n) = Some res ->
  forall eqb, header_right x spread nfo st l (match res with None => None | Some (fs, e) => Some (fs, e, eqb) end).
Proof.
  intros d n He Hi Hcs Hex Hd Hav Hg Hst Heq Hunit Hincl Ha Hshape Hall Hins eqb.
  assert (Hlen : Forall (fun r => List.length (r_co r) = S n + np)%nat (the_rows upper lower)).
  { apply Forall_forall. intros r Hr. destruct Hex as (Hl & _). rewrite Forall_forall in Hl. rewrite (Hl r (Hincl r Hr)). unfold n. lia. }
  assert (Hav' : Forall (avoids spread) (the_rows upper lower)) by (apply Forall_forall; intros r Hr; rewrite Forall_forall in Hav; apply Hav, Hincl; exact Hr).
  assert (Hmem : forall v, enters P Se l (x ++ [v]) <-> Forall (row_holds (x ++ v :: pv)) (the_rows upper lower)).
  { intros v. unfold enters. fold d. rewrite (mem_rows d x v Hex Hd Hg). fold n. split.
    - intros (A & _). apply Forall_forall. intros r Hr. rewrite Forall_forall in A. apply (A r (Hincl r Hr)).
      cbn in Hr. destruct Hr as [<-|Hr]; [unfold involves; destruct (Z.eqb_spec (coef upper n) 0); [contradiction|reflexivity]|].
      destruct lower as [lo|]; [|destruct Hr]. destruct Hr as [<-|[]]. destruct Hshape as (_ & _ & O & _). apply opposite_spec in O. destruct O as (_ & O).
      unfold involves. rewrite O. destruct (Z.eqb_spec (- coef upper n) 0); [lia|reflexivity].
    - intros A. assert (B : Forall (fun r => involves r n = true -> row_holds (x ++ v :: pv) r) (rows_of d)).
      { apply Forall_forall. intros r Hr Hv. rewrite Forall_forall in A. apply A. apply Hall; assumption. }
      split; [exact B|]. unfold stride_usable in Hst. fold d in Hst. rewrite Heq in Hst. destruct (l_st P l) as [[[s off] [c|]]|] eqn:El; [destruct Hst| |reflexivity].
      apply Hst. apply (mem_rows d x v Hex Hd Hg). exact B. }
  set (bv := bound_val upper n (x ++ 0 :: pv)).
  assert (Hbv : forall v, bound_val upper n (x ++ v :: pv) = bv) by (intros v; apply bound_ext; intros i Hne _; apply nth_other; exact Hne).
  assert (Huniq : forall v, Forall (row_holds (x ++ v :: pv)) (the_rows upper lower) -> v = bv).
  { intros v Hv. rewrite <- (Hbv v). inversion Hv as [|? ? H1 H2]; subst. destruct lower as [lo|].
    - destruct Hshape as (S1 & S2 & S3 & S4 & S5 & _). inversion H2 as [|? ? H3 _]; subst. pose proof (opposite_rest upper lo n (x ++ 0 :: pv) S3) as R. destruct (opposite_spec _ _ S3) as (_ & Oc).
      pose proof (proj2 (bound_upper upper n (x ++ v :: pv) S1 ltac:(lia)) H1) as U. unfold n in U. rewrite nth_mid in U. fold n in U.
      set (b := bound_val upper n (x ++ v :: pv)) in *.
      assert (UB : row_holds (x ++ b :: pv) upper).
      { apply (bound_upper upper n (x ++ b :: pv) S1 ltac:(lia)). unfold n at 1. rewrite nth_mid. rewrite Hbv. unfold b. rewrite Hbv. lia. }
      unfold row_holds in H3, UB. rewrite S1 in UB. rewrite S2 in H3. rewrite row_at in H3, UB. fold n in H3, UB. rewrite Oc in H3. nia.
    - destruct Hshape as (S1 & _). rewrite (bound_equal upper n (x ++ v :: pv) S1 Ha H1). unfold n. rewrite nth_mid. reflexivity. }
  assert (Hbe : forall rho, env_ok rho x spread -> exists e, bound_from_constraint (S n) upper (S n) = Some e /\ eval rho e = Some bv).
  { intros rho Hr. rewrite <- (Hbv 0). apply bound_eval; [exact Ha|]. apply (loop_known rho x spread upper 0 Hr); [rewrite Forall_forall in Hlen; apply Hlen; left; reflexivity|rewrite Forall_forall in Hav'; apply Hav'; left; reflexivity]. }
  assert (Hstr : forall v, enters P Se l (x ++ [v]) -> forall s off, st = Some (s, off) -> 0 < s /\ (v - off) mod s = 0).
  { intros v (Hm & Hs) s off ->. rewrite (st_const l _ x v Hcs) in Hs. apply Z.eqb_eq in Hs. split; [|exact Hs]. unfold stride_usable in Hst. unfold const_stride in Hcs.
    destruct (l_st P l) as [[[s' off'] [c|]]|]; try discriminate. injection Hcs as -> ->. apply Hst. }
  unfold ClastModel.insert_equation in Hins. destruct (co_otl o) eqn:Eotl; cbn [negb] in Hins.
  - (* assignment *)
    assert (Hshape' : match lower with None => r_eq upper = true | Some l => r_eq upper = false /\ r_eq l = false /\ opposite upper l = true /\ 0 <= r_k upper + r_k l /\ coef upper n < -1 end).
    { destruct lower; [destruct Hshape as (S1 & S2 & S3 & S4 & S5 & _); repeat split; try assumption; lia|apply Hshape]. }
    destruct (modulo_guard_ok rho0 x spread nfo st upper lower He Hi Hlen Hav' Ha Hshape') as (sat & fs & b0 & M1 & M2 & M3). fold n in M1. rewrite M1 in Hins.
    assert (Hvs : exists vs, StronglySorted Z.lt vs /\ (forall v, In v vs <-> enters P Se l (x ++ [v])) /\ (vs = [bv] \/ vs = []) /\ (sat && b0 = true <-> vs = [bv])).
    { destruct (sat && b0) eqn:Eb.
      - destruct M3 as (M3 & _). destruct (M3 eq_refl) as (v & Hv). pose proof (Huniq v Hv) as ->. exists [bv]. split; [apply one_sorted|]. split; [|split; [left; reflexivity|tauto]].
        intros u. rewrite Hmem. split; [intros [<-|[]]; exact Hv|]. intros Hu. left. symmetry. apply Huniq. exact Hu.
      - exists []. split; [constructor|]. split; [|split; [right; reflexivity|split; discriminate]]. intros u. rewrite Hmem. split; [intros []|]. intros Hu. assert (A : false = true) by (apply M3; exists u; exact Hu). discriminate. }
    destruct Hvs as (vs & V1 & V2 & V3 & V4). exists vs. split; [exact V1|]. split; [exact V2|]. destruct sat.
    2: { injection Hins as <-. destruct V3 as [-> | ->]; [|reflexivity]. destruct V4 as (_ & V4). specialize (V4 eq_refl). discriminate. }
    injection Hins as <-.
    assert (Hsp : is_spread P rows_of o d = match lower with Some _ => false | None => equal_allow o (equal_type (S n) upper (S n)) (S n) end).
    { unfold is_spread. rewrite Hd, Eotl. fold n. destruct lower; [destruct Hshape as (_ & _ & _ & _ & _ & S6); rewrite S6; reflexivity|destruct Hshape as (_ & S6); rewrite S6; reflexivity]. }
    fold d. rewrite Hsp. set (sp := match lower with Some _ => false | None => equal_allow o (equal_type (S n) upper (S n)) (S n) end). split.
    + intros v Hv. apply V2 in Hv. apply info_snoc; [exact Hi| | |apply Hstr; exact Hv].
      * intros t r E. destruct lower as [lo|]; [discriminate|]. injection E as <- <-. destruct Hshape as (S1 & _). split; [exact S1|]. split; [rewrite Forall_forall in Hlen; apply Hlen; left; reflexivity|]. split; [exact Ha|].
        apply Hmem in Hv. split; [inversion Hv; assumption|]. rewrite Forall_forall in Hav'. apply Hav'. left. reflexivity.
      * unfold sp. destruct lower; discriminate.
    + intros rho body T Hr Hb.
      destruct (modulo_guard_ok rho x spread nfo st upper lower Hr Hi Hlen Hav' Ha Hshape') as (sat' & fs' & b & N1 & N2 & N3). fold n in N1. rewrite M1 in N1. injection N1 as <- <-.
      cbn [andb] in N3, M3. assert (Hbb : b0 = true <-> b = true) by (rewrite M3, N3; reflexivity). rewrite plug_app.
      apply (run_spread (List.length x) fs rho b T _ vs N2).
      * intros ->. assert (Hv1 : vs = [bv]) by (apply V4; cbn; apply Hbb; reflexivity). subst vs. exists bv. fold n. destruct sp eqn:Es.
        -- cbn [plug fold_right]. destruct (Hb bv rho) as (rho2 & B1 & B2); [left; reflexivity|apply env_snoc; [exact Hr|apply Hi|discriminate]|].
           exists rho2. split; [reflexivity|]. split; [exact B1|]. eapply keeps_le; [|exact B2]. unfold n. lia.
        -- destruct (Hbe rho Hr) as (e & E1 & E2). set (rho1 := assign rho (iter_name (S n)) bv).
           assert (K1 : keeps n rho rho1) by (apply keeps_assign; lia).
           destruct (Hb bv rho1) as (rho2 & B1 & B2); [left; reflexivity|apply env_snoc; [eapply env_keeps; [exact Hr|exact K1]|apply Hi|intros _; apply assign_same]|].
           exists rho2. split; [reflexivity|]. assert (K2 : keeps n rho rho2) by (eapply keeps_trans; [exact K1|eapply keeps_le; [|exact B2]; unfold n; lia]). split; [|exact K2].
           rewrite E1. assert (X : exec (plug1 (FAss (iter_name (S n)) (Some e)) body) rho = Some (rho2, T bv)).
           { cbn [plug1 exec]. rewrite exec1_list. cbn [eval_opt]. rewrite E2. fold rho1. rewrite B1. reflexivity. }
           destruct (co_block o); cbn [app plug fold_right]; [|exact X]. cbn [plug1]. rewrite exec_single, exec1_list. exact X.
      * intros ->. destruct V3 as [-> | ->]; [|reflexivity]. exfalso. assert (A : true && b0 = true) by (apply V4; reflexivity). cbn in A. apply Hbb in A. discriminate.
  - (* a loop that runs at most once *)
    assert (Hsp : is_spread P rows_of o d = false) by (unfold is_spread; rewrite Eotl; reflexivity).
    set (e2 := bound_from_constraint (S n) upper (S n)) in *. set (e1 := match lower with None => e2 | Some l => bound_from_constraint (S n) l (S n) end) in *.
    set (b1 := match lower with None => bv | Some lo => bound_val lo n (x ++ 0 :: pv) end).
    assert (He12 : forall rho, env_ok rho x spread -> exists x1 x2, e1 = Some x1 /\ e2 = Some x2 /\ eval rho x1 = Some b1 /\ eval rho x2 = Some bv).
    { intros rho Hr. destruct (Hbe rho Hr) as (x2 & E1 & E2). unfold e1, e2, b1. destruct lower as [lo|].
      - destruct (bound_eval iter_name par_name rho (S n) lo n (x ++ 0 :: pv)) as (x1 & F1 & F2).
        + destruct Hshape as (_ & _ & O & _). apply opposite_spec in O. destruct O as (_ & O). rewrite O. lia.
        + apply (loop_known rho x spread lo 0 Hr); [rewrite Forall_forall in Hlen; apply Hlen; right; left; reflexivity|rewrite Forall_forall in Hav'; apply Hav'; right; left; reflexivity].
        + exists x1, x2. auto.
      - exists x2, x2. auto. }
    destruct (He12 rho0 He) as (x1 & x2 & X1 & X2 & _ & _).
    assert (Hfb : for_bound o e1 e2 = (e1, e2)). { unfold for_bound. rewrite X1, X2. destruct (negb (co_callable o)); reflexivity. }
    rewrite Hfb in Hins. injection Hins as <-. unfold header_right. fold d. rewrite Hsp.
    assert (Hpos : 0 < stride_of st). { unfold stride_of. destruct st as [[s off]|]; [|lia]. unfold stride_usable in Hst. unfold const_stride in Hcs.
      destruct (l_st P l) as [[[s' off'] [c|]]|]; try discriminate. injection Hcs as -> ->. apply Hst. }
    assert (Hval : forall v, enters P Se l (x ++ [v]) <-> v = bv /\ b1 <= bv).
    { intros v. rewrite Hmem. split.
      - intros Hv. pose proof (Huniq v Hv) as ->. split; [reflexivity|]. unfold b1. destruct lower as [lo|]; [|lia]. destruct Hshape as (S1 & S2 & S3 & S4 & S5 & _). inversion Hv as [|? ? _ H2]; subst. inversion H2 as [|? ? H3 _]; subst.
        apply (bound_lower lo n (x ++ bv :: pv) S2) in H3; [|destruct (opposite_spec _ _ S3) as (_ & Oc); rewrite Oc; lia]. unfold n in H3. rewrite nth_mid in H3. fold n in H3.
        replace (bound_val lo n (x ++ 0 :: pv)) with (bound_val lo n (x ++ bv :: pv)); [exact H3|]. apply bound_ext. intros i Hne _. apply nth_other. exact Hne.
      - intros (-> & Hb1). constructor.
        + destruct lower as [lo|].
          * destruct Hshape as (S1 & S2 & S3 & S4 & S5 & _). apply (bound_upper upper n (x ++ bv :: pv) S1 ltac:(lia)). unfold n at 1. rewrite nth_mid. rewrite Hbv. lia.
          * destruct Hshape as (S1 & S6). specialize (Hunit eq_refl). unfold unit_equation in Hunit. rewrite Hd in Hunit. specialize (Hunit upper S6). rewrite Nat.sub_succ, Nat.sub_0_r in Hunit. fold n in Hunit.
            destruct (proj1 (solve_eq upper x pv S1 Ha)) as (v & Hv); [fold n; rewrite Hunit; apply Z.mod_1_r|]. pose proof (bound_equal upper n _ S1 Ha Hv) as B. unfold n in B. rewrite nth_mid in B. fold n in B. rewrite Hbv in B. subst v. exact Hv.
        + destruct lower as [lo|]; [|constructor]. destruct Hshape as (S1 & S2 & S3 & S4 & S5 & _). constructor; [|constructor].
          apply (bound_lower lo n (x ++ bv :: pv) S2); [destruct (opposite_spec _ _ S3) as (_ & Oc); rewrite Oc; lia|]. unfold n at 2. rewrite nth_mid.
          replace (bound_val lo n (x ++ bv :: pv)) with (bound_val lo n (x ++ 0 :: pv)); [exact Hb1|]. apply bound_ext. intros i Hne _. apply nth_other. exact Hne. }
    assert (Hb1 : b1 <= bv -> b1 = bv).
    { intros Hle. unfold b1 in *. destruct lower as [lo|]; [|reflexivity]. assert (Hv : enters P Se l (x ++ [b1])).
      { apply Hmem. destruct Hshape as (S1 & S2 & S3 & S4 & S5 & _). constructor; [|constructor; [|constructor]].
        - apply (bound_upper upper n (x ++ b1 :: pv) S1 ltac:(lia)). unfold n at 1. rewrite nth_mid, Hbv. exact Hle.
        - apply (bound_lower lo n (x ++ b1 :: pv) S2); [destruct (opposite_spec _ _ S3) as (_ & Oc); rewrite Oc; lia|]. unfold n at 2. rewrite nth_mid.
          replace (bound_val lo n (x ++ b1 :: pv)) with b1; [lia|]. unfold b1. apply bound_ext. intros i Hne _. apply nth_other. exact Hne. }
      apply Hval in Hv. apply Hv. }
    exists (if b1 <=? bv then [bv] else []). split; [destruct (b1 <=? bv); [apply one_sorted|constructor]|]. split; [|split].
    + intros v. rewrite Hval. destruct (Z.leb_spec b1 bv); cbn [In]; split; [intros [<-|[]]; auto|intros [-> _]; auto|intros []|intros [_ A]; lia].
    + intros v Hv. assert (Hv' : enters P Se l (x ++ [v])). { apply Hval. destruct (Z.leb_spec b1 bv); [|destruct Hv]. destruct Hv as [<-|[]]. auto. }
      apply info_snoc; [exact Hi|discriminate|discriminate|apply Hstr; exact Hv'].
    + intros rho body T Hr Hb. destruct (He12 rho Hr) as (y1 & y2 & Y1 & Y2 & Y3 & Y4). cbn [plug fold_right plug1]. rewrite exec_single, exec1_list.
      rewrite Y1, Y2. cbn [eval_opt]. rewrite Y3, Y4. assert (Hp : (0 <? stride_of st) = true) by (apply Z.ltb_lt; exact Hpos). rewrite Hp.
      assert (Htr : map (fun i => b1 + stride_of st * Z.of_nat i) (seq 0 (trip_count b1 bv (stride_of st))) = (if b1 <=? bv then [bv] else [])).
      { unfold trip_count. destruct (Z.leb_spec b1 bv) as [G|G].
        - rewrite (Hb1 G). destruct (Z.ltb_spec bv bv); [lia|]. rewrite Z.sub_diag, Z.div_0_l by lia. change (Z.to_nat (0 + 1)) with 1%nat. cbn [seq map]. f_equal. lia.
        - destruct (Z.ltb_spec bv b1); [reflexivity|lia]. }
      destruct (iterate_ok n (exec body) (stride_of st) T (fun _ _ => True) (trip_count b1 bv (stride_of st)) b1 rho) as (rho' & R1 & R2).
      * intros u rho1 Hu Hk Hn. rewrite Htr in Hu. destruct (Hb u rho1) as (rho2 & B1 & B2); [exact Hu|apply env_snoc; [eapply env_keeps; [exact Hr|exact Hk]|apply Hi|intros _; exact Hn]|].
        exists rho2. split; [exact B1|]. eapply keeps_le; [|exact B2]. unfold n. lia.
      * exists rho'. rewrite <- Htr. split; [exact R1|exact R2].
Qed.

(** bounds *)
Lemma find_none_eq (rows : list row) n : defining_equality (S n) rows (S n) = None -> forall r, In r rows -> involves r n = true -> r_eq r = false.
Proof.
  intros H r Hr Hv. unfold defining_equality in H. apply find_none with (x := r) in H; [|exact Hr]. rewrite last_iterator_self, Hv, andb_true_r in H. exact H.
Qed.
Lemma in_valid_low rows n r : In r rows -> r_eq r = false -> 0 < coef r n -> In r (valid_low (S n) 0 false rows).
Proof.
  intros Hr He Hc. apply filter_In. split; [exact Hr|]. unfold valid_bound. rewrite Nat.sub_succ, Nat.sub_0_r, He. unfold is_lower_bound. apply Z.ltb_lt in Hc. rewrite Hc. reflexivity.
Qed.
Lemma in_valid_up rows n r : In r rows -> r_eq r = false -> coef r n < 0 -> In r (valid_up (S n) 0 false rows).
Proof.
  intros Hr He Hc. apply filter_In. split; [exact Hr|]. unfold valid_bound. rewrite Nat.sub_succ, Nat.sub_0_r, He. unfold is_upper_bound. apply Z.ltb_lt in Hc. rewrite Hc. reflexivity.
Qed.

Lemma eval_single rho t y : eval rho (ERed t [y]) = eval rho y.
Proof. cbn. destruct (eval rho y); reflexivity. Qed.
Fixpoint bigger2_val (rho : env) (v : Z) (e : expr) {struct e} : forall z, is_bigger_constant2 v e = true -> eval rho e = Some z -> z < v.
Proof.
  destruct e as [s|w [y|]|t y q|t [|y [|y2 ys]]]; intros z H E; cbn [is_bigger_constant2] in H; try discriminate.
  - cbn in E. injection E as <-. apply Z.gtb_lt in H. exact H.
  - rewrite eval_single in E. exact (bigger2_val rho v y z H E).
Qed.
Fixpoint bigger1_val (rho : env) (e1 e2 : expr) {struct e1} : forall z1 z2, is_bigger_constant1 e1 e2 = true -> eval rho e1 = Some z1 -> eval rho e2 = Some z2 -> z2 < z1.
Proof.
  destruct e1 as [s|w [y|]|t y q|t [|y [|y2 ys]]]; intros z1 z2 H E1 E2; cbn [is_bigger_constant1] in H; try discriminate.
  - cbn in E1. injection E1 as <-. exact (bigger2_val rho w e2 z2 H E2).
  - rewrite eval_single in E1. exact (bigger1_val rho y e2 z1 z2 H E1 E2).
Qed.

Lemma for_right x spread nfo st l (res : option (list frame)) rho0 : let d := l_dom P l in let n := List.length x in
  env_ok rho0 x spread -> info_ok nfo x spread -> const_stride P l = Some st ->
  rows_exact P Se rows_of pv d -> dim P d = S n -> Forall (avoids spread) (rows_of d) -> guard_true x (rows_of d) ->
  stride_usable P Se rows_of l -> has_equation P rows_of d = false -> bounded P rows_of d ->
  (l_otl P l = true -> forall v v', enters P Se l (x ++ [v]) -> enters P Se l (x ++ [v']) -> v = v') ->
  insert_for o (S n) (rows_of d) st (S n) (l_otl P l) = Some res ->
  header_right x spread nfo st l (match res with None => None | Some fs => Some (fs, None, false) end).
Proof.
  intros d n He Hi Hcs Hex Hd Hav Hg Hst Heq Hbd Hotl Hins.
  assert (Hde : defining_equality (S n) (rows_of d) (S n) = None). { unfold has_equation in Heq. rewrite Hd in Heq. fold n in Heq. destruct (defining_equality (S n) (rows_of d) (S n)); [destruct (defining_inequalities (S n) (rows_of d) (S n)); discriminate|reflexivity]. }
  assert (Hsp : is_spread P rows_of o d = false) by (unfold is_spread; rewrite Hd; fold n; rewrite Hde; apply andb_false_r).
  set (LO := valid_low (S n) 0 false (rows_of d)). set (UP := valid_up (S n) 0 false (rows_of d)).
  assert (HLO : LO <> [] /\ UP <> []).
  { specialize (Hbd Heq). rewrite Hd, Nat.sub_succ, Nat.sub_0_r in Hbd. fold n in Hbd. destruct Hbd as (B1 & B2). apply Exists_exists in B1. apply Exists_exists in B2.
    destruct B1 as (r1 & R1 & B1). destruct B2 as (r2 & R2 & B2). unfold is_lower_bound in B1. unfold is_upper_bound in B2. apply Z.ltb_lt in B1, B2. split; intros E.
    - assert (A : In r1 LO). { apply in_valid_low; [exact R1| |exact B1]. apply (find_none_eq _ _ Hde r1 R1). unfold involves. destruct (Z.eqb_spec (coef r1 n) 0); [lia|reflexivity]. } rewrite E in A. destruct A.
    - assert (A : In r2 UP). { apply in_valid_up; [exact R2| |exact B2]. apply (find_none_eq _ _ Hde r2 R2). unfold involves. destruct (Z.eqb_spec (coef r2 n) 0); [lia|reflexivity]. } rewrite E in A. destruct A. }
  destruct HLO as (HLO & HUP).
  assert (Hkn : forall rho, env_ok rho x spread -> forall r, In r (rows_of d) -> knows rho (S n) r n (x ++ 0 :: pv)).
  { intros rho Hr r Hin. apply (loop_known rho x spread r 0 Hr); [destruct Hex as (Hl & _); rewrite Forall_forall in Hl; rewrite (Hl r Hin); unfold n; lia|rewrite Forall_forall in Hav; apply Hav; exact Hin]. }
  assert (Hstc : match st with None => True | Some (s, off) => 0 < s /\ Forall (fun r => forall i, i <> n -> coef r i = 0) LO end).
  { unfold stride_usable in Hst. unfold const_stride in Hcs. destruct (l_st P l) as [[[s off] [c|]]|]; try discriminate; injection Hcs as <-; [|exact I]. fold d in Hst. rewrite Heq in Hst. destruct Hst as (H1 & H2). split; [exact H1|].
    apply Forall_forall. intros r Hr. apply valid_low_in in Hr. destruct Hr as (R1 & R2 & R3). rewrite Forall_forall in H2. specialize (H2 r R1). rewrite Hd, Nat.sub_succ, Nat.sub_0_r in H2. apply H2. unfold is_lower_bound. apply Z.ltb_lt. exact R2. }
  set (strided := fun t => match st with None => True | Some (s, off) => (t - off) mod s = 0 end).
  assert (Hlow : forall rho, env_ok rho x spread -> exists e z, minmax (S n) (rows_of d) (S n) true 0 false st = Some e /\ eval rho e = Some z /\ strided z /\
     forall t, strided t -> (z <= t <-> Forall (row_holds (x ++ t :: pv)) LO)).
  { intros rho Hr. destruct (minmax_low iter_name par_name sort_exprs sort_exprs_perm rho (S n) (rows_of d) n 0 false st (x ++ 0 :: pv)) as (e & z & M1 & M2 & M3 & M4).
    - exact HLO.
    - apply Forall_forall. intros r Hin. apply valid_low_in in Hin. apply Hkn; [exact Hr|apply Hin].
    - exact Hstc.
    - exists e, z. split; [exact M1|]. split; [exact M2|]. split; [exact M3|]. intros t Ht. apply M4; [|exact Ht]. split; [apply nth_mid|intros i Hne; apply nth_other; exact Hne]. }
  assert (Hup : forall rho, env_ok rho x spread -> exists e z, minmax (S n) (rows_of d) (S n) false 0 false None = Some e /\ eval rho e = Some z /\
     forall t, (t <= z <-> Forall (row_holds (x ++ t :: pv)) UP)).
  { intros rho Hr. destruct (minmax_up iter_name par_name sort_exprs sort_exprs_perm rho (S n) (rows_of d) n 0 false (x ++ 0 :: pv)) as (e & z & M1 & M2 & M4).
    - exact HUP.
    - apply Forall_forall. intros r Hin. apply valid_up_in in Hin. apply Hkn; [exact Hr|apply Hin].
    - exists e, z. split; [exact M1|]. split; [exact M2|]. intros t. apply M4. split; [apply nth_mid|intros i Hne; apply nth_other; exact Hne]. }
  destruct (Hlow rho0 He) as (e1 & z1 & L1 & L2 & L3 & L4). destruct (Hup rho0 He) as (e2 & z2 & U1 & U2 & U4).
  assert (Hen : forall v, enters P Se l (x ++ [v]) <-> strided v /\ z1 <= v <= z2).
  { intros v. unfold enters. fold d. rewrite (mem_rows d x v Hex Hd Hg). fold n. rewrite (st_const l st x v Hcs).
    assert (Hs : match st with Some (s, off) => ((v - off) mod s =? 0) | None => true end = true <-> strided v) by (unfold strided; destruct st as [[s off]|]; [apply Z.eqb_eq|tauto]).
    rewrite Hs. split.
    - intros (A & B). split; [exact B|]. rewrite Forall_forall in A. rewrite (L4 v B), (U4 v). split; apply Forall_forall; intros r Hr.
      + apply valid_low_in in Hr. destruct Hr as (R1 & R2 & R3). apply A; [exact R1|]. unfold involves. destruct (Z.eqb_spec (coef r n) 0); [lia|reflexivity].
      + apply valid_up_in in Hr. destruct Hr as (R1 & R2 & R3). apply A; [exact R1|]. unfold involves. destruct (Z.eqb_spec (coef r n) 0); [lia|reflexivity].
    - intros (B & A1 & A2). split; [|exact B]. rewrite (L4 v B) in A1. rewrite (U4 v) in A2. rewrite Forall_forall in A1, A2. apply Forall_forall. intros r Hr Hinv.
      pose proof (find_none_eq _ _ Hde r Hr Hinv) as Hne. pose proof (involves_ne r n Hinv) as Hc. destruct (Z.lt_ge_cases 0 (coef r n)) as [G|G].
      + apply A1. apply in_valid_low; assumption.
      + apply A2. apply in_valid_up; [assumption|assumption|lia]. }
  assert (Hsame : forall rho, env_ok rho x spread -> eval rho e1 = Some z1 /\ eval rho e2 = Some z2).
  { intros rho Hr. destruct (Hlow rho Hr) as (f1 & y1 & F1 & F2 & F3 & F4). destruct (Hup rho Hr) as (f2 & y2 & G1 & G2 & G4). rewrite L1 in F1. injection F1 as <-. rewrite U1 in G1. injection G1 as <-.
    assert (A : z1 <= y1) by (apply (L4 y1 F3); apply (F4 y1 F3); lia). assert (B : y1 <= z1) by (apply (F4 z1 L3); apply (L4 z1 L3); lia).
    assert (C : z2 <= y2) by (apply (G4 z2); apply (U4 z2); lia). assert (D : y2 <= z2) by (apply (U4 y2); apply (G4 y2); lia).
    replace z1 with y1 by lia. replace z2 with y2 by lia. auto. }
  assert (Hpos : 0 < stride_of st). { unfold stride_of. destruct st as [[s off]|]; [apply Hstc|lia]. }
  set (vs := map (fun i => z1 + stride_of st * Z.of_nat i) (seq 0 (trip_count z1 z2 (stride_of st)))).
  assert (Hvs : forall v, In v vs <-> enters P Se l (x ++ [v])).
  { intros v. unfold vs. rewrite trip_spec by exact Hpos. rewrite Hen. unfold strided in *. destruct st as [[s off]|]; cbn [stride_of] in *.
    - split; intros (A & B); split; try assumption.
      + apply Z.mod_divide in B; [|lia]. apply Z.mod_divide in L3; [|lia]. apply Z.mod_divide; [lia|]. destruct B as (q & B). destruct L3 as (q' & L3). exists (q + q'). lia.
      + apply Z.mod_divide in A; [|lia]. apply Z.mod_divide in L3; [|lia]. apply Z.mod_divide; [lia|]. destruct A as (q & A). destruct L3 as (q' & L3). exists (q - q'). lia.
    - rewrite Z.mod_1_r. tauto. }
  assert (Hinfo : forall v, In v vs -> info_ok {| i_eqs := i_eqs nfo ++ [None]; i_strides := i_strides nfo ++ [st] |} (x ++ [v]) (spread ++ [false])).
  { intros v Hv. apply info_snoc; [exact Hi|discriminate|discriminate|]. intros s off ->. apply Hvs in Hv. apply Hen in Hv. destruct Hv as (Hv & _). split; [apply Hstc|exact Hv]. }
  exists vs. split; [apply trip_sorted; exact Hpos|]. split; [exact Hvs|].
  unfold ClastModel.insert_for in Hins. rewrite L1, U1 in Hins. cbn [is_bigger_constant] in Hins. destruct (is_bigger_constant1 e1 e2) eqn:Eb.
  { injection Hins as <-. pose proof (bigger1_val rho0 e1 e2 z1 z2 Eb L2 U2) as Hlt. unfold vs, trip_count. destruct (Z.ltb_spec z2 z1); [reflexivity|lia]. }
  destruct (co_otl o && expr_equal e1 e2); [discriminate|]. fold d. destruct (l_otl P l) eqn:Eo.
  - injection Hins as <-. rewrite Hsp. split; [exact Hinfo|]. intros rho body T Hr Hb. destruct (Hsame rho Hr) as (S1 & S2).
    set (rho1 := assign rho (iter_name (S n)) z1). assert (K1 : keeps n rho rho1) by (apply keeps_assign; lia).
    assert (E1 : env_ok rho1 x spread) by (eapply env_keeps; [exact Hr|exact K1]). destruct (Hsame rho1 E1) as (_ & S3).
    assert (X : exists rho', exec (plug [FAss (iter_name (S n)) (Some e1); FGuard [{| e_lhs := ETerm 1 (Some (EName (iter_name (S n)))); e_rhs := Some e2; e_sign := -1 |}]] body) rho = Some (rho', flat_map T vs) /\ keeps n rho rho').
    { cbn [plug fold_right plug1 exec]. rewrite exec1_list. cbn [eval_opt]. rewrite S1. fold rho1. rewrite exec1_list. cbn [all_hold]. unfold eqn_holds. cbn [e_lhs e_rhs e_sign eval eval_opt].
      unfold rho1 at 1. rewrite assign_same. rewrite S3. cbn [Z.eqb Z.ltb Z.compare]. rewrite andb_true_r. replace (1 * z1) with z1 by lia. destruct (Z.leb_spec z1 z2) as [G|G].
      - assert (Hz : enters P Se l (x ++ [z1])) by (apply Hen; split; [exact L3|lia]). assert (Ev : vs = [z1]).
        { assert (A : forall v, In v vs -> v = z1) by (intros v Hv; apply Hvs in Hv; apply (Hotl eq_refl); assumption). assert (B : In z1 vs) by (apply Hvs; exact Hz).
          assert (Sd : StronglySorted Z.lt vs) by (apply trip_sorted; exact Hpos). destruct vs as [|a [|b vs']]; [destruct B|rewrite (A a (or_introl eq_refl)); reflexivity|].
          inversion Sd as [|? ? _ F]; subst. inversion F as [|? ? F1 _]; subst. pose proof (A a (or_introl eq_refl)). pose proof (A b (or_intror (or_introl eq_refl))). lia. }
        destruct (Hb z1 rho1) as (rho2 & B1 & B2); [rewrite Ev; left; reflexivity|apply env_snoc; [exact E1|apply Hi|intros _; apply assign_same]|].
        rewrite B1. exists rho2. rewrite Ev. cbn [flat_map]. rewrite app_nil_r. cbn [app]. rewrite ?app_nil_r. split; [reflexivity|]. eapply keeps_trans; [exact K1|eapply keeps_le; [|exact B2]; unfold n; lia].
      - exists rho1. split; [|exact K1]. unfold vs, trip_count. destruct (Z.ltb_spec z2 z1); [reflexivity|lia]. }
    destruct (co_block o); cbn [app]; [|exact X]. change (FBlock :: ?r) with ([FBlock] ++ r). rewrite plug_app. cbn [plug fold_right]. cbn [plug1]. rewrite exec_single, exec1_list. exact X.
  - assert (Hfb : for_bound o (Some e1) (Some e2) = (Some e1, Some e2)) by (unfold for_bound; destruct (negb (co_callable o)); reflexivity).
    rewrite Hfb in Hins. injection Hins as <-. rewrite Hsp. split; [exact Hinfo|]. intros rho body T Hr Hb. destruct (Hsame rho Hr) as (S1 & S2).
    cbn [plug fold_right plug1]. rewrite exec_single, exec1_list. cbn [eval_opt]. rewrite S1, S2. assert (Hp : (0 <? stride_of st) = true) by (apply Z.ltb_lt; exact Hpos). rewrite Hp.
    apply (iterate_ok n (exec body) (stride_of st) T (fun _ _ => True)).
    intros u rho1 Hu Hk Hn. destruct (Hb u rho1) as (rho2 & B1 & B2); [exact Hu|apply env_snoc; [eapply env_keeps; [exact Hr|exact Hk]|apply Hi|intros _; exact Hn]|].
    exists rho2. split; [exact B1|]. eapply keeps_le; [|exact B2]. unfold n. lia.
Qed.

Theorem header_ok x spread nfo st l res rho0 : let d := l_dom P l in let n := List.length x in
  env_ok rho0 x spread -> info_ok nfo x spread -> const_stride P l = Some st ->
  rows_exact P Se rows_of pv d -> rows_normal P rows_of d -> dim P d = S n -> Forall (avoids spread) (rows_of d) -> guard_true x (rows_of d) ->
  stride_usable P Se rows_of l -> bounded P rows_of d -> (co_otl o = false -> unit_equation P rows_of d) ->
  (l_otl P l = true -> forall v v', enters P Se l (x ++ [v]) -> enters P Se l (x ++ [v']) -> v = v') ->
  insert_header o np {| i_eqs := i_eqs nfo; i_strides := i_strides nfo ++ [st] |} (S n) l st = Some res ->
  header_right x spread nfo st l res.
Proof.
  intros d n He Hi Hcs Hex Hnorm Hd Hav Hg Hst Hbd Hun Hotl. unfold ClastModel.insert_header. fold d. rewrite Hd.
  destruct (Nat.eqb_spec (S n) 0); [lia|]. rewrite Nat.leb_refl. cbn [negb andb].
  destruct (defining_equality (S n) (rows_of d) (S n)) as [r|] eqn:Ede.
  - assert (Hfind := Ede). unfold defining_equality in Hfind. apply find_some in Hfind. destruct Hfind as (Hin & Hp). rewrite last_iterator_self in Hp. apply andb_true_iff in Hp. destruct Hp as (Hp1 & Hp2).
    assert (Hall : forall s, In s (rows_of d) -> involves s n = true -> In s (the_rows r None)).
    { intros s Hs Hsi. apply in_split in Hin. destruct Hin as (pre & post & E). destruct Hnorm as (_ & _ & Hn). rewrite Hd, Nat.sub_succ, Nat.sub_0_r in Hn. specialize (Hn pre r post E Hp1 Hp2). rewrite Forall_forall in Hn.
      rewrite E in Hs. apply in_app_or in Hs. destruct Hs as [Hs|[Hs|Hs]]; [|left; exact Hs|]; rewrite (Hn s) in Hsi by (apply in_or_app; auto); discriminate. }
    assert (Heq : has_equation P rows_of d = true) by (unfold has_equation; rewrite Hd; fold n; rewrite Ede; reflexivity).
    destruct (insert_equation o (S n) {| i_eqs := i_eqs nfo; i_strides := i_strides nfo ++ [st] |} st r None (S n)) as [res'|] eqn:Ei; [|discriminate].
    intros H. pose proof (equation_right x spread nfo st l r None res' rho0 He Hi Hcs Hex Hd Hav Hg Hst Heq Hun) as R. cbv zeta in R. fold d n in R.
    specialize (R ltac:(intros s [<-|[]]; exact Hin) (involves_ne r n Hp2) (conj Hp1 Ede) Hall Ei true). destruct res' as [[fs e]|]; injection H as <-; exact R.
  - destruct (defining_inequalities (S n) (rows_of d) (S n)) as [[u lo]|] eqn:Edi.
    + assert (Heq : has_equation P rows_of d = true) by (unfold has_equation; rewrite Hd; fold n; rewrite Ede, Edi; reflexivity).
      assert (Hf := Edi). unfold defining_inequalities in Hf. destruct (find _ (list_prod (rows_of d) (rows_of d))) as [[u' lo']|] eqn:Ef; [|discriminate].
      destruct (existsb _ (rows_of d)) eqn:Eex; [discriminate|]. injection Hf as -> ->. apply find_some in Ef. destruct Ef as (Hin & Hp). apply in_prod_iff in Hin. destruct Hin as (Hin1 & Hin2). cbn [fst snd] in Hp.
      unfold defining_pair in Hp. rewrite last_iterator_self, Nat.sub_succ, Nat.sub_0_r in Hp. repeat (apply andb_true_iff in Hp; let H := fresh "Q" in destruct Hp as (Hp & H)).
      apply negb_true_iff in Hp, Q3. apply Z.ltb_lt in Q, Q0.
      assert (Hall : forall s, In s (rows_of d) -> involves s n = true -> In s (the_rows u (Some lo))).
      { intros s Hs Hsi. rewrite Nat.sub_succ, Nat.sub_0_r in Eex. destruct (row_eqb s u) eqn:E1; [left; symmetry; apply row_eqb_eq; exact E1|]. destruct (row_eqb s lo) eqn:E2; [right; left; symmetry; apply row_eqb_eq; exact E2|].
        assert (A : existsb (fun c => negb (row_eqb c u) && negb (row_eqb c lo) && involves c n) (rows_of d) = true) by (apply existsb_exists; exists s; split; [exact Hs|rewrite E1, E2, Hsi; reflexivity]). congruence. }
      destruct (insert_equation o (S n) {| i_eqs := i_eqs nfo; i_strides := i_strides nfo ++ [st] |} st u (Some lo) (S n)) as [res'|] eqn:Ei; [|discriminate].
      assert (Hk : 0 <= r_k u + r_k lo) by (destruct Hnorm as (_ & Hn & _); apply Hn; assumption).
      intros H. pose proof (equation_right x spread nfo st l u (Some lo) res' rho0 He Hi Hcs Hex Hd Hav Hg Hst Heq Hun) as R. cbv zeta in R. fold d n in R.
      assert (Hsh : r_eq u = false /\ r_eq lo = false /\ opposite u lo = true /\ 0 <= r_k u + r_k lo < - coef u n /\ coef u n < -1 /\ defining_equality (S n) (rows_of d) (S n) = None) by (repeat split; try assumption; lia).
      specialize (R ltac:(intros s [<-|[<-|[]]]; assumption) ltac:(lia) Hsh Hall Ei false). destruct res' as [[fs e]|]; injection H as <-; exact R.
    + assert (Heq : has_equation P rows_of d = false) by (unfold has_equation; rewrite Hd; fold n; rewrite Ede, Edi; reflexivity).
      destruct (insert_for o (S n) (rows_of d) st (S n) (l_otl P l)) as [res'|] eqn:Ei; [|discriminate]. intros H.
      pose proof (for_right x spread nfo st l res' rho0 He Hi Hcs Hex Hd Hav Hg Hst Heq Hbd Hotl Ei) as R. destruct res' as [fs|]; injection H as <-; exact R.
Qed.
End Header.
