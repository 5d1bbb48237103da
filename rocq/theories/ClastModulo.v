(** Modulo guards: whether an equality, or a pair of inequalities, has an integer solution. *)
From Coq Require Import ZArith List Bool Arith String Sorted Permutation Lia.
From Verif Require Import LoopModel LoopSpec ClastModel ClastSpec ClastBounds ClastGuards.
Import ListNotations.
Local Open Scope Z_scope.
Local Arguments Nat.ltb : simpl never. Local Arguments Nat.leb : simpl never. Local Arguments Nat.eqb : simpl never. Local Arguments Nat.sub : simpl never.
Local Arguments Z.mul : simpl never. Local Arguments Z.add : simpl never. Local Arguments Z.modulo : simpl never.

(** what the frames [fs] do when they only test something *)
Definition opens (fs : list frame) (rho : env) (c : bool) : Prop :=
  forall body, exec (plug fs body) rho = if c then exec body rho else Some (rho, []).
Lemma opens_nil rho : opens [] rho true.
Proof. intros body. reflexivity. Qed.

Lemma mod_eq a b m : 0 < m -> (a mod m = b mod m <-> (m | a - b)).
Proof.
  intros Hm. split.
  - intros H. exists (a / m - b / m). pose proof (Z.div_mod a m ltac:(lia)). pose proof (Z.div_mod b m ltac:(lia)). nia.
  - intros (q & Hq). replace a with (b + q * m) by lia. apply Z.mod_add. lia.
Qed.
Lemma dot_set0 w : forall a v, dot (set_nth a v 0) w = dot a w - nth v a 0 * nth v w 0.
Proof.
  induction w as [|y w IH]; intros a v.
  - destruct a as [|z a], v; cbn; lia.
  - destruct a as [|z a]; [destruct v; cbn [set_nth dot nth]; lia|]. destruct v as [|v]; cbn [set_nth dot nth]; [lia|]. rewrite IH. lia.
Qed.
Lemma dot_map_mod m : 0 < m -> forall a w, (m | dot (map (fun z => z mod m) a) w - dot a w).
Proof.
  intros Hm. induction a as [|z a IH]; intros [|y w]; cbn [map dot]; try (exists 0; lia).
  destruct (IH w) as (q & Hq). exists (q - z / m * y). pose proof (Z.div_mod z m ltac:(lia)). nia.
Qed.
Lemma dot_opp a w : dot (map Z.opp a) w = - dot a w.
Proof. revert w. induction a as [|z a IH]; intros [|y w]; cbn [map dot]; try lia. rewrite IH. lia. Qed.
Lemma nth_map_opp a i : nth i (map Z.opp a) 0 = - nth i a 0.
Proof. change 0 with (Z.opp 0) at 1. apply map_nth. Qed.
Lemma nth_map_mod m a i : nth i (map (fun z => z mod m) a) 0 = nth i a 0 mod m.
Proof. replace 0 with ((fun z => z mod m) 0) at 1; [apply (map_nth (fun z => z mod m))|]. cbn beta. apply Zmod_0_l. Qed.

Section Modulo.
Variable iter_name : nat -> string.
Variable par_name : nat -> string.
Notation variable_expr := (variable_expr iter_name par_name).
Notation bound_from_constraint := (bound_from_constraint iter_name par_name).
Notation modulo_guard_constraint := (modulo_guard_constraint iter_name par_name).

(** a list of coefficients as a sum *)
Lemma line_terms rho N co w : (forall i, nth i co 0 <> 0 -> eval rho (variable_expr N (S i)) = Some (nth i w 0)) ->
  exists zs, vals rho (flat_map (fun i => let z := nth (i - 1) co 0 in if z =? 0 then [] else [ETerm z (Some (variable_expr N i))]) (seq 1 (List.length co))) = Some zs
    /\ zsum zs = dot co w.
Proof.
  intros K. cbv zeta. rewrite dot_sum. rewrite <- seq_shift. generalize (seq 0 (List.length co)) as l. induction l as [|i l (zs & H1 & H2)].
  - exists []. split; reflexivity.
  - cbn [map flat_map]. rewrite vals_app, H1. rewrite Nat.sub_succ, Nat.sub_0_r. cbn zeta. destruct (Z.eqb_spec (nth i co 0) 0) as [E|E].
    + cbn [vals app]. exists zs. split; [reflexivity|]. cbn [map zsum fold_right]. rewrite E. unfold zsum in *. lia.
    + cbn [vals eval]. change (rho (if (S i <=? N)%nat then iter_name (S i) else par_name (S i - N - 1))) with (eval rho (variable_expr N (S i))). rewrite (K i E).
      exists (nth i co 0 * nth i w 0 :: zs). split; [reflexivity|]. cbn [map zsum fold_right]. unfold zsum in *. lia.
Qed.
Lemma line_terms_nil N co w : flat_map (fun i => let z := nth (i - 1) co 0 in if z =? 0 then [] else [ETerm z (Some (variable_expr N i))]) (seq 1 (List.length co)) = [] ->
  dot co w = 0.
Proof.
  intros H. rewrite dot_sum. revert H. cbv zeta. rewrite <- seq_shift. generalize (seq 0 (List.length co)) as l. induction l as [|i l IH]; intros H; [reflexivity|].
  cbn [map flat_map] in H. rewrite Nat.sub_succ, Nat.sub_0_r in H. cbn zeta in H. destruct (Z.eqb_spec (nth i co 0) 0) as [E|E]; [|discriminate].
  cbn [app] in H. cbn [map zsum fold_right]. rewrite E. specialize (IH H). unfold zsum in IH. rewrite IH. lia.
Qed.

(** strides of the outer iterators that hold *)
Definition strides_hold (w : list Z) (sts : list (nat * option (Z * Z))) : Prop :=
  forall i s o, In (i, Some (s, o)) sts -> 0 < s /\ (nth (i - 1) w 0 - o) mod s = 0.
Lemma eliminate_ok m w : 0 < m -> forall sts line, strides_hold w sts -> 0 <= snd line < m ->
  let line' := fold_left (eliminate m) sts line in
  (m | dot (fst line') w + snd line' - (dot (fst line) w + snd line)) /\ 0 <= snd line' < m /\
  List.length (fst line') = List.length (fst line) /\ forall i, nth i (fst line') 0 <> 0 -> nth i (fst line) 0 <> 0.
Proof.
  intros Hm. induction sts as [|[i st] sts IH]; intros line Hs Hk; cbn [fold_left].
  - repeat split; try lia; auto. exists 0. lia.
  - assert (Hs' : strides_hold w sts) by (intros j s o Hj; apply (Hs j s o); right; exact Hj).
    assert (HE : (m | dot (fst (eliminate m line (i, st))) w + snd (eliminate m line (i, st)) - (dot (fst line) w + snd line)) /\
      0 <= snd (eliminate m line (i, st)) < m /\ List.length (fst (eliminate m line (i, st))) = List.length (fst line) /\
      forall j, nth j (fst (eliminate m line (i, st))) 0 <> 0 -> nth j (fst line) 0 <> 0).
    { unfold eliminate. cbn [fst snd]. destruct st as [[s o]|]; [|repeat split; try lia; auto; exists 0; lia].
      destruct (Z.eqb_spec (s mod m) 0) as [E|E]; [|repeat split; try lia; auto; exists 0; lia]. cbn [fst snd].
      destruct (Hs i s o (or_introl eq_refl)) as (Hs0 & Hc). split; [|split; [apply Z.mod_pos_bound; exact Hm|split; [apply set_nth_length|]]].
      - rewrite dot_set0. set (c := nth (i - 1) (fst line) 0). set (x := nth (i - 1) w 0) in *.
        apply Z.mod_divide in E; [|lia]. apply Z.mod_divide in Hc; [|lia]. destruct E as (q1 & E). destruct Hc as (q2 & Hc).
        pose proof (Z.div_mod (snd line + c * o) m ltac:(lia)) as D. exists (- ((snd line + c * o) / m) - c * q2 * q1).
        replace x with (o + q2 * (q1 * m)) by lia. lia.
      - intros j Hj. destruct (Nat.lt_ge_cases (i - 1) (List.length (fst line))) as [G|G].
        + rewrite set_nth_nth in Hj by exact G. destruct (j =? i - 1)%nat; [congruence|exact Hj].
        + assert (En : forall (l : list Z) k a, (List.length l <= k)%nat -> set_nth l k a = l).
          { induction l as [|y l IHl]; intros [|k] a Hl; cbn in *; try reflexivity; try lia. rewrite IHl by lia. reflexivity. }
          rewrite En in Hj by exact G. exact Hj. }
    destruct HE as (H1 & H2 & H3 & H4). destruct (IH (eliminate m line (i, st)) Hs' H2) as (I1 & I2 & I3 & I4).
    repeat split; try lia; auto. destruct H1 as (q & H1). destruct I1 as (q' & I1). exists (q + q'). lia.
Qed.

(** the number that has to be a multiple of the coefficient *)
Definition target (c : row) (n : nat) (w : list Z) (bound : Z) : Z :=
  if 0 <? coef c n then - rest c n w + (if r_eq c then 0 else bound) else rest c n w.
Lemma dot_rest c n w : nth n w 0 = 0 -> dot (r_co c) w + r_k c = rest c n w.
Proof. intros H. pose proof (row_rest c n w) as R. unfold row_val in R. rewrite H in R. lia. Qed.
Lemma modulo_constraint rho N nfo c lower bound n w :
  coef c n <> 0 -> nth n w 0 = 0 ->
  (forall i, i <> n -> coef c i <> 0 -> eval rho (variable_expr N (S i)) = Some (nth i w 0)) ->
  strides_hold w (List.combine (seq 1 n) (firstn n (i_strides nfo))) ->
  (lower = true -> 0 <= bound) ->
  exists sat fs b, modulo_guard_constraint N nfo c lower bound (S n) = Some (sat, fs) /\ opens fs rho b /\
    (sat && b = true <-> if lower then target c n w bound mod Z.abs (coef c n) <= bound else target c n w bound mod Z.abs (coef c n) = 0).
Proof.
  intros Ha Hw K Hst Hb. unfold ClastModel.modulo_guard_constraint. rewrite Nat.sub_succ, Nat.sub_0_r. fold (target c n w bound).
  set (flip := 0 <? coef c n). set (co := if flip then map Z.opp (r_co c) else r_co c). set (k := if flip then - r_k c + (if r_eq c then 0 else bound) else r_k c).
  set (m := - nth n co 0). set (T := target c n w bound).
  assert (Hm : m = Z.abs (coef c n)).
  { unfold m, co, flip. destruct (Z.ltb_spec 0 (coef c n)); [rewrite nth_map_opp; fold (coef c n); lia|fold (coef c n); lia]. }
  assert (HT : dot co w + k = T).
  { unfold T, target, co, k. fold flip. pose proof (dot_rest c n w Hw). destruct flip; [rewrite dot_opp|]; lia. }
  assert (Hm0 : 0 < m) by lia. destruct (Z.leb_spec m 0); [lia|]. rewrite <- Hm.
  set (co1 := map (fun z => z mod m) (set_nth co n 0)). set (k1 := k mod m).
  assert (H1 : (m | dot co1 w + k1 - T)).
  { destruct (dot_map_mod m Hm0 (set_nth co n 0) w) as (q & Hq). fold co1 in Hq. rewrite dot_set0, Hw in Hq. unfold k1. pose proof (Z.div_mod k m ltac:(lia)).
    exists (q - k / m). lia. }
  assert (Hk1 : 0 <= k1 < m) by (apply Z.mod_pos_bound; exact Hm0).
  assert (Hco1 : forall i, nth i co1 0 <> 0 -> i <> n /\ coef c i <> 0).
  { intros i Hi. unfold co1 in Hi. rewrite nth_map_mod in Hi.
    assert (Hln : (n < List.length co)%nat). { unfold co. pose proof (involves_lt c n) as L. unfold involves in L. destruct (Z.eqb_spec (coef c n) 0); [contradiction|]. specialize (L eq_refl). destruct flip; [rewrite map_length|]; exact L. }
    rewrite set_nth_nth in Hi by exact Hln. destruct (Nat.eqb_spec i n) as [E|E]; [rewrite Z.mod_0_l in Hi by lia; congruence|]. split; [exact E|].
    intros Hc. apply Hi. unfold co. destruct flip; [rewrite nth_map_opp|]; fold (coef c i); rewrite Hc; apply Z.mod_0_l; lia. }
  destruct (forallb (fun z => z =? 0) co1 && (k1 =? 0)) eqn:Ez.
  - exists true, [], true. split; [reflexivity|]. split; [apply opens_nil|]. apply andb_true_iff in Ez. destruct Ez as (E1 & E2). apply Z.eqb_eq in E2.
    assert (D0 : dot co1 w = 0). { clear - E1. revert w. induction co1 as [|z l IH]; intros [|y w]; cbn [dot]; try reflexivity. cbn in E1. apply andb_true_iff in E1. destruct E1 as (A & B). apply Z.eqb_eq in A. rewrite A, IH by exact B. lia. }
    assert (T0 : T mod m = 0). { rewrite D0, E2 in H1. apply Z.mod_divide; [lia|]. destruct H1 as (q & Hq). exists (- q). lia. }
    rewrite T0. cbn [andb]. destruct lower; [|tauto]. specialize (Hb eq_refl). split; [intros _; exact Hb|reflexivity].
  - pose proof (eliminate_ok m w Hm0 (rev (List.combine (seq 1 n) (firstn n (i_strides nfo)))) (co1, k1)) as EL. cbn [fst snd] in EL.
    assert (Hst' : strides_hold w (rev (List.combine (seq 1 n) (firstn n (i_strides nfo))))) by (intros i s o Hi; apply (Hst i s o); apply in_rev; exact Hi).
    specialize (EL Hst' Hk1). cbv zeta in EL.
    destruct (fold_left (eliminate m) (rev (List.combine (seq 1 n) (firstn n (i_strides nfo)))) (co1, k1)) as [co2 k2]. cbn [fst snd] in EL. destruct EL as (L1 & L2 & L3 & L4).
    assert (H2 : T mod m = (dot co2 w + k2) mod m). { apply mod_eq; [exact Hm0|]. destruct H1 as (q & H1). destruct L1 as (q' & L1). exists (- q - q'). lia. }
    set (terms := flat_map (fun i => let z := nth (i - 1) co2 0 in if z =? 0 then [] else [ETerm z (Some (variable_expr N i))]) (seq 1 (List.length co2))).
    assert (Kl : forall i, nth i co2 0 <> 0 -> eval rho (variable_expr N (S i)) = Some (nth i w 0)).
    { intros i Hi. destruct (Hco1 i (L4 i Hi)) as (A & B). apply K; assumption. }
    destruct (line_terms rho N co2 w Kl) as (zs & Z1 & Z2). fold terms in Z1. destruct terms as [|t0 ts] eqn:Et.
    + unfold terms in Et. apply (line_terms_nil N co2 w) in Et. rewrite Et in H2. rewrite Z.add_0_l, (Z.mod_small k2) in H2 by exact L2. rewrite H2.
      eexists _, [], true. split; [reflexivity|]. split; [apply opens_nil|]. rewrite andb_true_r. destruct lower; [apply Z.leb_le|apply Z.eqb_eq].
    + set (red := ERed RSum ((t0 :: ts) ++ (if k2 =? 0 then [] else [ETerm k2 None]))).
      assert (Hr : eval rho red = Some (dot co2 w + k2)).
      { unfold red. destruct (Z.eqb_spec k2 0) as [E|E].
        - rewrite app_nil_r. rewrite (eval_sum rho (t0 :: ts) zs Z1 ltac:(discriminate)). f_equal. lia.
        - rewrite (eval_sum rho _ (zs ++ [k2])); [rewrite zsum_app, Z2; cbn [zsum fold_right]; f_equal; lia|rewrite vals_app, Z1; reflexivity|discriminate]. }
      set (q := {| e_lhs := EBin BMod red m; e_rhs := Some (ETerm (if lower then bound else 0) None); e_sign := if lower then -1 else 0 |}).
      assert (Hq : eqn_holds rho q = Some (if lower then (T mod m <=? bound) else (T mod m =? 0))).
      { unfold eqn_holds, q. cbn [e_lhs e_rhs e_sign eval_opt]. change (eval rho (EBin BMod red m)) with (match eval rho red with Some z => Some (bin_val BMod z m) | None => None end).
        rewrite Hr. cbn [bin_val eval]. rewrite <- H2. destruct lower; reflexivity. }
      exists true, [FGuard [q]], (if lower then (T mod m <=? bound) else (T mod m =? 0)). split; [reflexivity|]. split.
      * intros body. cbn [plug fold_right plug1]. rewrite exec_single, exec1_list. cbn [all_hold]. rewrite Hq, andb_true_r.
        destruct (if lower then (T mod m <=? bound) else (T mod m =? 0)); reflexivity.
      * cbn [andb]. destruct lower; [apply Z.leb_le|apply Z.eqb_eq].
Qed.

(** a condition some values satisfy is not reported as unsatisfiable *)
Lemma modulo_sat N nfo c lower bound n w sat fs :
  coef c n <> 0 -> nth n w 0 = 0 -> strides_hold w (List.combine (seq 1 n) (firstn n (i_strides nfo))) ->
  modulo_guard_constraint N nfo c lower bound (S n) = Some (sat, fs) ->
  (if lower then target c n w bound mod Z.abs (coef c n) <= bound else target c n w bound mod Z.abs (coef c n) = 0) -> sat = true.
Proof.
  intros Ha Hw Hst. unfold ClastModel.modulo_guard_constraint. rewrite Nat.sub_succ, Nat.sub_0_r. fold (target c n w bound).
  set (flip := 0 <? coef c n). set (co := if flip then map Z.opp (r_co c) else r_co c). set (k := if flip then - r_k c + (if r_eq c then 0 else bound) else r_k c).
  set (m := - nth n co 0). set (T := target c n w bound).
  assert (Hm : m = Z.abs (coef c n)).
  { unfold m, co, flip. destruct (Z.ltb_spec 0 (coef c n)); [rewrite nth_map_opp; fold (coef c n); lia|fold (coef c n); lia]. }
  assert (HT : dot co w + k = T).
  { unfold T, target, co, k. fold flip. pose proof (dot_rest c n w Hw). destruct flip; [rewrite dot_opp|]; lia. }
  assert (Hm0 : 0 < m) by lia. destruct (Z.leb_spec m 0); [lia|]. rewrite <- Hm.
  set (co1 := map (fun z => z mod m) (set_nth co n 0)). set (k1 := k mod m).
  assert (H1 : (m | dot co1 w + k1 - T)).
  { destruct (dot_map_mod m Hm0 (set_nth co n 0) w) as (q & Hq). fold co1 in Hq. rewrite dot_set0, Hw in Hq. unfold k1. pose proof (Z.div_mod k m ltac:(lia)).
    exists (q - k / m). lia. }
  assert (Hk1 : 0 <= k1 < m) by (apply Z.mod_pos_bound; exact Hm0).
  destruct (forallb (fun z => z =? 0) co1 && (k1 =? 0)); [intros E _; injection E as <- <-; reflexivity|].
  pose proof (eliminate_ok m w Hm0 (rev (List.combine (seq 1 n) (firstn n (i_strides nfo)))) (co1, k1)) as EL. cbn [fst snd] in EL.
  assert (Hst' : strides_hold w (rev (List.combine (seq 1 n) (firstn n (i_strides nfo))))) by (intros i s o Hi; apply (Hst i s o); apply in_rev; exact Hi).
  specialize (EL Hst' Hk1). cbv zeta in EL.
  destruct (fold_left (eliminate m) (rev (List.combine (seq 1 n) (firstn n (i_strides nfo)))) (co1, k1)) as [co2 k2]. cbn [fst snd] in EL. destruct EL as (L1 & L2 & L3 & L4).
  assert (H2 : T mod m = (dot co2 w + k2) mod m). { apply mod_eq; [exact Hm0|]. destruct H1 as (q & H1). destruct L1 as (q' & L1). exists (- q - q'). lia. }
  set (terms := flat_map (fun i => let z := nth (i - 1) co2 0 in if z =? 0 then [] else [ETerm z (Some (variable_expr N i))]) (seq 1 (List.length co2))).
  destruct terms as [|t0 ts] eqn:Et; [|intros E _; injection E as <- <-; reflexivity].
  unfold terms in Et. apply (line_terms_nil N co2 w) in Et. rewrite Et in H2. rewrite Z.add_0_l, (Z.mod_small k2) in H2 by exact L2. rewrite H2.
  intros E HS. injection E as <- <-. destruct lower; [apply Z.leb_le; exact HS|apply Z.eqb_eq; exact HS].
Qed.

(** ** solutions of one equality, and of two opposite inequalities *)
Lemma nth_mid (x : list Z) v pv : nth (List.length x) (x ++ v :: pv) 0 = v.
Proof. rewrite app_nth2, Nat.sub_diag by lia. reflexivity. Qed.
Lemma nth_other (x : list Z) v v' pv i : i <> List.length x -> nth i (x ++ v :: pv) 0 = nth i (x ++ v' :: pv) 0.
Proof.
  intros H. destruct (Nat.lt_ge_cases i (List.length x)) as [G|G]; [rewrite !app_nth1 by exact G; reflexivity|].
  rewrite !app_nth2 by lia. destruct (i - List.length x)%nat eqn:E; [lia|reflexivity].
Qed.
Lemma row_at c x v pv : row_val c (x ++ v :: pv) = coef c (List.length x) * v + rest c (List.length x) (x ++ 0 :: pv).
Proof.
  rewrite (row_rest c (List.length x)), nth_mid. f_equal. apply rest_ext. intros i Hi _. apply nth_other. exact Hi.
Qed.
Lemma solve_eq c x pv : let n := List.length x in r_eq c = true -> coef c n <> 0 ->
  (target c n (x ++ 0 :: pv) 0 mod Z.abs (coef c n) = 0 <-> exists v, row_holds (x ++ v :: pv) c).
Proof.
  intros n He Ha. unfold row_holds, target. rewrite He. fold n. assert (R : forall v, row_val c (x ++ v :: pv) = coef c n * v + rest c n (x ++ 0 :: pv)) by (intros v; apply row_at).
  set (f := rest c n (x ++ 0 :: pv)) in *. set (a := coef c n) in *. rewrite Z.mod_divide by lia. split.
  - intros (q & Hq). destruct (Z.ltb_spec 0 a).
    + exists q. rewrite R. nia.
    + exists q. rewrite R. nia.
  - intros (v & Hv). rewrite R in Hv. destruct (Z.ltb_spec 0 a); exists v; nia.
Qed.
Lemma opposite_spec u l : opposite u l = true -> List.length (r_co u) = List.length (r_co l) /\ forall i, coef l i = - coef u i.
Proof.
  unfold opposite, coef. intros H. apply andb_true_iff in H. destruct H as (H1 & H2). apply Nat.eqb_eq in H1. split; [exact H1|].
  revert H1 H2. generalize (r_co u) as a. generalize (r_co l) as b. intros b a. revert b. induction a as [|z a IH]; intros [|y b] H1 H2 i; cbn in H1; try discriminate.
  - destruct i; reflexivity.
  - cbn [List.combine forallb fst snd] in H2. apply andb_true_iff in H2. destruct H2 as (H2 & H3). apply Z.eqb_eq in H2. destruct i; cbn [nth]; [lia|]. apply IH; [lia|exact H3].
Qed.
Lemma opposite_rest u l v w : opposite u l = true -> rest l v w - r_k l = - (rest u v w - r_k u).
Proof.
  intros H. apply opposite_spec in H. destruct H as (H1 & H2). unfold rest. rewrite <- H1.
  assert (G : forall s, zsum (map (fun i => if (i =? v)%nat then 0 else coef l i * nth i w 0) s) = - zsum (map (fun i => if (i =? v)%nat then 0 else coef u i * nth i w 0) s)).
  { induction s as [|i s IH]; [reflexivity|]. cbn [map zsum fold_right]. unfold zsum in IH. rewrite IH. destruct (i =? v)%nat; [lia|]. rewrite H2. lia. }
  rewrite G. lia.
Qed.
Lemma multiple_in T B m : 0 < m -> ((exists v, T - B <= m * v <= T) <-> T mod m <= B).
Proof.
  intros Hm. pose proof (Z.div_mod T m ltac:(lia)) as D. pose proof (Z.mod_pos_bound T m Hm) as M. split.
  - intros (v & Hv). assert (v <= T / m) by nia. nia.
  - intros H. exists (T / m). lia.
Qed.
Lemma solve_pair c d x pv : let n := List.length x in r_eq c = false -> r_eq d = false -> coef c n <> 0 -> opposite c d = true ->
  (target c n (x ++ 0 :: pv) (r_k c + r_k d) mod Z.abs (coef c n) <= r_k c + r_k d <-> exists v, row_holds (x ++ v :: pv) c /\ row_holds (x ++ v :: pv) d).
Proof.
  intros n Hc Hd Ha Ho. rewrite <- multiple_in by lia. unfold row_holds, target. rewrite Hc, Hd. fold n.
  assert (R : forall c v, row_val c (x ++ v :: pv) = coef c n * v + rest c n (x ++ 0 :: pv)) by (intros c0 v; apply row_at).
  pose proof (opposite_rest c d n (x ++ 0 :: pv) Ho) as E. destruct (opposite_spec c d Ho) as (_ & E'). specialize (E' n).
  set (f := rest c n (x ++ 0 :: pv)) in *. set (g := rest d n (x ++ 0 :: pv)) in *.
  split; intros (v & Hv); exists v.
  - rewrite !R. fold f g. rewrite E'. destruct (Z.ltb_spec 0 (coef c n)); [rewrite Z.abs_eq in Hv by lia; nia|rewrite Z.abs_neq in Hv by lia; nia].
  - rewrite !R in Hv. fold f g in Hv. rewrite E' in Hv. destruct (Z.ltb_spec 0 (coef c n)); [rewrite Z.abs_eq by lia; nia|rewrite Z.abs_neq by lia; nia].
Qed.
End Modulo.
