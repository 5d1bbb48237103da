(** Bounds, equalities and guards of clast.c by themselves; when clast_create succeeds. *)
From Coq Require Import ZArith List Bool Arith String Sorted Permutation Lia.
From Verif Require Import LoopModel LoopSpec LoopCount ClastModel ClastSpec ClastBounds ClastGuards ClastModulo ClastHeader ClastMain.
Import ListNotations.
Local Open Scope Z_scope.
Local Arguments Nat.ltb : simpl never. Local Arguments Nat.leb : simpl never. Local Arguments Nat.eqb : simpl never. Local Arguments Nat.sub : simpl never.
Local Arguments Z.mul : simpl never. Local Arguments Z.add : simpl never. Local Arguments Z.modulo : simpl never.

Section Bounds.
Variable iter_name : nat -> string.
Variable par_name : nat -> string.
Variable sort_exprs : list expr -> list expr.
Variable sort_eqns : list eqn -> list eqn.
Hypothesis sort_exprs_perm : forall l, Permutation l (sort_exprs l).
Hypothesis sort_eqns_perm : forall l, Permutation l (sort_eqns l).
Notation minmax := (minmax iter_name par_name sort_exprs).

Lemma valid_plain v low r : valid_bound (S v) low 0 false r = (if low then 0 <? coef r v else coef r v <? 0) && negb (r_eq r).
Proof. unfold valid_bound, is_lower_bound, is_upper_bound. rewrite Nat.sub_succ, Nat.sub_0_r. cbn [negb andb]. rewrite Nat.eqb_refl. cbn [negb andb]. rewrite !andb_true_r. reflexivity. Qed.
Lemma own_rows rows x v pv : let n := List.length x in
  (Forall (row_holds (x ++ v :: pv)) (valid_low (S n) 0 false rows) /\ Forall (row_holds (x ++ v :: pv)) (valid_up (S n) 0 false rows) <->
   Forall (fun r => r_eq r = false -> coef r n <> 0 -> row_holds (x ++ v :: pv) r) rows).
Proof.
  intros n. unfold valid_low, valid_up. rewrite !Forall_forall. split.
  - intros (A & B) r Hr Hq Hc. destruct (Z.lt_ge_cases 0 (coef r n)) as [G|G]; [apply A|apply B]; apply filter_In; (split; [exact Hr|]); rewrite valid_plain, Hq; cbn [negb]; rewrite andb_true_r; apply Z.ltb_lt; lia.
  - intros H. split; intros r Hr; apply filter_In in Hr; destruct Hr as (Hr & Hv); rewrite valid_plain in Hv; apply andb_true_iff in Hv; destruct Hv as (Hv & Hq); apply Z.ltb_lt in Hv; apply negb_true_iff in Hq; apply H; try assumption; lia.
Qed.
Lemma known_all rho x pv rows v : let n := List.length x in
  (forall i, (i < n)%nat -> rho (iter_name (S i)) = Some (nth i x 0)) ->
  (forall i, (i < List.length pv)%nat -> rho (par_name i) = Some (nth i pv 0)) ->
  Forall (fun r => List.length (r_co r) = S n + List.length pv)%nat rows ->
  Forall (fun r => knows iter_name par_name rho (S n) r n (x ++ v :: pv)) rows.
Proof.
  intros n H1 H2 H3. apply Forall_forall. intros r Hr. apply (loop_known iter_name par_name pv rho x [] r v).
  - split; [exact H2|]. intros i Hi _. apply H1. exact Hi.
  - rewrite Forall_forall in H3. apply H3. exact Hr.
  - intros i Hi. destruct i; discriminate.
Qed.
Lemma minmax_some_low n rows v st lb : minmax n rows (S v) true 0 false st = Some lb -> valid_low (S v) 0 false rows <> [].
Proof. intros H E. rewrite (minmax_none_low iter_name par_name sort_exprs n rows v 0 false st E) in H. discriminate. Qed.
Lemma minmax_some_up n rows v ub : minmax n rows (S v) false 0 false None = Some ub -> valid_up (S v) 0 false rows <> [].
Proof. unfold ClastModel.minmax. fold (valid_up (S v) 0 false rows). intros H E. rewrite E in H. discriminate. Qed.
Lemma at_mid (x pv : list Z) v t : at_v (x ++ v :: pv) (List.length x) t (x ++ t :: pv).
Proof. split; [apply nth_mid|]. intros i Hi. apply nth_other. exact Hi. Qed.
Lemma bounds_both rows (x pv : list Z) rho lb ub st : let n := List.length x in
  (forall i, (i < n)%nat -> rho (iter_name (S i)) = Some (nth i x 0)) ->
  (forall i, (i < List.length pv)%nat -> rho (par_name i) = Some (nth i pv 0)) ->
  Forall (fun r => List.length (r_co r) = S n + List.length pv)%nat rows ->
  match st with None => True | Some (s, off) => 0 < s /\ Forall (fun r => 0 < coef r n -> forall i, i <> n -> coef r i = 0) rows end ->
  minmax (S n) rows (S n) true 0 false st = Some lb -> minmax (S n) rows (S n) false 0 false None = Some ub ->
  exists a b, eval rho lb = Some a /\ eval rho ub = Some b /\ match st with None => True | Some (s, off) => (a - off) mod s = 0 end /\
    forall v, match st with None => True | Some (s, off) => (v - off) mod s = 0 end ->
      (a <= v <= b <-> Forall (fun r => r_eq r = false -> coef r n <> 0 -> row_holds (x ++ v :: pv) r) rows).
Proof.
  intros n H1 H2 H3 Hst Hl Hu. pose proof (known_all rho x pv rows 0 H1 H2 H3) as K. cbv zeta in K. fold n in K. rewrite Forall_forall in K.
  destruct (minmax_low iter_name par_name sort_exprs sort_exprs_perm rho (S n) rows n 0 false st (x ++ 0 :: pv) (minmax_some_low _ _ _ _ _ Hl)) as (e1 & a & E1 & V1 & S1 & B1).
  { apply Forall_forall. intros r Hr. apply K. apply (valid_low_in n 0 false rows r Hr). }
  { destruct st as [[s off]|]; [|exact I]. destruct Hst as (Hs & Hst). split; [exact Hs|]. apply Forall_forall. intros r Hr. destruct (valid_low_in n 0 false rows r Hr) as (R1 & R2 & _). rewrite Forall_forall in Hst. apply Hst; assumption. }
  destruct (minmax_up iter_name par_name sort_exprs sort_exprs_perm rho (S n) rows n 0 false (x ++ 0 :: pv) (minmax_some_up _ _ _ _ Hu)) as (e2 & b & E2 & V2 & B2).
  { apply Forall_forall. intros r Hr. apply K. apply (valid_up_in n 0 false rows r Hr). }
  assert (e1 = lb) by congruence. assert (e2 = ub) by congruence. subst e1 e2. exists a, b. split; [exact V1|]. split; [exact V2|]. split; [exact S1|].
  intros v Hv. pose proof (own_rows rows x v pv) as Ow. cbv zeta in Ow. fold n in Ow. rewrite <- Ow. rewrite <- (B1 v (x ++ v :: pv) (at_mid x pv 0 v) Hv), <- (B2 v (x ++ v :: pv) (at_mid x pv 0 v)). tauto.
Qed.
Theorem bounds_exact rows (x pv : list Z) rho lb ub : let n := List.length x in
  (forall i, (i < n)%nat -> rho (iter_name (S i)) = Some (nth i x 0)) ->
  (forall i, (i < List.length pv)%nat -> rho (par_name i) = Some (nth i pv 0)) ->
  Forall (fun r => List.length (r_co r) = S n + List.length pv)%nat rows ->
  minmax (S n) rows (S n) true 0 false None = Some lb -> minmax (S n) rows (S n) false 0 false None = Some ub ->
  exists a b, eval rho lb = Some a /\ eval rho ub = Some b /\
    forall v, a <= v <= b <-> Forall (fun r => r_eq r = false -> coef r n <> 0 -> row_holds (x ++ v :: pv) r) rows.
Proof.
  intros n H1 H2 H3 Hl Hu. destruct (bounds_both rows x pv rho lb ub None H1 H2 H3 I Hl Hu) as (a & b & A & B & _ & C). exists a, b. split; [exact A|]. split; [exact B|]. intros v. apply C. exact I.
Qed.
Lemma bound_some n d v : coef d v <> 0 -> exists e, bound_from_constraint iter_name par_name n d (S v) = Some e.
Proof.
  intros H. unfold bound_from_constraint. rewrite Nat.sub_succ, Nat.sub_0_r. destruct (Z.eqb_spec (coef d v) 0); [contradiction|]. cbv zeta.
  destruct (bound_terms iter_name par_name n d (S v) (- Z.sgn (coef d v))); repeat match goal with |- context [if ?b then _ else _] => destruct b end; eexists; reflexivity.
Qed.
Theorem missing_bound n rows level (low : bool) : (1 <= level)%nat ->
  (minmax n rows level low 0 false None = None <->
   Forall (fun r => r_eq r = false -> if low then coef r (level - 1) <= 0 else 0 <= coef r (level - 1)) rows).
Proof.
  intros Hl. destruct level as [|v]; [lia|]. rewrite Nat.sub_succ, Nat.sub_0_r.
  assert (Hf : filter (valid_bound (S v) low 0 false) rows = [] <-> Forall (fun r => r_eq r = false -> if low then coef r v <= 0 else 0 <= coef r v) rows).
  { induction rows as [|r rows IH]; [split; auto|]. cbn [filter]. rewrite valid_plain. split.
    - intros H. destruct ((if low then 0 <? coef r v else coef r v <? 0) && negb (r_eq r)) eqn:E; [discriminate|]. constructor; [|apply IH; exact H].
      intros Hq. rewrite Hq in E. cbn [negb] in E. rewrite andb_true_r in E. destruct low; apply Z.ltb_ge in E; lia.
    - intros H. inversion H as [|? ? H1 H2]; subst. destruct ((if low then 0 <? coef r v else coef r v <? 0) && negb (r_eq r)) eqn:E; [|apply IH; exact H2].
      apply andb_true_iff in E. destruct E as (E1 & E2). apply negb_true_iff in E2. specialize (H1 E2). destruct low; apply Z.ltb_lt in E1; lia. }
  rewrite <- Hf. unfold ClastModel.minmax. destruct (filter (valid_bound (S v) low 0 false) rows) as [|c cs] eqn:E; [tauto|]. split; [|discriminate].
  intros H. exfalso.
  assert (Hc : Forall (fun c => coef c v <> 0) (c :: cs)).
  { apply Forall_forall. intros d Hd. rewrite <- E in Hd. apply filter_In in Hd. destruct Hd as (_ & Hd). rewrite valid_plain in Hd. apply andb_true_iff in Hd. destruct Hd as (Hd & _). destruct low; apply Z.ltb_lt in Hd; lia. }
  assert (Hs : forall l, Forall (fun c => coef c v <> 0) l -> exists l', fold_right (fun c acc => match acc, bound_from_constraint iter_name par_name n c (S v) with
                 | Some l, Some e => Some (update_lower_bound e None :: l) | _, _ => None end) (Some []) l = Some l').
  { induction l as [|d l IHl]; intros Hd; [exists []; reflexivity|]. inversion Hd as [|? ? D1 D2]; subst. destruct (IHl D2) as (l' & El). cbn [fold_right]. rewrite El.
    destruct (bound_some n d v D1) as (e & Ee). rewrite Ee. eexists. reflexivity. }
  destruct (Hs _ Hc) as (l' & El). rewrite El in H. discriminate.
Qed.
(** a loop with the bounds [lb] and [ub] *)
Lemma iterate_any (body : env -> option (env * list event)) it step (T : Z -> list event) :
  (forall v rho1, rho1 it = Some v -> exists rho2, body rho1 = Some (rho2, T v)) ->
  forall k v rho, exists rho', iterate body it step k v rho = Some (rho', flat_map T (map (fun i => v + step * Z.of_nat i) (seq 0 k))).
Proof.
  intros Hb. induction k as [|k IH]; intros v rho; [eexists; reflexivity|]. cbn [iterate]. destruct (Hb v (assign rho it v)) as (rho2 & B); [apply assign_same|]. rewrite B.
  destruct (IH (v + step) rho2) as (rho3 & C). rewrite C. exists rho3. do 2 f_equal. cbn [seq map flat_map]. f_equal; [f_equal; lia|]. rewrite <- seq_shift, map_map. f_equal. apply map_ext. intros i. lia.
Qed.
Theorem strided_loop rows (x pv : list Z) rho lb ub st it body (T : Z -> list event) : let n := List.length x in
  (forall i, (i < n)%nat -> rho (iter_name (S i)) = Some (nth i x 0)) ->
  (forall i, (i < List.length pv)%nat -> rho (par_name i) = Some (nth i pv 0)) ->
  Forall (fun r => List.length (r_co r) = S n + List.length pv)%nat rows ->
  match st with None => True | Some (s, off) => 0 < s /\ Forall (fun r => 0 < coef r n -> forall i, i <> n -> coef r i = 0) rows end ->
  minmax (S n) rows (S n) true 0 false st = Some lb -> minmax (S n) rows (S n) false 0 false None = Some ub ->
  (forall v rho1, rho1 it = Some v -> exists rho2, exec body rho1 = Some (rho2, T v)) ->
  exists vs, StronglySorted Z.lt vs /\
    (forall v, In v vs <-> match st with None => True | Some (s, off) => (v - off) mod s = 0 end /\
                           Forall (fun r => r_eq r = false -> coef r n <> 0 -> row_holds (x ++ v :: pv) r) rows) /\
    exists rho', exec [SFor it (Some lb) (Some ub) (stride_of st) body] rho = Some (rho', flat_map T vs).
Proof.
  intros n H1 H2 H3 Hst Hl Hu Hb. destruct (bounds_both rows x pv rho lb ub st H1 H2 H3 Hst Hl Hu) as (a & b & A & B & S0 & C).
  assert (Hpos : 0 < stride_of st) by (destruct st as [[s off]|]; [apply Hst|cbn; lia]).
  exists (map (fun i => a + stride_of st * Z.of_nat i) (seq 0 (trip_count a b (stride_of st)))). split; [apply trip_sorted; exact Hpos|]. split.
  - intros v. rewrite trip_spec by exact Hpos. destruct st as [[s off]|]; cbn [stride_of].
    + assert (Hm : (v - a) mod s = 0 <-> (v - off) mod s = 0).
      { destruct Hst as (Hs & _). apply Z.mod_divide in S0; [|lia]. rewrite !Z.mod_divide by lia. destruct S0 as (q & Q). split; intros (p & Hp); [exists (p + q)|exists (p - q)]; lia. }
      split; [intros (G & M); apply Hm in M; split; [exact M|]; apply C; assumption|intros (M & G); split; [apply C; assumption|apply Hm; exact M]].
    + rewrite Z.mod_1_r. split; [intros (G & _); split; [exact I|]; apply C; [exact I|exact G]|intros (_ & G); split; [|reflexivity]; apply C; [exact I|exact G]].
  - destruct (iterate_any (exec body) it (stride_of st) T Hb (trip_count a b (stride_of st)) a rho) as (rho' & X). exists rho'.
    cbn [exec]. rewrite exec1_list. cbn [eval_opt]. rewrite A, B. rewrite (proj2 (Z.ltb_lt _ _) Hpos). rewrite X. rewrite app_nil_r. reflexivity.
Qed.
(** ** guards *)
Theorem guard_exact rho n np rows level w body :
  Forall (fun r => (List.length (r_co r) <= n + np)%nat /\ exists i, coef r i <> 0) rows ->
  (forall i, (i < n)%nat -> i <> (level - 1)%nat \/ (n < level)%nat \/ level = 0%nat -> rho (iter_name (S i)) = Some (nth i w 0)) ->
  (forall i, (i < np)%nat -> rho (par_name i) = Some (nth (n + i) w 0)) ->
  let outer r := ~ ((1 <= level <= n)%nat /\ coef r (level - 1) <> 0) in
  (Forall (fun r => outer r -> row_holds w r) rows /\
     exec (plug (insert_guard iter_name par_name sort_exprs sort_eqns n np rows level) body) rho = exec body rho) \/
  (Exists (fun r => outer r /\ ~ row_holds w r) rows /\
     exec (plug (insert_guard iter_name par_name sort_exprs sort_eqns n np rows level) body) rho = Some (rho, [])).
Proof.
  intros Hv Hi Hp outer.
  assert (Ho : forall r, own n level r = false <-> outer r).
  { intros r. unfold own, outer, involves. destruct (Nat.eqb_spec level 0); cbn [negb andb]; [split; [intros; lia|reflexivity]|]. destruct (Nat.leb_spec level n); cbn [andb]; [|split; [intros; lia|reflexivity]].
    destruct (Z.eqb_spec (coef r (level - 1)) 0); cbn [negb]; split; try reflexivity; try discriminate; try (intros _ (_ & X); contradiction). intros X. exfalso. apply X. split; [lia|assumption]. }
  assert (Hk : informed iter_name par_name rho n level rows w).
  { intros r Hr Hown i Hc. apply Ho in Hown. rewrite Forall_forall in Hv. destruct (Hv r Hr) as (Hlen & _).
    assert (Hlt : (i < List.length (r_co r))%nat). { destruct (Nat.lt_ge_cases i (List.length (r_co r))) as [G|G]; [exact G|]. exfalso. apply Hc. unfold coef. apply nth_overflow. exact G. }
    unfold variable_expr. cbn [eval]. destruct (Nat.leb_spec (S i) n) as [G|G].
    - apply Hi; [lia|]. destruct (Nat.eq_dec i (level - 1)) as [E|E]; [|left; exact E]. right. destruct (Nat.eq_dec level 0) as [Z|Z]; [right; exact Z|]. left.
      destruct (Nat.lt_ge_cases n level) as [L|L]; [exact L|]. exfalso. apply Hown. split; [lia|]. rewrite <- E. exact Hc.
    - rewrite Hp by lia. do 2 f_equal. lia. }
  assert (Hv' : Forall (fun r => (List.length (r_co r) <= n + np)%nat /\ exists i, involves r i = true) rows).
  { eapply Forall_impl; [|exact Hv]. cbn. intros r (A & i & Hc). split; [exact A|]. exists i. unfold involves. apply negb_true_iff, Z.eqb_neq. exact Hc. }
  destruct (exec_guard iter_name par_name sort_exprs sort_eqns sort_exprs_perm sort_eqns_perm rho n np rows level w body Hk Hv') as [(G & X)|(G & X)]; [left|right]; (split; [|exact X]).
  - eapply Forall_impl; [|exact G]. cbn. intros r H Hr. apply H. apply Ho. exact Hr.
  - clear X. induction rows as [|r rows IH]; [exfalso; apply G; constructor|].
    assert (Hd : row_holds w r \/ ~ row_holds w r) by (unfold row_holds; destruct (r_eq r); lia).
    destruct (own n level r) eqn:E; [right; apply IH|destruct Hd as [Hd|Hd]; [right; apply IH|left; split; [apply Ho; exact E|exact Hd]]].
    all: try (inversion Hv; assumption); try (inversion Hv'; assumption); try (intros r' Hr'; apply Hk; right; exact Hr').
    all: intros F; apply G; constructor; [intros; congruence || assumption|exact F].
Qed.
(** *** the number of conditions *)
Lemma guard_dim_length n all level i : forall rows mn mx,
  (List.length (guard_dim iter_name par_name sort_exprs n all level i mn mx rows) <= List.length (filter (leads i) rows))%nat.
Proof.
  induction rows as [|r rows IH]; intros mn mx; [cbn; lia|]. cbn [guard_dim filter]. rewrite skip_spec. destruct (leads i r) eqn:El; cbn [andb negb].
  - destruct (own n level r); cbn [negb List.length]; [specialize (IH mn mx); lia|]. destruct (_ || _); cbn [List.length]; [specialize (IH mn mx); lia|]. destruct (_ || _); [specialize (IH mn mx); lia|].
    cbn [List.length]. specialize (IH (mn || negb (is_lower_bound r (i - 1))) (mx || is_lower_bound r (i - 1))). lia.
  - apply IH.
Qed.
Lemma leads_once i j r : (1 <= i)%nat -> (i < j)%nat -> leads i r = true -> leads j r = false.
Proof.
  unfold leads. intros Hi Hij H. apply andb_true_iff in H. destruct H as (H & _). apply andb_false_iff. right. apply negb_false_iff. apply existsb_exists. exists (i - 1)%nat. split; [apply in_seq; lia|exact H].
Qed.
Theorem guard_length n np rows level : (List.length (guard_eqns iter_name par_name sort_exprs n np rows level) <= List.length rows)%nat.
Proof.
  unfold guard_eqns.
  assert (H : forall k s, (1 <= s)%nat -> (List.length (flat_map (fun i => guard_dim iter_name par_name sort_exprs n rows level i false false rows) (seq s k)) <= List.length (filter (fun r => existsb (fun i => leads i r) (seq s k)) rows))%nat).
  { induction k as [|k IH]; intros s Hs; [cbn; lia|]. cbn [seq flat_map]. rewrite app_length. specialize (IH (S s) ltac:(lia)). pose proof (guard_dim_length n rows level s rows false false) as G.
    assert (E : (List.length (filter (fun r => existsb (fun i => leads i r) (s :: seq (S s) k)) rows) = List.length (filter (leads s) rows) + List.length (filter (fun r => existsb (fun i => leads i r) (seq (S s) k)) rows))%nat).
    { clear IH G. induction rows as [|r rows IHr]; [reflexivity|]. cbn [filter]. cbn [existsb] in *. destruct (leads s r) eqn:El; cbn [orb].
      - assert (F : existsb (fun i => leads i r) (seq (S s) k) = false).
        { destruct (existsb _ _) eqn:Ex; [|reflexivity]. apply existsb_exists in Ex. destruct Ex as (j & Hj & Hl). apply in_seq in Hj. rewrite (leads_once s j r Hs ltac:(lia) El) in Hl. discriminate. }
        rewrite F. cbn [List.length]. rewrite IHr. lia.
      - destruct (existsb (fun i => leads i r) (seq (S s) k)); cbn [List.length]; rewrite IHr; lia. }
    lia. }
  specialize (H (n + np)%nat 1%nat ltac:(lia)). eapply Nat.le_trans; [exact H|]. clear H. generalize (fun r => existsb (fun i => leads i r) (seq 1 (n + np))). intros f.
  induction rows as [|r rows IH]; [cbn; lia|]. cbn [filter]. destruct (f r); cbn [List.length]; lia.
Qed.
End Bounds.

(** ** loops whose iterator has one possible value *)
Section Equation.
Variable iter_name : nat -> string.
Variable par_name : nat -> string.
Variable reduce : list (option (eqtype * row)) -> list row -> nat -> list row.
Theorem equation_exact (x pv : list Z) (rho : env) (o : copts) (nfo : infos) (upper : row) (lower : option row) res :
  let n := List.length x in
  let sol v := Forall (row_holds (x ++ v :: pv)) (upper :: match lower with Some l => [l] | None => [] end) in
  reduce_right pv reduce -> co_otl o = true ->
  (forall i, (i < n)%nat -> rho (iter_name (S i)) = Some (nth i x 0)) ->
  (forall i, (i < List.length pv)%nat -> rho (par_name i) = Some (nth i pv 0)) ->
  List.length (i_eqs nfo) = n -> List.length (i_strides nfo) = n ->
  (forall i t r, nth_error (i_eqs nfo) i = Some (Some (t, r)) ->
     r_eq r = true /\ List.length (r_co r) = (S i + List.length pv)%nat /\ coef r i <> 0 /\ row_holds (firstn (S i) x ++ pv) r) ->
  (forall i s off, nth_error (i_strides nfo) i = Some (Some (s, off)) -> 0 < s /\ (nth i x 0 - off) mod s = 0) ->
  Forall (fun r => List.length (r_co r) = S n + List.length pv)%nat (upper :: match lower with Some l => [l] | None => [] end) ->
  match lower with
  | None => r_eq upper = true /\ coef upper n <> 0
  | Some l => r_eq upper = false /\ r_eq l = false /\ opposite upper l = true /\ coef upper n < -1 /\ 0 <= r_k upper + r_k l < - coef upper n
  end ->
  forall st, insert_equation iter_name par_name reduce o (S n) {| i_eqs := i_eqs nfo; i_strides := i_strides nfo ++ [st] |} st upper lower (S n) = Some res ->
  match res with
  | None => forall v, ~ sol v
  | Some (fs, _) =>
      (exists v, (forall v', sol v' <-> v' = v) /\ eval_opt rho (bound_from_constraint iter_name par_name (S n) upper (S n)) = Some v /\
         let spread := match lower with Some _ => false | None => equal_allow o (equal_type (S n) upper (S n)) (S n) end in
         forall body, exec (plug fs body) rho = exec body (if spread then rho else assign rho (iter_name (S n)) v)) \/
      ((forall v, ~ sol v) /\ forall body, exec (plug fs body) rho = Some (rho, []))
  end.
Proof.
  intros n sol Hred Hotl Hx Hp He1 He2 He3 He4 Hlen Hshape st Hins.
  assert (Hns : forall i, nth i (repeat false n) false = false) by (intros i; destruct (nth_in_or_default i (repeat false n) false) as [G|G]; [eapply repeat_spec; exact G|exact G]).
  assert (Hav0 : forall k r, avoids (firstn k (repeat false n)) r).
  { intros k r i Hi. exfalso. destruct (Nat.lt_ge_cases i (List.length (firstn k (repeat false n)))) as [G|G]; [|rewrite nth_overflow in Hi by exact G; discriminate].
    assert (In true (repeat false n)) as Q by (rewrite <- (firstn_skipn k (repeat false n)); apply in_or_app; left; rewrite <- Hi; apply nth_In; exact G). apply repeat_spec in Q. discriminate. }
  assert (He : env_ok iter_name par_name pv rho x (repeat false n)) by (split; [exact Hp|intros i Hi _; apply Hx; exact Hi]).
  assert (Hi : info_ok pv nfo x (repeat false n)).
  { split; [exact He1|]. split; [exact He2|]. split; [apply repeat_length|]. split; [|split].
    - intros i t r E. destruct (He3 i t r E) as (A & B & C & D). repeat split; auto.
    - intros i E. rewrite Hns in E. discriminate.
    - exact He4. }
  assert (Hav : Forall (avoids (repeat false n)) (the_rows upper lower)) by (apply Forall_forall; intros r _ i Hf; rewrite Hns in Hf; discriminate).
  assert (Ha : coef upper n <> 0) by (destruct lower; destruct Hshape as (? & ?); [|assumption]; lia).
  assert (Hshape' : match lower with None => r_eq upper = true | Some l => r_eq upper = false /\ r_eq l = false /\ opposite upper l = true /\ 0 <= r_k upper + r_k l /\ coef upper n < -1 end).
  { destruct lower; [destruct Hshape as (S1 & S2 & S3 & S4 & S5); repeat split; try assumption; lia|apply Hshape]. }
  destruct (modulo_guard_ok iter_name par_name reduce pv Hred rho x (repeat false n) nfo st upper lower He Hi Hlen Hav Ha Hshape') as (sat & fs & b & M1 & M2 & M3). fold n in M1.
  unfold ClastModel.insert_equation in Hins. rewrite Hotl in Hins. cbn [negb] in Hins. rewrite M1 in Hins.
  set (bv := bound_val upper n (x ++ 0 :: pv)).
  assert (Hbv : forall v, bound_val upper n (x ++ v :: pv) = bv) by (intros v; apply bound_ext; intros i Hne _; apply nth_other; exact Hne).
  assert (Huniq : forall v, sol v -> v = bv).
  { intros v Hv. rewrite <- (Hbv v). unfold sol in Hv. inversion Hv as [|? ? H1 H2]; subst. destruct lower as [lo|].
    - destruct Hshape as (S1 & S2 & S3 & S4 & S5). inversion H2 as [|? ? H3 _]; subst. pose proof (opposite_rest upper lo n (x ++ 0 :: pv) S3) as R. destruct (opposite_spec _ _ S3) as (_ & Oc).
      pose proof (proj2 (bound_upper upper n (x ++ v :: pv) S1 ltac:(lia)) H1) as U. unfold n in U. rewrite nth_mid in U. fold n in U.
      set (b0 := bound_val upper n (x ++ v :: pv)) in *.
      assert (UB : row_holds (x ++ b0 :: pv) upper).
      { apply (bound_upper upper n (x ++ b0 :: pv) S1 ltac:(lia)). unfold n at 1. rewrite nth_mid. rewrite Hbv. unfold b0. rewrite Hbv. lia. }
      unfold row_holds in H3, UB. rewrite S1 in UB. rewrite S2 in H3. rewrite row_at in H3, UB. fold n in H3, UB. rewrite Oc in H3. nia.
    - destruct Hshape as (S1 & _). rewrite (bound_equal upper n (x ++ v :: pv) S1 Ha H1). unfold n. rewrite nth_mid. reflexivity. }
  assert (Hbe : exists e, bound_from_constraint iter_name par_name (S n) upper (S n) = Some e /\ eval rho e = Some bv).
  { rewrite <- (Hbv 0). apply bound_eval; [exact Ha|]. apply (loop_known iter_name par_name pv rho x (repeat false n) upper 0 He); [inversion Hlen; assumption|inversion Hav; assumption]. }
  destruct sat.
  2:{ injection Hins as <-. intros v Hv. assert (false && b = true) as Q by (apply M3; exists v; exact Hv). discriminate. }
  injection Hins as <-. destruct b.
  - left. destruct M3 as (M3 & _). destruct (M3 eq_refl) as (v & Hv). pose proof (Huniq v Hv) as ->. exists bv. split.
    { intros v'. split; [apply Huniq|]. intros ->. exact Hv. }
    destruct Hbe as (e & E1 & E2). split; [rewrite E1; exact E2|]. cbv zeta. intros body. rewrite plug_app, (M2 _).
    destruct (match lower with Some _ => false | None => equal_allow o (equal_type (S n) upper (S n)) (S n) end) eqn:Es.
    + reflexivity.
    + rewrite E1. assert (X : exec (plug1 (FAss (iter_name (S n)) (Some e)) body) rho = exec body (assign rho (iter_name (S n)) bv)).
      { cbn [plug1 exec]. rewrite exec1_list. cbn [eval_opt]. rewrite E2. destruct (exec body (assign rho (iter_name (S n)) bv)) as [[r2 t2]|]; reflexivity. }
      destruct (co_block o); cbn [app plug fold_right]; [|exact X]. cbn [plug1]. rewrite exec_single, exec1_list. exact X.
  - right. split.
    + intros v Hv. assert (true && false = true) as Q by (apply M3; exists v; exact Hv). discriminate.
    + intros body. rewrite plug_app, (M2 _). reflexivity.
Qed.
End Equation.
