(** Values of the expressions clast.c builds for one constraint, and for groups of bounds. *)
From Coq Require Import ZArith List Bool Arith String Sorted Permutation Lia.
From Verif Require Import LoopModel LoopSpec ClastModel ClastSpec.
Import ListNotations.
Local Open Scope Z_scope.
Local Arguments Nat.ltb : simpl never. Local Arguments Nat.leb : simpl never. Local Arguments Nat.eqb : simpl never. Local Arguments Nat.sub : simpl never.
Local Arguments Z.mul : simpl never. Local Arguments Z.add : simpl never.

(** ** lists of numbers *)
Definition zsum (l : list Z) : Z := fold_right Z.add 0 l.
Lemma zsum_app a b : zsum (a ++ b) = zsum a + zsum b.
Proof. unfold zsum. induction a as [|x a IH]; cbn [app fold_right]; [lia|rewrite IH; lia]. Qed.
Lemma dot_sum a : forall w, dot a w = zsum (map (fun i => nth i a 0 * nth i w 0) (seq 0 (List.length a))).
Proof.
  induction a as [|z a IH]; intros w; [reflexivity|]. destruct w as [|v w].
  - cbn [dot]. symmetry. assert (G : forall l, zsum (map (fun i => nth i (z :: a) 0 * nth i ([] : list Z) 0) l) = 0).
    { induction l as [|i l IHl]; [reflexivity|]. cbn [map zsum fold_right]. fold (zsum (map (fun i => nth i (z :: a) 0 * nth i ([] : list Z) 0) l)).
      rewrite IHl. destruct i; cbn [nth]; lia. }
    apply G.
  - cbn [dot List.length seq map zsum fold_right nth]. rewrite IH. f_equal. rewrite <- seq_shift, map_map. reflexivity.
Qed.
Lemma coef_out r i : (List.length (r_co r) <= i)%nat -> coef r i = 0.
Proof. intros H. unfold coef. apply nth_overflow. exact H. Qed.
Lemma involves_lt r i : involves r i = true -> (i < List.length (r_co r))%nat.
Proof. unfold involves. intros H. destruct (Nat.lt_ge_cases i (List.length (r_co r))) as [G|G]; [exact G|]. rewrite coef_out in H by exact G. discriminate. Qed.

(** the part of a constraint that does not involve variable [v] *)
Definition rest (r : row) (v : nat) (w : list Z) : Z :=
  zsum (map (fun i => if (i =? v)%nat then 0 else coef r i * nth i w 0) (seq 0 (List.length (r_co r)))) + r_k r.
Lemma zsum_split f v : forall l, NoDup l -> In v l ->
  zsum (map f l) = f v + zsum (map (fun i => if (i =? v)%nat then 0 else f i) l).
Proof.
  induction l as [|i l IH]; intros Hn Hi; [destruct Hi|]. inversion Hn as [|? ? Hni Hn']; subst. cbn [map zsum fold_right].
  fold (zsum (map f l)). fold (zsum (map (fun i => if (i =? v)%nat then 0 else f i) l)). destruct (Nat.eqb_spec i v) as [->|Hne].
  - assert (E : zsum (map f l) = zsum (map (fun i => if (i =? v)%nat then 0 else f i) l)).
    { f_equal. apply map_ext_in. intros j Hj. destruct (Nat.eqb_spec j v) as [->|]; [contradiction|reflexivity]. }
    lia.
  - destruct Hi as [Hi|Hi]; [congruence|]. rewrite (IH Hn' Hi). lia.
Qed.
Lemma row_rest r v w : row_val r w = coef r v * nth v w 0 + rest r v w.
Proof.
  unfold row_val, rest. rewrite dot_sum. fold (coef r). destruct (Nat.lt_ge_cases v (List.length (r_co r))) as [G|G].
  - rewrite (zsum_split (fun i => nth i (r_co r) 0 * nth i w 0) v); [unfold coef; lia|apply seq_NoDup|apply in_seq; lia].
  - rewrite coef_out by exact G. assert (E : map (fun i => nth i (r_co r) 0 * nth i w 0) (seq 0 (List.length (r_co r)))
      = map (fun i => if (i =? v)%nat then 0 else coef r i * nth i w 0) (seq 0 (List.length (r_co r)))).
    { apply map_ext_in. intros i Hi. apply in_seq in Hi. destruct (Nat.eqb_spec i v); [lia|reflexivity]. }
    rewrite E. lia.
Qed.
Lemma rest_ext r v w w' : (forall i, i <> v -> coef r i <> 0 -> nth i w 0 = nth i w' 0) -> rest r v w = rest r v w'.
Proof.
  intros H. unfold rest. f_equal. f_equal. apply map_ext. intros i. destruct (Nat.eqb_spec i v); [reflexivity|].
  destruct (Z.eq_dec (coef r i) 0) as [E|E]; [rewrite E; lia|]. rewrite (H i); auto.
Qed.
Lemma row_val_ext r w w' : (forall i, coef r i <> 0 -> nth i w 0 = nth i w' 0) -> row_val r w = row_val r w'.
Proof.
  intros H. unfold row_val. rewrite !dot_sum. do 2 f_equal. apply map_ext. intros i.
  destruct (Z.eq_dec (nth i (r_co r) 0) 0) as [E|E]; [rewrite E; lia|]. rewrite (H i); auto.
Qed.
Lemma row_holds_ext r w w' : (forall i, coef r i <> 0 -> nth i w 0 = nth i w' 0) -> (row_holds w r <-> row_holds w' r).
Proof. intros H. unfold row_holds. rewrite (row_val_ext r w w' H). reflexivity. Qed.

(** ** evaluation of sums *)
Fixpoint vals (rho : env) (l : list expr) : option (list Z) :=
  match l with
  | [] => Some []
  | e :: l' => match eval rho e, vals rho l' with Some z, Some zs => Some (z :: zs) | _, _ => None end
  end.
Lemma eval_red rho t l : eval rho (ERed t l) = match vals rho l with Some (z :: zs) => Some (fold_left (red_val t) zs z) | _ => None end.
Proof.
  cbn [eval]. match goal with |- match ?f l with _ => _ end = _ => assert (E : forall l, f l = vals rho l) end.
  { induction l0 as [|e l0 IH]; [reflexivity|]. cbn [vals]. rewrite <- IH. reflexivity. }
  rewrite E. reflexivity.
Qed.
Lemma vals_app rho a b : vals rho (a ++ b) = match vals rho a, vals rho b with Some x, Some y => Some (x ++ y) | _, _ => None end.
Proof.
  induction a as [|e a IH]; cbn; [destruct (vals rho b); reflexivity|]. rewrite IH. destruct (eval rho e), (vals rho a), (vals rho b); reflexivity.
Qed.
Lemma fold_sum zs : forall z, fold_left (red_val RSum) zs z = z + zsum zs.
Proof. unfold zsum. induction zs as [|y zs IH]; intros z; cbn [fold_left fold_right red_val]; [lia|]. rewrite IH. lia. Qed.
Lemma eval_sum rho l zs : vals rho l = Some zs -> l <> [] -> eval rho (ERed RSum l) = Some (zsum zs).
Proof.
  intros H Hl. rewrite eval_red, H. destruct zs as [|z zs]; [|rewrite fold_sum; reflexivity].
  destruct l; [congruence|]. cbn in H. destruct (eval rho e), (vals rho l); discriminate.
Qed.
Lemma fold_min zs : forall z v, (v <= fold_left (red_val RMin) zs z <-> v <= z /\ Forall (fun y => v <= y) zs).
Proof.
  induction zs as [|y zs IH]; intros z v; cbn [fold_left].
  - split; [intros H; split; [exact H|constructor]|tauto].
  - rewrite IH. cbn [red_val]. split.
    + intros [H1 H2]. split; [lia|]. constructor; [lia|exact H2].
    + intros [H1 H2]. inversion H2; subst. split; [lia|assumption].
Qed.
Lemma fold_max zs : forall z v, (fold_left (red_val RMax) zs z <= v <-> z <= v /\ Forall (fun y => y <= v) zs).
Proof.
  induction zs as [|y zs IH]; intros z v; cbn [fold_left].
  - split; [intros H; split; [exact H|constructor]|tauto].
  - rewrite IH. cbn [red_val]. split.
    + intros [H1 H2]. split; [lia|]. constructor; [lia|exact H2].
    + intros [H1 H2]. inversion H2; subst. split; [lia|assumption].
Qed.
Lemma vals_some rho l : (forall e, In e l -> exists z, eval rho e = Some z) -> exists zs, vals rho l = Some zs.
Proof.
  induction l as [|e l IH]; intros H; [exists []; reflexivity|]. destruct (H e (or_introl eq_refl)) as (z & Hz).
  destruct IH as (zs & Hzs); [intros e' He'; apply H; right; exact He'|]. exists (z :: zs). cbn. rewrite Hz, Hzs. reflexivity.
Qed.
Lemma vals_in rho l : forall zs, vals rho l = Some zs -> forall z, In z zs <-> exists e, In e l /\ eval rho e = Some z.
Proof.
  induction l as [|e l IH]; intros zs H z; cbn in H.
  - injection H as <-. split; [intros []|intros (e & [] & _)].
  - destruct (eval rho e) as [z0|] eqn:E; [|discriminate]. destruct (vals rho l) as [zs'|]; [|discriminate]. injection H as <-.
    split.
    + intros [->|Hz]; [exists e; split; [left; reflexivity|exact E]|]. apply (IH zs' eq_refl) in Hz. destruct Hz as (e' & H1 & H2).
      exists e'. split; [right; exact H1|exact H2].
    + intros (e' & [->|H1] & H2); [left; congruence|right]. apply (IH zs' eq_refl). eauto.
Qed.

(** ** one constraint *)
Section Names.
Variable iter_name : nat -> string.
Variable par_name : nat -> string.
Notation variable_expr := (variable_expr iter_name par_name).
Notation bound_terms := (bound_terms iter_name par_name).
Notation bound_from_constraint := (bound_from_constraint iter_name par_name).

(** [rho] gives the variables of [r] other than [v] their values in [w] *)
Definition knows (rho : env) (n : nat) (r : row) (v : nat) (w : list Z) : Prop :=
  forall i, i <> v -> coef r i <> 0 -> eval rho (variable_expr n (S i)) = Some (nth i w 0).

Lemma terms_vals rho n r v w s : knows rho n r v w -> s <> 0 ->
  exists zs, vals rho (bound_terms n r (S v) s) = Some zs /\ zsum zs = s * (rest r v w - r_k r).
Proof.
  intros K Hs. unfold ClastModel.bound_terms, rest. replace (seq 1 (List.length (r_co r))) with (map S (seq 0 (List.length (r_co r)))) by apply seq_shift.
  generalize (seq 0 (List.length (r_co r))) as l. induction l as [|i l (zs & H1 & H2)].
  - exists []. split; [reflexivity|]. cbn. lia.
  - cbn [map flat_map]. rewrite vals_app, H1. rewrite Nat.sub_succ, Nat.sub_0_r in *.
    destruct (Nat.eqb_spec (S i) (S v)) as [E|E].
    + cbn [orb vals]. exists zs. split; [reflexivity|]. assert (i = v) by lia. subst. rewrite Nat.eqb_refl. cbn [zsum fold_right].
      rewrite H2. unfold zsum. lia.
    + destruct (Nat.eqb_spec i v) as [->|Hne]; [congruence|]. destruct (Z.eqb_spec (coef r i) 0) as [E0|E0]; cbn [orb vals].
      * exists zs. split; [reflexivity|]. cbn [zsum fold_right]. rewrite H2, E0. unfold zsum. lia.
      * cbn [eval]. rewrite (K i Hne E0). exists (s * coef r i * nth i w 0 :: zs). split; [reflexivity|].
        cbn [zsum fold_right]. fold (zsum zs). rewrite H2. unfold zsum. lia.
Qed.
Lemma terms_nil n r v s : bound_terms n r (S v) s = [] -> forall i, i <> v -> coef r i = 0.
Proof.
  intros H i Hi. destruct (Nat.lt_ge_cases i (List.length (r_co r))) as [G|G]; [|apply coef_out; exact G].
  unfold ClastModel.bound_terms in H. destruct (Z.eq_dec (coef r i) 0) as [E|E]; [exact E|exfalso].
  assert (A : In (ETerm (s * coef r i) (Some (variable_expr n (S i)))) []).
  { rewrite <- H. apply in_flat_map. exists (S i). split; [apply in_seq; lia|]. rewrite Nat.sub_succ, Nat.sub_0_r.
    destruct (Nat.eqb_spec (S i) (S v)); [lia|]. destruct (Z.eqb_spec (coef r i) 0); [contradiction|]. left. reflexivity. }
  destruct A.
Qed.
Lemma rest_nil r v w : (forall i, i <> v -> coef r i = 0) -> rest r v w = r_k r.
Proof.
  intros H. unfold rest. assert (G : forall l, zsum (map (fun i => if (i =? v)%nat then 0 else coef r i * nth i w 0) l) = 0).
  { induction l as [|i l IH]; [reflexivity|]. cbn [map zsum fold_right]. unfold zsum in IH. rewrite IH. destruct (Nat.eqb_spec i v); [lia|]. rewrite H by assumption. lia. }
  rewrite G. lia.
Qed.

Lemma cdiv_le a b v : 0 < b -> (- ((- a) / b) <= v <-> a <= b * v).
Proof.
  intros Hb. pose proof (Z.div_mod (- a) b ltac:(lia)) as E. pose proof (Z.mod_pos_bound (- a) b Hb) as M. nia.
Qed.
Lemma fdiv_le a b v : 0 < b -> (v <= a / b <-> b * v <= a).
Proof.
  intros Hb. pose proof (Z.div_mod a b ltac:(lia)) as E. pose proof (Z.mod_pos_bound a b Hb) as M. nia.
Qed.
Lemma quot_neg a b : 0 < b -> a < 0 -> Z.quot a b = - ((- a) / b).
Proof.
  intros Hb Ha. rewrite <- (Z.opp_involutive a) at 1. rewrite Z.quot_opp_l by lia. rewrite Z.quot_div_nonneg by lia. reflexivity.
Qed.
Lemma rem_neg a b : 0 < b -> a < 0 -> Z.rem a b = - ((- a) mod b).
Proof.
  intros Hb Ha. rewrite <- (Z.opp_involutive a) at 1. rewrite Z.rem_opp_l by lia. rewrite Z.rem_mod_nonneg by lia. reflexivity.
Qed.

(** the value of a bound: [s] is the sign the rest is given, -1 for a lower bound *)
Definition bound_val (r : row) (v : nat) (w : list Z) : Z :=
  let a := coef r v in
  let num := - Z.sgn a * rest r v w in
  if r_eq r then Z.quot num (Z.abs a) else if 0 <? a then - ((- num) / Z.abs a) else num / Z.abs a.
Lemma bound_eval rho n r v w : coef r v <> 0 -> knows rho n r v w ->
  exists e, bound_from_constraint n r (S v) = Some e /\ eval rho e = Some (bound_val r v w).
Proof.
  intros Ha K. unfold ClastModel.bound_from_constraint, bound_val. rewrite Nat.sub_succ, Nat.sub_0_r.
  set (a := coef r v) in *. destruct (Z.eqb_spec a 0); [contradiction|].
  assert (Hs : - Z.sgn a <> 0) by (destruct a; cbn; lia). assert (Hp : 0 < Z.abs a) by lia.
  destruct (terms_vals rho n r v w (- Z.sgn a) K Hs) as (zs & Hv & Hz).
  destruct (bound_terms n r (S v) (- Z.sgn a)) as [|e0 es] eqn:Et.
  - assert (R : rest r v w = r_k r) by (apply rest_nil; eapply terms_nil; exact Et). rewrite R.
    set (num := - Z.sgn a * r_k r). destruct (Z.eqb_spec num 0) as [E|E].
    { eexists. split; [reflexivity|]. cbn [eval]. rewrite E. destruct (r_eq r); [rewrite Z.quot_0_l by lia; reflexivity|].
      destruct (0 <? a); [rewrite Z.opp_0, Z.div_0_l by lia; reflexivity|rewrite Z.div_0_l by lia; reflexivity]. }
    destruct (Z.eqb_spec (Z.abs a) 1) as [E1|E1].
    { eexists. split; [reflexivity|]. cbn [eval]. rewrite E1. rewrite Z.quot_1_r, !Z.div_1_r.
      destruct (r_eq r); [reflexivity|]. destruct (0 <? a); f_equal; lia. }
    destruct (r_eq r); [eexists; split; reflexivity|].
    destruct (Z.eqb_spec (Z.rem num (Z.abs a)) 0) as [Ed|Ed].
    + eexists. split; [reflexivity|]. cbn [eval]. f_equal. pose proof (Z.quot_rem' num (Z.abs a)) as Q. rewrite Ed in Q.
      set (q := Z.quot num (Z.abs a)) in *. destruct (0 <? a).
      * replace (- num) with ((- q) * Z.abs a) by lia. rewrite Z.div_mul by lia. lia.
      * replace num with (q * Z.abs a) by lia. rewrite Z.div_mul by lia. reflexivity.
    + eexists. split; [reflexivity|]. cbn [eval]. f_equal. destruct (Z.ltb_spec num 0) as [Hn|Hn].
      * rewrite quot_neg by lia. rewrite rem_neg in Ed by lia. destruct (0 <? a); [reflexivity|].
        pose proof (Z.div_mod (- num) (Z.abs a) ltac:(lia)) as E3. pose proof (Z.mod_pos_bound (- num) (Z.abs a) Hp) as M3.
        pose proof (Z.div_mod num (Z.abs a) ltac:(lia)) as E4. pose proof (Z.mod_pos_bound num (Z.abs a) Hp) as M4. nia.
      * rewrite Z.quot_div_nonneg by lia. rewrite Z.rem_mod_nonneg in Ed by lia. destruct (0 <? a); [|reflexivity].
        pose proof (Z.div_mod (- num) (Z.abs a) ltac:(lia)) as E3. pose proof (Z.mod_pos_bound (- num) (Z.abs a) Hp) as M3.
        pose proof (Z.div_mod num (Z.abs a) ltac:(lia)) as E4. pose proof (Z.mod_pos_bound num (Z.abs a) Hp) as M4. nia.
  - set (num := - Z.sgn a * r_k r).
    assert (Hr : eval rho (ERed RSum ((e0 :: es) ++ (if num =? 0 then [] else [ETerm num None]))) = Some (- Z.sgn a * rest r v w)).
    { destruct (Z.eqb_spec num 0) as [E|E].
      - rewrite app_nil_r. rewrite (eval_sum rho (e0 :: es) zs Hv ltac:(discriminate)). f_equal. unfold num in E. lia.
      - rewrite (eval_sum rho _ (zs ++ [num])); [|rewrite vals_app, Hv; reflexivity|destruct es; discriminate].
        f_equal. rewrite zsum_app. cbn. unfold num. lia. }
    destruct ((a =? 1) || (a =? -1)) eqn:E1.
    + eexists. split; [reflexivity|]. rewrite Hr. f_equal. assert (E2 : Z.abs a = 1) by (apply orb_true_iff in E1; destruct E1 as [E1|E1]; apply Z.eqb_eq in E1; rewrite E1; reflexivity).
      rewrite E2, Z.quot_1_r, !Z.div_1_r. destruct (r_eq r); [reflexivity|]. destruct (0 <? a); lia.
    + destruct (r_eq r).
      * eexists. split; [reflexivity|]. change (eval rho (EBin BDiv ?x ?d)) with (match eval rho x with Some z => Some (bin_val BDiv z d) | None => None end).
        rewrite Hr. reflexivity.
      * eexists. split; [reflexivity|]. match goal with |- eval rho (EBin ?t ?x ?d) = _ => change (eval rho (EBin t x d)) with (match eval rho x with Some z => Some (bin_val t z d) | None => None end) end.
        rewrite Hr. destruct (0 <? a); reflexivity.
Qed.
Lemma bound_lower r v w : r_eq r = false -> 0 < coef r v ->
  (bound_val r v w <= nth v w 0 <-> row_holds w r).
Proof.
  intros He Ha. unfold bound_val, row_holds. rewrite He. assert (E : (0 <? coef r v) = true) by (apply Z.ltb_lt; exact Ha). rewrite E.
  rewrite cdiv_le by lia. rewrite (row_rest r v w). rewrite Z.abs_eq, Z.sgn_pos by lia. lia.
Qed.
Lemma bound_upper r v w : r_eq r = false -> coef r v < 0 ->
  (nth v w 0 <= bound_val r v w <-> row_holds w r).
Proof.
  intros He Ha. unfold bound_val, row_holds. rewrite He. assert (E : (0 <? coef r v) = false) by (apply Z.ltb_ge; lia). rewrite E.
  rewrite fdiv_le by lia. rewrite (row_rest r v w). rewrite Z.abs_neq, Z.sgn_neg by lia. lia.
Qed.
Lemma bound_equal r v w : r_eq r = true -> coef r v <> 0 -> row_holds w r -> bound_val r v w = nth v w 0.
Proof.
  intros He Ha. unfold bound_val, row_holds. rewrite He. rewrite (row_rest r v w). intros H.
  replace (- Z.sgn (coef r v) * rest r v w) with (nth v w 0 * Z.abs (coef r v)).
  - apply Z.quot_mul. lia.
  - replace (rest r v w) with (- (coef r v * nth v w 0)) by lia. rewrite (Z.sgn_abs (coef r v)) at 1 || (pose proof (Z.sgn_abs (coef r v)); nia).
Qed.
Lemma bound_ext r v w w' : (forall i, i <> v -> coef r i <> 0 -> nth i w 0 = nth i w' 0) -> bound_val r v w = bound_val r v w'.
Proof. intros H. unfold bound_val. rewrite (rest_ext r v w w' H). reflexivity. Qed.
End Names.
