(** Proofs about StrideModel.v *)
From Coq Require Import ZArith List Bool Lia Znumtheory.
From Verif Require Import StrideModel.
Import ListNotations.
Local Open Scope Z_scope.

(** ** Euclid *)
Lemma euclid_loop_ok A B : forall fuel c d e f g,
  0 <= c -> 0 <= d -> (Z.to_nat d < fuel)%nat -> Z.gcd c d = g ->
  (exists y, A * e + B * y = c) -> (exists y, A * f + B * y = d) ->
  exists e', euclid_loop fuel c d e f = Some (g, e') /\ exists y, A * e' + B * y = g.
Proof.
  induction fuel as [|k IH]; intros c d e f g Hc Hd Hfu Hg [y1 H1] [y2 H2]; [lia|]. cbn [euclid_loop].
  destruct (0 <? d) eqn:E.
  - apply Z.ltb_lt in E. replace (c - Z.quot c d * d) with (Z.rem c d) by (pose proof (Z.quot_rem' c d); lia).
    pose proof (Z.rem_bound_pos c d Hc E) as Hb.
    apply IH; try lia.
    + rewrite <- Hg. rewrite Z.rem_mod_nonneg by lia. rewrite Z.gcd_comm, Z.gcd_mod by lia. apply Z.gcd_comm.
    + exists y2. exact H2.
    + exists (y1 - Z.quot c d * y2). pose proof (Z.quot_rem' c d). nia.
  - apply Z.ltb_ge in E. assert (d = 0) by lia. subst d. pose proof (Z.gcd_0_r_nonneg c Hc) as Hg0. assert (Hgc : g = c) by congruence. clear Hg. subst g.
    exists e. split; [reflexivity|]. exists y1. exact H1.
Qed.

Lemma euclid_ok a b : exists x y, euclid a b = Some (x, y, Z.gcd a b) /\ a * x + b * y = Z.gcd a b.
Proof.
  unfold euclid.
  destruct (euclid_loop_ok (Z.abs a) (Z.abs b) (S (Z.to_nat (Z.abs b))) (Z.abs a) (Z.abs b) 1 0 (Z.gcd a b)) as (e & -> & y & H); try lia.
  { rewrite Z.gcd_abs_l, Z.gcd_abs_r. reflexivity. }
  { exists 0. lia. } { exists 1. lia. }
  set (x := if a =? 0 then 0 else if 0 <? a then e else - e).
  assert (Hx : a * x = Z.abs a * e). { unfold x. destruct (Z.eqb_spec a 0) as [->|Ha]; [lia|]. destruct (Z.ltb_spec 0 a); nia. }
  destruct (Z.eqb_spec b 0) as [->|Hb].
  - exists x, 0. split; [reflexivity|]. cbn in H. lia.
  - assert (Hdiv : Z.gcd a b - a * x = (Z.sgn b * y) * b). { rewrite Hx. pose proof (Z.sgn_abs b). nia. }
    rewrite Hdiv, Z.rem_mul by exact Hb. rewrite Z.eqb_refl, Z.quot_mul by exact Hb.
    exists x, (Z.sgn b * y). split; [reflexivity|]. lia.
Qed.

(** ** gcd of a list *)
Lemma gcd_fold l : forall g, Z.divide (fold_left Z.gcd l g) g /\ forall v, In v l -> Z.divide (fold_left Z.gcd l g) v.
Proof.
  induction l as [|a l IH]; intros g; cbn [fold_left].
  - split; [apply Z.divide_refl|intros v []].
  - destruct (IH (Z.gcd g a)) as [H1 H2]. split.
    + eapply Z.divide_trans; [exact H1|apply Z.gcd_divide_l].
    + intros v [<-|Hv]; [eapply Z.divide_trans; [exact H1|apply Z.gcd_divide_r]|apply H2, Hv].
Qed.
Lemma gcd_fold_nonneg l : forall g, 0 <= g -> 0 <= fold_left Z.gcd l g.
Proof. induction l as [|a l IH]; intros g Hg; cbn [fold_left]; [exact Hg|]. apply IH, Z.gcd_nonneg. Qed.
(** every multiple of the gcd is a combination *)
Lemma gcd_fold_comb l : forall g, exists u es, List.length es = List.length l /\ fold_left Z.gcd l g = u * g + dot l es.
Proof.
  induction l as [|a l IH]; intros g; cbn [fold_left].
  - exists 1, []. split; [reflexivity|]. change (dot [] []) with 0. lia.
  - destruct (IH (Z.gcd g a)) as (u & es & Hl & H). destruct (Z.gcd_bezout g a (Z.gcd g a) eq_refl) as (p & q & Hpq).
    exists (u * p), (u * q :: es). split; [cbn; lia|]. rewrite H. replace (dot (a :: l) (u * q :: es)) with (a * (u * q) + dot l es) by reflexivity. rewrite <- Hpq. lia.
Qed.
Lemma dot_scale k l : forall es, dot l (map (Z.mul k) es) = k * dot l es.
Proof. unfold dot. induction l as [|a l IH]; intros [|e es]; cbn; try lia. rewrite IH. lia. Qed.
Lemma dot_scale_l k l : forall es, dot (map (Z.mul k) l) es = k * dot l es.
Proof. unfold dot. induction l as [|a l IH]; intros [|e es]; cbn; try lia. rewrite IH. lia. Qed.
Lemma dot_divide g l : forall es, (forall v, In v l -> Z.divide g v) -> Z.divide g (dot l es).
Proof.
  unfold dot. induction l as [|a l IH]; intros [|e es] H; cbn; try apply Z.divide_0_r.
  apply Z.divide_add_r; [apply Z.divide_mul_l, H; left; reflexivity|apply IH; intros v Hv; apply H; right; exact Hv].
Qed.
Lemma dot_set0 i l : forall x, dot l x = dot (set0 i l) x + nth i l 0 * nth i x 0.
Proof.
  unfold dot. revert i. induction l as [|a l IH]; intros [|i] [|v x]; cbn; try lia. rewrite (IH i x). lia.
Qed.

Lemma divs_solve l r : (exists es, List.length es = List.length l /\ r + dot l es = 0) <-> Z.divide (fold_left Z.gcd l 0) r.
Proof.
  split.
  - intros (es & _ & H). replace r with (- dot l es) by lia. apply Z.divide_opp_r, dot_divide. intros v Hv. apply (gcd_fold l 0), Hv.
  - intros [k Hk]. destruct (gcd_fold_comb l 0) as (u & es & Hl & H). exists (map (Z.mul (- k)) es). rewrite map_length. split; [exact Hl|].
    rewrite dot_scale. replace (dot l es) with (fold_left Z.gcd l 0) by lia. lia.
Qed.

(** ** the residue class *)
Lemma construct_ok c level s t :
  let a := nth (level - 1) (c_iter c) 0 in
  let g := fold_left Z.gcd (c_div c) 0 in
  a <> 0 -> construct_stride c level = Some (s, t) ->
  1 < s /\ g = s * Z.gcd a g /\ Z.divide s (t * a + Z.gcd a s).
Proof.
  intros a g Ha. unfold construct_stride. fold a. fold g. rewrite Z.gcd_abs_l.
  assert (Hg : 0 <= g) by (apply gcd_fold_nonneg; lia).
  assert (Hpos : 0 < Z.gcd a g). { pose proof (Z.gcd_nonneg a g). assert (Z.gcd a g <> 0) by (intros E; apply Z.gcd_eq_0_l in E; lia). lia. }
  assert (Hs : g = (g / Z.gcd a g) * Z.gcd a g). { rewrite Z.mul_comm. apply Z_div_exact_2; [lia|]. apply Zdivide_mod, Z.gcd_divide_r. }
  assert (Hs0 : 0 <= g / Z.gcd a g) by (apply Z.div_pos; lia).
  destruct (Z.eqb_spec (g / Z.gcd a g) 0) as [E0|E0]; [discriminate|]. destruct (Z.eqb_spec (g / Z.gcd a g) 1) as [E1|E1]; [discriminate|]. cbn [orb].
  destruct (euclid_ok (Z.abs a) (g / Z.gcd a g)) as (x & y & -> & Hxy). intros H. injection H as <- <-.
  split; [lia|]. split; [exact Hs|]. rewrite Z.gcd_abs_l in Hxy. exists y. destruct (Z.ltb_spec 0 a); nia.
Qed.

Lemma residue c level s t x p :
  let a := nth (level - 1) (c_iter c) 0 in
  let rest := dot (c_par c) p + dot (set0 (level - 1) (c_iter c)) x + c_const c in
  let g := fold_left Z.gcd (c_div c) 0 in
  a <> 0 -> construct_stride c level = Some (s, t) -> Z.gcd a s = 1 ->
  forall v, Z.divide g (a * v + rest) -> forall w,
  Z.divide g (a * w + rest) <-> Z.divide s (w - t * rest).
Proof.
  intros a rest g Ha HC H1 v Hv w. destruct (construct_ok c level s t Ha HC) as (Hs & Hg & Ht). fold a in Hg, Ht. fold g in Hg.
  rewrite H1 in Ht. set (h := Z.gcd a g) in *.
  assert (Hh : 0 < h). { unfold h. pose proof (Z.gcd_nonneg a g). assert (Z.gcd a g <> 0) by (intros E; apply Z.gcd_eq_0_l in E; lia). lia. }
  destruct (Z.gcd_divide_l a g) as [a' Ha']. fold h in Ha'.
  assert (Hr : Z.divide s (w - t * rest) <-> Z.divide s (a * w + rest)).
  { destruct Ht as [k Hk]. split.
    - intros [q Hq]. exists (a * q + k * rest). rewrite Z.mul_add_distr_r. replace (a * q * s) with (a * (q * s)) by lia. rewrite <- Hq. replace (k * rest * s) with ((k * s) * rest) by lia. rewrite <- Hk. lia.
    - intros [q Hq]. apply (Gauss s a). 2: apply Zgcd_1_rel_prime; rewrite Z.gcd_comm; exact H1.
      exists (q - k * rest). rewrite Z.mul_sub_distr_r, <- Hq. replace (k * rest * s) with ((k * s) * rest) by lia. rewrite <- Hk. lia. }
  rewrite Hr. split.
  - intros H. eapply Z.divide_trans; [|exact H]. exists h. lia.
  - intros [q Hq]. destruct Hv as [r Hv].
    (* a (w - v) is a multiple of s; a' (w - v) as well since gcd(a, s) = 1 *)
    assert (D : Z.divide s (a' * (w - v))).
    { apply (Gauss s h). 2: { apply Zgcd_1_rel_prime. apply Z.gcd_unique; try lia; [apply Z.divide_1_l|apply Z.divide_1_l|]. intros z Z1 Z2. rewrite <- H1. apply Z.gcd_greatest; [rewrite Ha'; apply Z.divide_mul_r; exact Z2|exact Z1]. }
      exists (q - r * h). rewrite Z.mul_sub_distr_r, <- Hq. replace (r * h * s) with (r * g) by lia. rewrite <- Hv. nia. }
    destruct D as [z Dz]. exists (r + z). replace (a * w + rest) with (a * v + rest + (a' * (w - v)) * h) by nia. rewrite Hv, Dz, Hg. lia.
Qed.

Lemma offset_value c level t x p :
  stride_offset c level t x p = t * (dot (c_par c) p + dot (set0 (level - 1) (c_iter c)) x + c_const c).
Proof. unfold stride_offset. rewrite !dot_scale_l. lia. Qed.

(** ** lower bounds *)
Lemma lower_ok a f s d : 0 < a -> 0 < s ->
  (forall i, Z.divide s (i - d) -> (stride_lower a f s d <= i <-> 0 <= a * i + f)) /\ Z.divide s (stride_lower a f s d - d).
Proof.
  intros Ha Hs. unfold stride_lower. split.
  - intros i [k Hk]. assert (E : i = k * s + d) by lia. subst i. clear Hk.
    assert (Q : (f + a * d) / (a * s) >= - k <-> f + a * d >= a * s * - k).
    { assert (0 < a * s) by nia. split; intros H0.
      - pose proof (Z.mul_div_le (f + a * d) (a * s) H). nia.
      - apply Z.le_ge, Z.div_le_lower_bound; [exact H|nia]. }
    split; intros H; nia.
  - exists (- ((f + a * d) / (a * s))). lia.
Qed.

(** ** first constraint found *)
Lemma list_stride_spec level hull : forall acc c s t,
  fold_left (find_stride1 level) hull acc = Some (c, (s, t)) ->
  acc = Some (c, (s, t)) \/ (In c hull /\ c_eq c = true /\ nth (level - 1) (c_iter c) 0 <> 0 /\ construct_stride c level = Some (s, t)).
Proof.
  induction hull as [|a hull IH]; intros acc c s t H; cbn [fold_left] in H; [left; exact H|].
  destruct (IH _ _ _ _ H) as [H1|(H1 & H2)]; [|right; split; [right; exact H1|exact H2]].
  unfold find_stride1 in H1. destruct (c_eq a) eqn:Ee; cbn [negb] in H1; [|left; exact H1].
  destruct acc as [q|]; [left; exact H1|]. destruct (c_div a) as [|dv dvs]; [discriminate|].
  destruct (Z.eqb_spec (nth (level - 1) (c_iter a) 0) 0) as [E0|E0]; [discriminate|].
  destruct (construct_stride a level) as [sf|] eqn:Ec; [|discriminate]. injection H1 as <- ->. right. split; [left; reflexivity|]. repeat split; assumption.
Qed.
