From Coq Require Import ZArith List Bool Lia Znumtheory.
From Coq Require Import ZifyBool ZifyNat.
From Verif Require Import IntModel.
Import ListNotations.
Open Scope Z_scope.
Ltac Zify.zify_post_hook ::= Z.div_mod_to_equations.

(** A width large enough for the constants used (C guarantees at least 16). *)
Definition width_ok (w : Z) : Prop := 8 <= w.

Lemma pow_width w : width_ok w -> 2 ^ (w - 1) >= 128.
Proof.
  intros H. replace 128 with (2 ^ 7) by reflexivity.
  apply Z.le_ge, Z.pow_le_mono_r; unfold width_ok in H; lia.
Qed.

Lemma chk_some w z : int_min w <= z <= int_max w -> chk w z = Some z.
Proof. intros H. unfold chk, in_range. replace ((int_min w <=? z) && (z <=? int_max w)) with true; [reflexivity|lia]. Qed.

Lemma chk_none w z : z < int_min w \/ int_max w < z -> chk w z = None.
Proof. intros H. unfold chk, in_range. replace ((int_min w <=? z) && (z <=? int_max w)) with false; [reflexivity|lia]. Qed.

Lemma chk_inv w z r : chk w z = Some r -> r = z /\ int_min w <= z <= int_max w.
Proof. unfold chk, in_range. destruct ((int_min w <=? z) && (z <=? int_max w)) eqn:E; intros H; inversion H. lia. Qed.

Lemma quot_pos a b : 0 <= a -> 0 < b -> Z.quot a b = a / b.
Proof. intros. apply Z.quot_div_nonneg; lia. Qed.
Lemma rem_pos a b : 0 <= a -> 0 < b -> Z.rem a b = a mod b.
Proof. intros. apply Z.rem_mod_nonneg; lia. Qed.

Lemma div_bound a b : 0 <= a -> 0 < b -> 0 <= a / b <= a.
Proof. intros. split; [apply Z.div_pos; lia|]. apply Z.div_le_upper_bound; nia. Qed.

Lemma floor_unique i j q : 0 < j -> q * j <= i < (q + 1) * j -> i / j = q.
Proof. intros Hj H. symmetry. apply Z.div_unique_pos with (r := i - j * q); lia. Qed.

Lemma fdiv_q_spec w i j :
  width_ok w -> int_min w <= i <= int_max w -> 0 < j <= int_max w ->
  (0 <= i \/ - i + j <= int_max w) ->
  fw_fdiv_q w i j = Some (i / j).
Proof.
  intros Hw Hi Hj Hov. pose proof (pow_width w Hw) as HP.
  unfold int_min, int_max in *. unfold fw_fdiv_q.
  replace (0 <? j) with true by lia.
  destruct (0 <=? i) eqn:E.
  - unfold c_div. replace (j =? 0) with false by lia.
    rewrite quot_pos by lia. pose proof (div_bound i j). apply chk_some. unfold int_min, int_max. lia.
  - assert (Hneg : i < 0) by lia.
    unfold c_neg at 1. rewrite chk_some by (unfold int_min, int_max; lia). cbn [bind].
    unfold c_add. rewrite chk_some by (unfold int_min, int_max; lia). cbn [bind].
    unfold c_sub. rewrite chk_some by (unfold int_min, int_max; lia). cbn [bind].
    unfold c_div. replace (j =? 0) with false by lia. rewrite quot_pos by lia.
    pose proof (div_bound (- i + j - 1) j).
    rewrite chk_some by (unfold int_min, int_max; lia). cbn [bind].
    unfold c_neg. rewrite chk_some by (unfold int_min, int_max; lia).
    f_equal. symmetry. apply floor_unique; [lia|]. nia.
Qed.

Lemma fdiv_r_spec w i j :
  width_ok w -> int_min w <= i <= int_max w -> 0 < j <= int_max w ->
  (0 <= i \/ - i + j <= int_max w) ->
  fw_fdiv_r w i j = Some (i mod j) /\ 0 <= i mod j < j.
Proof.
  intros Hw Hi Hj Hov. pose proof (pow_width w Hw) as HP.
  split; [|apply Z.mod_pos_bound; lia].
  unfold int_min, int_max in *. unfold fw_fdiv_r.
  replace (0 <? j) with true by lia.
  destruct (0 <=? i) eqn:E.
  - unfold c_rem. replace (j =? 0) with false by lia.
    rewrite quot_pos by lia. pose proof (div_bound i j).
    replace (in_range w (i / j)) with true by (unfold in_range, int_min, int_max; lia).
    rewrite rem_pos by lia. reflexivity.
  - assert (Hneg : i < 0) by lia.
    unfold c_sub at 1. rewrite chk_some by (unfold int_min, int_max; lia). cbn [bind].
    unfold c_neg. rewrite chk_some by (unfold int_min, int_max; lia). cbn [bind].
    unfold c_add. rewrite chk_some by (unfold int_min, int_max; lia). cbn [bind].
    unfold c_sub at 1. rewrite chk_some by (unfold int_min, int_max; lia). cbn [bind].
    unfold c_rem. replace (j =? 0) with false by lia.
    rewrite quot_pos by lia. pose proof (div_bound (- i + j - 1) j).
    replace (in_range w ((- i + j - 1) / j)) with true by (unfold in_range, int_min, int_max; lia).
    cbn [bind]. rewrite rem_pos by lia.
    pose proof (Z.mod_pos_bound (- i + j - 1) j).
    unfold c_sub. rewrite chk_some by (unfold int_min, int_max; lia).
    f_equal. pose proof (Z.div_mod (- i + j - 1) j).
    apply Z.mod_unique_pos with (q := - ((- i + j - 1) / j)); nia.
Qed.

Lemma cdiv_q_spec w i j :
  width_ok w -> int_min w < i <= int_max w -> 0 < j <= int_max w ->
  (i < 0 \/ i + j <= int_max w) ->
  fw_cdiv_q w i j = Some (- ((- i) / j)).
Proof.
  intros Hw Hi Hj Hov. pose proof (pow_width w Hw) as HP.
  unfold int_min, int_max in *. unfold fw_cdiv_q.
  replace (0 <? j) with true by lia.
  destruct (0 <=? i) eqn:E.
  - unfold c_add. rewrite chk_some by (unfold int_min, int_max; lia). cbn [bind].
    unfold c_sub. rewrite chk_some by (unfold int_min, int_max; lia). cbn [bind].
    unfold c_div. replace (j =? 0) with false by lia. rewrite quot_pos by lia.
    pose proof (div_bound (i + j - 1) j).
    rewrite chk_some by (unfold int_min, int_max; lia). f_equal.
    apply floor_unique; [lia|].
    assert (Hd : (- i) / j = - ((i + j - 1) / j)) by (apply floor_unique; [lia|]; nia).
    rewrite Hd. nia.
  - unfold c_neg at 1. rewrite chk_some by (unfold int_min, int_max; lia). cbn [bind].
    unfold c_div. replace (j =? 0) with false by lia. rewrite quot_pos by lia.
    pose proof (div_bound (- i) j).
    rewrite chk_some by (unfold int_min, int_max; lia). cbn [bind].
    unfold c_neg. rewrite chk_some by (unfold int_min, int_max; lia). reflexivity.
Qed.

Lemma gcd_loop_spec w : width_ok w -> forall fuel a b,
  int_min w < a <= int_max w -> int_min w < b <= int_max w ->
  (Z.abs_nat a < fuel)%nat ->
  fw_gcd_loop w fuel a b = Some (Z.gcd a b).
Proof.
  intros Hw. pose proof (pow_width w Hw) as HP. unfold int_min, int_max.
  induction fuel as [|n IH]; intros a b Ha Hb Hf; [lia|].
  cbn [fw_gcd_loop]. destruct (a =? 0) eqn:Ea.
  - assert (a = 0) by lia. subst a. rewrite Z.gcd_0_l.
    destruct (b <? 0) eqn:Eb.
    + unfold c_neg. rewrite chk_some by (unfold int_min, int_max; lia). f_equal; lia.
    + f_equal; lia.
  - assert (Ha0 : a <> 0) by lia.
    assert (Hq : Z.abs (Z.quot b a) <= Z.abs b).
    { rewrite <- Z.quot_abs by lia. pose proof (div_bound (Z.abs b) (Z.abs a)).
      rewrite quot_pos by lia. lia. }
    assert (Hr : Z.abs (Z.rem b a) < Z.abs a).
    { apply Z.rem_bound_abs; lia. }
    unfold c_rem. replace (a =? 0) with false by lia.
    replace (in_range w (Z.quot b a)) with true by (unfold in_range, int_min, int_max; lia).
    cbn [bind]. rewrite IH; try lia.
    f_equal. rewrite (Z.gcd_comm (Z.rem b a) a).
    pose proof (Z.quot_rem' b a) as Hqr.
    replace (Z.rem b a) with (b + (- Z.quot b a) * a) by lia.
    rewrite Z.gcd_add_mult_diag_r. reflexivity.
Qed.

Lemma gcd_spec w a b :
  width_ok w -> int_min w < a <= int_max w -> int_min w < b <= int_max w ->
  fw_gcd w a b = Some (Z.gcd a b).
Proof. intros Hw Ha Hb. unfold fw_gcd. apply gcd_loop_spec; auto. Qed.

Lemma is_divisible_spec w i j :
  width_ok w -> int_min w < i <= int_max w -> int_min w <= j <= int_max w -> j <> 0 ->
  exists r, fw_is_divisible_by w i j = Some r /\ (r = true <-> (j | i)).
Proof.
  intros Hw Hi Hj Hj0. pose proof (pow_width w Hw) as HP. unfold int_min, int_max in *.
  unfold fw_is_divisible_by, c_rem. replace (j =? 0) with false by lia.
  assert (Hq : Z.abs (Z.quot i j) <= Z.abs i).
  { rewrite <- Z.quot_abs by lia. pose proof (div_bound (Z.abs i) (Z.abs j)).
    rewrite quot_pos by lia. lia. }
  replace (in_range w (Z.quot i j)) with true by (unfold in_range, int_min, int_max; lia).
  cbn [bind]. eexists; split; [reflexivity|].
  rewrite Z.eqb_eq. rewrite Z.rem_divide by lia. reflexivity.
Qed.

(** cmp: the sign is right exactly when the difference is representable *)
Lemma cmp_spec w i j :
  int_min w <= i - j <= int_max w ->
  fw_cmp w i j = Some (i - j).
Proof. intros H. unfold fw_cmp, c_sub. apply chk_some. exact H. Qed.

Lemma cmp_half_range w i j :
  width_ok w -> Z.abs i < 2 ^ (w - 2) -> Z.abs j < 2 ^ (w - 2) ->
  exists r, fw_cmp w i j = Some r /\ (r < 0 <-> i < j) /\ (r = 0 <-> i = j) /\ (0 < r <-> j < i).
Proof.
  intros Hw Hi Hj. exists (i - j). split; [|lia].
  apply cmp_spec. unfold int_min, int_max, width_ok in *.
  replace (2 ^ (w - 1)) with (2 * 2 ^ (w - 2)); [lia|].
  rewrite <- Z.pow_succ_r by lia. f_equal; lia.
Qed.

(** ** vectors *)

(** value of the affine form with coefficients [p] at point [x] (same length) *)
Fixpoint dotp (p x : list Z) : Z :=
  match p, x with
  | a :: p', v :: x' => a * v + dotp p' x'
  | _, _ => 0
  end.

Lemma dotp_neg p x : dotp (seq_neg p) x = - dotp p x.
Proof.
  revert x; induction p as [|a p IH]; intros [|v x]; cbn; try lia.
  unfold seq_neg in IH. rewrite IH. lia.
Qed.

Lemma combine_length m1 p1 m2 p2 : length p1 = length p2 -> length (seq_combine m1 p1 m2 p2) = length p1.
Proof. revert p2; induction p1 as [|a p1 IH]; intros [|b p2] H; cbn in *; try lia. rewrite IH; lia. Qed.

Lemma dotp_combine m1 p1 m2 p2 x :
  length p1 = length p2 ->
  dotp (seq_combine m1 p1 m2 p2) x = m1 * dotp p1 x + m2 * dotp p2 x.
Proof.
  revert p2 x; induction p1 as [|a p1 IH]; intros [|b p2] [|v x] H; cbn in *; try lia.
  rewrite IH by lia. lia.
Qed.

(** gcd of a list *)
Definition gcd_list (p : list Z) : Z := fold_right Z.gcd 0 p.

Lemma gcd_list_nonneg p : 0 <= gcd_list p.
Proof. destruct p; cbn; [lia|apply Z.gcd_nonneg]. Qed.

Lemma gcd_list_divides p x : In x p -> (gcd_list p | x).
Proof.
  induction p as [|a p IH]; intros H; [destruct H|].
  cbn. destruct H as [->|H].
  - apply Z.gcd_divide_l.
  - eapply Z.divide_trans; [apply Z.gcd_divide_r|]. apply IH; exact H.
Qed.

Lemma gcd_list_greatest p d : (forall x, In x p -> (d | x)) -> (d | gcd_list p).
Proof.
  induction p as [|a p IH]; intros H; cbn.
  - apply Z.divide_0_r.
  - apply Z.gcd_greatest; [apply H; left; reflexivity|]. apply IH. intros x Hx; apply H; right; exact Hx.
Qed.

Lemma first_non_zero_none p : seq_first_non_zero p = None -> forall x, In x p -> x = 0.
Proof.
  induction p as [|a p IH]; intros H x Hx; [destruct Hx|].
  cbn in H. destruct (a =? 0) eqn:E; [|discriminate].
  destruct (seq_first_non_zero p); [discriminate|].
  destruct Hx as [->|Hx]; [lia|]. apply IH; auto.
Qed.

Lemma first_non_zero_some p k : seq_first_non_zero p = Some k -> (k < length p)%nat /\ nth k p 0 <> 0
   /\ forall j, (j < k)%nat -> nth j p 0 = 0.
Proof.
  revert k; induction p as [|a p IH]; intros k H; [discriminate|].
  cbn in H. destruct (a =? 0) eqn:E.
  - destruct (seq_first_non_zero p) as [i|]; [|discriminate]. inversion H; subst.
    destruct (IH i eq_refl) as (H1 & H2 & H3). cbn [length nth]. split; [lia|]. split; [exact H2|].
    intros [|j] Hj; [lia|]. apply H3; lia.
  - inversion H; subst. cbn. split; [lia|]. split; [lia|]. intros j Hj; lia.
Qed.

Lemma skipn_cons_nth (p : list Z) k : (k < length p)%nat -> skipn k p = nth k p 0 :: skipn (S k) p.
Proof.
  revert k; induction p as [|a p IH]; intros k H; cbn in H; [lia|].
  destruct k; [reflexivity|]. cbn [skipn nth]. rewrite IH by lia. reflexivity.
Qed.

Lemma abs_min_loop_in p : forall q i best,
  skipn i p = q -> (i <= length p)%nat ->
  (fst best < length p)%nat -> nth (fst best) p 0 = snd best -> snd best <> 0 ->
  let r := seq_abs_min_loop i q best in
  (fst r < length p)%nat /\ nth (fst r) p 0 = snd r /\ snd r <> 0.
Proof.
  induction q as [|x q IH]; intros i best Hs Hi Hb Hv Hn; cbn.
  - auto.
  - assert (Hlt : (i < length p)%nat).
    { destruct (Nat.eq_dec i (length p)) as [->|]; [|lia]. rewrite skipn_all in Hs. discriminate. }
    rewrite skipn_cons_nth in Hs by lia. injection Hs as Hx Hs'.
    destruct (x =? 0) eqn:E.
    + apply IH; auto; lia.
    + destruct (Z.abs x <? Z.abs (snd best)).
      * apply IH; cbn; auto; lia.
      * apply IH; auto; lia.
Qed.

Lemma gcd_loop_1 p : forall i m g, 0 <= g -> g <= 1 -> seq_gcd_loop i m p g = g.
Proof. destruct p as [|x p]; intros; cbn; [reflexivity|]. replace (1 <? g) with false by lia. reflexivity. Qed.

Lemma seq_gcd_loop_spec : forall p i m g,
  0 < g ->
  ((i <= m)%nat -> (m < i + length p)%nat -> (g | nth (m - i) p 0)) ->
  (m < i \/ i + length p <= m \/ (i <= m < i + length p))%nat ->
  seq_gcd_loop i m p g = Z.gcd g (gcd_list p).
Proof.
  induction p as [|x p IH]; intros i m g Hg Hm Htot; cbn [seq_gcd_loop gcd_list fold_right].
  - rewrite Z.gcd_0_r. lia.
  - fold (gcd_list p). destruct (1 <? g) eqn:E1.
    + destruct (Nat.eqb i m) eqn:Eim.
      * apply Nat.eqb_eq in Eim. subst i.
        rewrite IH; [|lia|intros; lia|lia].
        assert (Hd : (g | x)).
        { specialize (Hm (Nat.le_refl _)). cbn [length] in Hm. rewrite Nat.sub_diag in Hm. apply Hm. lia. }
        rewrite Z.gcd_assoc. f_equal.
        symmetry. apply Z.divide_gcd_iff in Hd; lia.
      * apply Nat.eqb_neq in Eim.
        assert (Hstep : forall g', 0 < g' -> (g' | g) -> seq_gcd_loop (S i) m p g' = Z.gcd g' (gcd_list p)).
        { intros g' Hg' Hdv. apply IH; [lia| |lia].
          intros H1 H2. eapply Z.divide_trans; [exact Hdv|].
          specialize (Hm ltac:(lia) ltac:(cbn [length]; lia)).
          replace (m - i)%nat with (S (m - S i)) in Hm by lia. exact Hm. }
        destruct (x =? 0) eqn:Ex.
        -- assert (x = 0) by lia. subst x. rewrite Hstep; [|lia|apply Z.divide_refl].
           rewrite (Z.gcd_0_l (gcd_list p)). rewrite Z.gcd_abs_r. reflexivity.
        -- assert (Hpos : 0 < Z.gcd g x).
           { pose proof (Z.gcd_nonneg g x). assert (Z.gcd g x <> 0); [|lia].
             intros H0. apply Z.gcd_eq_0_l in H0. lia. }
           rewrite Hstep; [|exact Hpos|apply Z.gcd_divide_l].
           rewrite Z.gcd_assoc. reflexivity.
    + assert (g = 1) by lia. subst g. rewrite Z.gcd_1_l. reflexivity.
Qed.

Lemma seq_gcd_spec p : seq_gcd p = gcd_list p.
Proof.
  unfold seq_gcd, seq_abs_min_non_zero.
  destruct (seq_first_non_zero p) as [k|] eqn:E.
  - destruct (first_non_zero_some p k E) as (Hk & Hn & _).
    pose proof (abs_min_loop_in p (skipn (S k) p) (S k) (k, nth k p 0) eq_refl) as HL.
    cbn [fst snd] in HL. specialize (HL ltac:(lia) Hk eq_refl Hn).
    destruct (seq_abs_min_loop (S k) (skipn (S k) p) (k, nth k p 0)) as [m v].
    cbn [fst snd] in HL. destruct HL as (H1 & H2 & H3).
    rewrite seq_gcd_loop_spec.
    + rewrite Z.gcd_comm. rewrite Z.gcd_abs_r.
      assert (Hd : (gcd_list p | v)). { rewrite <- H2. apply gcd_list_divides. apply nth_In. lia. }
      apply Z.divide_gcd_iff in Hd; [exact Hd|apply gcd_list_nonneg].
    + lia.
    + intros _ _. rewrite Nat.sub_0_r. rewrite H2. apply Z.divide_abs_l. apply Z.divide_refl.
    + right; right; lia.
  - assert (Hz := first_non_zero_none p E).
    clear E. induction p as [|a p IH]; [reflexivity|]. cbn.
    rewrite (Hz a (or_introl eq_refl)).
    change (fold_right Z.gcd 0 p) with (gcd_list p).
    rewrite <- IH; [reflexivity|]. intros x Hx; apply Hz; right; exact Hx.
Qed.

Lemma scale_down_dotp p m x :
  m <> 0 -> (forall a, In a p -> (m | a)) -> m * dotp (seq_scale_down p m) x = dotp p x.
Proof.
  intros Hm. revert x; induction p as [|a p IH]; intros [|v x] H; cbn; try lia.
  unfold seq_scale_down in IH. rewrite Z.mul_add_distr_l, IH by (intros; apply H; right; assumption).
  destruct (H a (or_introl eq_refl)) as [k ->]. rewrite Z.quot_mul by lia. lia.
Qed.

Lemma normalize_length p : length (seq_normalize p) = length p.
Proof.
  unfold seq_normalize. destruct p as [|a p]; [reflexivity|].
  destruct (negb _ && negb _); [|reflexivity]. unfold seq_scale_down. rewrite map_length. reflexivity.
Qed.

Lemma normalize_sign p x :
  exists g, 0 < g /\ dotp p x = g * dotp (seq_normalize p) x.
Proof.
  destruct p as [|a p]; [exists 1; cbn; lia|].
  unfold seq_normalize. rewrite seq_gcd_spec.
  destruct (negb (gcd_list (a :: p) =? 0) && negb (gcd_list (a :: p) =? 1)) eqn:E.
  - exists (gcd_list (a :: p)). pose proof (gcd_list_nonneg (a :: p)). split; [lia|].
    symmetry. apply scale_down_dotp; [lia|]. intros y Hy. apply gcd_list_divides; exact Hy.
  - exists 1. lia.
Qed.

Lemma normalize_coprime p :
  (exists a, In a p /\ a <> 0) -> gcd_list (seq_normalize p) = 1.
Proof.
  intros (a0 & Hin & Hne).
  assert (Hg : 0 < gcd_list p).
  { pose proof (gcd_list_nonneg p). assert (gcd_list p <> 0); [|lia].
    intros H0. pose proof (gcd_list_divides p a0 Hin) as Hd. rewrite H0 in Hd.
    apply Z.divide_0_l in Hd. lia. }
  destruct p as [|a p]; [destruct Hin|].
  unfold seq_normalize. rewrite seq_gcd_spec.
  destruct (negb (gcd_list (a :: p) =? 0) && negb (gcd_list (a :: p) =? 1)) eqn:E; [|lia].
  set (q := a :: p) in *. clearbody q. clear a p Hin Hne E.
  set (g := gcd_list q) in *.
  set (d := gcd_list (seq_scale_down q g)).
  assert (Hdg : (d * g | g)).
  { apply gcd_list_greatest. intros x Hx.
    assert (Hdx : (d | Z.quot x g)).
    { apply gcd_list_divides. unfold seq_scale_down. apply (in_map (fun y => Z.quot y g)). exact Hx. }
    destruct (gcd_list_divides q x Hx) as [k Hk]. fold g in Hk. rewrite Hk in Hdx |- *.
    rewrite Z.quot_mul in Hdx by lia. destruct Hdx as [k' ->]. exists k'. lia. }
  assert (Hd0 : 0 <= d) by apply gcd_list_nonneg.
  destruct Hdg as [k Hk]. assert (k * d = 1) by nia.
  apply Z.eq_mul_1_nonneg' with k; lia.
Qed.

(** is_neg: coefficient-wise opposites *)
Lemma is_neg_spec : forall p1 p2, length p1 = length p2 ->
  (seq_is_neg p1 p2 = true <-> p2 = seq_neg p1).
Proof.
  induction p1 as [|a p1 IH]; intros [|b p2] H; cbn in *; try lia; [tauto|].
  specialize (IH p2 ltac:(lia)). fold (seq_neg p1).
  destruct (negb (Z.abs a =? Z.abs b)) eqn:E1.
  - split; [discriminate|]. intros Heq. injection Heq as -> _. lia.
  - destruct (a =? 0) eqn:E2.
    + rewrite IH. split; [intros ->; f_equal; lia|]. intros Heq. injection Heq as _ ->. reflexivity.
    + destruct (a =? b) eqn:E3.
      * split; [discriminate|]. intros Heq. injection Heq as Hb _. lia.
      * rewrite IH. split; [intros ->; f_equal; lia|]. intros Heq. injection Heq as _ ->. reflexivity.
Qed.

Lemma abs_cmp_spec w i j : 8 <= w -> - 2 ^ (w - 1) < i <= 2 ^ (w - 1) - 1 -> - 2 ^ (w - 1) < j <= 2 ^ (w - 1) - 1 ->
  exists r, fw_abs_cmp w i j = Some r /\ (r < 0 <-> Z.abs i < Z.abs j) /\ (r = 0 <-> Z.abs i = Z.abs j) /\ (0 < r <-> Z.abs j < Z.abs i).
Proof.
  intros Hw Hi Hj. set (p := 2 ^ (w - 1)) in *.
  assert (Hc : forall z, - p <= z <= p - 1 -> chk w z = Some z).
  { intros z Hz. unfold chk, in_range, int_min, int_max. fold p. destruct (Z.leb_spec (- p) z); [|lia]. destruct (Z.leb_spec z (p - 1)); [|lia]. reflexivity. }
  assert (Ha : forall z, - p < z <= p - 1 -> (if 0 <? z then Some z else c_neg w z) = Some (Z.abs z)).
  { intros z Hz. destruct (Z.ltb_spec 0 z); [rewrite Z.abs_eq by lia; reflexivity|]. unfold c_neg. rewrite Hc by lia. rewrite Z.abs_neq by lia. reflexivity. }
  unfold fw_abs_cmp. rewrite !Ha by assumption. cbn [bind]. unfold c_sub. rewrite Hc by lia. eexists. split; [reflexivity|]. lia.
Qed.
