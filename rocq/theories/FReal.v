(** Quotients of rounded reals: the floor and the ceiling are right as long as the integers are
    small, and there is a rounding. *)
From Coq Require Import ZArith List Bool Arith QArith Qround Qabs Qpower Lia Lqa.
From Verif Require Import FReader.
Import ListNotations.
Local Open Scope Z_scope.

Lemma single_int : forall z, Z.abs z <= 2 ^ 24 -> single (inject_Z z).
Proof. intros z H. exists z, 0. split; [exact H|]. unfold Qpower. ring. Qed.
Lemma single_opp : forall q, single q -> single (- q).
Proof. intros q (m & e & M & E). exists (- m), e. split; [lia|]. rewrite E, inject_Z_opp. ring. Qed.
Lemma single_eq : forall p q, (p == q)%Q -> single p -> single q.
Proof. intros p q H (m & e & M & E). exists m, e. split; [exact M|]. now rewrite <- H. Qed.
(** one nearest value *)
Definition near (q r : Q) : Prop := single r /\ forall s, single s -> (Qabs (q - r) <= Qabs (q - s))%Q.
Lemma near_opp : forall q r, near q r -> near (- q) (- r).
Proof.
  intros q r [S N]. split; [now apply single_opp|]. intros s Hs. specialize (N (- s)%Q (single_opp s Hs)).
  assert (E1 : (- q - - r == - (q - r))%Q) by ring. assert (E2 : (- q - s == - (q - - s))%Q) by ring.
  rewrite E1, E2, !Qabs_opp. exact N.
Qed.
Lemma near_self : forall q r, single q -> near q r -> (r == q)%Q.
Proof.
  intros q r S [_ N]. specialize (N q S). assert (E : (q - q == 0)%Q) by ring. rewrite E in N. change (Qabs 0) with 0%Q in N.
  apply Qabs_Qle_condition in N. lra.
Qed.
(** never below a value below, never above a value above *)
Lemma near_ge : forall q r s, near q r -> single s -> (s <= q)%Q -> (s <= r)%Q.
Proof.
  intros q r s [S N] Hs L. specialize (N s Hs). rewrite (Qabs_pos (q - s)) in N by lra. apply Qabs_Qle_condition in N. lra.
Qed.
Lemma near_lt : forall q r s c, near q r -> single c -> (q < s)%Q -> (c < s)%Q -> (s - c < 2 * (s - q))%Q -> (r < s)%Q.
Proof.
  intros q r s c [S N] Hc L1 L2 L3. specialize (N c Hc). apply Qnot_le_lt. intro G.
  rewrite (Qabs_neg (q - r)) in N by lra. destruct (Qlt_le_dec q c).
  - rewrite (Qabs_neg (q - c)) in N by lra. lra.
  - rewrite (Qabs_pos (q - c)) in N by lra. lra.
Qed.
Lemma floor_between : forall q z, (inject_Z z <= q)%Q -> (q < inject_Z (z + 1))%Q -> Qfloor q = z.
Proof.
  intros q z L U. pose proof (Qfloor_le q) as F1. pose proof (Qlt_floor q) as F2.
  assert (inject_Z (Qfloor q) < inject_Z (z + 1))%Q by (eapply Qle_lt_trans; eassumption).
  assert (inject_Z z < inject_Z (Qfloor q + 1))%Q by (eapply Qle_lt_trans; eassumption).
  rewrite <- Zlt_Qlt in *. lia.
Qed.
(** the quotient of small integers *)
Lemma floor_small : forall x d r, 0 < d -> Z.abs x + d <= 2 ^ 24 -> near (inject_Z x / inject_Z d) r -> Qfloor r = x / d.
Proof.
  intros x d r D B N. set (k := x / d). assert (E : x = d * k + x mod d) by (apply Z.div_mod; lia). pose proof (Z.mod_pos_bound x d D) as M.
  assert (DQ : (0 < inject_Z d)%Q) by (change 0%Q with (inject_Z 0); rewrite <- Zlt_Qlt; exact D).
  assert (KX : Z.abs k <= Z.abs x).
  { destruct (Z_le_gt_dec 0 x); [|]; nia. }
  apply floor_between.
  - apply (near_ge _ _ _ N); [apply single_int; lia|]. apply Qle_shift_div_l; [exact DQ|]. rewrite <- inject_Z_mult, <- Zle_Qle. lia.
  - (* a value just below k + 1 *)
    set (s := Z.log2 d). assert (S0 : 0 <= s) by apply Z.log2_nonneg. destruct (Z.log2_spec d D) as [S1 S2]. fold s in S1, S2.
    rewrite Z.pow_succ_r in S2 by exact S0. assert (P : 0 < 2 ^ s) by (apply Z.pow_pos_nonneg; lia).
    set (c := (inject_Z ((k + 1) * 2 ^ s - 1) / inject_Z (2 ^ s))%Q).
    assert (PQ : (0 < inject_Z (2 ^ s))%Q) by (change 0%Q with (inject_Z 0); rewrite <- Zlt_Qlt; exact P).
    assert (CE : (inject_Z (k + 1) - c == 1 / inject_Z (2 ^ s))%Q).
    { unfold c, Z.sub. rewrite !inject_Z_plus, inject_Z_mult, inject_Z_plus. change (inject_Z (- (1))) with (- (1))%Q. field. intro Q0. rewrite Q0 in PQ. discriminate PQ. }
    assert (C0 : (0 < 1 / inject_Z (2 ^ s))%Q) by (apply Qlt_shift_div_l; [exact PQ|lra]).
    apply (near_lt _ _ _ c N).
    + exists ((k + 1) * 2 ^ s - 1), (- s). split.
      * destruct (Z_le_gt_dec 0 k); nia.
      * unfold c. rewrite Qpower_opp. unfold Qdiv. apply Qmult_comp; [reflexivity|]. apply Qinv_comp.
        change (2 # 1)%Q with (inject_Z 2). apply Zpower_Qpower. exact S0.
    + apply Qlt_shift_div_r; [exact DQ|]. rewrite <- inject_Z_mult, <- Zlt_Qlt. nia.
    + lra.
    + rewrite CE. apply Qlt_le_trans with (2 * (1 / inject_Z d))%Q.
      * setoid_replace (2 * (1 / inject_Z d))%Q with (2 / inject_Z d)%Q by (field; intro Q0; rewrite Q0 in DQ; discriminate DQ).
        apply Qlt_shift_div_r; [exact PQ|]. setoid_replace (2 / inject_Z d * inject_Z (2 ^ s))%Q with ((2 * inject_Z (2 ^ s)) / inject_Z d)%Q
          by (field; intro Q0; rewrite Q0 in DQ; discriminate DQ).
        apply Qlt_shift_div_l; [exact DQ|]. change 2%Q with (inject_Z 2). change 1%Q with (inject_Z 1). rewrite <- !inject_Z_mult, <- Zlt_Qlt. lia.
      * assert (G : (1 / inject_Z d <= inject_Z (k + 1) - inject_Z x / inject_Z d)%Q); [|lra].
        setoid_replace (inject_Z (k + 1) - inject_Z x / inject_Z d)%Q with ((inject_Z (k + 1) * inject_Z d - inject_Z x) / inject_Z d)%Q
          by (field; intro Q0; rewrite Q0 in DQ; discriminate DQ).
        apply Qle_shift_div_l; [exact DQ|]. setoid_replace (1 / inject_Z d * inject_Z d)%Q with 1%Q by (field; intro Q0; rewrite Q0 in DQ; discriminate DQ).
        assert (H : (inject_Z (x + 1) <= inject_Z ((k + 1) * d))%Q) by (rewrite <- Zle_Qle; nia). rewrite inject_Z_plus, inject_Z_mult in H. change (inject_Z 1) with 1%Q in H. lra.
Qed.
Lemma ceiling_small : forall x d r, 0 < d -> Z.abs x + d <= 2 ^ 24 -> near (inject_Z x / inject_Z d) r -> Qceiling r = - ((- x) / d).
Proof.
  intros x d r D B N. unfold Qceiling. f_equal. apply floor_small; [exact D|lia|].
  apply near_opp in N. destruct N as [S N].
  assert (E : (- (inject_Z x / inject_Z d) == inject_Z (- x) / inject_Z d)%Q) by (rewrite inject_Z_opp; unfold Qdiv; ring).
  split; [exact S|]. intros s Hs. rewrite <- E. now apply N.
Qed.
Lemma nearest_near : forall rnd q, nearest rnd -> near q (rnd q).
Proof. intros rnd q H. exact (H q). Qed.

(** *** a rounding exists *)
Local Open Scope Q_scope.
Definition two (e : Z) : Q := (2 # 1) ^ e.
Lemma two_pos : forall e, 0 < two e.
Proof. intro e. unfold two. apply Qpower_0_lt. reflexivity. Qed.
Lemma two_plus : forall a b, two (a + b) == two a * two b.
Proof. intros. unfold two. apply Qpower_plus. discriminate. Qed.
Lemma two_int : forall e, (0 <= e)%Z -> two e == inject_Z (2 ^ e).
Proof. intros e H. unfold two. change (2 # 1) with (inject_Z 2). symmetry. now apply Zpower_Qpower. Qed.
Lemma two_le : forall a b, (a <= b)%Z -> two a <= two b.
Proof.
  intros a b H. replace b with (a + (b - a))%Z by lia. rewrite two_plus. rewrite (two_int (b - a)) by lia.
  assert (1 <= inject_Z (2 ^ (b - a))) by (change 1 with (inject_Z 1); rewrite <- Zle_Qle; assert (0 < 2 ^ (b - a))%Z by (apply Z.pow_pos_nonneg; lia); lia).
  pose proof (two_pos a). nra.
Qed.
(** the power of 2 below a positive number *)
Definition binade (q : Q) : Z :=
  let t := (Z.log2 (Qnum q) - Z.log2 (Zpos (Qden q)))%Z in if Qle_bool (two t) q then t else (t - 1)%Z.
Lemma num_den : forall q, q * inject_Z (Zpos (Qden q)) == inject_Z (Qnum q).
Proof. intros [n d]. unfold Qeq. simpl. lia. Qed.
Lemma binade_spec : forall q, 0 < q -> two (binade q) <= q /\ q < two (binade q + 1).
Proof.
  intros q H. unfold binade. set (a := Z.log2 (Qnum q)). set (b := Z.log2 (Zpos (Qden q))).
  assert (NP : (0 < Qnum q)%Z) by (unfold Qlt in H; simpl in H; lia).
  destruct (Z.log2_spec _ NP) as [A1 A2]. fold a in A1, A2. destruct (Z.log2_spec (Zpos (Qden q)) ltac:(lia)) as [B1 B2]. fold b in B1, B2.
  assert (A0 : (0 <= a)%Z) by apply Z.log2_nonneg. assert (B0 : (0 <= b)%Z) by apply Z.log2_nonneg.
  pose proof (num_den q) as ND. set (n := Qnum q) in *. set (d := Zpos (Qden q)) in *.
  assert (TA : two a <= inject_Z n) by (rewrite two_int by exact A0; now rewrite <- Zle_Qle).
  assert (TA' : inject_Z n < two (a + 1)) by (rewrite two_int by lia; now rewrite <- Zlt_Qlt).
  assert (TB : two b <= inject_Z d) by (rewrite two_int by exact B0; now rewrite <- Zle_Qle).
  assert (TB' : inject_Z d < two (b + 1)) by (rewrite two_int by lia; now rewrite <- Zlt_Qlt).
  assert (DP : 0 < inject_Z d) by (eapply Qlt_le_trans; [apply (two_pos b)|exact TB]).
  assert (UP : q < two (a - b + 1)).
  { apply Qnot_le_lt. intro G. assert (two (a - b + 1) * two b <= inject_Z n).
    { rewrite <- ND. apply Qle_trans with (q * two b); [apply Qmult_le_r; [apply two_pos|exact G]|]. rewrite Qmult_comm, (Qmult_comm q). apply Qmult_le_r; [exact H|exact TB]. }
    rewrite <- two_plus in H0. replace (a - b + 1 + b)%Z with (a + 1)%Z in H0 by lia. apply (Qle_not_lt _ _ H0). exact TA'. }
  assert (LO : two (a - b - 1) <= q).
  { apply Qnot_lt_le. intro G. assert (inject_Z n < two (a - b - 1) * two (b + 1)).
    { rewrite <- ND. apply Qlt_trans with (two (a - b - 1) * inject_Z d); [apply Qmult_lt_r; [exact DP|exact G]|].
      rewrite Qmult_comm, (Qmult_comm (two _)). apply Qmult_lt_r; [apply two_pos|exact TB']. }
    rewrite <- two_plus in H0. replace (a - b - 1 + (b + 1))%Z with a in H0 by lia. apply (Qlt_not_le _ _ H0). exact TA. }
  destruct (Qle_bool (two (a - b)) q) eqn:E.
  - apply Qle_bool_iff in E. now split.
  - split; [exact LO|]. replace (a - b - 1 + 1)%Z with (a - b)%Z by lia. apply Qnot_le_lt. intro G. apply Qle_bool_iff in G. congruence.
Qed.
Definition round_pos (q : Q) : Q :=
  let e := (binade q - 23)%Z in inject_Z (Qfloor (q / two e + (1 # 2))) * two e.
Definition round24 (q : Q) : Q := if Qlt_le_dec 0 q then round_pos q else if Qlt_le_dec q 0 then - round_pos (- q) else 0.
(** the nearest integer *)
Lemma floor_nearest : forall q z, Qabs (q - inject_Z (Qfloor (q + (1 # 2)))) <= Qabs (q - inject_Z z).
Proof.
  intros q z. pose proof (Qfloor_le (q + (1 # 2))) as L. pose proof (Qlt_floor (q + (1 # 2))) as U. set (f := Qfloor (q + (1 # 2))) in *.
  rewrite inject_Z_plus in U. change (inject_Z 1) with 1 in U.
  assert (A : Qabs (q - inject_Z f) <= 1 # 2) by (apply Qabs_Qle_condition; lra).
  destruct (Z.eq_dec z f) as [->|N]; [apply Qle_refl|].
  apply Qle_trans with (1 # 2); [exact A|]. destruct (Z_lt_le_dec z f).
  - assert (inject_Z (z + 1) <= inject_Z f) by (rewrite <- Zle_Qle; lia). rewrite inject_Z_plus in H. change (inject_Z 1) with 1 in H.
    rewrite Qabs_pos by lra. lra.
  - assert (inject_Z (f + 1) <= inject_Z z) by (rewrite <- Zle_Qle; lia). rewrite inject_Z_plus in H. change (inject_Z 1) with 1 in H.
    rewrite Qabs_neg by lra. lra.
Qed.
Lemma round_pos_near : forall q, 0 < q -> near q (round_pos q).
Proof.
  intros q H. destruct (binade_spec q H) as [L U]. unfold round_pos. set (t := binade q) in *. set (e := (t - 23)%Z).
  set (y := q / two e). set (m := Qfloor (y + (1 # 2))). pose proof (two_pos e) as EP.
  assert (EN : ~ two e == 0) by (intro X; rewrite X in EP; discriminate EP).
  assert (Y : q == y * two e) by (unfold y; field; exact EN).
  assert (T1 : two t == inject_Z (2 ^ 23) * two e) by (rewrite <- two_int, <- two_plus by lia; now replace (23 + e)%Z with t by (unfold e; lia)).
  assert (T2 : two (t + 1) == inject_Z (2 ^ 24) * two e) by (rewrite <- two_int, <- two_plus by lia; now replace (24 + e)%Z with (t + 1)%Z by (unfold e; lia)).
  assert (Y1 : inject_Z (2 ^ 23) <= y) by (rewrite T1, Y in L; apply Qmult_le_r in L; [exact L|exact EP]).
  assert (Y2 : y < inject_Z (2 ^ 24)) by (rewrite T2, Y in U; apply Qmult_lt_r in U; [exact U|exact EP]).
  assert (M1 : (2 ^ 23 <= m)%Z).
  { pose proof (Qlt_floor (y + (1 # 2))) as X. fold m in X. assert (Z : inject_Z (2 ^ 23) < inject_Z (m + 1)) by lra. rewrite <- Zlt_Qlt in Z. lia. }
  assert (M2 : (m <= 2 ^ 24)%Z).
  { pose proof (Qfloor_le (y + (1 # 2))) as X. fold m in X. assert (Z : inject_Z m < inject_Z (2 ^ 24 + 1)) by (rewrite inject_Z_plus; change (inject_Z 1) with 1; lra).
    rewrite <- Zlt_Qlt in Z. lia. }
  split; [exists m, e; split; [lia|reflexivity]|].
  (* a multiple of the unit *)
  assert (K : forall z, Qabs (q - inject_Z m * two e) <= Qabs (q - inject_Z z * two e)).
  { intro z. assert (E1 : forall w, Qabs (q - inject_Z w * two e) == Qabs (y - inject_Z w) * two e).
    { intro w. rewrite <- (Qabs_pos (two e)) at 2 by lra. rewrite <- Qabs_Qmult. apply Qabs_wd. rewrite Y. ring. }
    rewrite !E1. apply Qmult_le_r; [exact EP|]. apply floor_nearest. }
  intros s (m' & e' & B & E). fold (two e') in E. destruct (Z_le_gt_dec e e').
  - assert (E2 : s == inject_Z (m' * 2 ^ (e' - e)) * two e).
    { rewrite E, inject_Z_mult. rewrite <- (two_int (e' - e)) by lia. rewrite <- Qmult_assoc, <- two_plus. now replace (e' - e + e)%Z with e' by lia. }
    rewrite E2. apply K.
  - (* too small *)
    assert (S1 : s <= two t).
    { rewrite E. apply Qle_trans with (inject_Z (2 ^ 24) * two e').
      - apply Qmult_le_r; [apply two_pos|]. rewrite <- Zle_Qle. lia.
      - rewrite <- two_int, <- two_plus by lia. apply two_le. unfold e in g. lia. }
    apply Qle_trans with (Qabs (q - inject_Z (2 ^ 23) * two e)); [apply K|]. rewrite <- T1. rewrite !Qabs_pos by lra. lra.
Qed.
Lemma near_eq : forall q r r', r == r' -> near q r -> near q r'.
Proof.
  intros q r r' E [S N]. split; [now apply (single_eq r)|]. intros s Hs. rewrite <- E. now apply N.
Qed.
Lemma nearest_round24 : nearest round24.
Proof.
  intro q. change (near q (round24 q)). unfold round24. destruct (Qlt_le_dec 0 q) as [H|H]; [now apply round_pos_near|].
  destruct (Qlt_le_dec q 0) as [H'|H'].
  - pose proof (near_opp _ _ (round_pos_near (- q) ltac:(lra))) as [S N]. split; [exact S|]. intros s Hs. specialize (N s Hs).
    assert (E : forall w, - - q - w == q - w) by (intro; ring). rewrite !E in N. exact N.
  - split; [apply (single_int 0); lia|]. intros s Hs. assert (E : q - 0 == 0) by lra. rewrite E. change (Qabs 0) with 0. apply Qabs_nonneg.
Qed.
Close Scope Q_scope.
(** beyond the range, every rounding gives a wrong floor: 33554435 is rounded to 33554436 *)
Lemma near_large : forall r, near (inject_Z 33554435) r -> (r == inject_Z 33554436)%Q.
Proof.
  intros r [S N]. assert (B : (Qabs (inject_Z 33554435 - r) <= 1)%Q).
  { eapply Qle_trans; [apply (N (inject_Z 33554436))|].
    - exists 8388609, 2. split; [lia|]. reflexivity.
    - discriminate. }
  apply Qabs_Qle_condition in B. destruct B as [B1 B2]. destruct S as (m & e & M & E). fold (two e) in E.
  assert (R1 : (inject_Z 33554434 <= r)%Q) by (change (inject_Z 33554434) with (inject_Z 33554435 - 1)%Q; lra).
  assert (R2 : (r <= inject_Z 33554436)%Q) by (change (inject_Z 33554436) with (inject_Z 33554435 + 1)%Q; lra).
  destruct (Z_le_gt_dec 2 e).
  - assert (E2 : (r == inject_Z (m * 2 ^ (e - 2) * 4))%Q).
    { rewrite E, !inject_Z_mult. rewrite <- (two_int (e - 2)) by lia. change (inject_Z 4) with (inject_Z (2 ^ 2)). rewrite <- (two_int 2) by lia.
      rewrite <- Qmult_assoc, <- two_plus. now replace (e - 2 + 2) with e by lia. }
    rewrite E2 in *. rewrite <- Zle_Qle in R1, R2. set (w := m * 2 ^ (e - 2)) in *. replace w with 8388609 by lia. reflexivity.
  - exfalso. assert (U : (r <= inject_Z 33554432)%Q).
    { rewrite E. apply Qle_trans with (inject_Z (2 ^ 24) * two e)%Q.
      - apply Qmult_le_r; [apply two_pos|]. rewrite <- Zle_Qle. lia.
      - rewrite <- two_int, <- two_plus by lia. apply Qle_trans with (two 25); [apply two_le; lia|]. rewrite two_int by lia. discriminate. }
    assert (X : (inject_Z 33554434 <= inject_Z 33554432)%Q) by (eapply Qle_trans; eassumption). rewrite <- Zle_Qle in X. lia.
Qed.
Lemma floor_large : forall rnd, nearest rnd -> Qfloor (rnd (rnd (inject_Z 33554435) / rnd (inject_Z 2))%Q) = 16777218.
Proof.
  intros rnd N. pose proof (near_large _ (N _)) as E1. pose proof (near_self _ _ (single_int 2 ltac:(lia)) (N (inject_Z 2))) as E2.
  assert (E : (rnd (inject_Z 33554435) / rnd (inject_Z 2) == inject_Z 16777218)%Q) by (rewrite E1, E2; reflexivity).
  assert (S : single (rnd (inject_Z 33554435) / rnd (inject_Z 2))%Q).
  { apply (single_eq (inject_Z 16777218)); [symmetry; exact E|]. exists 8388609, 1. split; [lia|reflexivity]. }
  rewrite (Qfloor_comp _ _ (near_self _ _ S (N _))), (Qfloor_comp _ _ E). reflexivity.
Qed.
