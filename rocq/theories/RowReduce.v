From Coq Require Import ZArith List Bool Arith Lia Zdiv Znumtheory.
From Verif Require Import IntModel IntProofs RowModel RowSpec RowProofs RowDefine.
Import ListNotations.
Local Open Scope Z_scope.
Local Arguments Nat.ltb : simpl never.
Local Arguments Nat.leb : simpl never.
Local Arguments Nat.eqb : simpl never.
Local Arguments Nat.sub : simpl never.

(** ** Euclid *)
Lemma euclid_loop_some A B : forall fuel c d e f y z, 0 <= c -> 0 <= d -> (Z.to_nat d < fuel)%nat -> c = e * A + y * B -> d = f * A + z * B ->
  exists x w, euclid_loop fuel c d e f = Some (Z.gcd c d, x) /\ Z.gcd c d = x * A + w * B.
Proof.
  induction fuel as [|n IH]; intros c d e f y z Hc Hd Hf E1 E2; [lia|]. cbn [euclid_loop]. destruct (Z.ltb_spec 0 d) as [Hp|Hp].
  - rewrite Z.quot_div_nonneg by lia. assert (Er : c - c / d * d = c mod d) by (rewrite Z.mod_eq by lia; ring). rewrite Er. pose proof (Z.mod_pos_bound c d Hp).
    destruct (IH d (c mod d) f (e - c / d * f) z (y - c / d * z)) as (x & w & I1 & I2); try lia.
    exists x, w. rewrite I1. assert (G : Z.gcd d (c mod d) = Z.gcd c d) by (rewrite Z.gcd_comm, Z.gcd_mod by lia; apply Z.gcd_comm). rewrite G in *. split; [reflexivity|exact I2].
  - replace d with 0 by lia. rewrite Z.gcd_0_r, Z.abs_eq by lia. exists e, y. split; [reflexivity|exact E1].
Qed.
Theorem euclid_spec a b : exists x w, euclid a b = Some (Z.gcd a b, x) /\ Z.gcd a b = x * a + w * b.
Proof.
  unfold euclid. destruct (euclid_loop_some (Z.abs a) (Z.abs b) (S (Z.to_nat (Z.abs b))) (Z.abs a) (Z.abs b) 1 0 0 1) as (x & w & H1 & H2); try lia.
  rewrite H1. rewrite Z.gcd_abs_l, Z.gcd_abs_r in *.
  destruct (Z.eqb_spec a 0) as [->|Ha]; [exists 0, (w * Z.sgn b); split; [reflexivity|]; rewrite H2; destruct (Z.abs_spec b) as [[? ->]|[? ->]]; [destruct (Z.eq_dec b 0) as [->|]; [cbn; ring|rewrite Z.sgn_pos by lia; cbn; ring]|rewrite Z.sgn_neg by lia; cbn; ring]|].
  assert (Hb : w * Z.abs b = (w * Z.sgn b) * b) by (destruct (Z.abs_spec b) as [[? ->]|[? ->]]; [destruct (Z.eq_dec b 0) as [->|]; [cbn; ring|rewrite Z.sgn_pos by lia; ring]|rewrite Z.sgn_neg by lia; ring]).
  destruct (Z.ltb_spec 0 a) as [Hp|Hp]; [exists x, (w * Z.sgn b)|exists (- x), (w * Z.sgn b)]; (split; [reflexivity|]); rewrite H2, Hb; destruct (Z.abs_spec a) as [[? ->]|[? ->]]; try lia; ring.
Qed.
Lemma divisible_spec a b : b <> 0 -> (divisible a b = true <-> (b | a)).
Proof.
  intros Hb. unfold divisible. destruct (Z.eqb_spec b 0); [contradiction|]. rewrite Z.eqb_eq. split; intros H.
  - apply Z.rem_divide; assumption.
  - apply Z.rem_divide; assumption.
Qed.

(** ** rows that are the same modulo a number *)
Lemma sum_cong m n f g : (forall j, (j < n)%nat -> (m | f j - g j)) -> (m | sum n f - sum n g).
Proof.
  induction n as [|n IH]; intros H; cbn; [exists 0; ring|]. replace (sum n f + f n - (sum n g + g n)) with ((sum n f - sum n g) + (f n - g n)) by ring.
  apply Z.divide_add_r; [apply IH; intros; apply H; lia|apply H; lia].
Qed.
Lemma value_cong m np a b it par : length a = length b -> (np + 2 <= length a)%nat -> (forall k, (1 <= k < length a)%nat -> (m | nth k a 0 - nth k b 0)) -> (m | value np a it par - value np b it par).
Proof.
  intros Hl HL H. unfold value. rewrite <- Hl. set (L := length a) in *.
  match goal with |- (m | ?x + ?y + ?z - (?x' + ?y' + ?z')) => replace (x + y + z - (x' + y' + z')) with ((x - x') + (y - y') + (z - z')) by ring end.
  assert (Hm : forall p q v, (m | p - q) -> (m | p * v - q * v)) by (intros p q v Hd; replace (p * v - q * v) with ((p - q) * v) by ring; apply Z.divide_mul_l; exact Hd).
  apply Z.divide_add_r; [apply Z.divide_add_r|]; [apply sum_cong; intros j Hj; apply Hm, H; lia|apply sum_cong; intros j Hj; apply Hm, H; lia|apply H; lia].
Qed.
Lemma cong_trans m a b c : (m | a - b) -> (m | b - c) -> (m | a - c).
Proof. intros H1 H2. replace (a - c) with ((a - b) + (b - c)) by ring. apply Z.divide_add_r; assumption. Qed.
Lemma blocked_false q m i j : m <> 0 -> blocked q m i j = false -> forall k, (i < k <= j)%nat -> (m | nth k q 0).
Proof.
  intros Hm H k Hk. unfold blocked in H. destruct (Z.eq_dec (nth k q 0) 0) as [E|E]; [rewrite E; apply Z.divide_0_r|].
  destruct (divisible (nth k q 0) m) eqn:Ed; [apply divisible_spec; assumption|]. exfalso.
  assert (X : existsb (fun k => negb (at_ q k =? 0) && negb (divisible (at_ q k) m)) (seq (i + 1) (j - i)) = true); [|congruence].
  apply existsb_exists. exists k. split; [apply in_seq; lia|]. unfold at_. rewrite Ed. apply Z.eqb_neq in E. rewrite E. reflexivity.
Qed.

Section Reduce.
Context (np N : nat) (e : equalities) (it par : nat -> Z).
Hypothesis Hok : eq_ok np e N.
Hypothesis Hhold : equal_hold np e it par.

Lemma reduce_by_spec level i : (1 <= level)%nat -> forall js line, (forall j, In j js -> (j < level)%nat) -> (np + 2 <= length line <= N)%nat -> (level <= length line - np - 2)%nat -> (1 <= i <= length line - np - 2)%nat -> i <> level ->
  0 < nth level line 0 -> exists line', reduce_by e np line level i js = Some line' /\ length line' = length line /\ nth 0 line' 0 = nth 0 line 0 /\ nth level line' 0 = nth level line 0 /\
  (nth level line 0 | value np line' it par - value np line it par).
Proof.
  intros Hlev. induction js as [|j js IH]; intros line Hjs HL Hl Hi Hil Hm; cbn [reduce_by]; [exists line; repeat split; auto; rewrite Z.sub_diag; apply Z.divide_0_r|].
  assert (IH' := IH line (fun j Hj => Hjs j (or_intror Hj)) HL Hl Hi Hil Hm). clear IH. set (m := at_ line level) in *. assert (Hm' : 0 < m) by exact Hm.
  destruct (Nat.eqb_spec (eq_type e j) EQ_EXAFFINE) as [Et|Et]; cbn [negb]; [|exact IH'].
  assert (Ht : nth j (eq_types e) 0%nat <> 0%nat) by (unfold eq_type, EQ_NONE in Et; rewrite Et; discriminate).
  destruct (Hok j Ht) as [Hq Ha]. pose proof (Hhold j Ht) as Hv. fold (eq_row e j) in Hq, Ha, Hv. set (q := eq_row e j) in *. destruct Ha as (Ha1 & Ha2 & Ha3).
  destruct (divisible (at_ q (j + 1)) m) eqn:E1; cbn [negb]; [|exact IH']. destruct (divisible (at_ q i) m) eqn:E2; [exact IH'|].
  destruct (blocked q m i j) eqn:E3; [exact IH'|].
  destruct (euclid_spec (at_ q i) m) as (x & w & E4 & _). rewrite E4. destruct (divisible (at_ q i) (at_ line i)); cbn [negb]; [|exact IH'].
  apply divisible_spec in E1; [|lia]. assert (E2' : ~ (m | nth i q 0)) by (intros Hd; apply (divisible_spec (nth i q 0) m) in Hd; [unfold at_ in E2; congruence|lia]).
  assert (Hij : (i <= j)%nat).
  { destruct (Nat.le_gt_cases i (j + 1)) as [H|H]; [|exfalso; apply E2'; rewrite Ha3 by (rewrite Hq in *; lia); apply Z.divide_0_r].
    destruct (Nat.eq_dec i (j + 1)) as [E|E]; [exfalso; apply E2'; rewrite E; exact E1|lia]. }
  pose proof (Hjs j (or_introl eq_refl)) as Hj. set (val := - Z.quot (at_ line i) (Z.gcd (at_ q i) m) * x). clearbody val.
  set (line' := map _ _). exists line'. split; [reflexivity|].
  assert (Hlen : length line' = length line) by (unfold line'; rewrite map_length, seq_length; reflexivity).
  assert (Hn : forall k, (k < length line)%nat -> nth k line' 0 = if (1 <=? k)%nat && (k <=? i)%nat then nth k line 0 + val * nth k q 0
      else if (length line - np - 1 <=? k)%nat then nth k line 0 + val * nth (length q - (length line - k)) q 0 else nth k line 0).
  { intros k Hk. unfold line'. rewrite nth_map_seq by exact Hk. reflexivity. }
  clearbody line'. split; [exact Hlen|].
  split; [rewrite Hn by lia; destruct (Nat.leb_spec 1 0); [lia|]; cbn [andb]; destruct (Nat.leb_spec (length line - np - 1) 0); [lia|reflexivity]|].
  split; [rewrite Hn by lia; destruct (Nat.leb_spec level i); [lia|]; rewrite andb_false_r; destruct (Nat.leb_spec (length line - np - 1) level); [lia|reflexivity]|].
  (* the equality without the variables after i *)
  set (q' := map (fun k => if (i <? k)%nat && (k <=? N - np - 2)%nat then 0 else nth k q 0) (seq 0 N)).
  assert (Hq' : length q' = N) by (unfold q'; rewrite map_length, seq_length; reflexivity).
  assert (Hn' : forall k, (k < N)%nat -> nth k q' 0 = if (i <? k)%nat && (k <=? N - np - 2)%nat then 0 else nth k q 0) by (intros k Hk; unfold q'; apply (nth_map_seq (fun k => if (i <? k)%nat && (k <=? N - np - 2)%nat then 0 else nth k q 0)); exact Hk).
  clearbody q'.
  assert (V1 : value np line' it par = 1 * value np line it par - (- val) * value np q' it par).
  { apply value_combine; try lia.
    - intros k Hk. rewrite Hn, Hn' by lia. destruct (Nat.leb_spec 1 k); [|lia]. destruct (Nat.leb_spec k i), (Nat.ltb_spec i k); try lia; cbn [andb].
      + lia.
      + destruct (Nat.leb_spec (length line - np - 1) k); [lia|]. destruct (Nat.leb_spec k (N - np - 2)); [lia|lia].
    - intros t Ht'. rewrite Hn by lia. rewrite Hq', Hn' by lia. destruct (Nat.leb_spec (length line - 1 - t) i); [lia|]. rewrite andb_false_r.
      destruct (Nat.leb_spec (length line - np - 1) (length line - 1 - t)); [|lia]. destruct (Nat.leb_spec (N - 1 - t) (N - np - 2)); [lia|]. rewrite andb_false_r. rewrite Hq.
      replace (N - (length line - (length line - 1 - t)))%nat with (N - 1 - t)%nat by lia. lia.
    - intros k Hk. rewrite Hq' in Hk. rewrite Hn' by lia. destruct (Nat.ltb_spec i k); [|lia]. destruct (Nat.leb_spec k (N - np - 2)); [reflexivity|lia]. }
  assert (V2 : (m | value np q' it par - value np q it par)).
  { apply value_cong; try lia. intros k Hk. rewrite Hn' by lia. destruct (Nat.ltb_spec i k), (Nat.leb_spec k (N - np - 2)); cbn [andb]; try (rewrite Z.sub_diag; apply Z.divide_0_r).
    rewrite Z.sub_0_l. apply Z.divide_opp_r. destruct (Nat.le_gt_cases k j) as [Hkj|Hkj]; [apply (blocked_false q m i j); auto; lia|].
    destruct (Nat.eq_dec k (j + 1)) as [->|Hkn]; [exact E1|]. rewrite Ha3 by (rewrite Hq; lia). apply Z.divide_0_r. }
  rewrite Hv in V2. change (nth level line 0) with m. rewrite V1. replace (1 * value np line it par - - val * value np q' it par - value np line it par) with (val * (value np q' it par - 0)) by ring.
  apply Z.divide_mul_r. exact V2.
Qed.
Lemma reduce_loop_spec level : (1 <= level)%nat -> forall is line, (np + 2 <= length line <= N)%nat -> (level <= length line - np - 2)%nat -> (forall i, In i is -> (1 <= i <= length line - np - 2)%nat) ->
  0 < nth level line 0 -> exists line', reduce_loop e np line level is = Some line' /\ length line' = length line /\ nth 0 line' 0 = nth 0 line 0 /\ nth level line' 0 = nth level line 0 /\
  (nth level line 0 | value np line' it par - value np line it par).
Proof.
  intros Hlev. induction is as [|i is IH]; intros line HL Hl His Hm; cbn [reduce_loop]; [exists line; repeat split; auto; rewrite Z.sub_diag; apply Z.divide_0_r|].
  assert (His' : forall i, In i is -> (1 <= i <= length line - np - 2)%nat) by (intros i' Hi'; apply His; right; exact Hi').
  destruct (Nat.eqb_spec i level) as [E|E]; [apply IH; auto|]. pose proof (His i (or_introl eq_refl)) as Hi.
  set (line1 := set_at line i (at_ line i mod at_ line level)). assert (L1 : length line1 = length line) by (unfold line1; apply set_at_length).
  assert (A1 : nth level line1 0 = nth level line 0) by (unfold line1; apply set_at_other; lia). assert (A0 : nth 0 line1 0 = nth 0 line 0) by (unfold line1; apply set_at_other; lia).
  assert (A2 : (nth level line 0 | value np line1 it par - value np line it par)).
  { apply value_cong; try lia. intros k Hk. unfold line1. destruct (Nat.eq_dec k i) as [->|Hn].
    - rewrite set_at_same by lia. unfold at_. rewrite Z.mod_eq by lia. exists (- (nth i line 0 / nth level line 0)). ring.
    - rewrite set_at_other by exact Hn. rewrite Z.sub_diag. apply Z.divide_0_r. }
  clearbody line1. cbv zeta. destruct (at_ line1 i =? 0).
  - destruct (IH line1) as (l2 & B1 & B2 & B3 & B4 & B5); try (rewrite L1; auto); try (rewrite A1; auto). exists l2. rewrite B2, B3, B4. repeat split; auto. rewrite A1 in B5. apply (cong_trans _ _ (value np line1 it par)); auto.
  - destruct (reduce_by_spec level i Hlev (rev (seq 0 level)) line1) as (l2 & B1 & B2 & B3 & B4 & B5); try (rewrite L1; auto); try (rewrite A1; auto); auto; [intros j Hj; apply in_rev in Hj; apply in_seq in Hj; lia|].
    rewrite B1. rewrite A1 in *. destruct (IH l2) as (l3 & C1 & C2 & C3 & C4 & C5); try (rewrite B2, L1; auto); try (rewrite B4; auto). exists l3. rewrite C2, C3, C4, B2, B3, B4, L1, A0. repeat split; auto.
    rewrite B4 in C5. apply (cong_trans _ _ (value np l2 it par)); [exact C5|]. apply (cong_trans _ _ (value np line1 it par)); auto.
Qed.
Lemma value_neg p t : (np + 2 <= length (t :: p))%nat -> value np (t :: seq_neg p) it par = - value np (t :: p) it par.
Proof.
  intros HL. assert (H : value np (t :: p) it par = (-1) * value np (t :: seq_neg p) it par); [|lia]. apply value_scale; [cbn; unfold seq_neg; rewrite map_length; reflexivity|exact HL|].
  intros [|k] Hk; [lia|]. cbn [nth]. unfold seq_neg. change 0 with (- 0) at 2. rewrite map_nth. ring.
Qed.
Theorem reduce_spec level line : (1 <= level)%nat -> (np + 2 <= length line <= N)%nat -> (level <= length line - np - 2)%nat -> nth level line 0 <> 0 ->
  exists line', reduce e np line level = Some line' /\ length line' = length line /\ nth 0 line' 0 = nth 0 line 0 /\ nth level line' 0 = - Z.abs (nth level line 0) /\
  (nth level line 0 | value np line' it par - (- Z.sgn (nth level line 0)) * value np line it par).
Proof.
  intros Hlev HL Hl Hnz. unfold reduce. set (line1 := if 0 <? at_ line level then _ else line). 
  assert (P : length line1 = length line /\ nth 0 line1 0 = nth 0 line 0 /\ nth level line1 0 = - Z.abs (nth level line 0) /\ value np line1 it par = - Z.sgn (nth level line 0) * value np line it par).
  { unfold line1, at_. destruct (Z.ltb_spec 0 (nth level line 0)) as [H|H].
    - destruct line as [|t p]; [cbn in HL; lia|]. rewrite value_neg by lia. rewrite Z.abs_eq, Z.sgn_pos by lia. split; [cbn; unfold seq_neg; rewrite map_length; reflexivity|]. split; [reflexivity|]. split; [|ring].
      destruct level as [|k]; [lia|]. cbn [nth]. unfold seq_neg. change 0 with (- 0) at 1. rewrite map_nth. reflexivity.
    - rewrite Z.abs_neq, Z.sgn_neg by lia. repeat split; lia. }
  clearbody line1. destruct P as (P1 & P0 & P2 & P3). set (m := Z.abs (nth level line 0)) in *. assert (Hm : 0 < m) by (unfold m; lia).
  set (line2 := set_at line1 level (- at_ line1 level)). assert (Q1 : length line2 = length line) by (unfold line2; rewrite set_at_length; exact P1).
  assert (Q2 : nth level line2 0 = m) by (unfold line2, at_; rewrite set_at_same by lia; lia). assert (Q0 : nth 0 line2 0 = nth 0 line 0) by (unfold line2; rewrite set_at_other by lia; exact P0).
  assert (Q3 : (m | value np line2 it par - value np line1 it par)).
  { apply value_cong; try lia. intros k Hk. unfold line2. destruct (Nat.eq_dec k level) as [->|Hn].
    - rewrite set_at_same by lia. unfold at_. rewrite P2. exists 2. ring.
    - rewrite set_at_other by exact Hn. rewrite Z.sub_diag. apply Z.divide_0_r. }
  clearbody line2. cbv zeta. unfold at_ at 1. rewrite Q2. destruct (Z.ltb_spec 0 m); [|lia].
  destruct (reduce_loop_spec level Hlev (rev (seq 1 (length line2 - 2 - np))) line2) as (l3 & R1 & R2 & R3 & R4 & R5); try lia; [intros i Hi; apply in_rev in Hi; apply in_seq in Hi; lia|].
  rewrite R1. rewrite Q2 in *. exists (set_at l3 level (- at_ l3 level)). split; [reflexivity|]. split; [rewrite set_at_length; lia|]. split; [rewrite set_at_other by lia; rewrite R3; exact Q0|].
  split; [rewrite set_at_same by lia; unfold at_; rewrite R4; reflexivity|]. apply Z.divide_abs_l. fold m. rewrite <- P3.
  apply (cong_trans _ _ (value np l3 it par)); [|apply (cong_trans _ _ (value np line2 it par)); assumption].
  apply value_cong; [apply set_at_length|rewrite set_at_length; lia|]. intros k Hk. rewrite set_at_length in Hk. destruct (Nat.eq_dec k level) as [->|Hn].
  - rewrite set_at_same by lia. unfold at_. rewrite R4. exists (-2). ring.
  - rewrite set_at_other by exact Hn. rewrite Z.sub_diag. apply Z.divide_0_r.
Qed.
End Reduce.
