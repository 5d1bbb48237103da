(** Properties C23, C24, C25: the integer layer. *)
From Coq Require Import ZArith List Bool.
From Verif Require Import IntModel IntProofs.
Import ListNotations.
Open Scope Z_scope.

(** C23.  Fixed-width floor quotient, floor remainder, ceiling quotient, gcd and
    divisibility return the mathematical value for all representable arguments for
    which the stated intermediate sum is representable. *)
Theorem C23_fdiv_q_is_floor : forall w i j,
  8 <= w -> - 2 ^ (w - 1) <= i <= 2 ^ (w - 1) - 1 -> 0 < j <= 2 ^ (w - 1) - 1 ->
  (0 <= i \/ - i + j <= 2 ^ (w - 1) - 1) ->
  exists q, fw_fdiv_q w i j = Some q /\ q * j <= i < (q + 1) * j.
Proof.
  intros w i j Hw Hi Hj Ho. exists (i / j). split; [exact (fdiv_q_spec w i j Hw Hi Hj Ho)|].
  pose proof (Z.mul_div_le i j). pose proof (Z.mul_succ_div_gt i j). Lia.lia.
Qed.
Print Assumptions C23_fdiv_q_is_floor.
Example C23_fdiv_q_case : fw_fdiv_q 64 (-7) 2 = Some (-4). Proof. reflexivity. Qed.

Theorem C23_fdiv_r_is_floor_remainder : forall w i j,
  8 <= w -> - 2 ^ (w - 1) <= i <= 2 ^ (w - 1) - 1 -> 0 < j <= 2 ^ (w - 1) - 1 ->
  (0 <= i \/ - i + j <= 2 ^ (w - 1) - 1) ->
  exists r, fw_fdiv_r w i j = Some r /\ 0 <= r < j /\ (j | i - r).
Proof.
  intros w i j Hw Hi Hj Ho. destruct (fdiv_r_spec w i j Hw Hi Hj Ho) as [H1 H2].
  exists (i mod j). split; [exact H1|]. split; [exact H2|].
  exists (i / j). pose proof (Z.div_mod i j). Lia.lia.
Qed.
Print Assumptions C23_fdiv_r_is_floor_remainder.
Example C23_fdiv_r_case : fw_fdiv_r 64 (-7) 3 = Some 2. Proof. reflexivity. Qed.

Theorem C23_cdiv_q_is_ceiling : forall w i j,
  8 <= w -> - 2 ^ (w - 1) < i <= 2 ^ (w - 1) - 1 -> 0 < j <= 2 ^ (w - 1) - 1 ->
  (i < 0 \/ i + j <= 2 ^ (w - 1) - 1) ->
  exists q, fw_cdiv_q w i j = Some q /\ (q - 1) * j < i <= q * j.
Proof.
  intros w i j Hw Hi Hj Ho. exists (- ((- i) / j)). split; [exact (cdiv_q_spec w i j Hw Hi Hj Ho)|].
  pose proof (Z.mul_div_le (- i) j). pose proof (Z.mul_succ_div_gt (- i) j). Lia.lia.
Qed.
Print Assumptions C23_cdiv_q_is_ceiling.
Example C23_cdiv_q_case : fw_cdiv_q 64 (-7) 2 = Some (-3) /\ fw_cdiv_q 64 7 2 = Some 4.
Proof. split; reflexivity. Qed.

Theorem C23_gcd_is_gcd : forall w a b,
  8 <= w -> - 2 ^ (w - 1) < a <= 2 ^ (w - 1) - 1 -> - 2 ^ (w - 1) < b <= 2 ^ (w - 1) - 1 ->
  exists g, fw_gcd w a b = Some g /\ 0 <= g /\ (g | a) /\ (g | b) /\
            forall d, (d | a) -> (d | b) -> (d | g).
Proof.
  intros w a b Hw Ha Hb. exists (Z.gcd a b). split; [exact (gcd_spec w a b Hw Ha Hb)|].
  split; [apply Z.gcd_nonneg|]. split; [apply Z.gcd_divide_l|]. split; [apply Z.gcd_divide_r|].
  intros d; apply Z.gcd_greatest.
Qed.
Print Assumptions C23_gcd_is_gcd.
Example C23_gcd_case : fw_gcd 64 (-12) 18 = Some 6. Proof. vm_compute. reflexivity. Qed.

Theorem C23_divisible : forall w i j,
  8 <= w -> - 2 ^ (w - 1) < i <= 2 ^ (w - 1) - 1 -> - 2 ^ (w - 1) <= j <= 2 ^ (w - 1) - 1 -> j <> 0 ->
  exists r, fw_is_divisible_by w i j = Some r /\ (r = true <-> (j | i)).
Proof. exact is_divisible_spec. Qed.
Print Assumptions C23_divisible.
Example C23_divisible_case : fw_is_divisible_by 64 (-6) 3 = Some true. Proof. reflexivity. Qed.

(** The range condition is needed: the helper overflows although the exact floor
    is representable (finding). *)
Theorem C23_fdiv_q_overflow_refuted :
  exists i j, - 2 ^ 63 <= i <= 2 ^ 63 - 1 /\ 0 < j <= 2 ^ 63 - 1 /\
              - 2 ^ 63 <= i / j <= 2 ^ 63 - 1 /\ fw_fdiv_q 64 i j = None.
Proof. exists (-2), (2 ^ 63 - 1). vm_compute. repeat split; discriminate. Qed.
Print Assumptions C23_fdiv_q_overflow_refuted.

(** C24.  Comparison by subtraction orders all values of half range ... *)
Theorem C24_cmp_half_range_partial : forall w i j,
  8 <= w -> Z.abs i < 2 ^ (w - 2) -> Z.abs j < 2 ^ (w - 2) ->
  exists r, fw_cmp w i j = Some r /\ (r < 0 <-> i < j) /\ (r = 0 <-> i = j) /\ (0 < r <-> j < i).
Proof. exact cmp_half_range. Qed.
Print Assumptions C24_cmp_half_range_partial.
Example C24_cmp_case : fw_cmp 64 (-5) 7 = Some (-12). Proof. reflexivity. Qed.

(** Comparison of absolute values: right whenever both have one (all values but the smallest). *)
Theorem C24_abs_cmp : forall w i j, 8 <= w -> - 2 ^ (w - 1) < i <= 2 ^ (w - 1) - 1 -> - 2 ^ (w - 1) < j <= 2 ^ (w - 1) - 1 ->
  exists r, fw_abs_cmp w i j = Some r /\ (r < 0 <-> Z.abs i < Z.abs j) /\ (r = 0 <-> Z.abs i = Z.abs j) /\ (0 < r <-> Z.abs j < Z.abs i).
Proof. exact abs_cmp_spec. Qed.
Print Assumptions C24_abs_cmp.
Example C24_abs_cmp_case : fw_abs_cmp 64 (-5) 7 = Some (-2) /\ fw_abs_cmp 64 (- 2 ^ 63) 7 = None. Proof. split; reflexivity. Qed.

(** ... but not all representable values (finding). *)
Theorem C24_cmp_all_values_refuted :
  exists i j, - 2 ^ 63 <= i <= 2 ^ 63 - 1 /\ - 2 ^ 63 <= j <= 2 ^ 63 - 1 /\ i < j /\ fw_cmp 64 i j = None.
Proof. exists (- 2 ^ 63), 1. vm_compute. repeat split; discriminate. Qed.
Print Assumptions C24_cmp_all_values_refuted.

(** C25.  Vector helpers.  [dotp p x] is the value of the linear form with
    coefficients [p] at [x]; a constraint row is such a form (last entry of [x]
    being 1). *)
Theorem C25_normalize_same_solutions : forall p x,
  (dotp (seq_normalize p) x >= 0 <-> dotp p x >= 0) /\
  (dotp (seq_normalize p) x = 0 <-> dotp p x = 0) /\
  length (seq_normalize p) = length p.
Proof.
  intros p x. destruct (normalize_sign p x) as (g & Hg & ->).
  split; [|split]; [Lia.nia|Lia.nia|exact (normalize_length p)].
Qed.
Print Assumptions C25_normalize_same_solutions.

Theorem C25_normalize_primitive : forall p,
  (exists a, In a p /\ a <> 0) ->
  forall d, (forall a, In a (seq_normalize p) -> (d | a)) -> (d | 1).
Proof.
  intros p Hp d Hd. rewrite <- (normalize_coprime p Hp). exact (gcd_list_greatest _ d Hd).
Qed.
Print Assumptions C25_normalize_primitive.
Example C25_normalize_case : seq_normalize [6; -9; 0; 12] = [2; -3; 0; 4]. Proof. reflexivity. Qed.

Theorem C25_seq_gcd : forall p,
  0 <= seq_gcd p /\ (forall a, In a p -> (seq_gcd p | a)) /\
  forall d, (forall a, In a p -> (d | a)) -> (d | seq_gcd p).
Proof.
  intros p. rewrite seq_gcd_spec.
  exact (conj (gcd_list_nonneg p) (conj (gcd_list_divides p) (gcd_list_greatest p))).
Qed.
Print Assumptions C25_seq_gcd.
Example C25_seq_gcd_case : seq_gcd [0; -4; 6] = 2. Proof. reflexivity. Qed.

Theorem C25_combine_linear : forall m1 p1 m2 p2 x,
  length p1 = length p2 ->
  dotp (seq_combine m1 p1 m2 p2) x = m1 * dotp p1 x + m2 * dotp p2 x.
Proof. exact dotp_combine. Qed.
Print Assumptions C25_combine_linear.
Example C25_combine_case : seq_combine 2 [1; 3] (-1) [0; 6] = [2; 0]. Proof. reflexivity. Qed.

Theorem C25_is_neg : forall p1 p2, length p1 = length p2 ->
  (seq_is_neg p1 p2 = true <-> forall x, dotp p2 x = - dotp p1 x).
Proof.
  intros p1 p2 Hl. rewrite (is_neg_spec p1 p2 Hl). split.
  - intros -> x. exact (dotp_neg p1 x).
  - revert p2 Hl. induction p1 as [|a p1 IH]; intros [|b p2] Hl H; cbn in Hl; try Lia.lia; [reflexivity|].
    cbn. f_equal.
    + specialize (H [1]). destruct p1, p2; cbn [dotp] in H; Lia.lia.
    + apply IH; [Lia.lia|]. intros x. specialize (H (0 :: x)). cbn [dotp] in H. Lia.lia.
Qed.
Print Assumptions C25_is_neg.
Example C25_is_neg_case : seq_is_neg [1; 0; -3] [-1; 0; 3] = true. Proof. reflexivity. Qed.
