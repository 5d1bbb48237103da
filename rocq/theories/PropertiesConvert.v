(** C64: integers pass between CLooG and isl unchanged. *)
From Coq Require Import ZArith List Bool String Decimal DecimalString DecimalFacts DecimalPos DecimalZ Lia.
From Verif Require Import ConvertModel.
Local Open Scope Z_scope.

(** what an integer of CLooG can hold *)
Definition representable (k : kind) (z : Z) : Prop :=
  match k with K_int => -2147483648 <= z <= 2147483647 | K_long | K_long_long => -9223372036854775808 <= z <= 9223372036854775807 | K_gmp | K_gmp_imath => True end.

Lemma parse_print z : parse (print z) = Some z.
Proof.
  unfold parse, print. rewrite NilZero.isi.
  - cbn [option_map]. now rewrite DecimalZ.of_to.
  - destruct z as [|p|p]; cbn; try discriminate. intros E. injection E as E. exact (DecimalPos.Unsigned.to_uint_nonnil p E).
  - destruct z as [|p|p]; cbn; try discriminate. intros E. injection E as E. exact (DecimalPos.Unsigned.to_uint_nonnil p E).
Qed.
Lemma low_small z : -2147483648 <= z <= 2147483647 -> low 32 z = z.
Proof. intros H. unfold low. change (2 ^ (32 - 1)) with 2147483648. change (2 ^ 32) with 4294967296. rewrite Z.mod_small; lia. Qed.
Lemma fits_long z : fits 64 z = true <-> -9223372036854775808 <= z <= 9223372036854775807.
Proof. unfold fits. change (2 ^ (64 - 1)) with 9223372036854775808. rewrite andb_true_iff, Z.leb_le, Z.ltb_lt. lia. Qed.

(** An integer that CLooG's type can hold is given to isl and read from isl as it is; what is no integer is never read. *)
Theorem C64_same_integer_partial :
  forall (k : kind) (z : Z), representable k z ->
  to_isl k z = Some (z, 1%positive) /\ from_isl k (Some (z, 1%positive)) = Some z.
Proof.
  intros k z H. destruct k; cbn [representable to_isl from_isl is_int] in *; change (1 =? 1)%positive with true; cbv iota; rewrite ?parse_print; unfold from_si, get_num_si; auto.
  - assert (F : fits 64 z = true) by (apply fits_long; lia). rewrite F, low_small by exact H. auto.
  - apply fits_long in H. rewrite H. auto.
  - apply fits_long in H. rewrite H. auto.
Qed.
Print Assumptions C64_same_integer_partial.
Theorem C64_no_fractions :
  forall (k : kind) (v : valu) (z : Z), from_isl k v = Some z -> exists n, v = Some (n, 1%positive).
Proof. intros k [[n d]|] z E; [|discriminate E]. cbn [from_isl is_int] in E. destruct (Pos.eqb_spec d 1) as [->|]; [eauto|discriminate E]. Qed.
Print Assumptions C64_no_fractions.

(** With GMP this is so for all integers. *)
Theorem C64_same_integer_gmp :
  forall (k : kind), k = K_gmp \/ k = K_gmp_imath -> forall (z : Z), from_isl k (to_isl k z) = Some z /\ (forall n, from_isl k (Some (n, 1%positive)) = Some z <-> n = z).
Proof.
  intros k Hk z. assert (R : forall n, representable k n) by (destruct Hk as [->| ->]; exact (fun _ => I)).
  split; [rewrite (proj1 (C64_same_integer_partial k z (R z))); exact (proj2 (C64_same_integer_partial k z (R z)))|].
  intros n. rewrite (proj2 (C64_same_integer_partial k n (R n))). split; [intros E; now injection E|now intros ->].
Qed.
Print Assumptions C64_same_integer_gmp.

(** Without GMP, isl's integers that do not fit become other integers without notice to the caller: every one of them is read as
    another integer. *)
Theorem C64_same_integer_refuted :
  forall (k : kind) (z : Z), ~ representable k z -> exists z', from_isl k (Some (z, 1%positive)) = Some z' /\ z' <> z /\ representable k z'.
Proof.
  assert (L : forall z, -2147483648 <= low 32 z <= 2147483647). { intros z. unfold low. change (2 ^ (32 - 1)) with 2147483648. change (2 ^ 32) with 4294967296. pose proof (Z.mod_pos_bound (z + 2147483648) 4294967296). lia. }
  assert (N : forall z, ~ (-9223372036854775808 <= z <= 9223372036854775807) -> get_num_si z = 0). { intros z H. unfold get_num_si. destruct (fits 64 z) eqn:F; [|reflexivity]. apply fits_long in F. lia. }
  intros k z H. destruct k; cbn [representable from_isl is_int] in *; change (1 =? 1)%positive with true; cbv iota; try (exfalso; now apply H).
  - exists (low 32 (get_num_si z)). split; [reflexivity|]. split; [intros E; apply H; rewrite <- E; apply L|apply L].
  - exists 0. rewrite N by exact H. split; [reflexivity|]. lia.
  - exists 0. rewrite N by exact H. split; [reflexivity|]. lia.
Qed.
Print Assumptions C64_same_integer_refuted.

(** 2^32 + 5 is 5 as an int; 10^20 is 0 as a long and 10^20 with GMP *)
Example C64_example :
  from_isl K_int (Some (4294967301, 1%positive)) = Some 5 /\ from_isl K_long (Some (100000000000000000000, 1%positive)) = Some 0 /\
  from_isl K_gmp_imath (to_isl K_gmp_imath (-100000000000000000000)) = Some (-100000000000000000000) /\ from_isl K_int (Some (1, 2%positive)) = None /\
  representable K_int (-7) /\ ~ representable K_int 4294967301.
Proof. repeat split; try reflexivity; cbn; lia. Qed.
