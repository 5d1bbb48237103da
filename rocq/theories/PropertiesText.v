(** C41: the text format of matrices.  Vocabulary: TextSpec.v *)
From Coq Require Import ZArith List Bool Arith String Ascii Lia.
From Verif Require Import PprintModel PprintSpec OptionsModel TextModel TextSpec TextProofs.
Import ListNotations.
Local Open Scope string_scope.
Local Open Scope nat_scope.

(** A matrix whose lines are short enough, with any comments and blank lines before its lines and anything after it,
    is read back as it is, and the file is left just after it.  Missing: matrices with rows but no columns, lines
    of 1023 characters or more (see below), sizes that are no unsigned int. *)
Theorem C41_round_trip_partial : forall m text rest,
  matrix_with_noise m text ->
  Forall (fun r => List.length r = mx_cols m /\ String.length (row_text r) <= 1022) (mx_rows m) ->
  (mx_rows m <> [] -> 0 < mx_cols m) ->
  (Z.of_nat (List.length (mx_rows m)) < 2 ^ 32)%Z -> (Z.of_nat (mx_cols m) < 2 ^ 32)%Z ->
  matrix_read (text ++ rest) = Some (m, rest).
Proof.
  intros [c rs] text rest (s & t & N & R & ->) F C H1 H2. cbn [mx_rows mx_cols] in *.
  assert (L : line_ok (nat_text (List.length rs) ++ " " ++ nat_text c)).
  { split.
    - rewrite !all_app. cbn [all_chars]. rewrite !andb_true_iff.
      assert (G : forall n, all_chars not_nl (nat_text n) = true).
      { intro n. apply (all_weaken isdig); [|apply nat_chars]. intros d D. destruct (dig_facts d D) as (_ & _ & _ & _ & E). unfold not_nl. rewrite E. reflexivity. }
      repeat split; try apply G; reflexivity.
    - rewrite !length_app_s. pose proof (short_number _ H1). pose proof (short_number _ H2). unfold BUF. cbn. lia. }
  unfold matrix_read. replace ((s ++ nat_text (List.length rs) ++ " " ++ nat_text c ++ newline ++ t) ++ rest)
    with (s ++ (nat_text (List.length rs) ++ " " ++ nat_text c) ++ newline ++ (t ++ rest)) by (rewrite !app_assoc_s; reflexivity).
  rewrite next_line_right by (auto using header_kept). rewrite app_assoc_s, scan_number_nat by reflexivity.
  rewrite app_assoc_s, scan_number_space, scan_number_nat, !as_unsigned_nat by (assumption || reflexivity).
  assert (Q : read_rows (List.length rs) c (t ++ rest) = Some (rs, rest)).
  { destruct rs as [|r rs']; [inversion R; subst; reflexivity|]. apply read_rows_right; [apply C; discriminate|exact R|].
    eapply Forall_impl; [|exact F]. intros a (A1 & A2). split; [exact A1|]. unfold row_fits, BUF. lia. }
  rewrite Q. reflexivity.
Qed.
Print Assumptions C41_round_trip_partial.
(** what is printed is such a text *)
Theorem C41_printed : forall m, matrix_with_noise m (matrix_print m).
Proof.
  intros [c rs]. exists "", (structure_text "" "" rs). split; [constructor|]. split; [|reflexivity]. cbn [mx_rows].
  induction rs as [|r rs IH]; [constructor|]. cbn [structure_text]. exact (Rows_cons r rs "" _ Noise_nil IH).
Qed.
Print Assumptions C41_printed.
(** A matrix with rows but no columns is never read back: its rows are blank lines, which are skipped. *)
Theorem C41_no_columns_refuted : forall m, mx_cols m = 0 -> mx_rows m <> [] -> Forall (fun r => List.length r = mx_cols m) (mx_rows m) ->
  (Z.of_nat (List.length (mx_rows m)) < 2 ^ 32)%Z -> matrix_read (matrix_print m) = None.
Proof.
  intros [c rs] C NE F H. cbn [mx_cols mx_rows] in *. subst c. unfold matrix_read, matrix_print. cbn [mx_cols mx_rows].
  assert (L : line_ok (nat_text (List.length rs) ++ " " ++ nat_text 0)).
  { split.
    - rewrite !all_app. cbn [all_chars]. rewrite !andb_true_iff.
      repeat split. apply (all_weaken isdig); [|apply nat_chars]. intros d D. destruct (dig_facts d D) as (_ & _ & _ & _ & E). unfold not_nl. rewrite E. reflexivity.
    - rewrite !length_app_s. pose proof (short_number _ H). unfold BUF. cbn. lia. }
  change (String nl EmptyString ++ structure_text "" "" rs) with (newline ++ structure_text "" "" rs).
  replace (nat_text (List.length rs) ++ " " ++ nat_text 0 ++ newline ++ structure_text "" "" rs)
    with ("" ++ (nat_text (List.length rs) ++ " " ++ nat_text 0) ++ newline ++ structure_text "" "" rs) by (cbn [append]; rewrite !app_assoc_s; reflexivity).
  rewrite next_line_right by (auto using header_kept, Noise_nil). rewrite app_assoc_s, scan_number_nat by reflexivity.
  rewrite app_assoc_s, scan_number_space, scan_number_nat by reflexivity. change (Z.of_nat 0) with (Z.of_nat 0).
  rewrite !as_unsigned_nat by (assumption || reflexivity).
  assert (Q : forall fuel rs, Forall (fun r => List.length r = 0) rs -> next_line_loop fuel (structure_text "" "" rs) = None).
  { clear. intros fuel rs F. revert fuel. induction F as [|r rs E F IH]; intro fuel; destruct fuel as [|k]; try reflexivity.
    apply length_zero_iff_nil in E. subst r. exact (IH k). }
  destruct rs as [|r rs']; [contradiction|]. cbn [List.length read_rows]. unfold next_line. rewrite Q by exact F. reflexivity.
Qed.
Print Assumptions C41_no_columns_refuted.
(** A line that does not fit in the buffer is cut, and its entries are lost. *)
Theorem C41_long_line_refuted : ~ forall m, (forall r, In r (mx_rows m) -> List.length r = mx_cols m) -> 0 < mx_cols m < 1000 ->
  List.length (mx_rows m) = 1 -> matrix_read (matrix_print m) = Some (m, "").
Proof.
  intro A. specialize (A {| mx_cols := 600; mx_rows := [repeat 7%Z 600] |}).
  assert (E : matrix_read (matrix_print {| mx_cols := 600; mx_rows := [repeat 7%Z 600] |}) = None) by (vm_compute; reflexivity).
  rewrite E in A. discriminate A; cbn [mx_rows mx_cols].
  - intros r [<-|[]]. apply repeat_length.
  - split; apply Nat.ltb_lt; vm_compute; reflexivity.
  - reflexivity.
Qed.
Print Assumptions C41_long_line_refuted.

Definition ex_matrix : matrix := {| mx_cols := 3; mx_rows := [[1; -20; 345]; [0; 0; -7]]%Z |}.
Definition ex_matrix_text : string :=
  "# a matrix" ++ newline ++ newline ++ "2 3" ++ newline ++ "   # first row" ++ newline ++ "1 -20 345 " ++ newline ++ newline ++ "0 0 -7 " ++ newline.
Example ex_printed : matrix_print ex_matrix = "2 3" ++ newline ++ "1 -20 345 " ++ newline ++ "0 0 -7 " ++ newline.
Proof. vm_compute. reflexivity. Qed.
Lemma ex_noise l : line_ok l -> (exists b c, l = b ++ c /\ all_chars blank b = true /\ (c = EmptyString \/ exists c', c = String hash c')) -> forall s, noise s -> noise (l ++ newline ++ s).
Proof. intros A B s C. constructor; [split; assumption|exact C]. Qed.
Ltac line_ok_now := split; [reflexivity|apply Nat.ltb_lt; vm_compute; reflexivity].
Example ex_matrix_noise : matrix_with_noise ex_matrix ex_matrix_text.
Proof.
  exists ("# a matrix" ++ newline ++ newline), ("   # first row" ++ newline ++ "1 -20 345 " ++ newline ++ newline ++ "0 0 -7 " ++ newline).
  split; [|split; [|reflexivity]].
  - apply ex_noise; [line_ok_now|exists "", "# a matrix"; repeat split; right; eexists; reflexivity|].
    apply (ex_noise ""); [line_ok_now|exists "", ""; repeat split; left; reflexivity|constructor].
  - apply (Rows_cons [1; -20; 345]%Z _ ("   # first row" ++ newline) (newline ++ "0 0 -7 " ++ newline)).
    + apply (ex_noise "   # first row" ) with (s := ""); [line_ok_now|exists "   ", "# first row"; repeat split; right; eexists; reflexivity|constructor].
    + apply (Rows_cons [0; 0; -7]%Z _ newline ""); [|constructor].
      apply (ex_noise "") with (s := ""); [line_ok_now|exists "", ""; repeat split; left; reflexivity|constructor].
Qed.
Example C41_round_trip_ex : matrix_read (ex_matrix_text ++ "next") = Some (ex_matrix, "next").
Proof.
  apply C41_round_trip_partial; [exact ex_matrix_noise| |intros _; cbn; lia|reflexivity|reflexivity].
  repeat constructor; cbn [ex_matrix mx_cols mx_rows]; apply Nat.leb_le; vm_compute; reflexivity.
Qed.
Example C41_no_columns_ex : matrix_read (matrix_print {| mx_cols := 0; mx_rows := [[]; []] |}) = None.
Proof. apply C41_no_columns_refuted; [reflexivity|discriminate|repeat constructor|reflexivity]. Qed.
