(** Proofs about TextModel.v: lines, numbers, words, matrices, names *)
From Coq Require Import ZArith List Bool Arith String Ascii Lia Decimal DecimalString DecimalNat DecimalFacts.
From Verif Require Import PprintModel PprintSpec PprintLex OptionsModel OptionsSpec OptionsProofs TextModel TextSpec.
Import ListNotations.
Local Open Scope string_scope.
Local Open Scope nat_scope.
Local Opaque BUF.

Lemma app_assoc_s (a b c : string) : (a ++ b) ++ c = a ++ b ++ c.
Proof. induction a as [|x a IH]; [reflexivity|]. cbn. rewrite IH. reflexivity. Qed.
Lemma app_nil_s (a : string) : a ++ "" = a.
Proof. induction a as [|x a IH]; [reflexivity|]. cbn. rewrite IH. reflexivity. Qed.
Lemma length_app_s (a b : string) : String.length (a ++ b) = String.length a + String.length b.
Proof. induction a as [|x a IH]; [reflexivity|]. cbn. rewrite IH. reflexivity. Qed.
Lemma all_app f (a b : string) : all_chars f (a ++ b) = all_chars f a && all_chars f b.
Proof. induction a as [|x a IH]; [reflexivity|]. cbn. rewrite IH. destruct (f x); reflexivity. Qed.
Lemma all_weaken (f g : ascii -> bool) (s : string) : (forall c, f c = true -> g c = true) -> all_chars f s = true -> all_chars g s = true.
Proof. intro H. induction s as [|c s IH]; [reflexivity|]. cbn. rewrite !andb_true_iff. intros [A B]. split; auto. Qed.

(** *** lines *)
Lemma fgets_line : forall l n rest, all_chars not_nl l = true -> String.length l < n -> fgets n (l ++ newline ++ rest) = (l ++ newline, rest).
Proof.
  induction l as [|c l IH]; intros n rest A L; destruct n as [|n]; try (cbn in L; lia); cbn in A, L |- *; [reflexivity|].
  apply andb_true_iff in A. destruct A as [A1 A2]. unfold not_nl in A1. apply negb_true_iff in A1. rewrite A1. change (String nl rest) with (newline ++ rest). rewrite IH by (auto; lia). reflexivity.
Qed.
Lemma skip_blanks_app : forall b s, all_chars blank b = true -> skip_blanks (b ++ s) = skip_blanks s.
Proof. induction b as [|c b IH]; intros s A; [reflexivity|]. cbn in A |- *. apply andb_true_iff in A. destruct A as [A1 A2]. unfold blank, not_nl in A1. rewrite A1. auto. Qed.
Lemma skip_blanks_stop c s : blank c = false -> skip_blanks (String c s) = String c s.
Proof. intro H. cbn. unfold blank, not_nl in H. rewrite H. reflexivity. Qed.
Lemma skipped_skip l : skipped l -> starts_with hash (skip_blanks (l ++ newline)) || starts_with nl (skip_blanks (l ++ newline)) = true.
Proof.
  intros (_ & b & c & -> & B & C). rewrite app_assoc_s, skip_blanks_app by exact B. destruct C as [->|(c' & ->)]; reflexivity.
Qed.
Definition kept (l : string) : Prop := line_ok l /\ starts_with hash (skip_blanks (l ++ newline)) || starts_with nl (skip_blanks (l ++ newline)) = false.
Lemma nonempty_line l : exists c s, l ++ newline = String c s.
Proof. destruct l as [|c l]; [exists nl, ""|exists c, (l ++ newline)]; reflexivity. Qed.
Lemma next_line_noise s l rest : noise s -> kept l -> forall fuel, String.length s < fuel ->
  next_line_loop fuel (s ++ l ++ newline ++ rest) = Some (l ++ newline, skip_blanks (l ++ newline), rest).
Proof.
  intros N K. destruct K as ((K1 & K2) & K3). induction N as [|l' s [(L1 & L2) SK] N IH]; intros fuel F; destruct fuel as [|k]; try lia; cbn [next_line_loop].
  - cbn [append]. rewrite fgets_line by assumption. destruct (nonempty_line l) as (c & t & E). rewrite E in *. rewrite K3. reflexivity.
  - rewrite !app_assoc_s, fgets_line by assumption. pose proof (skipped_skip l' (conj (conj L1 L2) SK)) as Q. destruct (nonempty_line l') as (c & t & E). rewrite E in *. rewrite Q. apply IH.
    rewrite !length_app_s in F. cbn in F. lia.
Qed.
Lemma next_line_right s l rest : noise s -> kept l -> next_line (s ++ l ++ newline ++ rest) = Some (l ++ newline, skip_blanks (l ++ newline), rest).
Proof. intros N K. unfold next_line. apply next_line_noise; [exact N|exact K|]. rewrite length_app_s. lia. Qed.

(** *** numbers *)
Definition isdig (c : ascii) : bool := match digit c with Some _ => true | None => false end.
Lemma uint_chars : forall l, all_chars isdig (NilEmpty.string_of_uint l) = true.
Proof. induction l; cbn [NilEmpty.string_of_uint all_chars]; try rewrite IHl; reflexivity. Qed.
Lemma nz_chars l : all_chars isdig (NilZero.string_of_uint l) = true.
Proof. destruct l; try reflexivity; exact (uint_chars _). Qed.
Lemma scan_uint : forall l acc r, starts_digit r = false -> scan_digits (NilEmpty.string_of_uint l ++ r) acc = (dval l acc, r).
Proof.
  induction l; intros acc r R; cbn [NilEmpty.string_of_uint append dval];
    [destruct r as [|c r']; [reflexivity|]; cbn in R |- *; destruct (digit c); [discriminate|reflexivity]|..];
    cbn [scan_digits]; match goal with |- context [digit ?c] => let v := eval vm_compute in (digit c) in change (digit c) with v end; cbn iota beta; rewrite IHl by exact R; try rewrite Z.add_0_r; reflexivity.
Qed.
Lemma scan_nz l r : starts_digit r = false -> scan_digits (NilZero.string_of_uint l ++ r) 0 = (Z.of_uint l, r).
Proof.
  intro R. rewrite dval_uint. destruct l; try (apply (scan_uint _ 0%Z r R)).
  cbn [NilZero.string_of_uint append]. exact (scan_uint (D0 Nil) 0%Z r R).
Qed.
Lemma nz_first l : exists c s, NilZero.string_of_uint l = String c s /\ isdig c = true.
Proof. destruct l; cbn; eauto. Qed.
Lemma dig_facts c : isdig c = true -> is_space c = false /\ Ascii.eqb c "-" = false /\ Ascii.eqb c "+" = false /\ Ascii.eqb c hash = false /\ Ascii.eqb c nl = false.
Proof.
  unfold isdig. intro H. destruct (digit c) as [d|] eqn:E; [|discriminate]. destruct (digit_not c d E) as (A & B & C).
  split; [exact A|]. repeat split; destruct (Ascii.eqb_spec c "-"), (Ascii.eqb_spec c "+"), (Ascii.eqb_spec c hash), (Ascii.eqb_spec c nl); subst; try reflexivity; discriminate.
Qed.
Definition numchar (c : ascii) : bool := isdig c || Ascii.eqb c "-".
Lemma int_chars z : all_chars numchar (int_text z) = true.
Proof.
  destruct (Z.lt_ge_cases z 0) as [H|H].
  - destruct (int_neg z H) as (l & -> & _). cbn [append all_chars]. rewrite andb_true_iff. split; [reflexivity|]. apply (all_weaken isdig); [|apply nz_chars]. intros c C. unfold numchar. rewrite C. reflexivity.
  - destruct (int_nonneg z H) as (l & -> & _). apply (all_weaken isdig); [|apply nz_chars]. intros c C. unfold numchar. rewrite C. reflexivity.
Qed.
Lemma numchar_facts c : numchar c = true -> is_space c = false /\ Ascii.eqb c hash = false /\ Ascii.eqb c nl = false.
Proof. unfold numchar. rewrite orb_true_iff. intros [H|H]; [destruct (dig_facts c H) as (A & _ & _ & B & C); auto|]. apply Ascii.eqb_eq in H. subst. repeat split. Qed.
Lemma int_nonempty z : exists c s, int_text z = String c s.
Proof.
  destruct (Z.lt_ge_cases z 0) as [H|H]; [destruct (int_neg z H) as (l & -> & _)|destruct (int_nonneg z H) as (l & -> & _)]; [cbn; eauto|].
  destruct (nz_first l) as (c & s & -> & _). eauto.
Qed.
Lemma mpz_read_int z : mpz_read (int_text z) = z.
Proof.
  unfold mpz_read. destruct (Z.lt_ge_cases z 0) as [H|H].
  - destruct (int_neg z H) as (l & -> & V). change (match ("-" ++ NilZero.string_of_uint l)%string with String c t => if Ascii.eqb c "-" then ((-1)%Z, t) else (1%Z, ("-" ++ NilZero.string_of_uint l)%string) | EmptyString => (1%Z, ("-" ++ NilZero.string_of_uint l)%string) end) with ((-1)%Z, NilZero.string_of_uint l).
    cbn iota beta. destruct (nz_first l) as (c & s & E & D).
    assert (SD : starts_digit (NilZero.string_of_uint l) = true) by (rewrite E; exact D). rewrite SD.
    pose proof (scan_nz l "" eq_refl) as S. rewrite app_nil_s in S. rewrite S, V. lia.
  - destruct (int_nonneg z H) as (l & -> & V). destruct (nz_first l) as (c & s & E & D). destruct (dig_facts c D) as (_ & M & _).
    assert (SD : starts_digit (NilZero.string_of_uint l) = true) by (rewrite E; exact D).
    pose proof (scan_nz l "" eq_refl) as S. rewrite app_nil_s in S. rewrite E in *. rewrite M. rewrite SD, S, V. lia.
Qed.
Lemma nat_dval : forall l a, Z.of_nat (Nat.of_uint_acc l a) = dval l (Z.of_nat a).
Proof. induction l; intro a; cbn [Nat.of_uint_acc dval]; [reflexivity|..]; rewrite IHl; f_equal; rewrite Nat.tail_mul_spec; lia. Qed.
Lemma nat_text_uint n : Z.of_uint (Nat.to_uint n) = Z.of_nat n.
Proof. rewrite dval_uint. change 0%Z with (Z.of_nat 0). rewrite <- nat_dval. f_equal. exact (Unsigned.of_to n). Qed.
Lemma scan_number_nat n r : starts_digit r = false -> scan_number (nat_text n ++ r) = Some (Z.of_nat n, r).
Proof.
  intro R. unfold scan_number, nat_text. pose proof (scan_nz (Nat.to_uint n) r R) as S. rewrite nat_text_uint in S.
  destruct (nz_first (Nat.to_uint n)) as (c & s & E & D). destruct (dig_facts c D) as (A & M & P & _). rewrite E in *. cbn [append] in *. cbn [skip_spaces]. rewrite A, M, P. cbn [starts_digit]. unfold isdig in D. destruct (digit c) eqn:DC; [|discriminate].
  rewrite S. f_equal. f_equal. lia.
Qed.
Lemma scan_number_space r : scan_number (" " ++ r) = scan_number r.
Proof. reflexivity. Qed.
Lemma nat_chars n : all_chars isdig (nat_text n) = true.
Proof. apply nz_chars. Qed.

(** *** words *)
Lemma word_app : forall w c r, all_chars (fun c => negb (is_space c)) w = true -> is_space c = true -> word (w ++ String c r) = (w, String c r).
Proof.
  induction w as [|d w IH]; intros c r A S; cbn; [rewrite S; reflexivity|]. cbn in A. apply andb_true_iff in A. destruct A as [A1 A2]. apply negb_true_iff in A1. rewrite A1, IH by assumption. reflexivity.
Qed.
Lemma scan_word_app w c r : w <> "" -> all_chars (fun c => negb (is_space c)) w = true -> is_space c = true -> scan_word (w ++ String c r) = Some (w, String c r).
Proof.
  intros N A S. unfold scan_word. assert (K : skip_spaces (w ++ String c r) = w ++ String c r).
  { destruct w as [|d w]; [contradiction|]. cbn in A |- *. apply andb_true_iff in A. destruct A as [A1 _]. apply negb_true_iff in A1. rewrite A1. reflexivity. }
  rewrite K, word_app by assumption. destruct w; [contradiction|reflexivity].
Qed.
Lemma scan_word_space r : scan_word (" " ++ r) = scan_word r.
Proof. reflexivity. Qed.

(** *** matrices *)
Lemma read_entries_right : forall r t, read_entries (List.length r) (row_text r ++ t) = Some r /\ read_entries (List.length r) (" " ++ row_text r ++ t) = Some r.
Proof.
  induction r as [|z r IH]; intro t; [split; reflexivity|].
  assert (G : read_entries (List.length (z :: r)) (row_text (z :: r) ++ t) = Some (z :: r)).
  { cbn [List.length read_entries row_text]. rewrite app_assoc_s. change ((" " ++ row_text r) ++ t) with (String " " (row_text r ++ t)).
    destruct (int_nonempty z) as (c & s & E). rewrite scan_word_app; [|rewrite E; discriminate| |reflexivity].
    - rewrite mpz_read_int. change (String " " (row_text r ++ t)) with (" " ++ row_text r ++ t). rewrite (proj2 (IH t)). reflexivity.
    - apply (all_weaken numchar); [|apply int_chars]. intros d D. destruct (numchar_facts d D) as (-> & _). reflexivity. }
  split; [exact G|]. cbn [List.length read_entries]. rewrite scan_word_space. exact G.
Qed.
Lemma row_chars r : all_chars not_nl (row_text r) = true.
Proof.
  induction r as [|z r IH]; [reflexivity|]. cbn [row_text]. rewrite all_app. apply andb_true_iff. split; [|exact IH].
  apply (all_weaken numchar); [|apply int_chars]. intros d D. destruct (numchar_facts d D) as (_ & _ & E). unfold not_nl. rewrite E. reflexivity.
Qed.
Lemma row_skip r t : r <> [] -> skip_blanks (row_text r ++ t) = row_text r ++ t /\ starts_with hash (row_text r ++ t) || starts_with nl (row_text r ++ t) = false.
Proof.
  destruct r as [|z r]; [contradiction|]. intros _. cbn [row_text]. destruct (int_nonempty z) as (c & s & E). pose proof (int_chars z) as C. rewrite E in *. cbn in C. apply andb_true_iff in C. destruct C as [C _].
  destruct (numchar_facts c C) as (A & B & D). cbn [append]. split; [apply skip_blanks_stop; unfold blank; rewrite A; reflexivity|]. cbn [starts_with]. rewrite B, D. reflexivity.
Qed.
Definition row_fits (r : list Z) : Prop := String.length (row_text r) < BUF.
Lemma read_rows_right n_col rest : 0 < n_col -> forall rs t, rows_with_noise rs t -> Forall (fun r => List.length r = n_col /\ row_fits r) rs ->
  read_rows (List.length rs) n_col (t ++ rest) = Some (rs, rest).
Proof.
  intro NC. induction 1 as [|r rs s t N R IH]; intro F; [reflexivity|]. inversion F as [|? ? (F1 & F2) F3]; subst. cbn [List.length read_rows]. rewrite !app_assoc_s.
  assert (NE : r <> []) by (destruct r; [cbn in NC; lia|discriminate]). destruct (row_skip r newline NE) as (S1 & S2).
  rewrite next_line_right; [|exact N|split; [split; [apply row_chars|exact F2]|rewrite S1; exact S2]].
  rewrite S1, (proj1 (read_entries_right r newline)), (IH F3). reflexivity.
Qed.
Lemma header_kept a b : line_ok (nat_text a ++ " " ++ nat_text b) -> kept (nat_text a ++ " " ++ nat_text b).
Proof.
  intro L. split; [exact L|]. unfold nat_text at 1 3. destruct (nz_first (Nat.to_uint a)) as (c & s & E & D). rewrite E. cbn [append]. destruct (dig_facts c D) as (A & _ & _ & B & C).
  rewrite skip_blanks_stop by (unfold blank; rewrite A; reflexivity). cbn [starts_with]. rewrite B, C. reflexivity.
Qed.
Lemma as_unsigned_nat n : (Z.of_nat n < 2 ^ 32)%Z -> as_unsigned (Z.of_nat n) = Some n.
Proof. intro H. unfold as_unsigned. apply Z.ltb_lt in H. rewrite H. destruct (Z.leb_spec 0 (Z.of_nat n)); [|lia]. cbn [andb]. rewrite Nat2Z.id. reflexivity. Qed.
(** a number below 2^32 has at most ten digits *)
Lemma dval_big : forall l acc, (1 <= acc)%Z -> (10 ^ Z.of_nat (String.length (NilEmpty.string_of_uint l)) * acc <= dval l acc)%Z.
Proof.
  induction l; intros acc A; cbn [NilEmpty.string_of_uint String.length dval]; [rewrite Z.pow_0_r; lia|..]; rewrite Nat2Z.inj_succ, Z.pow_succ_r by lia;
    (eapply Z.le_trans; [|apply IHl; lia]); pose proof (Z.pow_pos_nonneg 10 (Z.of_nat (String.length (NilEmpty.string_of_uint l))) ltac:(lia) ltac:(lia)); nia.
Qed.
Lemma ten_digits l k n : (1 <= k)%Z -> dval l k = Z.of_nat n -> (Z.of_nat n < 2 ^ 32)%Z -> String.length (NilEmpty.string_of_uint l) <= 9.
Proof.
  intros K V H. pose proof (dval_big l k K) as B. destruct (Nat.le_gt_cases (String.length (NilEmpty.string_of_uint l)) 9) as [L|L]; [exact L|].
  pose proof (Z.pow_le_mono_r 10 10 (Z.of_nat (String.length (NilEmpty.string_of_uint l))) ltac:(lia) ltac:(lia)) as P. rewrite V in B. change (10 ^ 10)%Z with 10000000000%Z in P. change (2 ^ 32)%Z with 4294967296%Z in H. nia.
Qed.
Lemma short_number n : (Z.of_nat n < 2 ^ 32)%Z -> String.length (nat_text n) <= 10.
Proof.
  intro H. unfold nat_text. pose proof (nat_text_uint n) as V. rewrite dval_uint in V.
  assert (U : Decimal.unorm (Nat.to_uint n) = Nat.to_uint n) by (rewrite <- Unsigned.to_of; f_equal; apply Unsigned.of_to).
  unfold Decimal.unorm in U. destruct (Decimal.nzhead (Nat.to_uint n)) as [|l|l|l|l|l|l|l|l|l|l] eqn:E; [rewrite <- U; cbn; lia|exfalso; exact (DecimalFacts.nzhead_nonzero _ _ E)|..];
    rewrite <- U in *; cbn [NilZero.string_of_uint NilEmpty.string_of_uint String.length dval] in *; apply ten_digits in V; try lia.
Qed.
