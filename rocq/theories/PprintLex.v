(** The characters printed for numbers, names and signs are read back as the tokens meant. *)
From Coq Require Import ZArith List Bool Arith String Ascii Lia Decimal DecimalString DecimalZ.
From Verif Require Import ClastSpec ClastModel PprintModel CReader PprintSpec.
Import ListNotations.
Local Open Scope string_scope.
Local Open Scope Z_scope.
Local Arguments Nat.leb : simpl never.
Local Arguments Nat.eqb : simpl never.
Local Arguments Z.mul : simpl never.
Local Arguments Z.add : simpl never.

Lemma app_assoc_s : forall a b c : string, (a ++ b) ++ c = a ++ (b ++ c).
Proof. induction a; intros; simpl; [reflexivity|]. now rewrite IHa. Qed.
Lemma app_nil_s : forall a : string, a ++ "" = a.
Proof. induction a; simpl; [reflexivity|now rewrite IHa]. Qed.

(** the next character does not continue a word *)
Definition sep (r : string) : Prop := match r with EmptyString => True | String c _ => is_idchar c = false end.
(** the next character does not continue the operator *)
Definition apart (c : ascii) (r : string) : Prop := match r with EmptyString => True | String d _ => op2 c d = None end.
(** [s] is read as [ts], wherever it occurs before something that does not continue it *)
Definition lexes (s : string) (ts : list token) : Prop := forall r, sep r -> lex LNone (s ++ r) = (ts ++ lex LNone r)%list.
(** [s] is read as [ts] wherever it occurs *)
Definition closed (s : string) (ts : list token) : Prop := forall r, lex LNone (s ++ r) = (ts ++ lex LNone r)%list.

Lemma closed_lexes : forall s ts, closed s ts -> lexes s ts.
Proof. intros s ts H r _. apply H. Qed.
Lemma closed_app : forall s ts s' ts', closed s ts -> closed s' ts' -> closed (s ++ s') (ts ++ ts')%list.
Proof. intros s ts s' ts' H H' r. rewrite app_assoc_s, H, H'. now rewrite app_assoc. Qed.
Lemma closed_lexes_app : forall s ts s' ts', closed s ts -> lexes s' ts' -> lexes (s ++ s') (ts ++ ts')%list.
Proof. intros s ts s' ts' H H' r S. rewrite app_assoc_s, H, H' by exact S. now rewrite app_assoc. Qed.
Lemma closed_nil : closed "" [].
Proof. intro r. reflexivity. Qed.
(** a word before something that starts differently *)
Lemma lexes_app : forall s ts s' ts', lexes s ts -> s' <> "" -> sep s' -> lexes s' ts' -> lexes (s ++ s') (ts ++ ts')%list.
Proof.
  intros s ts s' ts' H N S H' r Sr. rewrite app_assoc_s, H.
  - rewrite H' by exact Sr. now rewrite app_assoc.
  - destruct s'; [congruence|exact S].
Qed.
Lemma lexes_closed_app : forall s ts s' ts', lexes s ts -> s' <> "" -> sep s' -> closed s' ts' -> closed (s ++ s') (ts ++ ts')%list.
Proof.
  intros s ts s' ts' H N S H' r. rewrite app_assoc_s, H.
  - rewrite H'. now rewrite app_assoc.
  - destruct s'; [congruence|exact S].
Qed.

(** *** identifiers *)
Lemma start_flush : forall st c, is_idchar c = false ->
  match st with LId _ => True | LNum _ => True | _ => False end ->
  step st c = (fst (start c), flush st ++ snd (start c))%list.
Proof.
  intros st c N H. destruct st; simpl; try contradiction.
  - rewrite N. now destruct (start c).
  - unfold is_idchar in N. apply orb_false_iff in N. destruct N as [Na Nd]. rewrite Nd, Na. now destruct (start c).
Qed.
Lemma lex_flush : forall st r, sep r -> match st with LId _ => True | LNum _ => True | _ => False end ->
  lex st r = (flush st ++ lex LNone r)%list.
Proof.
  intros st r S H. destruct r as [|c r'].
  - simpl. now rewrite app_nil_r.
  - cbn [lex]. rewrite start_flush by assumption. cbn [step]. destruct (start c) as [st' ts]. cbn [fst snd]. now rewrite app_assoc.
Qed.
Lemma lex_word : forall s acc r, all_chars is_idchar s = true -> sep r ->
  lex (LId acc) (s ++ r) = (TId (acc ++ s) :: lex LNone r)%list.
Proof.
  induction s as [|c s' IH]; intros acc r A S.
  - simpl. rewrite lex_flush by (auto; exact I). simpl. now rewrite app_nil_s.
  - cbn [all_chars] in A. apply andb_true_iff in A. destruct A as [A1 A2]. cbn [append lex step].
    rewrite A1. cbn [app]. rewrite IH by assumption. unfold snoc. rewrite app_assoc_s. reflexivity.
Qed.
Lemma lex_ident : forall s, ident s = true -> lexes s [TId s].
Proof.
  intros s I r S. unfold ident in I. apply andb_true_iff in I. destruct I as [I _].
  destruct s as [|c s']; [discriminate|]. apply andb_true_iff in I. destruct I as [I1 I2].
  cbn [append lex step start]. unfold start. rewrite I1. cbn [app]. rewrite lex_word by assumption. reflexivity.
Qed.
Definition first_in (f : ascii -> bool) (s : string) : Prop := match s with EmptyString => False | String c _ => f c = true end.
Lemma ident_first : forall s, ident s = true -> first_in is_alpha s.
Proof.
  intros s I. unfold ident in I. apply andb_true_iff in I. destruct I as [I _]. destruct s; [discriminate|].
  apply andb_true_iff in I. apply I.
Qed.

(** *** numbers *)
Fixpoint dval (d : uint) (acc : Z) : Z :=
  match d with
  | Nil => acc
  | D0 l => dval l (10 * acc) | D1 l => dval l (10 * acc + 1) | D2 l => dval l (10 * acc + 2) | D3 l => dval l (10 * acc + 3)
  | D4 l => dval l (10 * acc + 4) | D5 l => dval l (10 * acc + 5) | D6 l => dval l (10 * acc + 6) | D7 l => dval l (10 * acc + 7)
  | D8 l => dval l (10 * acc + 8) | D9 l => dval l (10 * acc + 9)
  end.
Lemma dval_acc : forall l acc, Zpos (Pos.of_uint_acc l acc) = dval l (Zpos acc).
Proof.
  induction l; intros acc; cbn [Pos.of_uint_acc dval]; try reflexivity; rewrite IHl; f_equal; try reflexivity; lia.
Qed.
Lemma dval_uint : forall l, Z.of_uint l = dval l 0.
Proof.
  unfold Z.of_uint. induction l; cbn [Pos.of_uint dval Z.of_N];
    repeat match goal with |- context [10 * 0 + ?k] => replace (10 * 0 + k) with k by lia end;
    try reflexivity; try (rewrite dval_acc; reflexivity).
  replace (10 * 0) with 0 by lia. exact IHl.
Qed.
Ltac digit := cbn [lex step is_digit]; reflexivity.
Lemma lex_digits : forall l acc r, sep r -> lex (LNum acc) (NilEmpty.string_of_uint l ++ r) = (TNum (dval l acc) :: lex LNone r)%list.
Proof.
  induction l; intros acc r S; cbn [NilEmpty.string_of_uint append dval].
  - rewrite lex_flush by (auto; exact I). reflexivity.
  - cbn [lex step]. change (is_digit "0") with true. cbn iota beta. cbn [app]. rewrite IHl by exact S.
    change (digit_val "0") with 0. now rewrite Z.add_0_r.
  - cbn [lex step]. change (is_digit "1") with true. cbn iota beta. cbn [app]. now rewrite IHl by exact S.
  - cbn [lex step]. change (is_digit "2") with true. cbn iota beta. cbn [app]. now rewrite IHl by exact S.
  - cbn [lex step]. change (is_digit "3") with true. cbn iota beta. cbn [app]. now rewrite IHl by exact S.
  - cbn [lex step]. change (is_digit "4") with true. cbn iota beta. cbn [app]. now rewrite IHl by exact S.
  - cbn [lex step]. change (is_digit "5") with true. cbn iota beta. cbn [app]. now rewrite IHl by exact S.
  - cbn [lex step]. change (is_digit "6") with true. cbn iota beta. cbn [app]. now rewrite IHl by exact S.
  - cbn [lex step]. change (is_digit "7") with true. cbn iota beta. cbn [app]. now rewrite IHl by exact S.
  - cbn [lex step]. change (is_digit "8") with true. cbn iota beta. cbn [app]. now rewrite IHl by exact S.
  - cbn [lex step]. change (is_digit "9") with true. cbn iota beta. cbn [app]. now rewrite IHl by exact S.
Qed.
Lemma lex_uint : forall l, lexes (NilZero.string_of_uint l) [TNum (Z.of_uint l)].
Proof.
  intros l r S. rewrite dval_uint. destruct l; cbn [NilZero.string_of_uint NilEmpty.string_of_uint append].
  - cbn [lex step start]. change (start "0") with (LNum 0, @nil token). cbn [app]. rewrite lex_flush by (auto; exact I). reflexivity.
  - cbn [lex step]. change (start "0") with (LNum 0, @nil token). cbn [app dval]. rewrite lex_digits by exact S. reflexivity.
  - cbn [lex step]. change (start "1") with (LNum 1, @nil token). cbn [app dval]. rewrite lex_digits by exact S. reflexivity.
  - cbn [lex step]. change (start "2") with (LNum 2, @nil token). cbn [app dval]. rewrite lex_digits by exact S. reflexivity.
  - cbn [lex step]. change (start "3") with (LNum 3, @nil token). cbn [app dval]. rewrite lex_digits by exact S. reflexivity.
  - cbn [lex step]. change (start "4") with (LNum 4, @nil token). cbn [app dval]. rewrite lex_digits by exact S. reflexivity.
  - cbn [lex step]. change (start "5") with (LNum 5, @nil token). cbn [app dval]. rewrite lex_digits by exact S. reflexivity.
  - cbn [lex step]. change (start "6") with (LNum 6, @nil token). cbn [app dval]. rewrite lex_digits by exact S. reflexivity.
  - cbn [lex step]. change (start "7") with (LNum 7, @nil token). cbn [app dval]. rewrite lex_digits by exact S. reflexivity.
  - cbn [lex step]. change (start "8") with (LNum 8, @nil token). cbn [app dval]. rewrite lex_digits by exact S. reflexivity.
  - cbn [lex step]. change (start "9") with (LNum 9, @nil token). cbn [app dval]. rewrite lex_digits by exact S. reflexivity.
Qed.
Lemma uint_first : forall l, first_in is_digit (NilZero.string_of_uint l).
Proof. destruct l; reflexivity. Qed.
Lemma int_nonneg : forall z, 0 <= z -> exists l, int_text z = NilZero.string_of_uint l /\ Z.of_uint l = z.
Proof.
  intros z H. unfold int_text. pose proof (of_to z) as E. destruct (Z.to_int z) as [l|l] eqn:T.
  - exists l. split; [reflexivity|exact E].
  - destruct z; simpl in T; try discriminate. lia.
Qed.
Lemma int_neg : forall z, z < 0 -> exists l, int_text z = "-" ++ NilZero.string_of_uint l /\ Z.of_uint l = - z.
Proof.
  intros z H. unfold int_text. pose proof (of_to z) as E. destruct (Z.to_int z) as [l|l] eqn:T.
  - destruct z; simpl in T; try discriminate; lia.
  - exists l. split; [reflexivity|]. cbn [Z.of_int] in E. unfold Z.of_uint in *. lia.
Qed.

(** *** signs *)
Lemma lex_op : forall c r, op_start c = true -> is_alpha c = false -> is_digit c = false -> is_space c = false -> plain_op c = None ->
  apart c r -> lex LNone (String c r) = (op1 c :: lex LNone r)%list.
Proof.
  intros c r O A D S P H. cbn [lex step]. unfold start. rewrite A, D, S, P, O. cbn [app]. destruct r as [|d r'].
  - reflexivity.
  - cbn [lex]. unfold step at 1. cbn [apart] in H. rewrite H. cbn [step]. destruct (start d) as [st ts]. reflexivity.
Qed.
Lemma lex_plus : forall r, apart "+" r -> lex LNone (String "+" r) = (TOp OPlus :: lex LNone r)%list.
Proof. intros r H. now rewrite lex_op. Qed.
Lemma lex_minus : forall r, apart "-" r -> lex LNone (String "-" r) = (TOp OMinus :: lex LNone r)%list.
Proof. intros r H. now rewrite lex_op. Qed.
Lemma lex_star : forall r, apart "*" r -> lex LNone (String "*" r) = (TOp OStar :: lex LNone r)%list.
Proof. intros r H. now rewrite lex_op. Qed.
Lemma lex_slash : forall r, apart "/" r -> lex LNone (String "/" r) = (TOp OSlash :: lex LNone r)%list.
Proof. intros r H. now rewrite lex_op. Qed.
Lemma lex_percent : forall r, apart "%" r -> lex LNone (String "%" r) = (TOp OPercent :: lex LNone r)%list.
Proof. intros r H. now rewrite lex_op. Qed.
Lemma lex_assign : forall r, apart "=" r -> lex LNone (String "=" r) = (TOp OAssign :: lex LNone r)%list.
Proof. intros r H. now rewrite lex_op. Qed.

(** the first character of an expression *)
Definition expr_char (c : ascii) : bool := is_idchar c || (c =? "-")%char || (c =? "(")%char.
Definition prim_char (c : ascii) : bool := is_idchar c || (c =? "(")%char.
Lemma first_weaken : forall (f g : ascii -> bool) s, (forall c, f c = true -> g c = true) -> first_in f s -> first_in g s.
Proof. intros f g [|c s'] H F; [exact F|]. now apply H. Qed.
Lemma ops_apart : forall c d : ascii, (op_start c = true) -> (is_idchar d || (d =? "(")%char = true) -> op2 c d = None.
Proof.
  intros c d Hc Hd.
  assert (N : (d =? "=")%char = false /\ (d =? "&")%char = false /\ (d =? "+")%char = false /\ (d =? "-")%char = false /\ (d =? ">")%char = false
              /\ (d =? "<")%char = false /\ (d =? "/")%char = false /\ (d =? "*")%char = false).
  { repeat split; destruct (Ascii.eqb_spec d "="), (Ascii.eqb_spec d "&"), (Ascii.eqb_spec d "+"), (Ascii.eqb_spec d "-"),
      (Ascii.eqb_spec d ">"), (Ascii.eqb_spec d "<"), (Ascii.eqb_spec d "/"), (Ascii.eqb_spec d "*"); try reflexivity; subst; discriminate Hd. }
  destruct N as (N1 & N2 & N3 & N4 & N5 & N6 & N7 & N8).
  unfold op2. rewrite N1, N2, N3, N4, N5, N6, N7, N8. rewrite !andb_false_r. reflexivity.
Qed.
Lemma first_apart : forall c s, op_start c = true -> first_in prim_char s -> apart c s.
Proof. intros c [|d s'] O F; [exact I|]. simpl in *. apply ops_apart; assumption. Qed.
Lemma first_apart_minus : forall (c : ascii) s, (c = "+" \/ c = "=" \/ c = "*" \/ c = "/" \/ c = "%")%char -> first_in expr_char s -> apart c s.
Proof.
  intros c [|d s'] O F; [exact I|]. simpl in *. unfold expr_char in F.
  destruct (Ascii.eqb_spec d "-") as [->|N].
  - destruct O as [->|[->|[->|[->| ->]]]]; reflexivity.
  - apply ops_apart.
    + destruct O as [->|[->|[->|[->| ->]]]]; reflexivity.
    + apply orb_true_iff. apply orb_true_iff in F. destruct F as [F|F]; [|now right].
      apply orb_true_iff in F. destruct F as [F|F]; [now left|discriminate].
Qed.
Lemma first_app : forall f s r, first_in f s -> first_in f (s ++ r).
Proof. intros f [|c s'] r F; [destruct F|exact F]. Qed.
Lemma first_nonempty : forall f s, first_in f s -> s <> "".
Proof. intros f [|c s'] F; [destruct F|discriminate]. Qed.
