(** How the lines of a printed file are read. *)
From Coq Require Import ZArith List Bool Arith String Ascii Lia Decimal DecimalString DecimalNat.
From Verif Require Import ClastSpec ClastModel PprintModel CReader PprintSpec PprintLex FileModel FileReader.
Import ListNotations.
Local Open Scope string_scope.
Local Open Scope Z_scope.
Local Arguments Nat.leb : simpl never.
Local Arguments Nat.eqb : simpl never.
Local Arguments is_idchar : simpl never.
Local Arguments is_alpha : simpl never.
Local Arguments is_digit : simpl never.

(** *** characters *)
Definition no_nl (s : string) : Prop := all_chars (fun c => negb (is_newline c)) s = true.
Lemma all_app : forall f a b, all_chars f (a ++ b) = (all_chars f a && all_chars f b)%bool.
Proof. intros f a b. induction a as [|c a IH]; [reflexivity|]. cbn [append all_chars]. now rewrite IH, andb_assoc. Qed.
Lemma all_weaken : forall (f g : ascii -> bool) s, (forall c, f c = true -> g c = true) -> all_chars f s = true -> all_chars g s = true.
Proof.
  intros f g s H. induction s as [|c s IH]; [reflexivity|]. cbn [all_chars]. intro A. apply andb_true_iff in A. destruct A as [A1 A2].
  now rewrite (H _ A1), IH.
Qed.
Lemma nl_app : forall a b, no_nl a -> no_nl b -> no_nl (a ++ b).
Proof. unfold no_nl. intros a b A B. now rewrite all_app, A, B. Qed.
Lemma idchar_no_nl : forall c, is_idchar c = true -> negb (is_newline c) = true.
Proof.
  intros c H. unfold is_newline. destruct (Nat.eqb_spec (code c) 10) as [E|]; [|reflexivity].
  exfalso. unfold is_idchar, is_alpha, is_digit in H. rewrite E in H. discriminate H.
Qed.
Lemma id_no_nl : forall s, all_chars is_idchar s = true -> no_nl s.
Proof. intros s H. eapply all_weaken; [exact idchar_no_nl|exact H]. Qed.
Lemma ident_chars : forall s, ident s = true -> all_chars is_idchar s = true.
Proof.
  intros s I. unfold ident in I. apply andb_true_iff in I. destruct I as [I _]. destruct s as [|c s]; [discriminate|].
  apply andb_true_iff in I. destruct I as [I1 I2]. cbn [all_chars]. unfold is_idchar at 1. now rewrite I1, I2.
Qed.
Lemma uint_chars : forall d, all_chars is_digit (NilEmpty.string_of_uint d) = true.
Proof. induction d; [reflexivity|..]; cbn [NilEmpty.string_of_uint all_chars]; rewrite IHd; reflexivity. Qed.
Lemma zero_chars : forall d, all_chars is_digit (NilZero.string_of_uint d) = true.
Proof. intros [| | | | | | | | | |]; try reflexivity; apply (uint_chars (_ _)). Qed.
Lemma digit_id : forall s, all_chars is_digit s = true -> all_chars is_idchar s = true.
Proof. intros s. apply all_weaken. intros c H. unfold is_idchar. now rewrite H, orb_true_r. Qed.
Lemma nat_chars : forall n, all_chars is_idchar (nat_text n) = true.
Proof. intro n. apply digit_id, zero_chars. Qed.
Lemma int_no_nl : forall z, no_nl (int_text z).
Proof.
  intro z. unfold int_text. destruct (Z.to_int z) as [d|d]; cbn [NilZero.string_of_int].
  - apply id_no_nl, digit_id, zero_chars.
  - apply (nl_app "-"); [reflexivity|]. apply id_no_nl, digit_id, zero_chars.
Qed.
Lemma concat_no_nl : forall sp l, no_nl sp -> Forall no_nl l -> no_nl (String.concat sp l).
Proof.
  intros sp l N H. induction H as [|x l Hx H IH]; [reflexivity|]. cbn [String.concat]. destruct l; [exact Hx|]. apply nl_app; [exact Hx|]. now apply nl_app.
Qed.

(** *** lines *)
Definition rl (st : pre) (s : string) : option pre := read_lines st (split_lines "" s).
Lemma snoc_app : forall a c s, snoc a c ++ s = a ++ String c s.
Proof. intros. unfold snoc. now rewrite app_assoc_s. Qed.
Lemma split_line : forall l cur r, no_nl l -> split_lines cur (l ++ newline ++ r) = (cur ++ l) :: split_lines "" r.
Proof.
  unfold no_nl. induction l as [|c l IH]; intros cur r N.
  - cbn [append split_lines newline]. change (is_newline (ascii_of_nat 10)) with true. cbn iota. now rewrite app_nil_s.
  - cbn [all_chars] in N. apply andb_true_iff in N. destruct N as [N1 N2]. apply negb_true_iff in N1. cbn [append split_lines]. rewrite N1, IH by exact N2. now rewrite snoc_app.
Qed.
Lemma rl_line : forall st l r, no_nl l -> rl st (l ++ newline ++ r) = match read_line st l with Some st' => rl st' r | None => None end.
Proof. intros st l r N. unfold rl. rewrite split_line by exact N. reflexivity. Qed.
Lemma rl_blank : forall st r, rl st (newline ++ r) = rl st r.
Proof.
  intros st r. rewrite <- (app_assoc_s "" newline r) || idtac. change (newline ++ r) with ("" ++ newline ++ r). rewrite rl_line by reflexivity.
  unfold read_line. cbn [ltrim starts tail andb]. destruct (skipping st); [reflexivity|]. unfold with_code. change (tokens "") with (@nil token). rewrite app_nil_r. now destruct st.
Qed.

(** a newline ends every token *)
Lemma op2_nl : forall c, op2 c (ascii_of_nat 10) = None.
Proof. intro c. unfold op2. change (Ascii.eqb (ascii_of_nat 10) ?d) with false. repeat (rewrite ?andb_false_r; cbn). destruct (Ascii.eqb c "<"), (Ascii.eqb c ">"), (Ascii.eqb c "="), (Ascii.eqb c "&"), (Ascii.eqb c "+"), (Ascii.eqb c "-"), (Ascii.eqb c "/"); reflexivity. Qed.
Lemma lex_nl : forall a st r, lex st (a ++ newline ++ r) = (lex st a ++ lex LNone r)%list.
Proof.
  induction a as [|c a IH]; intros st r.
  - cbn [append lex newline]. destruct st; cbn [step]; try reflexivity.
    + now rewrite op2_nl.
  - cbn [append lex]. destruct (step st c) as [st' ts]. now rewrite IH, app_assoc.
Qed.
Lemma tokens_nl : forall a r, tokens (a ++ newline ++ r) = (tokens a ++ tokens r)%list.
Proof. intros. apply lex_nl. Qed.
Lemma lex_ltrim : forall s, lex LNone (ltrim s) = lex LNone s.
Proof.
  induction s as [|c s IH]; [reflexivity|]. cbn [ltrim]. destruct (is_space c) eqn:E; [|reflexivity]. rewrite IH. cbn [lex step].
  assert (S : start c = (LNone, [])); [|now rewrite S].
  unfold start. rewrite E. unfold is_space in E. unfold is_alpha, is_digit.
  assert (N : (code c = 32 \/ code c = 10 \/ code c = 9)%nat).
  { apply orb_true_iff in E. destruct E as [E|E]; [apply orb_true_iff in E; destruct E as [E|E]|]; apply Nat.eqb_eq in E; tauto. }
  destruct N as [->|[-> | ->]]; reflexivity.
Qed.
Lemma plain_line : forall l, ~ In TErr (tokens l) -> starts "#" (ltrim l) = false /\ (starts "/" (ltrim l) && starts "*" (tail (ltrim l)))%bool = false.
Proof.
  intros l H. unfold tokens in H. rewrite <- lex_ltrim in H. set (t := ltrim l) in *. clearbody t. destruct t as [|c t]; [split; reflexivity|].
  cbn [starts tail]. split.
  - destruct (Ascii.eqb_spec c "#") as [->|]; [|reflexivity]. exfalso. apply H. now left.
  - destruct (Ascii.eqb_spec c "/") as [->|]; [|reflexivity]. cbn [andb]. destruct t as [|d t]; [reflexivity|]. cbn [starts].
    destruct (Ascii.eqb_spec d "*") as [->|]; [|reflexivity]. exfalso. apply H. now left.
Qed.
Lemma with_code_nil : forall st, with_code st [] = st.
Proof. intros [d c k]. unfold with_code. cbn. now rewrite app_nil_r. Qed.
Lemma with_code_app : forall st a b, with_code (with_code st a) b = with_code st (a ++ b)%list.
Proof. intros [d c k] a b. unfold with_code. cbn. now rewrite app_assoc. Qed.
Lemma read_code_line : forall st l, ~ In TErr (tokens l) -> skipping st = false -> read_line st l = Some (with_code st (tokens l)).
Proof. intros st l H S. destruct (plain_line l H) as [A B]. unfold read_line. now rewrite A, B, S. Qed.
(** text that can be read as tokens is code *)
Lemma rl_code : forall s st, skipping st = false -> ~ In TErr (tokens s) -> rl st s = Some (with_code st (tokens s)).
Proof.
  assert (G : forall s cur st, skipping st = false -> ~ In TErr (tokens (cur ++ s)) -> read_lines st (split_lines cur s) = Some (with_code st (tokens (cur ++ s)))).
  { induction s as [|c s IH]; intros cur st S H; cbn [split_lines].
    - rewrite app_nil_s in *. destruct cur as [|d cur]; [cbn [read_lines]; change (tokens "") with (@nil token); now rewrite with_code_nil|].
      cbn [read_lines]. now rewrite read_code_line.
    - destruct (is_newline c) eqn:E.
      + assert (c = ascii_of_nat 10) by (unfold is_newline in E; apply Nat.eqb_eq in E; rewrite <- (ascii_nat_embedding c); unfold code in E; now rewrite E). subst c.
        change (cur ++ String (ascii_of_nat 10) s) with (cur ++ newline ++ s) in *. rewrite tokens_nl in *.
        cbn [read_lines]. rewrite read_code_line; [|intro I; apply H, in_or_app; now left|exact S].
        rewrite IH; [|exact S|cbn [append]; intro I; apply H, in_or_app; now right]. cbn [append]. now rewrite with_code_app.
      + rewrite <- snoc_app in *. now apply IH. }
  intros s st S H. apply (G s "" st S H).
Qed.
Lemma rl_code_line : forall st l r, no_nl l -> ~ In TErr (tokens l) -> skipping st = false -> rl st (l ++ newline ++ r) = rl (with_code st (tokens l)) r.
Proof. intros st l r N H S. now rewrite rl_line, read_code_line. Qed.
(** comments *)
Fixpoint no_star (s : string) : bool := match s with EmptyString => true | String c r => negb (Ascii.eqb c "*") && no_star r end.
Lemma comment_end : forall s, no_star s = true -> comment_only (s ++ " */") = true.
Proof.
  induction s as [|c s IH]; intro H; [reflexivity|]. cbn [no_star] in H. apply andb_true_iff in H. destruct H as [H1 H2]. apply negb_true_iff in H1.
  cbn [append comment_only]. rewrite H1. cbn [andb]. now apply IH.
Qed.
Lemma rl_comment : forall st s r, no_star s = true -> no_nl s -> rl st ("/* " ++ s ++ " */" ++ newline ++ r) = rl st r.
Proof.
  intros st s r H N. replace ("/* " ++ s ++ " */" ++ newline ++ r) with (("/* " ++ s ++ " */") ++ newline ++ r) by (rewrite !app_assoc_s; reflexivity).
  rewrite rl_line by (apply nl_app; [reflexivity|apply nl_app; [exact N|reflexivity]]). unfold read_line. cbn [append ltrim]. change (is_space "/") with false. cbn iota.
  cbn [starts tail]. change (Ascii.eqb "/" "#") with false. change (Ascii.eqb "/" "/") with true. change (Ascii.eqb "*" "*") with true. cbn [andb]. cbn iota.
  change (comment_only (String " " (s ++ " */"))) with (comment_only (s ++ " */")). now rewrite comment_end.
Qed.
Lemma rl_comment2 : forall st s r, no_star s = true -> no_nl s -> rl st ("  /* " ++ s ++ " */" ++ newline ++ r) = rl st r.
Proof.
  intros st s r H N. rewrite <- (rl_comment st s r H N).
  replace ("  /* " ++ s ++ " */" ++ newline ++ r) with (("  /* " ++ s ++ " */") ++ newline ++ r) by (rewrite !app_assoc_s; reflexivity).
  replace ("/* " ++ s ++ " */" ++ newline ++ r) with (("/* " ++ s ++ " */") ++ newline ++ r) by (rewrite !app_assoc_s; reflexivity).
  rewrite !rl_line by (apply nl_app; [reflexivity|apply nl_app; [exact N|reflexivity]]). reflexivity.
Qed.
(** #define *)
Lemma word_app : forall w r, all_chars is_idchar w = true -> sep r -> word (w ++ r) = (w, r).
Proof.
  induction w as [|c w IH]; intros r A S.
  - cbn [append]. destruct r as [|d r]; [reflexivity|]. cbn [word]. cbn in S. now rewrite S.
  - cbn [all_chars] in A. apply andb_true_iff in A. destruct A as [A1 A2]. cbn [append word]. now rewrite A1, IH.
Qed.
Definition open_code (st : pre) : bool := existsb is_lbrace (p_code st).
Lemma rl_define : forall st t d r, no_nl t -> open_code st = false -> p_cond st = None -> read_define (" " ++ t) = Some d -> defined (p_defs st) (d_name d) = false ->
  rl st ("#define " ++ t ++ newline ++ r) = rl (with_def st d) r.
Proof.
  intros st t d r N O C R D. replace ("#define " ++ t ++ newline ++ r) with (("#define " ++ t) ++ newline ++ r) by now rewrite app_assoc_s.
  rewrite rl_line by (apply nl_app; [reflexivity|exact N]). unfold read_line. cbn [append ltrim]. change (is_space "#") with false. cbn iota. cbn [starts tail].
  change (Ascii.eqb "#" "#") with true. cbn iota. unfold directive. change (String "d" (String "e" (String "f" (String "i" (String "n" (String "e" (String " " t))))))) with ("define" ++ " " ++ t).
  change (ltrim ("define" ++ " " ++ t)) with ("define" ++ " " ++ t). rewrite word_app by reflexivity. unfold open_code in O. rewrite O. cbn [String.eqb Ascii.eqb Bool.eqb].
  unfold skipping. rewrite C, R, D. reflexivity.
Qed.
