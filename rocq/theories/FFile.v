(** The file printed in Fortran: a comment, then the statements. *)
From Coq Require Import ZArith List Bool Arith String Ascii Lia.
From Verif Require Import ClastSpec ClastModel ClastCmp PprintModel CReader FReader PprintSpec FSpec PprintLex PprintExpr PprintStmt PprintEnd FParse FExpr FStmt FEnd FileModel.
Import ListNotations.
Local Open Scope string_scope.

Definition no_newline (s : string) : bool := all_chars (fun c => negb (is_newline c)) s.
(** the texts in the first line are all on one line *)
Definition fheader_ok (o : fopts) : Prop := no_newline (fo_name o) = true /\ no_newline (fo_version o) = true /\
  match fo_time o with Some t => no_newline t = true | None => True end.
Lemma all_chars_app : forall f a b, all_chars f (a ++ b) = all_chars f a && all_chars f b.
Proof. intros f. induction a as [|c a IH]; intro b; [reflexivity|]. cbn [append all_chars]. now rewrite IH, andb_assoc. Qed.
Lemma comment_flex : forall s t, no_newline s = true -> flex FComment (s ++ newline ++ t) = FEol :: ftokens t.
Proof.
  induction s as [|c s IH]; intros t H; [reflexivity|]. unfold no_newline in H. cbn [all_chars] in H. apply andb_true_iff in H. destruct H as [H1 H2]. apply negb_true_iff in H1.
  cbn [append flex fstep]. rewrite H1. cbn [app]. now apply IH.
Qed.
Lemma comment_tokens : forall s t, no_newline s = true -> ftokens (print_comment LangFortran s ++ t) = FEol :: ftokens t.
Proof.
  intros s t H. unfold print_comment. rewrite !app_assoc_s. change (flex FComment ((" " ++ s) ++ newline ++ t) = FEol :: ftokens t). apply (comment_flex (" " ++ s) t). exact H.
Qed.
Lemma skip_eol : forall ts p, (exists fuel, fparse_body fuel (FEol :: ts) = Some (p, [])) <-> (exists fuel, fparse_body fuel ts = Some (p, [])).
Proof.
  intros ts p. split; intros [n H].
  - destruct n as [|n]; [discriminate|]. cbn [fparse_body] in H. now exists n.
  - exists (S n). exact H.
Qed.
Theorem file_text : forall fo stmt_name nm bs ss, fo_lang fo = LangFortran -> fheader_ok fo ->
  let po := {| p_lang := LangFortran; p_callable := fo_callable fo |} in
  forallb (fprintable_stmt po stmt_name) ss = true -> case_distinct (flat_map stmt_vars ss) -> (fo_callable fo = false \/ ss <> []) ->
  exists text p, program_pprint fo stmt_name nm bs ss = Some text /\ (forall q, freads text q <-> q = p /\ lines_fit 0 text = true) /\
  forall rnd rho rho' t rf, nearest rnd -> exec_with small_eval ss rho = Some (rho', t) -> fagree (flat_map stmt_vars ss) rho rf ->
    exists rf', fagree (flat_map stmt_vars ss) rho' rf' /\ forall rf2 t2, frun rnd p rf rf2 t2 <-> rf2 = rf' /\ t2 = fnamed po stmt_name t.
Proof.
  intros fo stmt_name nm bs ss LF (H1 & H2 & H3) po PR CD NE.
  destruct (fprogram_parse po stmt_name eq_refl 0 ss PR CD NE) as (text & p & E & U & RUN).
  unfold program_pprint. rewrite LF. cbv zeta. rewrite !andb_false_r. fold po. rewrite E.
  set (first := "Generated from " ++ _). assert (NN : no_newline first = true).
  { unfold first, no_newline in *. rewrite !all_chars_app, H1, H2. destruct (fo_time fo); [rewrite !all_chars_app, H3|]; reflexivity. }
  clearbody first. exists (print_comment LangFortran first ++ text), p. split; [reflexivity|]. split; [|exact RUN].
  intro q. unfold freads. rewrite comment_tokens by exact NN. rewrite skip_eol, U. tauto.
Qed.
