(** The whole file printed with -callable: its lines, and the file they are read as. *)
From Coq Require Import ZArith List Bool Arith String Ascii Lia.
From Verif Require Import ClastSpec ClastModel PprintModel CReader PprintSpec PprintLex PprintParse PprintExpr PprintStmt PprintEnd FileModel FileReader FileSpec FileLex FileParse FileText FileRead FileMain.
Import ListNotations.
Local Open Scope string_scope.
Local Open Scope Z_scope.
Local Arguments Nat.leb : simpl never.
Local Arguments Nat.eqb : simpl never.
Local Arguments is_keyword : simpl never.

(** *** the parameters of the function *)
Fixpoint fp_seps (ps : list string) : list token :=
  match ps with [] => [] | [x] => [TId "int"; TId x] | x :: ps' => TId "int" :: TId x :: TOp OComma :: fp_seps ps' end.
Lemma fp_one : forall x, ident x = true -> lexes ("int " ++ x) [TId "int"; TId x].
Proof. intros x I r S. rewrite app_assoc_s. change (lex LNone ("int " ++ x ++ r)) with (TId "int" :: lex LNone (x ++ r)). now rewrite (lex_ident x I r S). Qed.
Lemma fp_lex : forall ps, idents ps -> lexes (String.concat ", " (map (append "int ") ps)) (fp_seps ps).
Proof.
  induction ps as [|x ps IH]; intro I; [apply closed_lexes, closed_nil|]. inversion I as [|? ? Ix Il]; subst. destruct ps as [|y ps]; [now apply fp_one|].
  change (String.concat ", " (map (append "int ") (x :: y :: ps))) with (("int " ++ x) ++ ", " ++ String.concat ", " (map (append "int ") (y :: ps))).
  change (fp_seps (x :: y :: ps)) with ([TId "int"; TId x] ++ [TOp OComma] ++ fp_seps (y :: ps))%list.
  apply lexes_app; [now apply fp_one|discriminate|reflexivity|]. apply closed_lexes_app; [intro r; reflexivity|now apply IH].
Qed.
Lemma fp_parse1 : forall ps x r, idents (x :: ps) -> parse_fparams1 (fp_seps (x :: ps) ++ TOp ORpar :: r)%list = Some (x :: ps, r).
Proof.
  induction ps as [|y ps IH]; intros x r I; inversion I as [|? ? Ix Il]; subst; pose proof (not_keyword x Ix) as K.
  - cbn [fp_seps List.app parse_fparams1]. rewrite K. reflexivity.
  - change (fp_seps (x :: y :: ps) ++ TOp ORpar :: r)%list with (TId "int" :: TId x :: TOp OComma :: (fp_seps (y :: ps) ++ TOp ORpar :: r))%list. cbn [parse_fparams1]. rewrite K, (IH y r Il). reflexivity.
Qed.
Lemma fp_parse : forall ps r, idents ps -> parse_fparams (fp_seps ps ++ TOp ORpar :: r)%list = Some (ps, r).
Proof. intros [|x ps] r I; [reflexivity|]. rewrite <- (fp_parse1 ps x r I). destruct ps; reflexivity. Qed.
Lemma fp_noerr : forall ps, noerr (fp_seps ps) = true.
Proof. induction ps as [|x ps IH]; [reflexivity|]. destruct ps; [reflexivity|exact IH]. Qed.
Lemma fp_no_nl : forall ps, idents ps -> no_nl (String.concat ", " (map (append "int ") ps)).
Proof. intros ps I. apply concat_no_nl; [reflexivity|]. rewrite Forall_map. eapply Forall_impl; [|exact (idents_nl ps I)]. intros x Hx. now apply nl_app. Qed.

(** *** callable files *)
Definition s0_macro : macro := {| m_name := "S0"; m_params := None; m_body := MStmts [MCall "hash" [CInt 0]] |}.
Definition call_file (nm : names) (bs : blocks) (body : list fstmt) : cfile :=
  {| f_externs := ["hash"];
     f_macros := (base_macros ++ s0_macro :: map call_macro (stmts nm bs))%list;
     f_name := "test"; f_args := nm_par nm;
     f_vars := map item_var (plain_items (new_scat nm) ++ plain_items (nm_iter nm));
     f_body := body |}.
Definition extern_tokens : list token := [TId "extern"; TId "void"; TId "hash"; TOp OLpar; TId "int"; TOp ORpar; TOp OSemi].
Definition test_tokens (nm : names) : list token := (TId "void" :: TId "test" :: TOp OLpar :: fp_seps (nm_par nm) ++ [TOp ORpar; TOp OLbrace])%list.
Lemma open_with_defs : forall st ds, open_code (with_defs st ds) = open_code st.
Proof. reflexivity. Qed.
Lemma call_preamble : forall R nm bs text r, well_named R nm bs -> ~ In 0%nat (flat_map snd bs) -> print_callable_preamble nm bs = Some text ->
  rl pre0 (text ++ r) = rl (defs_only (call_defs nm bs) (extern_tokens ++ test_tokens nm ++ decl_tokens (plain_items (new_scat nm)) ++ decl_tokens (plain_items (nm_iter nm)))) r.
Proof.
  intros R nm bs text r W Z0 P. destruct (wn_idents _ _ _ W) as (IS & II & IP). pose proof (call_dup_free nm bs (wn_once _ _ _ W) Z0) as D.
  unfold print_callable_preamble in P. rewrite lines_stmts in P by exact (wn_depth _ _ _ W).
  apply cat_some in P. destruct P as (t1 & q1 & E1 & P & ->). apply some_inj in E1. subst t1.
  apply cat_some in P. destruct P as (t2 & q2 & E2 & P & ->). apply some_inj in E2. subst t2.
  apply cat_some in P. destruct P as (t3 & q3 & E3 & P & ->). apply some_inj in E3. subst t3.
  rewrite call_lines.
  set (SL := String.concat "" (map define_text (map (fun p => (call_text p, call_def p)) (stmts nm bs)))).
  repeat rewrite app_assoc_s.
  rewrite (rl_code_line _ "extern void hash(int);") by (reflexivity || (apply noerr_in; reflexivity)). rewrite rl_blank.
  change (tokens "extern void hash(int);") with extern_tokens.
  unfold call_defs in D. assert (D2 := D). change (s0_def :: ?l) with ([s0_def] ++ l)%list in D2. rewrite app_assoc in D2. apply dup_free_prefix in D2. assert (D1 := dup_free_prefix _ _ D2).
  rewrite rl_macros; [|reflexivity|reflexivity|exact D1|reflexivity].
  change ("#define S0 { hash(0); }" ++ ?x) with ("#define " ++ "S0 { hash(0); }" ++ x).
  rewrite (rl_define _ "S0 { hash(0); }" s0_def); [|reflexivity|reflexivity|reflexivity|reflexivity|reflexivity].
  unfold SL. rewrite rl_defines; [|apply Forall_forall; intros p Hp; apply in_map_iff in Hp; destruct Hp as ([its n] & <- & Hj); apply call_read; eapply stmts_idents; eassumption|reflexivity|reflexivity|].
  2:{ rewrite map_map. cbn [with_defs with_def p_defs with_code pre0 List.app]. rewrite <- app_assoc. exact D. }
  rewrite rl_blank.
  assert (T : tokens ("void test(" ++ String.concat ", " (map (append "int ") (nm_par nm)) ++ ")") = (TId "void" :: TId "test" :: TOp OLpar :: fp_seps (nm_par nm) ++ [TOp ORpar])%list).
  { unfold tokens. change (lex LNone ("void test(" ++ ?z)) with (TId "void" :: TId "test" :: TOp OLpar :: lex LNone z). now rewrite (fp_lex _ IP). }
  replace ("void test(" ++ String.concat ", " (map (append "int ") (nm_par nm)) ++ ")" ++ newline ++ "{" ++ newline ++ q3 ++ r)
    with (("void test(" ++ String.concat ", " (map (append "int ") (nm_par nm)) ++ ")") ++ newline ++ "{" ++ newline ++ q3 ++ r) by (rewrite !app_assoc_s; reflexivity).
  rewrite rl_code_line; [|apply nl_app; [reflexivity|]; apply nl_app; [now apply fp_no_nl|reflexivity]|rewrite T; apply noerr_in; change (noerr (fp_seps (nm_par nm) ++ [TOp ORpar]) = true)%list; now rewrite noerr_app, fp_noerr|reflexivity].
  rewrite T. rewrite (rl_code_line _ "{") by (reflexivity || (apply noerr_in; reflexivity)). rewrite (rl_iterators _ nm q3) by (reflexivity || assumption).
  rewrite !with_code_app. change (tokens "{") with [TOp OLbrace]. rewrite map_map. cbn [snd]. change (fun x => call_def x) with call_def.
  unfold with_code, with_defs, with_def, defs_only, call_defs, test_tokens. cbn [p_defs p_cond p_code pre0 List.app]. rewrite <- !app_assoc. cbn [List.app]. rewrite <- ?app_assoc. reflexivity.
Qed.
Theorem read_callable : forall o stmt_name nm bs ss, fo_lang o = LangC -> fo_compilable o = 0 -> fo_callable o = true -> header_ok o ->
  well_named callable_reserved nm bs -> ~ In 0%nat (flat_map snd bs) -> uses_names nm ss -> calls_blocks bs ss ->
  let po := {| p_lang := LangC; p_callable := true |} in
  forallb (printable_stmt po stmt_name) ss = true ->
  exists text p, program_pprint o stmt_name nm bs ss = Some text /\ reads_file text (call_file nm bs (match ss with [] => [FUse "S0"] | _ => map FStmt p end)) /\
    forallb (known_stmt (all_names nm) (arities program_macros) (call_arities nm bs)) p = true /\ same po stmt_name ss p.
Proof.
  intros o stmt_name nm bs ss LC K CA H W Z0 U C po PR. destruct (wn_idents _ _ _ W) as (IS & II & IP).
  assert (NB : numbered po stmt_name) by now left.
  pose proof (good_of_printable (all_names nm) po stmt_name (block_calls nm bs) ss eq_refl U (calls_in nm bs ss (wn_depth _ _ _ W) C) PR) as G.
  destruct (program_defined po stmt_name eq_refl 2 ss PR) as (bt & EB).
  assert (BODY : exists ts p, closed bt ts /\ noerr ts = true /\ forallb (known_stmt (all_names nm) (arities program_macros) (call_arities nm bs)) p = true /\ same po stmt_name ss p /\
     exists N, parse_fbody N ["S0"] (ts ++ [TOp ORbrace])%list = Some (match ss with [] => [FUse "S0"] | _ => map FStmt p end)).
  { destruct ss as [|s ss'].
    - injection EB as <-. exists [TId "S0"], []. split; [intro r; reflexivity|]. split; [reflexivity|]. split; [reflexivity|]. split; [|exists 3%nat; reflexivity].
      intros rho rho' t X. injection X as <- <-. constructor.
    - set (ss := s :: ss') in *. assert (EB2 : pprint_stmts po stmt_name 2 ss = Some bt).
      { unfold clast_pprint in EB. apply cat_some in EB. destruct EB as (a & b & E1 & E2 & ->). apply some_inj in E1. subst a. exact E2. }
      destruct (stmts_read (all_names nm) po stmt_name (block_calls nm bs) ["S0"]) with (ss := ss) (indent := 2%nat) (text := bt) as (ts & p & L & N & KN & SM & PB); [|exact G|exact EB2|].
      { intros x Hx. rewrite (labels po stmt_name nm bs NB). assert (RS : callable_reserved x) by (unfold callable_reserved; destruct Hx as [<-|[<-|[]]]; tauto). split; [|split].
        - intro I. exact (wn_free _ _ _ W x I RS).
        - intro I. apply in_map_iff in I. destruct I as (q & E & I). apply in_map_iff in I. destruct I as (r & <- & I). cbn [fst] in E. destruct Hx as [<-|[<-|[]]].
          + exact (s_not (snd r) "printf" ltac:(cbn; tauto) E).
          + change "S0" with (s_name 0) in E. apply s_inj in E. apply Z0. rewrite <- (stmts_numbers nm bs), <- E. now apply in_map.
        - destruct Hx as [<-|[<-|[]]]; split; discriminate. }
      rewrite (labels po stmt_name nm bs NB) in KN. exists ts, p. split; [exact L|]. split; [exact N|]. split; [exact KN|]. split; [exact SM|].
      destruct (PB [TOp ORbrace] []) as [M E]; [exists 1%nat; reflexivity|]. exists M. rewrite app_nil_r in E. exact E. }
  destruct BODY as (ts & p & L & N & KN & SM & NB1 & EB1).
  assert (PA : exists pt, print_callable_preamble nm bs = Some pt).
  { unfold print_callable_preamble. rewrite lines_stmts by exact (wn_depth _ _ _ W). destruct (iterators_defined nm) as (it & ->). eexists. reflexivity. }
  destruct PA as (pt & PT). eexists. exists p. split; [|split; [|split; [exact KN|exact SM]]].
  { unfold program_pprint. rewrite LC, K, CA. change (0 =? 0) with true. cbn [negb andb]. rewrite PT. fold po. rewrite EB. cbn [cat say]. fold (header o). reflexivity. }
  destruct (macros_app _ (s0_def :: map call_def (stmts nm bs)) _ (s0_macro :: map call_macro (stmts nm bs)) base_parse) as [NM EM].
  { destruct (macros_map _ call_def call_macro (stmts nm bs) (fun q Hq => conj eq_refl (conj eq_refl (call_parse q (match q as q return In q (stmts nm bs) -> idents (fst q) with (its, n) => stmts_idents nm bs its n II end Hq))))) as [M E].
    apply (macros_app [s0_def] (map call_def (stmts nm bs)) [s0_macro]); [exists 12%nat; vm_compute; reflexivity|now exists M]. }
  destruct (decls_end (ts ++ [TOp ORbrace])%list) as [ND0 ED0]; [apply (fbody_no_int _ ["S0"] _ _ ltac:(cbn; intuition discriminate) EB1)|].
  destruct (decls_step _ _ _ _ (plain_ok _ (idents_sub _ (new_scat nm) IS ltac:(intros x Hx; apply filter_In in Hx; tauto)))
             (decls_step _ _ _ _ (plain_ok _ II) (ex_intro _ ND0 ED0))) as [ND ED].
  exists (NB1 + NM + ND)%nat. eexists. eexists. split.
  - unfold preprocess. fold (rl pre0 (print_comment LangC (header o) ++ pt ++ bt ++ print_callable_postamble)). rewrite rl_header by exact H.
    rewrite (call_preamble _ _ _ _ (bt ++ print_callable_postamble) W Z0 PT).
    assert (TB : tokens (bt ++ print_callable_postamble) = (ts ++ [TOp ORbrace])%list) by (unfold tokens; rewrite L; f_equal).
    rewrite rl_code; [rewrite TB; reflexivity|reflexivity|]. rewrite TB. apply noerr_in. rewrite noerr_app, N. reflexivity.
  - cbn [with_code defs_only p_defs p_code]. unfold parse_file, call_defs. rewrite (macros_mono NM (NB1 + NM + ND) _ _ ltac:(lia) EM).
    unfold test_tokens, extern_tokens. rewrite <- !app_assoc. cbn [List.app]. cbn [parse_externs]. change (String.eqb "extern" "extern" && String.eqb "void" "void" && String.eqb "int" "int")%bool with true. cbn iota.
    change ((String.eqb "void" "int" || String.eqb "void" "void") && negb (is_keyword "test"))%bool with true. cbn iota. rewrite <- app_assoc. cbn [List.app]. rewrite (fp_parse _ _ IP). cbn iota.
    rewrite <- ?app_assoc. rewrite (decls_mono ND (NB1 + NM + ND) _ _ ltac:(lia) ED).
    assert (SO : statement_objects (base_macros ++ s0_macro :: map call_macro (stmts nm bs)) = ["S0"]).
    { unfold statement_objects. rewrite !flat_map_app. assert (A : flat_map (fun m => match m_params m, m_body m with None, MStmts _ => [m_name m] | _, _ => [] end) base_macros = []) by (vm_compute; reflexivity).
      rewrite A. cbn [List.app flat_map s0_macro m_params m_body m_name]. f_equal. generalize (stmts nm bs). intro l. induction l; [reflexivity|exact IHl]. }
    rewrite SO. rewrite (fbody_mono NB1 (NB1 + NM + ND) _ _ _ ltac:(lia) EB1). unfold call_file. f_equal. f_equal. rewrite !map_app, app_nil_r. reflexivity.
Qed.
