(** The whole file: its lines, and the file they are read as. *)
From Coq Require Import ZArith List Bool Arith String Ascii Lia.
From Verif Require Import ClastSpec ClastModel PprintModel CReader PprintSpec PprintLex PprintParse PprintExpr PprintStmt PprintEnd FileModel FileReader FileSpec FileLex FileParse FileText FileRead.
Import ListNotations.
Local Open Scope string_scope.
Local Open Scope Z_scope.
Local Arguments Nat.leb : simpl never.
Local Arguments Nat.eqb : simpl never.
Local Arguments is_keyword : simpl never.

(** *** the statements *)
Section Body.
Variable vs : list string.
Variable o : popts.
Variable stmt_name : nat -> option string.
Variable cs : list (nat * nat).
Notation PS := (map (fun c => (stmt_label o stmt_name (fst c), snd c)) cs).
Variable objs : list string.
Hypothesis special : forall x, In x ("printf" :: objs) -> ~ In x vs /\ ~ In x (map fst PS) /\ x <> "if" /\ x <> "for".
Lemma str_mem : forall x l, existsb (String.eqb x) l = true -> In x l.
Proof. intros x l H. apply existsb_exists in H. destruct H as (y & Hy & E). apply String.eqb_eq in E. now subst. Qed.
Lemma callable_in : forall fs f n, callable fs f n = true -> In (f, n) fs.
Proof.
  intros fs f n H. unfold callable in H. apply existsb_exists in H. destruct H as ([g m] & Hg & E). cbn [fst snd] in E. apply andb_true_iff in E. destruct E as [E1 E2].
  apply String.eqb_eq in E1. apply Nat.eqb_eq in E2. now subst.
Qed.
Lemma fbody_stmt : forall N ts r c l, no_rbrace ts -> parse_stmt N (ts ++ r)%list = Some (c, r) -> known_stmt vs (arities program_macros) PS c = true ->
  parse_fbody N objs r = Some l -> parse_fbody (S N) objs (ts ++ r)%list = Some (FStmt c :: l).
Proof.
  intros N ts r c l NR P K E. destruct ts as [|t ts]; [destruct NR|]. cbn [List.app] in *. cbn [parse_fbody]. rewrite P, E.
  destruct t as [x|z|op|s|]; try reflexivity.
  - assert (G : ~ In x ("printf" :: objs) /\ x <> "return").
    { apply first_word in P. destruct P as [->|[->|[KW P]]].
      - split; [|discriminate]. intro H. apply special in H. tauto.
      - split; [|discriminate]. intro H. apply special in H. tauto.
      - split; [|intros ->; discriminate KW]. intro H. apply special in H. destruct H as (H1 & H2 & _).
        destruct P as [(e & ->)|(es & ->)]; cbn [known_stmt] in K; apply andb_true_iff in K; destruct K as [K _].
        + apply H1. now apply str_mem.
        + apply H2. apply callable_in in K. apply (in_map fst) in K. exact K. }
    destruct G as [G1 G2]. destruct (String.eqb_spec x "printf"); [exfalso; apply G1; now left|]. destruct (String.eqb_spec x "return"); [tauto|].
    destruct (existsb (String.eqb x) objs) eqn:X; [|reflexivity]. exfalso. apply G1. right. now apply str_mem.
  - destruct op; try reflexivity. destruct NR.
Qed.
Lemma stmts_read : forall ss indent text, Forall (good_stmt vs o stmt_name cs) ss -> pprint_stmts o stmt_name indent ss = Some text ->
  exists ts p, closed text ts /\ noerr ts = true /\ forallb (known_stmt vs (arities program_macros) PS) p = true /\ same o stmt_name ss p /\
    forall r l, (exists N, parse_fbody N objs r = Some l) -> exists N, parse_fbody N objs (ts ++ r)%list = Some (map FStmt p ++ l)%list.
Proof.
  induction ss as [|s ss IH]; intros indent text G PT; cbn [pprint_stmts] in PT.
  - injection PT as <-. exists [], []. split; [apply closed_nil|split; [reflexivity|split; [reflexivity|split; [|tauto]]]]. intros rho rho' t H. injection H as <- <-. constructor.
  - inversion G as [|? ? Gs Gss]; subst. apply cat_some in PT. destruct PT as (s1 & s2 & E1 & E2 & ->).
    destruct (Gs _ _ E1) as (ts & c & L & N & P & K & S). destruct (IH _ _ Gss E2) as (ts' & p & L' & N' & K' & S' & P').
    exists (ts ++ ts')%list, (c :: p). split; [now apply closed_app|]. split; [|split; [cbn [forallb]; now rewrite K, K'|split]].
    + rewrite noerr_app, N', andb_true_r. destruct (P []) as [M Q]. apply in_noerr. exact (read_clean _ _ _ _ Q).
    + intros rho rho' t H. cbn [exec] in H. destruct (exec1 s rho) as [[r1 t1]|] eqn:X1; [|discriminate]. destruct (exec ss r1) as [[r2 t2]|] eqn:X2; [|discriminate].
      injection H as <- <-. rewrite named_app. econstructor; [exact (S _ _ _ X1)|exact (S' _ _ _ X2)].
    + intros r l H. destruct (P' r l H) as [M Q]. destruct (P (ts' ++ r)%list) as [M1 Q1]. exists (Datatypes.S (M + M1)). rewrite <- app_assoc. cbn [map List.app].
      apply fbody_stmt; [exact N| |exact K|].
      * apply (proj1 (stmt_mono M1)); [lia|exact Q1].
      * apply (fbody_mono M); [lia|exact Q].
Qed.
End Body.

(** *** the statements of the blocks *)
Definition stmts (nm : names) (bs : blocks) : list (list string * nat) := flat_map (fun b => map (fun n => (firstn (fst b) (nm_iter nm), n)) (snd b)) bs.
Lemma lines_stmts : forall line nm bs, (forall d ns, In (d, ns) bs -> (d <= List.length (nm_iter nm))%nat) ->
  statement_lines line nm bs = Some (String.concat "" (map (fun p => line (fst p) (snd p)) (stmts nm bs))).
Proof.
  intros line nm bs. induction bs as [|[d ns] bs IH]; intro H; [reflexivity|]. cbn [statement_lines stmts flat_map fst snd]. rewrite map_app, map_map. cbn [fst snd].
  rewrite IH by (intros d' ns' I; apply (H d' ns'); now right). fold (stmts nm bs).
  assert (CA : forall a b, String.concat "" (a ++ b)%list = String.concat "" a ++ String.concat "" b).
  { induction a as [|x a IHa]; intro b; [reflexivity|]. cbn [List.app]. now rewrite !concat_cons, IHa, app_assoc_s. }
  destruct ns as [|n ns]; [reflexivity|]. unfold block_iterators. specialize (H d (n :: ns) ltac:(now left)). apply Nat.leb_le in H. rewrite H. cbn [cat]. now rewrite CA.
Qed.
Lemma stmts_its : forall nm bs its n, In (its, n) (stmts nm bs) -> exists d ns, In (d, ns) bs /\ In n ns /\ its = firstn d (nm_iter nm).
Proof.
  intros nm bs its n H. apply in_flat_map in H. destruct H as ([d ns] & Hb & H). apply in_map_iff in H. destruct H as (m & E & Hm). injection E as <- <-. now exists d, ns.
Qed.
Lemma firstn_in : forall A d (l : list A) x, In x (firstn d l) -> In x l.
Proof. intros A d l x H. rewrite <- (firstn_skipn d l). apply in_or_app. now left. Qed.
Lemma stmts_idents : forall nm bs its n, idents (nm_iter nm) -> In (its, n) (stmts nm bs) -> idents its.
Proof. intros nm bs its n I H. apply stmts_its in H. destruct H as (d & ns & _ & _ & ->). eapply idents_sub; [exact I|]. intros x. apply firstn_in. Qed.
Lemma stmts_numbers : forall nm bs, map snd (stmts nm bs) = flat_map snd bs.
Proof.
  intros nm bs. induction bs as [|[d ns] bs IH]; [reflexivity|]. cbn [stmts flat_map fst snd]. rewrite map_app, map_map. cbn [snd]. rewrite map_id. unfold stmts in IH. now rewrite IH.
Qed.

(** *** names are defined once *)
Lemma nodup_map : forall A B (f : A -> B) l, (forall x y, f x = f y -> x = y) -> NoDup l -> NoDup (map f l).
Proof.
  intros A B f l F H. induction H as [|x l N H IH]; [constructor|]. cbn. constructor; [|exact IH]. intro I. apply in_map_iff in I. destruct I as (y & E & Hy). apply F in E. now subst.
Qed.
Lemma nodup_app : forall A (a b : list A), NoDup a -> NoDup b -> (forall x, In x a -> In x b -> False) -> NoDup (a ++ b).
Proof.
  intros A a b HA HB D. induction HA as [|x a N HA IH]; [exact HB|]. cbn. constructor.
  - intro I. apply in_app_or in I. destruct I as [I|I]; [tauto|]. exact (D x (or_introl eq_refl) I).
  - apply IH. intros y Y1 Y2. exact (D y (or_intror Y1) Y2).
Qed.
Lemma s_inj : forall n m, s_name n = s_name m -> n = m.
Proof. intros n m E. apply nat_inj. exact (app_inj_s "S" _ _ E). Qed.
Lemma par_inj : forall n m, par_name n = par_name m -> n = m.
Proof. intros n m E. apply nat_inj. exact (app_inj_s "PARVAL" _ _ E). Qed.
Definition comp_defs (k : Z) (nm : names) (bs : blocks) : list define := (map (par_def k) (seq 1 (List.length (nm_par nm))) ++ base_defs ++ map comp_def (stmts nm bs))%list.
Definition base_names : list string := ["floord"; "ceild"; "max"; "min"; "IF_TIME"].
Lemma comp_names : forall k nm bs, map d_name (comp_defs k nm bs) = (map par_name (seq 1 (List.length (nm_par nm))) ++ base_names ++ map s_name (flat_map snd bs))%list.
Proof.
  intros k nm bs. unfold comp_defs. rewrite !map_app, !map_map, <- (stmts_numbers nm bs), map_map. reflexivity.
Qed.
Lemma comp_dup_free : forall k nm bs, NoDup (flat_map snd bs) -> dup_free (comp_defs k nm bs).
Proof.
  intros k nm bs H. unfold dup_free. rewrite comp_names. apply nodup_app; [apply nodup_map; [exact par_inj|apply seq_NoDup]| |].
  - apply nodup_app; [|apply nodup_map; [exact s_inj|exact H]|].
    + unfold base_names. repeat constructor; cbn; intuition discriminate.
    + intros x Hx I. apply in_map_iff in I. destruct I as (n & <- & _). cbn in Hx. unfold s_name in Hx. cbn [append] in Hx. intuition discriminate.
  - intros x I1 I2. apply in_map_iff in I1. destruct I1 as (i & <- & _). apply in_app_or in I2. destruct I2 as [I2|I2].
    + cbn in I2. unfold par_name in I2. cbn [append] in I2. intuition discriminate.
    + apply in_map_iff in I2. destruct I2 as (n & E & _). discriminate E.
Qed.
Definition s0_def : define := {| d_name := "S0"; d_params := None; d_body := [TOp OLbrace; TId "hash"; TOp OLpar; TNum 0; TOp ORpar; TOp OSemi; TOp ORbrace] |}.
Definition call_defs (nm : names) (bs : blocks) : list define := (base_defs ++ s0_def :: map call_def (stmts nm bs))%list.
Lemma call_names : forall nm bs, map d_name (call_defs nm bs) = (base_names ++ "S0" :: map s_name (flat_map snd bs))%list.
Proof. intros nm bs. unfold call_defs. rewrite map_app. cbn [map d_name s0_def]. rewrite <- (stmts_numbers nm bs), !map_map. reflexivity. Qed.
Lemma call_dup_free : forall nm bs, NoDup (flat_map snd bs) -> ~ In 0%nat (flat_map snd bs) -> dup_free (call_defs nm bs).
Proof.
  intros nm bs H Z. unfold dup_free. rewrite call_names. apply nodup_app.
  - unfold base_names. repeat constructor; cbn; intuition discriminate.
  - constructor; [|apply nodup_map; [exact s_inj|exact H]]. intro I. apply in_map_iff in I. destruct I as (n & E & Hn). change "S0" with (s_name 0) in E. apply s_inj in E. now subst.
  - intros x Hx [<-|I]; [cbn in Hx; intuition discriminate|]. apply in_map_iff in I. destruct I as (n & <- & _). cbn in Hx. unfold s_name in Hx. cbn [append] in Hx. intuition discriminate.
Qed.

(** *** the first line *)
Lemma one_line_parts : forall s, one_line s = true -> no_star s = true /\ no_nl s.
Proof.
  induction s as [|c s IH]; intro H; [split; reflexivity|]. cbn [one_line all_chars] in H. apply andb_true_iff in H. destruct H as [H1 H2]. apply andb_true_iff in H1. destruct H1 as [H1 H3].
  destruct (IH H2) as [A B]. split; [cbn [no_star]; now rewrite H1, A|]. unfold no_nl. cbn [all_chars]. now rewrite H3, B.
Qed.
Lemma one_line_app : forall a b, one_line a = true -> one_line b = true -> one_line (a ++ b) = true.
Proof. intros a b A B. unfold one_line in *. now rewrite all_app, A, B. Qed.
Definition header (o : fopts) : string :=
  "Generated from " ++ fo_name o ++ " by " ++ fo_version o ++ match fo_time o with Some t => " in " ++ t ++ "s." | None => "." end.
Lemma rl_header : forall o st r, header_ok o -> rl st (print_comment LangC (header o) ++ r) = rl st r.
Proof.
  intros o st r (H1 & H2 & H3). unfold print_comment. rewrite !app_assoc_s. destruct (one_line_parts (header o)) as [A B].
  - unfold header. repeat apply one_line_app; try reflexivity; try assumption. destruct (fo_time o); [|reflexivity]. repeat apply one_line_app; try reflexivity; try assumption.
  - now apply rl_comment.
Qed.

(** *** compilable files *)
Definition comp_vars (nm : names) : list item := (plain_items (new_scat nm) ++ plain_items (nm_iter nm) ++ par_items 1 (nm_par nm))%list.
Definition points_text : string := "Number of integral points: %d." ++ newline.
Definition comp_file (k : Z) (nm : names) (bs : blocks) (p : list cstmt) : cfile :=
  {| f_externs := [];
     f_macros := (map (par_macro k) (seq 1 (List.length (nm_par nm))) ++ base_macros ++ map comp_macro (stmts nm bs))%list;
     f_name := "main"; f_args := [];
     f_vars := (map item_var (comp_vars nm) ++ [("total", Some (CInt 0))])%list;
     f_body := (map FStmt p ++ [FPrintf points_text [CVar "total"]; FReturn 0])%list |}.
Lemma parvals_text : forall k ps i, parvals k i ps = String.concat "" (map define_text (map (fun j => (par_text k j, par_def k j)) (seq i (List.length ps)))).
Proof.
  intros k ps. induction ps as [|p ps IH]; intro i; [reflexivity|]. cbn [parvals List.length seq map]. rewrite concat_cons, <- IH. unfold define_text, par_text, par_name. cbn [fst].
  repeat (progress (rewrite ?app_assoc_s; cbn [append])). reflexivity.
Qed.
Lemma comp_lines : forall l, String.concat "" (map (fun p => compilable_line (fst p) (snd p)) l) = String.concat "" (map define_text (map (fun p => (comp_text p, comp_def p)) l)).
Proof. intro l. rewrite map_map. f_equal. apply map_ext. intros [its n]. cbn [fst snd]. rewrite comp_line. reflexivity. Qed.
Lemma call_lines : forall l, String.concat "" (map (fun p => callable_line (fst p) (snd p)) l) = String.concat "" (map define_text (map (fun p => (call_text p, call_def p)) l)).
Proof. intro l. rewrite map_map. f_equal. apply map_ext. intros [its n]. cbn [fst snd]. rewrite call_line. reflexivity. Qed.
Lemma wn_idents : forall R nm bs, well_named R nm bs -> idents (nm_scat nm) /\ idents (nm_iter nm) /\ idents (nm_par nm).
Proof.
  intros R nm bs H. pose proof (wn_ident _ _ _ H) as I. repeat split; apply Forall_forall; intros x Hx; apply I; unfold all_names; apply in_or_app; [now left|right; apply in_or_app; now left|right; apply in_or_app; now right].
Qed.
Lemma with_defs_with_defs : forall st a b, with_defs (with_defs st a) b = with_defs st (a ++ b).
Proof. intros st a b. unfold with_defs. cbn [p_defs p_cond p_code]. now rewrite app_assoc. Qed.
Definition defs_only (ds : list define) (ts : list token) : pre := {| p_defs := ds; p_cond := None; p_code := ts |}.
Lemma comp_preamble : forall R k nm bs text r, well_named R nm bs -> print_compilable_preamble k nm bs = Some text ->
  rl pre0 (text ++ r) = rl (defs_only (comp_defs k nm bs) ([TId "int"; TId "main"; TOp OLpar; TOp ORpar; TOp OLbrace] ++
    decl_tokens (plain_items (new_scat nm)) ++ decl_tokens (plain_items (nm_iter nm)) ++ decl_tokens (par_items 1 (nm_par nm)) ++
    [TId "int"; TId "total"; TOp OAssign; TNum 0; TOp OSemi])) r.
Proof.
  intros R k nm bs text r W P. destruct (wn_idents _ _ _ W) as (IS & II & IP). pose proof (comp_dup_free k nm bs (wn_once _ _ _ W)) as D.
  unfold print_compilable_preamble in P. rewrite lines_stmts in P by exact (wn_depth _ _ _ W).
  apply cat_some in P. destruct P as (t1 & q1 & E1 & P & ->). apply some_inj in E1. subst t1.
  apply cat_some in P. destruct P as (t2 & q2 & E2 & P & ->). apply some_inj in E2. subst t2.
  apply cat_some in P. destruct P as (t3 & q3 & E3 & P & ->). apply some_inj in E3. subst t3.
  apply cat_some in P. destruct P as (t4 & q4 & E4 & P & ->). apply some_inj in P. subst q4.
  rewrite comp_lines, parvals_text.
  set (PV := String.concat "" (map define_text (map (fun j => (par_text k j, par_def k j)) (seq 1 (List.length (nm_par nm)))))).
  set (SL := String.concat "" (map define_text (map (fun p => (comp_text p, comp_def p)) (stmts nm bs)))).
  repeat rewrite app_assoc_s.
  change ("/* DON'T FORGET TO USE -lm OPTION TO COMPILE. */" ++ ?x) with ("/* " ++ "DON'T FORGET TO USE -lm OPTION TO COMPILE." ++ " */" ++ x). rewrite rl_comment by reflexivity. rewrite rl_blank.
  change ("/* Useful headers. */" ++ ?x) with ("/* " ++ "Useful headers." ++ " */" ++ x). rewrite rl_comment by reflexivity.
  assert (INC : forall h x, no_nl h -> rl pre0 ("#include " ++ h ++ newline ++ x) = rl pre0 x).
  { intros h x N. replace ("#include " ++ h ++ newline ++ x) with (("#include " ++ h) ++ newline ++ x) by now rewrite app_assoc_s. rewrite rl_line by (apply nl_app; [reflexivity|exact N]). reflexivity. }
  change ("#include <stdio.h>" ++ ?x) with ("#include " ++ "<stdio.h>" ++ x). rewrite INC by reflexivity.
  change ("#include <stdlib.h>" ++ ?x) with ("#include " ++ "<stdlib.h>" ++ x). rewrite INC by reflexivity.
  change ("#include <math.h>" ++ ?x) with ("#include " ++ "<math.h>" ++ x). rewrite INC by reflexivity. rewrite rl_blank.
  change ("/* Parameter value. */" ++ ?x) with ("/* " ++ "Parameter value." ++ " */" ++ x). rewrite rl_comment by reflexivity.
  unfold comp_defs in D. assert (D2 := D). rewrite app_assoc in D2. apply dup_free_prefix in D2. assert (D1 := dup_free_prefix _ _ D2).
  unfold PV. rewrite rl_defines; [|apply Forall_forall; intros p Hp; apply in_map_iff in Hp; destruct Hp as (j & <- & _); apply par_read|reflexivity|reflexivity|rewrite map_map; exact D1].
  rewrite map_map. cbn [snd]. rewrite rl_macros; [|reflexivity|reflexivity|exact D2|].
  2:{ cbn [with_defs p_defs pre0 List.app]. unfold defined. apply not_true_is_false. intro E. apply existsb_exists in E. destruct E as (d & Hd & E). apply in_map_iff in Hd. destruct Hd as (j & <- & _). discriminate E. }
  change ("/* Statement macros (please set). */" ++ ?x) with ("/* " ++ "Statement macros (please set)." ++ " */" ++ x). rewrite rl_comment by reflexivity.
  unfold SL. rewrite rl_defines; [|apply Forall_forall; intros p Hp; apply in_map_iff in Hp; destruct Hp as ([its n] & <- & Hj); apply comp_read; eapply stmts_idents; eassumption|reflexivity|reflexivity|].
  2:{ rewrite map_map. cbn [with_defs p_defs pre0 List.app]. rewrite <- app_assoc. exact D. }
  rewrite map_map, !with_defs_with_defs. cbn [snd]. change (fun x => comp_def x) with comp_def. change (fun x => par_def k x) with (par_def k). rewrite <- ?app_assoc.
  change (with_defs pre0 ?d) with (defs_only d []). fold (comp_defs k nm bs).
  rewrite rl_blank. rewrite (rl_code_line _ "int main() {") by (reflexivity || (apply noerr_in; reflexivity)).
  rewrite (rl_iterators _ nm t4) by (reflexivity || assumption).
  match goal with |- rl _ (?m ++ _) = _ => replace m with (par_decl_text (nm_par nm)) by (destruct (nm_par nm); reflexivity) end. rewrite rl_params by (reflexivity || assumption).
  rewrite (rl_code_line _ "  int total=0;") by (reflexivity || (apply noerr_in; reflexivity)). rewrite rl_blank. rewrite !with_code_app.
  change (tokens "int main() {") with [TId "int"; TId "main"; TOp OLpar; TOp ORpar; TOp OLbrace]. change (tokens "  int total=0;") with [TId "int"; TId "total"; TOp OAssign; TNum 0; TOp OSemi].
  unfold with_code, defs_only. cbn [p_defs p_cond p_code]. rewrite <- !app_assoc. reflexivity.
Qed.
Definition comp_end : list token := [TId "printf"; TOp OLpar; TStr points_text; TOp OComma; TId "total"; TOp ORpar; TOp OSemi; TId "return"; TNum 0; TOp OSemi; TOp ORbrace].
Lemma comp_post : tokens print_compilable_postamble = comp_end.
Proof. vm_compute. reflexivity. Qed.
(** the labels of the statements *)
Definition numbered (o : popts) (stmt_name : nat -> option string) : Prop := p_callable o = true \/ forall n, stmt_name n = None.
Lemma label_number : forall o stmt_name n, numbered o stmt_name -> stmt_label o stmt_name n = s_name n.
Proof. intros o stmt_name n [H|H]; unfold stmt_label; [now rewrite H|]. rewrite H. now destruct (p_callable o). Qed.
Definition block_calls (nm : names) (bs : blocks) : list (nat * nat) := map (fun p => (snd p, List.length (fst p))) (stmts nm bs).
Lemma calls_in : forall nm bs ss, (forall d ns, In (d, ns) bs -> (d <= List.length (nm_iter nm))%nat) -> calls_blocks bs ss -> incl (flat_map stmt_calls ss) (block_calls nm bs).
Proof.
  intros nm bs ss W C [n d] H. destruct (C n d H) as (ns & Hb & Hn). apply in_map_iff. exists (firstn d (nm_iter nm), n). cbn [fst snd]. rewrite firstn_length, Nat.min_l by exact (W _ _ Hb).
  split; [reflexivity|]. apply in_flat_map. exists (d, ns). split; [exact Hb|]. apply in_map_iff. now exists n.
Qed.
Definition call_arities (nm : names) (bs : blocks) : list (string * nat) := map (fun p => (s_name (snd p), List.length (fst p))) (stmts nm bs).
Lemma labels : forall o stmt_name nm bs, numbered o stmt_name -> map (fun c => (stmt_label o stmt_name (fst c), snd c)) (block_calls nm bs) = call_arities nm bs.
Proof. intros o stmt_name nm bs N. unfold block_calls, call_arities. rewrite map_map. apply map_ext. intros p. cbn [fst snd]. now rewrite (label_number o stmt_name _ N). Qed.
Lemma good_of_printable : forall vs o stmt_name cs ss, p_lang o = LangC -> incl (flat_map stmt_vars ss) vs -> incl (flat_map stmt_calls ss) cs -> forallb (printable_stmt o stmt_name) ss = true -> Forall (good_stmt vs o stmt_name cs) ss.
Proof.
  intros vs o stmt_name cs ss LC IV IC PR. rewrite forallb_forall in PR. apply Forall_forall. intros s Hs. apply pprint_stmt_good; [exact LC| | |now apply PR].
  - intros x Hx. apply IV, in_flat_map. now exists s.
  - intros x Hx. apply IC, in_flat_map. now exists s.
Qed.
Lemma s_not : forall n x, In x ["printf"; "if"; "for"; "hash"; "int"; "total"] -> s_name n <> x.
Proof. intros n x H E. unfold s_name in E. cbn [append] in E. cbn in H. subst x. intuition discriminate. Qed.
Lemma plain_ok : forall l, idents l -> Forall item_ok (plain_items l).
Proof. intros l I. unfold plain_items. apply Forall_map. eapply Forall_impl; [|exact I]. intros x Hx. split; [now apply not_keyword|exact Logic.I]. Qed.
Theorem read_compilable : forall o stmt_name nm bs ss, fo_lang o = LangC -> fo_compilable o <> 0 -> header_ok o ->
  well_named compilable_reserved nm bs -> uses_names nm ss -> calls_blocks bs ss ->
  let po := {| p_lang := LangC; p_callable := fo_callable o |} in
  numbered po stmt_name -> (fo_callable o = false \/ ss <> []) -> forallb (printable_stmt po stmt_name) ss = true ->
  exists text p, program_pprint o stmt_name nm bs ss = Some text /\ reads_file text (comp_file (fo_compilable o) nm bs p) /\
    forallb (known_stmt (all_names nm) (arities program_macros) (call_arities nm bs)) p = true /\ same po stmt_name ss p.
Proof.
  intros o stmt_name nm bs ss LC K H W U C po NB NE PR. destruct (wn_idents _ _ _ W) as (IS & II & IP).
  pose proof (good_of_printable (all_names nm) po stmt_name (block_calls nm bs) ss eq_refl U (calls_in nm bs ss (wn_depth _ _ _ W) C) PR) as G.
  destruct (program_defined po stmt_name eq_refl 2 ss PR) as (bt & EB).
  assert (EB2 : pprint_stmts po stmt_name 2 ss = Some bt).
  { unfold clast_pprint in EB. apply cat_some in EB. destruct EB as (a & b & E1 & E2 & ->). injection E1 as <-. rewrite E2. f_equal. destruct ss; [|reflexivity]. destruct NE as [NE|NE]; [|congruence]. cbn [p_callable po]. now rewrite NE. }
  destruct (stmts_read (all_names nm) po stmt_name (block_calls nm bs) []) with (ss := ss) (indent := 2%nat) (text := bt) as (ts & p & L & N & KN & SM & PB); [|exact G|exact EB2|].
  { intros x [<-|[]]. rewrite (labels po stmt_name nm bs NB). split; [|split; [|split; discriminate]].
    - intro I. apply (wn_free _ _ _ W) in I. apply I. unfold compilable_reserved. tauto.
    - intro I. apply in_map_iff in I. destruct I as (q & E & I). apply in_map_iff in I. destruct I as (r & <- & _). exact (s_not (snd r) "printf" ltac:(cbn; tauto) E). }
  rewrite (labels po stmt_name nm bs NB) in KN.
  assert (PA : exists pt, print_compilable_preamble (fo_compilable o) nm bs = Some pt).
  { unfold print_compilable_preamble. rewrite lines_stmts by exact (wn_depth _ _ _ W). destruct (iterators_defined nm) as (it & ->). eexists. reflexivity. }
  destruct PA as (pt & PT). eexists. exists p. split; [|split; [|split; [exact KN|exact SM]]].
  { unfold program_pprint. rewrite LC. destruct (Z.eqb_spec (fo_compilable o) 0) as [E|_]; [contradiction|]. cbn [negb andb]. rewrite PT. fold po. rewrite EB. cbn [cat say]. fold (header o). reflexivity. }
  destruct (PB comp_end [FPrintf points_text [CVar "total"]; FReturn 0]) as [NB1 EB1]; [exists 12%nat; vm_compute; reflexivity|].
  destruct (macros_app (map (par_def (fo_compilable o)) (seq 1 (List.length (nm_par nm)))) (base_defs ++ map comp_def (stmts nm bs)) _ _
     (macros_map _ (par_def (fo_compilable o)) (par_macro (fo_compilable o)) _ (fun i _ => conj eq_refl (conj eq_refl (par_parse (fo_compilable o) i))))
     (macros_app _ _ _ _ base_parse (macros_map _ comp_def comp_macro (stmts nm bs) (fun q Hq => conj eq_refl (conj eq_refl (comp_parse q (match q as q return In q (stmts nm bs) -> idents (fst q) with (its, n) => stmts_idents nm bs its n II end Hq))))))) as [NM EM].
  destruct (decls_end (ts ++ comp_end)%list (fbody_no_int _ [] _ _ (fun x => x) EB1)) as [ND0 ED0].
  destruct (decls_step _ _ _ _ (plain_ok _ (idents_sub _ (new_scat nm) IS ltac:(intros x Hx; apply filter_In in Hx; tauto)))
             (decls_step _ _ _ _ (plain_ok _ II) (decls_step _ _ _ _ (par_items_ok (nm_par nm) 1 IP) (decls_total _ _ _ (ex_intro _ ND0 ED0))))) as [ND ED].
  exists (NB1 + NM + ND)%nat. eexists. eexists. split.
  - unfold preprocess. fold (rl pre0 (print_comment LangC (header o) ++ pt ++ bt ++ print_compilable_postamble)). rewrite rl_header by exact H.
    rewrite (comp_preamble _ _ _ _ _ (bt ++ print_compilable_postamble) W PT).
    assert (TB : tokens (bt ++ print_compilable_postamble) = (ts ++ comp_end)%list) by (unfold tokens; rewrite L; f_equal; exact comp_post).
    rewrite rl_code; [rewrite TB; reflexivity|reflexivity|]. rewrite TB. apply noerr_in. rewrite noerr_app, N. reflexivity.
  - cbn [with_code defs_only p_defs p_code]. unfold parse_file, comp_defs. rewrite (macros_mono NM (NB1 + NM + ND) _ _ ltac:(lia) EM).
    rewrite <- !app_assoc. cbn [List.app]. cbn [parse_externs]. change ((String.eqb "int" "int" || String.eqb "int" "void") && negb (is_keyword "main"))%bool with true. cbn iota. cbn [parse_fparams]. cbn iota.
    rewrite (decls_mono ND (NB1 + NM + ND) _ _ ltac:(lia) ED).
    assert (SO : statement_objects (map (par_macro (fo_compilable o)) (seq 1 (List.length (nm_par nm))) ++ base_macros ++ map comp_macro (stmts nm bs)) = []).
    { unfold statement_objects. rewrite !flat_map_app. assert (A : flat_map (fun m => match m_params m, m_body m with None, MStmts _ => [m_name m] | _, _ => [] end) base_macros = []) by (vm_compute; reflexivity).
      rewrite A. replace (flat_map _ (map (par_macro _) _)) with (@nil string); [|generalize (seq 1 (List.length (nm_par nm))); intro l; induction l; [reflexivity|exact IHl]].
      cbn [List.app]. generalize (stmts nm bs). intro l. induction l; [reflexivity|exact IHl]. }
    rewrite SO. rewrite (fbody_mono NB1 (NB1 + NM + ND) _ _ _ ltac:(lia) EB1). unfold comp_file, comp_vars. f_equal. f_equal. rewrite !map_app, <- !app_assoc. reflexivity.
Qed.
