(** Property C46: the files printed with -compilable and -callable.

    Specification: FileReader.v (a reader of C files: lines, directives, macros, declarations; which
    files are correct; what calling their function prints and calls), FileSpec.v (names, what the
    files should print), CReader.v, ClastSpec.v (what the generated statements do). *)
From Coq Require Import ZArith List Bool Arith String Ascii Lia.
From Verif Require Import ClastSpec ClastModel PprintModel CReader PprintSpec FileModel FileReader FileSpec FileParse FileEnd.
Import ListNotations.
Local Open Scope string_scope.
Local Open Scope Z_scope.

(** ** C46 *)
(** With -compilable K the file can be read in exactly one way, is a correct C file, and running
    main prints a line for every instance that the statements run when all parameters are K (in
    their order, with the values of the iterators), and at last their number.  Statements have to
    be called by their numbers: without -callable, they have no names. *)
Theorem C46_compilable_file :
  forall (o : fopts) (stmt_name : nat -> option string) (nm : names) (bs : blocks) (ss : list stmt),
  fo_lang o = LangC -> fo_compilable o <> 0 -> header_ok o ->
  well_named compilable_reserved nm bs -> uses_names nm ss -> calls_blocks bs ss ->
  (fo_callable o = true \/ forall n, stmt_name n = None) -> (fo_callable o = false \/ ss <> []) ->
  forallb (printable_stmt {| p_lang := LangC; p_callable := fo_callable o |} stmt_name) ss = true ->
  exists text f, program_pprint o stmt_name nm bs ss = Some text /\ (forall g, reads_file text g <-> g = f) /\
    correct f /\ f_name f = "main" /\ f_args f = [] /\ f_externs f = [] /\
    forall rho t, exec ss (with_params (nm_par nm) (repeat (fo_compilable o) (List.length (nm_par nm)))) = Some (rho, t) ->
    forall outs, runs f [] outs <-> outs = counted t.
Proof. exact compilable_file. Qed.
Print Assumptions C46_compilable_file.

(** With -callable the file is a correct C file of a function test of the parameters; it calls
    hash with the number and the coordinates of every instance, and once with 0 when the program
    is empty. *)
Theorem C46_callable_file :
  forall (o : fopts) (stmt_name : nat -> option string) (nm : names) (bs : blocks) (ss : list stmt),
  fo_lang o = LangC -> fo_compilable o = 0 -> fo_callable o = true -> header_ok o ->
  well_named callable_reserved nm bs -> ~ In 0%nat (flat_map snd bs) -> uses_names nm ss -> calls_blocks bs ss ->
  forallb (printable_stmt {| p_lang := LangC; p_callable := true |} stmt_name) ss = true ->
  exists text f, program_pprint o stmt_name nm bs ss = Some text /\ (forall g, reads_file text g <-> g = f) /\
    correct f /\ f_name f = "test" /\ f_args f = nm_par nm /\ f_externs f = ["hash"] /\
    forall zs, List.length zs = List.length (nm_par nm) ->
      (ss = [] -> forall outs, runs f zs outs <-> outs = [Called "hash" [0]]) /\
      (ss <> [] -> forall rho t, exec ss (with_params (nm_par nm) zs) = Some (rho, t) -> forall outs, runs f zs outs <-> outs = hashed t).
Proof. exact callable_file. Qed.
Print Assumptions C46_callable_file.

(** a loop with two statements, and a statement without dimensions *)
Definition names46 : names := {| nm_scat := ["c1"; "i"]; nm_iter := ["i"; "j"]; nm_par := ["N"; "M"] |}.
Definition blocks46 : blocks := [(1%nat, [1%nat]); (0%nat, [2%nat]); (2%nat, [3%nat])].
Definition stmts46 : list stmt :=
  let i := ETerm 1 (Some (EName "i")) in
  [SFor "i" (Some (ETerm 0 None)) (Some (EName "N")) 1 [SUser 1 [Some i]; SUser 3 [Some i; Some (ERed RSum [i; ETerm (-2) None])]]; SUser 2 []].
Definition options46 (k : Z) (callable : bool) : fopts :=
  {| fo_compilable := k; fo_callable := callable; fo_lang := LangC; fo_name := "x.cloog"; fo_version := "CLooG 0.18"; fo_time := Some "0.00" |}.
Lemma named46 : forall R, (forall x, In x ["c1"; "i"; "j"; "N"; "M"] -> ~ R x) -> well_named R names46 blocks46.
Proof.
  intros R H. constructor.
  - intros x Hx. cbn in Hx. intuition (subst; reflexivity).
  - repeat constructor; cbn; intuition discriminate.
  - repeat constructor; cbn; intuition discriminate.
  - repeat constructor; cbn; intuition discriminate.
  - intros x Hx. cbn in Hx. cbn. intuition (subst; discriminate).
  - intros x Hx. apply H. cbn in *. tauto.
  - intros d ns [E|[E|[E|[]]]]; injection E as <- <-; cbn; repeat constructor.
  - repeat constructor; cbn; intuition discriminate.
Qed.
Example C46_compilable_example : exists text f, program_pprint (options46 1 false) (fun _ => None) names46 blocks46 stmts46 = Some text /\ reads_file text f /\ correct f /\
  forall outs, runs f [] outs <-> outs = map Printed ["S1 0" ++ newline; "S3 0 -2" ++ newline; "S1 1" ++ newline; "S3 1 -1" ++ newline; "Number of integral points: 5." ++ newline].
Proof.
  destruct (C46_compilable_file (options46 1 false) (fun _ => None) names46 blocks46 stmts46) as (text & f & T & R & C & _ & _ & _ & X).
  - reflexivity.
  - discriminate.
  - repeat split.
  - apply named46. intros x Hx [->|[->|[i ->]]]; cbn in Hx; intuition discriminate.
  - intros x Hx. cbn in *. intuition (subst; auto 10).
  - intros n d H. cbn in H. destruct H as [E|[E|[E|[]]]]; injection E as <- <-; eexists; (split; [cbn; now auto|now left]).
  - now right.
  - now left.
  - vm_compute. reflexivity.
  - exists text, f. split; [exact T|]. split; [now apply R|]. split; [exact C|]. intro outs.
    assert (E : exists rho, exec stmts46 (with_params (nm_par names46) [1; 1]) = Some (rho, [(1%nat, [0]); (3%nat, [0; -2]); (1%nat, [1]); (3%nat, [1; -1]); (2%nat, [])])) by (eexists; vm_compute; reflexivity).
    destruct E as (rho & E). rewrite (X rho _ E outs).
    match goal with |- _ = ?a <-> _ = ?b => assert (EE : a = b) by (vm_compute; reflexivity) end. now rewrite EE.
Qed.
Example C46_callable_example : exists text f, program_pprint (options46 0 true) (fun _ => None) names46 blocks46 stmts46 = Some text /\ reads_file text f /\ correct f /\
  forall outs, runs f [0; 7] outs <-> outs = map (fun z => Called "hash" [z]) [1; 0; 3; 0; -2; 2].
Proof.
  destruct (C46_callable_file (options46 0 true) (fun _ => None) names46 blocks46 stmts46) as (text & f & T & R & C & _ & _ & _ & X).
  - reflexivity.
  - reflexivity.
  - reflexivity.
  - repeat split.
  - apply named46. intros x Hx [->|[-> | ->]]; cbn in Hx; intuition discriminate.
  - cbn. intuition discriminate.
  - intros x Hx. cbn in *. intuition (subst; auto 10).
  - intros n d H. cbn in H. destruct H as [E|[E|[E|[]]]]; injection E as <- <-; eexists; (split; [cbn; now auto|now left]).
  - vm_compute. reflexivity.
  - exists text, f. split; [exact T|]. split; [now apply R|]. split; [exact C|]. intro outs.
    assert (E : exists rho, exec stmts46 (with_params (nm_par names46) [0; 7]) = Some (rho, [(1%nat, [0]); (3%nat, [0; -2]); (2%nat, [])])) by (eexists; vm_compute; reflexivity).
    destruct E as (rho & E). rewrite (proj2 (X [0; 7] eq_refl) ltac:(discriminate) rho _ E outs).
    match goal with |- _ = ?a <-> _ = ?b => assert (EE : a = b) by (vm_compute; reflexivity) end. now rewrite EE.
Qed.

(** Statements with names are called by their names, but the macros are named after their
    numbers: the file is read, and is not correct. *)
Theorem C46_named_statements_refuted : exists text,
  program_pprint (options46 1 false) (fun n => if (n =? 1)%nat then Some "work" else None) names46 [(1%nat, [1%nat])] [SUser 1 [Some (EName "N")]] = Some text /\
  (exists f, reads_file text f) /\ forall f, reads_file text f -> ~ correct f.
Proof.
  eexists. split; [vm_compute; reflexivity|]. match goal with |- (exists f, reads_file ?t f) /\ _ => set (text := t) end.
  assert (R : exists f, reads_file text f /\ ~ correct f).
  { eexists. split; [exists 60%nat; eexists; eexists; split; [vm_compute; reflexivity|vm_compute; reflexivity]|].
    intro C. pose proof (ok_body _ C) as B. clear C. cbn [f_body] in B. inversion B as [|s l B1 B2]; subst. clear B B2. vm_compute in B1. discriminate B1. }
  destruct R as (f & R & N). split; [now exists f|]. intros g G. now rewrite <- (reads_file_unique _ _ _ R G).
Qed.
Print Assumptions C46_named_statements_refuted.

(** An input file whose name ends a comment makes a file that is no C. *)
Theorem C46_file_name_refuted : exists text,
  program_pprint {| fo_compilable := 1; fo_callable := false; fo_lang := LangC; fo_name := "a*/b.cloog"; fo_version := "CLooG 0.18"; fo_time := None |} (fun _ => None) names46 blocks46 stmts46 = Some text /\
  forall f, ~ reads_file text f.
Proof. eexists. split; [vm_compute; reflexivity|]. intros f (fuel & ds & ts & P & _). vm_compute in P. discriminate P. Qed.
Print Assumptions C46_file_name_refuted.

(** With -compilable and -callable together, an empty program uses a macro S0 that only files
    with -callable alone define. *)
Lemma undefined_s0 : forall text ds ts ms ts1 ts2 vars r, preprocess text = Some (ds, ts) -> parse_macros 60 ds = Some ms -> statement_objects ms = [] ->
  parse_externs ts = ([], TId "int" :: TId "main" :: TOp OLpar :: ts1) -> parse_fparams ts1 = Some ([], TOp OLbrace :: ts2) -> parse_decls 60 ts2 = Some (vars, TId "S0" :: TId "printf" :: r) ->
  forall f, ~ reads_file text f.
Proof.
  intros text ds ts ms ts1 ts2 vars r P M O E FP D f (fuel & ds' & ts' & P' & Q). rewrite P in P'. injection P' as <- <-. apply (file_mono fuel (S (S (fuel + 60))) _ _ _ ltac:(lia)) in Q.
  unfold parse_file in Q. rewrite (macros_mono 60 (S (S (fuel + 60))) _ _ ltac:(lia) M), E, FP in Q. cbn [String.eqb Ascii.eqb Bool.eqb orb andb negb is_keyword] in Q.
  change (negb (is_keyword "main")) with true in Q. cbn iota in Q. rewrite (decls_mono 60 (S (S (fuel + 60))) _ _ ltac:(lia) D), O in Q. cbn [parse_fbody String.eqb Ascii.eqb Bool.eqb existsb parse_stmt] in Q. discriminate Q.
Qed.
Theorem C46_empty_program_refuted : exists text,
  program_pprint (options46 1 true) (fun _ => None) names46 blocks46 [] = Some text /\ forall f, ~ reads_file text f.
Proof.
  eexists. split; [vm_compute; reflexivity|]. eapply undefined_s0; [vm_compute; reflexivity|vm_compute; reflexivity|vm_compute; reflexivity|vm_compute; reflexivity|vm_compute; reflexivity|vm_compute; reflexivity].
Qed.
Print Assumptions C46_empty_program_refuted.
