(** Properties C02 and C50 for input files without scattering functions: the lexicographic order.

    Specification: ToolSpec.v, LoopSpec.v; FileReader.v and FileSpec.v (how C files are read and run). *)
From Coq Require Import ZArith List Bool Arith String Ascii Permutation Lia.
From Verif Require Import LoopModel LoopSpec LoopCount LoopBox LoopExamples ProgramModel ProgramSpec ProgramMain ProgramBox ClastModel ClastSpec LoopOtl ClastMain ClastExamples ClastReady ClastEnd
  PprintModel CReader PprintSpec PprintEnd PropertiesLoop PropertiesProgram PropertiesClast PropertiesPprint FileModel FileReader FileSpec EndSpec LoopFrom EndProofs PropertiesFile
  OptionsModel ToolModel ToolSpec ToolProofs ToolPlain PropertiesTool.
From Verif Require NamesModel NamesSpec InputModel.
Import ListNotations.
Local Open Scope string_scope.
Local Open Scope Z_scope.

(** With -f 1 (the default), and -l negative (the default) or large enough, nothing is changed by
    cloog_program_generate, and the first [m] iterators are scanned in order. *)
Definition scans_in_order (o : options) (m : nat) : Prop :=
  o_f o = 1 /\ (o_l o < 0 \/ Z.of_nat m <= o_l o) /\ o_ls o = None.
Lemma scans_safe o m : scans_in_order o m -> depth_safe (sanitize 0 o) m.
Proof.
  intros (H1 & H2 & H3). unfold sanitize. destruct (o_override o).
  - split; [congruence|]. split; [exact H2|]. rewrite H3. exact Logic.I.
  - cbv zeta. rewrite H1. unfold depth_safe, with_l. cbn [o_f o_l o_ls]. rewrite H1, H3. split; [discriminate|]. split; [|exact Logic.I].
    cbn [Z.of_nat]. destruct (Z.ltb_spec (o_l o) 0), (Z.leb_spec 0 (o_l o)); cbn [andb orb Z.ltb Z.compare Pos.compare Pos.compare_cont]; try lia.
Qed.
Theorem C02_lexicographic_without_scattering :
  forall (P : Poly) (Se : Sem P) (C : Scat P), Laws P Se -> OrderLaws P Se ->
  forall (ao : alloc_options) (o : options) (fuel : nat) (ctx : dom P) (ds : list (dom P)) (m : nat) scaldims res,
  plain_options P Se o -> o_strides o = false -> dim P ctx = 0%nat -> mem Se ctx [] = true ->
  scans_in_order o m -> Forall (fun d => (m <= dim P d)%nat) ds ->
  alloc_and_generate P C ao o fuel ctx (unscattered ds) = Some (scaldims, res) ->
  forall p k i p' k' i', Runs Se res 0 p k i -> Runs Se res 0 p' k' i' ->
  lex_lt (firstn m i) (firstn m i') \/ Forall (fun d => dim P d = m) ds /\ firstn m i = firstn m i' /\ (k < k')%nat ->
  lex_lt p p'.
Proof.
  intros P Se C L OL ao o fuel ctx ds m scaldims res Ho Hs Hd Hc Hsc HD H p k i p' k' i' HR HR' HB.
  unfold alloc_and_generate in H. rewrite plain_alloc in H. destruct (cloog_program_generate P [] o fuel ctx (map (to_loop P) (from_domains P 0 ds))) as [r|] eqn:Eg; [|discriminate].
  apply ClastNames.some_eq in H. apply pair_equal_spec in H. destruct H as [_ ->].
  destruct HR as (q & b & y & j & HE & Hj & -> & ->). destruct HR' as (q' & b' & y' & j' & HE' & Hj' & -> & ->). cbn [skipn] in *.
  destruct (plain_exec P Se L o fuel ctx ds res Ho Hs Hd Hc Eg _ _ _ HE) as (k1 & d1 & _ & _ & ->). destruct (plain_exec P Se L o fuel ctx ds res Ho Hs Hd Hc Eg _ _ _ HE') as (k2 & d2 & _ & _ & ->).
  cbn in Hj, Hj'. destruct j as [|[|j]]; try discriminate. destruct j' as [|[|j']]; try discriminate. cbn in Hj, Hj'. injection Hj as ->. injection Hj' as ->. apply lex_snoc.
  destruct HB as [HB|(HB1 & HB2 & HB3)].
  - eapply (plain_order P Se L o fuel ctx ds res Ho Hs Hd Hc Eg m false OL (scans_safe o m Hsc)); [|exact HE|exact HE'|left; exact HB]. eapply Forall_impl; [|exact HD]. intros d Hm. split; [exact Hm|discriminate].
  - eapply (plain_order P Se L o fuel ctx ds res Ho Hs Hd Hc Eg m true OL (scans_safe o m Hsc)); [|exact HE|exact HE'|right; split; [reflexivity|split; [exact HB2|cbn; lia]]]. eapply Forall_impl; [|exact HB1]. intros d Hm. cbv beta in Hm. split; [lia|intros _; exact Hm].
Qed.
Print Assumptions C02_lexicographic_without_scattering.

(** The same for the options of the command line. *)
Definition scans_iterators (o : opts) (m : nat) : Prop := o F_f = 1 /\ (o F_l < 0 \/ Z.of_nat m <= o F_l).
Lemma scans_command o m : scans_iterators o m -> scans_in_order (generator_options o) m.
Proof. intros [H1 H2]. split; [exact H1|]. split; [exact H2|reflexivity]. Qed.

Section Command.
Variables (P : Poly) (Se : Sem P) (C : Scat P) (rel : ScatSem C) (rows_of : dom P -> list row).
Variables (sort_exprs : list expr -> list expr) (sort_eqns : list eqn -> list eqn) (reduce : list (option (eqtype * row)) -> list row -> nat -> list row).
Variables (read_ctx : string -> option (dom P * string)) (read_dom : nat -> string -> option (dom P * string)) (read_scat : dom P -> string -> option (smap C * string)) (par_dim : dom P -> nat).
Variables (version : string) (time : option string).
Notation input_read := (InputModel.input_read (dom P) (smap C) read_ctx read_dom read_scat par_dim (dim P) (s_dim C)).
Notation in_ctx := (InputModel.in_ctx (dom P) (smap C)).
Notation in_ud := (InputModel.in_ud (dom P) (smap C)).
Notation main := (cloog_main P C rows_of sort_exprs sort_eqns reduce read_ctx read_dom read_scat par_dim version time).
(** The input file holds statements on these domains and no scattering; for the values of the parameters the
    context is satisfied; the names fit. *)
Definition good_plain_file (reserved : string -> Prop) (pv : list Z) (file : string) (ctx : dom P) (ds : list (dom P)) : Prop :=
  exists inp rest, input_read file = Some (InputModel.LangC, inp, rest) /\ in_ctx inp = ctx /\ par_dim ctx = List.length pv /\
    map NamesModel.d_dom (NamesModel.u_domains (in_ud inp)) = unscattered ds /\ dim P ctx = 0%nat /\ mem Se ctx [] = true /\
    (forall n, NamesModel.program_names (in_ud inp) 0 = Some n -> names_fit reserved n).

Lemma command_plain : forall (pv : list Z) reserved fuel readable writable contents args o name src snk ctx ds snk' text,
  library_right P Se C rel sort_exprs sort_eqns reduce pv -> options_read readable writable args = Ready o name src snk -> usual_options P Se o ->
  good_plain_file reserved pv (contents src) ctx ds ->
  (forall res, alloc_and_generate P C (alloc_options_of o) (generator_options o) fuel ctx (unscattered ds) = Some ([], res) -> writable_loops P Se rows_of pv (clast_options o) res) ->
  main fuel readable writable contents args = Some (snk', text) ->
  snk' = snk /\ exists stmt_name nm bs ss rho T, (forall n, stmt_name n = None) /\
    program_pprint {| fo_compilable := o F_compilable; fo_callable := truth (o F_callable); fo_lang := LangC; fo_name := name; fo_version := version; fo_time := time |} stmt_name nm bs ss = Some text /\
    List.length (nm_par nm) = List.length pv /\ well_named reserved nm bs /\ ~ In 0%nat (flat_map snd bs) /\ uses_names nm ss /\ calls_blocks bs ss /\
    forallb (printable_stmt {| p_lang := LangC; p_callable := truth (o F_callable) |} stmt_name) ss = true /\
    exec ss (with_params (nm_par nm) pv) = Some (rho, numbered T) /\ each_point_once Se ds T /\
    (forall m, scans_iterators o m -> Forall (fun d => (m <= dim P d)%nat) ds -> lexicographic m T) /\
    (forall m, scans_iterators o m -> Forall (fun d => dim P d = m) ds -> textual_ties T).
Proof.
  intros pv reserved fuel readable writable contents args o name src snk ctx ds snk' text (L & OL & OS & CL & S1 & S2 & R & RF) Ho UO (inp & rest & Hr & <- & Hpv & ES & Hd & Hc & HN) HW E.
  unfold cloog_main in E. rewrite Ho in E. destruct (truth (o F_leaks) || truth (o F_structure)); [discriminate|]. rewrite Hr in E.
  destruct (tool_print _ _ _ _ _ _ _ _ fuel o name (language_of InputModel.LangC) inp) as [t|] eqn:Et; [|discriminate]. apply ClastNames.some_eq in E. apply pair_equal_spec in E. destruct E as [-> ->]. split; [reflexivity|].
  unfold tool_print in Et. destruct (tool_alloc P C (alloc_options_of o) (in_ud inp)) as [[[nm sd] lls]|] eqn:Ea; [|discriminate].
  pose proof (read_history _ _ _ _ _ _ _ _ _ _ _ _ Hr) as HH.
  destruct (plain_named P C reserved _ _ _ ds nm sd lls HH ES HN Ea) as (-> & -> & Hns & Hnp & ND & WN & N0 & SN).
  destruct (cloog_program_generate P [] (generator_options o) fuel (in_ctx inp) (map (to_loop P) (from_domains P 0 ds))) as [res|] eqn:Eg; [|discriminate].
  destruct (clast_create _ _ _ _ _ _ _ _ _ _ res) as [ss|] eqn:CC; [|discriminate].
  destruct (HW _ (plain_generated P C (alloc_options_of o) _ _ _ _ _ Eg)) as (Hready & Hpairs). destruct (usual_plain P Se o UO) as (U1 & U2 & U3 & U4 & U5).
  pose proof (plain_loops P ds) as SL.
  pose proof (generated_from P Se L [] _ fuel (in_ctx inp) _ res (proj1 U1) (or_introl U2) Hd SL Eg) as FI.
  assert (Hotl : Forall (otl_right P Se []) res).
  { apply (generated_otl P Se L [] (generator_options o) fuel (in_ctx inp) (map (to_loop P) (from_domains P 0 ds)) res OS (proj1 U1) (or_introl U2) Hd Hc SL); [|exact Eg]. apply Forall_map. rewrite Forall_forall. intros pl _. reflexivity. }
  assert (LP : List.length pv = List.length (nm_par nm)) by congruence. rewrite <- LP in CC.
  pose proof (level_inj nm ND) as I3. pose proof (level_par nm ND) as I4. rewrite <- LP in I4.
  pose proof (level_ident nm (wn_ident _ _ _ WN)) as I1. pose proof (param_ident nm (wn_ident _ _ _ WN)) as I2.
  destruct (C16_clast_runs_loops _ _ sort_exprs sort_eqns reduce P Se rows_of pv (clast_options o) _ S1 S2 I3 I4 R res ss (with_params (nm_par nm) pv) CC Hready Hotl) as (Ls & rho & RU & EX).
  { intros i Hi. apply params_set; [apply (wn_par _ _ _ WN)|exact LP|exact Hi]. }
  destruct (plain_run P Se C L (alloc_options_of o) (generator_options o) fuel (in_ctx inp) ds res U1 U2 Hd Hc Eg Ls RU) as (T & ET & EO & OO1 & OO2).
  assert (Hn0 : List.length (nm_scat nm) = 0%nat) by (rewrite Hns; reflexivity). rewrite Hn0, ET in EX. set (lls := map (to_loop P) (from_domains P 0 ds)) in *. set (bs := blocks_of P 0 lls) in *. assert (HB : bs = blocks_of P (List.length (nm_scat nm)) lls) by (rewrite Hn0; reflexivity). rewrite HB in WN, N0.
  assert (NM : forall n, call_name_ok {| p_lang := LangC; p_callable := truth (o F_callable) |} (statement_name P C (in_ud inp)) n = true) by (intro n; apply label_ok; right; exact SN).
  pose proof (C20_generated_is_printable _ _ sort_exprs sort_eqns reduce P Se rows_of pv (clast_options o) _ _ _ S1 S2 I1 I2 I3 I4 NM res ss Hready Hpairs CC) as PR.
  destruct (made_facts sort_exprs sort_eqns reduce P Se rows_of pv (clast_options o) nm S1 S2 RF LP lls res ss _ WN) as [UN CB]; try assumption.
  { rewrite Forall_forall. intros l Hl. unfold statement_loops in SL. rewrite Forall_forall in SL. destruct (SL l Hl) as (d & ot & b & -> & Hdd). cbn [l_blk l_dom]. split; [discriminate|]. rewrite Hn0. lia. }
  exists (statement_name P C (in_ud inp)), nm, (blocks_of P (List.length (nm_scat nm)) lls), ss, rho, T. split; [exact SN|]. split; [exact Et|].
  split; [congruence|]. split; [exact WN|]. split; [exact N0|]. split; [exact UN|]. split; [exact CB|]. split; [exact PR|]. split; [exact EX|]. split; [exact EO|].
  split; intros m Hm HD; [exact (OO1 m OL (scans_safe _ _ (scans_command _ _ Hm)) HD)|exact (OO2 m OL (scans_safe _ _ (scans_command _ _ Hm)) HD)].
Qed.
End Command.

(** With -compilable K, for a file without scattering functions: main prints a line for every iteration of every
    statement, each once, in the lexicographic order of the iterators that all statements have, and (if all
    have the same number of iterators) in the order of the file at equal iterators. *)
Theorem C50_compilable_unscattered_partial :
  forall (P : Poly) (Se : Sem P) (C : Scat P) (rel : ScatSem C) (rows_of : dom P -> list row)
         (sort_exprs : list expr -> list expr) (sort_eqns : list eqn -> list eqn) (reduce : list (option (eqtype * row)) -> list row -> nat -> list row)
         read_ctx read_dom read_scat par_dim version time
         (fuel : nat) (readable writable : string -> bool) (contents : source -> string) (args : list string) o name src snk np ctx (ds : list (dom P)) snk' text,
  let pv := repeat (o F_compilable) np in
  library_right P Se C rel sort_exprs sort_eqns reduce pv ->
  options_read readable writable args = Ready o name src snk -> usual_options P Se o -> o F_compilable <> 0 -> o F_callable = 0 ->
  one_line name = true -> one_line version = true -> (forall t, time = Some t -> one_line t = true) ->
  good_plain_file P Se C read_ctx read_dom read_scat par_dim compilable_reserved pv (contents src) ctx ds ->
  (forall res, alloc_and_generate P C (alloc_options_of o) (generator_options o) fuel ctx (unscattered ds) = Some ([], res) -> writable_loops P Se rows_of pv (clast_options o) res) ->
  cloog_main P C rows_of sort_exprs sort_eqns reduce read_ctx read_dom read_scat par_dim version time fuel readable writable contents args = Some (snk', text) ->
  snk' = snk /\
  exists (f : cfile) (T : list (nat * list Z)),
    (forall g, reads_file text g <-> g = f) /\ correct f /\ f_name f = "main" /\
    (forall outs, runs f [] outs <-> outs = counted (numbered T)) /\ each_point_once Se ds T /\
    (forall m, scans_iterators o m -> Forall (fun d => (m <= dim P d)%nat) ds -> lexicographic m T) /\
    (forall m, scans_iterators o m -> Forall (fun d => dim P d = m) ds -> textual_ties T).
Proof.
  intros P Se C rel rows_of sort_exprs sort_eqns reduce read_ctx read_dom read_scat par_dim version time fuel readable writable contents args o name src snk np ctx ds snk' text pv LR Ho UO K CA H1 H2 H3 GF HW E.
  destruct (command_plain P Se C rel rows_of sort_exprs sort_eqns reduce read_ctx read_dom read_scat par_dim version time pv _ fuel readable writable contents args o name src snk ctx ds snk' text LR Ho UO GF HW E)
    as (-> & sn & nm & bs & ss & rho & T & SN & ET & LP & WN & N0 & UN & CB & PR & EX & EO & OO1 & OO2). split; [reflexivity|].
  rewrite (truth_false _ CA) in ET, PR.
  destruct (C46_compilable_file {| fo_compilable := o F_compilable; fo_callable := false; fo_lang := LangC; fo_name := name; fo_version := version; fo_time := time |} sn nm bs ss eq_refl K ltac:(split; [exact H1|split; [exact H2|cbn; destruct time; [now apply H3|exact Logic.I]]]) WN UN CB (or_intror SN) (or_introl eq_refl) PR) as (t & f & E' & RD & CO & FN & _ & _ & RUN).
  rewrite E' in ET. apply ClastNames.some_eq in ET. subst t. exists f, T. split; [exact RD|]. split; [exact CO|]. split; [exact FN|]. split; [|split; [exact EO|split; [exact OO1|exact OO2]]].
  unfold pv in LP, EX. rewrite repeat_length in LP. rewrite <- LP in EX. exact (RUN _ _ EX).
Qed.
Print Assumptions C50_compilable_unscattered_partial.

(** With -callable: the function test, called with the values of the parameters, hashes the same iterations. *)
Theorem C50_callable_unscattered_partial :
  forall (P : Poly) (Se : Sem P) (C : Scat P) (rel : ScatSem C) (rows_of : dom P -> list row)
         (sort_exprs : list expr -> list expr) (sort_eqns : list eqn -> list eqn) (reduce : list (option (eqtype * row)) -> list row -> nat -> list row)
         read_ctx read_dom read_scat par_dim version time
         (fuel : nat) (readable writable : string -> bool) (contents : source -> string) (args : list string) o name src snk pv ctx (ds : list (dom P)) snk' text,
  library_right P Se C rel sort_exprs sort_eqns reduce pv ->
  options_read readable writable args = Ready o name src snk -> usual_options P Se o -> o F_compilable = 0 -> o F_callable <> 0 ->
  one_line name = true -> one_line version = true -> (forall t, time = Some t -> one_line t = true) ->
  good_plain_file P Se C read_ctx read_dom read_scat par_dim callable_reserved pv (contents src) ctx ds ->
  (exists d i, In d ds /\ mem Se d i = true) ->
  (forall res, alloc_and_generate P C (alloc_options_of o) (generator_options o) fuel ctx (unscattered ds) = Some ([], res) -> writable_loops P Se rows_of pv (clast_options o) res) ->
  cloog_main P C rows_of sort_exprs sort_eqns reduce read_ctx read_dom read_scat par_dim version time fuel readable writable contents args = Some (snk', text) ->
  snk' = snk /\
  exists (f : cfile) (T : list (nat * list Z)),
    (forall g, reads_file text g <-> g = f) /\ correct f /\ f_name f = "test" /\ List.length (f_args f) = List.length pv /\
    (forall outs, runs f pv outs <-> outs = hashed (numbered T)) /\ each_point_once Se ds T /\
    (forall m, scans_iterators o m -> Forall (fun d => (m <= dim P d)%nat) ds -> lexicographic m T) /\
    (forall m, scans_iterators o m -> Forall (fun d => dim P d = m) ds -> textual_ties T).
Proof.
  intros P Se C rel rows_of sort_exprs sort_eqns reduce read_ctx read_dom read_scat par_dim version time fuel readable writable contents args o name src snk pv ctx ds snk' text LR Ho UO K CA H1 H2 H3 GF (d & i & Hin & Hi) HW E.
  destruct (command_plain P Se C rel rows_of sort_exprs sort_eqns reduce read_ctx read_dom read_scat par_dim version time pv _ fuel readable writable contents args o name src snk ctx ds snk' text LR Ho UO GF HW E)
    as (-> & sn & nm & bs & ss & rho & T & SN & ET & LP & WN & N0 & UN & CB & PR & EX & EO & OO1 & OO2). split; [reflexivity|].
  rewrite (truth_true _ CA) in ET, PR.
  assert (NE : ss <> []).
  { intros ->. apply In_nth_error in Hin. destruct Hin as [k Hk]. assert (In (k, i) T) as HT by (apply (proj2 EO); eauto). cbn in EX. injection EX as _ EX. destruct T; [destruct HT|discriminate EX]. }
  destruct (C46_callable_file {| fo_compilable := o F_compilable; fo_callable := true; fo_lang := LangC; fo_name := name; fo_version := version; fo_time := time |} sn nm bs ss eq_refl K eq_refl ltac:(split; [exact H1|split; [exact H2|cbn; destruct time; [now apply H3|exact Logic.I]]]) WN N0 UN CB PR) as (t & f & E' & RD & CO & FN & FA & _ & RUN).
  rewrite E' in ET. apply ClastNames.some_eq in ET. subst t. exists f, T. split; [exact RD|]. split; [exact CO|]. split; [exact FN|]. split; [rewrite FA; exact LP|]. split; [|split; [exact EO|split; [exact OO1|exact OO2]]].
  exact (proj2 (RUN pv (eq_sym LP)) NE _ _ EX).
Qed.
Print Assumptions C50_callable_unscattered_partial.

(** ** examples *)
(** Two statements with two iterators: S1 on {0,1}x{0,1} and S2 on {1,2}x{0,1}, no scattering. *)
Definition dX : dom BoxPoly := B 2 [[(0, 1); (0, 1)]].
Definition dY : dom BoxPoly := B 2 [[(1, 2); (0, 1)]].
Definition opts_none : options :=
  {| o_l := -1; o_f := -1; o_stop := -1; o_strides := false; o_sh := false; o_otl := true; o_backtrack := false;
     o_first_unroll := -1; o_fs := None; o_ls := None; o_nosimplify := false; o_override := false |}.
(** With -f -1 the iterators are not scanned in lexicographic order: cloog_program_generate sets -l to the number of
    scattering dimensions, 0, so the loops of the statements are not merged, and S1 runs at (1,1) before
    S2 at (1,0).  Hence the hypothesis on -f in the theorems above. *)
Theorem C02_unscattered_no_separation_refuted :
  Laws BoxPoly BoxSem /\ OrderLaws BoxPoly BoxSem /\ plain_options BoxPoly BoxSem opts_none /\
  exists sd res, alloc_and_generate BoxPoly BoxScat blocks_on opts_none 60 ctx0 (unscattered [dX; dY]) = Some (sd, res) /\
  exists p p', Runs BoxSem res 0 p 0 [1; 1] /\ Runs BoxSem res 0 p' 1 [1; 0] /\ lex_lt p p'.
Proof.
  split; [exact box_laws|]. split; [exact box_order_laws|]. split; [split; [reflexivity|split; [discriminate|discriminate]]|].
  run_alloc. exists [0; 0; 1; 0; 1; 0; 0], [0; 0; 1; 1; 0; 0; 0].
  split; [run_stmt [Z.of_nat 0; Z.of_nat 0; 1; Z.of_nat 0; 1; Z.of_nat 0] [1; 1] 0%nat|].
  split; [run_stmt [Z.of_nat 0; Z.of_nat 0; 1; Z.of_nat 1; 0; Z.of_nat 0] [1; 0] 0%nat|]. lex.
Qed.
Print Assumptions C02_unscattered_no_separation_refuted.

(** With the default options S2 at (1,0) comes first. *)
Example C02_unscattered_example :
  scans_in_order LoopExamples.opts 2 /\ Forall (fun d => dim BoxPoly d = 2%nat) [dX; dY] /\
  exists sd res, alloc_and_generate BoxPoly BoxScat blocks_on LoopExamples.opts 60 ctx0 (unscattered [dX; dY]) = Some (sd, res) /\
  exists p p', Runs BoxSem res 0 p 0 [1; 1] /\ Runs BoxSem res 0 p' 1 [1; 0] /\ lex_lt p' p.
Proof.
  split; [split; [reflexivity|split; [left; reflexivity|reflexivity]]|]. split; [constructor; [reflexivity|constructor; [reflexivity|constructor]]|].
  run_alloc. exists [0; 1; 1; 0; 1; 0; 0], [0; 1; 1; 0; 0; 1; 0].
  split; [run_stmt [Z.of_nat 0; Z.of_nat 1; 1; Z.of_nat 0; 1; Z.of_nat 0] [1; 1] 0%nat|].
  split; [run_stmt [Z.of_nat 0; Z.of_nat 1; 1; Z.of_nat 0; 0; Z.of_nat 1] [1; 0] 0%nat|]. lex.
Qed.

(** The command on a file with these two statements. *)
Definition file_plain : string := lines50 ["# language"; "c"; "# context"; "0"; "0"; "# statements"; "2"; "0"; "0 0 0"; "1"; "0 0 0"; "0"; "# scatterings"; "0"].
Definition main_plain (args : list string) : option (sink * string) :=
  cloog_main BoxPoly BoxScat (rows_box 0) (fun l => l) (fun l => l) keep_rows (from_table [ctx0]) (fun _ => from_table [dX; dY]) (fun _ => from_table []) (fun _ => 0%nat) "CLooG 0.18" None
    60 (fun _ => true) (fun _ => true) (fun _ => file_plain) args.
Lemma file_plain_good : forall reserved, (forall x, In x ["i"; "j"] -> ~ reserved x) ->
  good_plain_file BoxPoly BoxSem BoxScat (from_table [ctx0]) (fun _ => from_table [dX; dY]) (fun _ => from_table []) (fun _ => 0%nat) reserved [] file_plain ctx0 [dX; dY].
Proof.
  intros reserved Hr. eexists _, _. split; [vm_compute; reflexivity|]. split; [reflexivity|]. split; [reflexivity|]. split; [reflexivity|]. split; [reflexivity|]. split; [reflexivity|].
  intros n E. vm_compute in E. apply ClastNames.some_eq in E. subst n. split.
  - cbn. repeat constructor; cbn; intuition discriminate.
  - intros x Hx. cbn in Hx. split; [|apply Hr; cbn; tauto]. intuition (subst; reflexivity).
Qed.
Lemma loops_plain : forall callable, let co := {| co_otl := true; co_fsp := 1; co_esp := true; co_block := false; co_callable := callable |} in
  forall res, alloc_and_generate BoxPoly BoxScat blocks_on LoopExamples.opts 60 ctx0 (unscattered [dX; dY]) = Some ([], res) ->
  writable_loops BoxPoly BoxSem (rows_box 0) [] co res.
Proof.
  intros callable co res E.
  assert (Q : exists sd res, alloc_and_generate BoxPoly BoxScat blocks_on LoopExamples.opts 60 ctx0 (unscattered [dX; dY]) = Some (sd, res) /\ writable_loops BoxPoly BoxSem (rows_box 0) [] co res).
  { run_alloc. cbn [map unstrip]. unfold writable_loops. split.
    - constructor; [|constructor]. apply ready0b_ok with (wit := fun _ => ([], [], [])); [apply eachb_ok with (q := fun l => one_box (l_dom BoxPoly l)); [intros l0 Hl; apply exact_describe, (rows_box_exact [] _ Hl)|vm_compute; reflexivity]|].
      unfold co. destruct callable; vm_compute; reflexivity.
    - constructor; [|constructor]. apply no_pairs0b_ok; vm_compute; reflexivity. }
  destruct Q as (sd' & res' & E' & Q). rewrite E' in E. apply ClastNames.some_eq in E. apply pair_equal_spec in E. destruct E as [_ <-]. exact Q.
Qed.
Example C50_unscattered_example :
  (exists text f T, main_plain ["-compilable"; "3"; "x.cloog"; "-o"; "x.c"] = Some (Outfile "x.c", text) /\ reads_file text f /\ correct f /\
     (forall outs, runs f [] outs <-> outs = counted (numbered T)) /\ each_point_once BoxSem [dX; dY] T /\ lexicographic 2 T /\ textual_ties T) /\
  (exists text f T, main_plain ["-callable"; "1"; "x.cloog"] = Some (Stdout, text) /\ reads_file text f /\ correct f /\
     (forall outs, runs f [] outs <-> outs = hashed (numbered T)) /\ each_point_once BoxSem [dX; dY] T /\ lexicographic 2 T /\ textual_ties T).
Proof.
  destruct C02_unscattered_example as (_ & D2 & _). assert (D2' : Forall (fun d => (2 <= dim BoxPoly d)%nat) [dX; dY]) by (eapply Forall_impl; [|exact D2]; intros d Hd; cbv beta in Hd; lia). split.
  - assert (G0 : generator_options (set defaults F_compilable 3) = LoopExamples.opts) by reflexivity. assert (A0 : alloc_options_of (set defaults F_compilable 3) = blocks_on) by reflexivity.
    assert (C0 : clast_options (set defaults F_compilable 3) = {| co_otl := true; co_fsp := 1; co_esp := true; co_block := false; co_callable := false |}) by reflexivity.
    assert (M : exists text, main_plain ["-compilable"; "3"; "x.cloog"; "-o"; "x.c"] = Some (Outfile "x.c", text)) by (eexists; vm_compute; reflexivity).
    destruct M as [text M]. destruct (C50_compilable_unscattered_partial BoxPoly BoxSem BoxScat BoxRel (rows_box 0) (fun l => l) (fun l => l) keep_rows
      (from_table [ctx0]) (fun _ => from_table [dX; dY]) (fun _ => from_table []) (fun _ => 0%nat) "CLooG 0.18" None 60 (fun _ => true) (fun _ => true) (fun _ => file_plain)
      ["-compilable"; "3"; "x.cloog"; "-o"; "x.c"] (set (defaults) F_compilable 3) "x.cloog" (Infile "x.cloog") (Outfile "x.c") 0 ctx0 [dX; dY] (Outfile "x.c") text) as (_ & f & T & A & B & _ & D & F & G1 & G2);
      [exact library50|reflexivity| |discriminate|reflexivity|reflexivity|reflexivity|discriminate| | |exact M|].
    + split; [reflexivity|]. split; [reflexivity|]. split; [reflexivity|]. split; [discriminate|]. split; [discriminate|]. intro Hx. elim Hx. reflexivity.
    + apply file_plain_good. intros x Hx [-> |[-> |[i ->]]]; cbn in Hx; intuition discriminate.
    + intros res E. rewrite G0, A0 in E. rewrite C0. exact (loops_plain false res E).
    + exists text, f, T. split; [exact M|]. split; [now apply A|]. split; [exact B|]. split; [exact D|]. split; [exact F|]. assert (SC : scans_iterators (set defaults F_compilable 3) 2) by (split; [reflexivity|left; reflexivity]). split; [exact (G1 2%nat SC D2')|exact (G2 2%nat SC D2)].
  - assert (G0 : generator_options (set defaults F_callable 1) = LoopExamples.opts) by reflexivity. assert (A0 : alloc_options_of (set defaults F_callable 1) = blocks_on) by reflexivity.
    assert (C0 : clast_options (set defaults F_callable 1) = {| co_otl := true; co_fsp := 1; co_esp := true; co_block := false; co_callable := true |}) by reflexivity.
    assert (M : exists text, main_plain ["-callable"; "1"; "x.cloog"] = Some (Stdout, text)) by (eexists; vm_compute; reflexivity).
    destruct M as [text M]. destruct (C50_callable_unscattered_partial BoxPoly BoxSem BoxScat BoxRel (rows_box 0) (fun l => l) (fun l => l) keep_rows
      (from_table [ctx0]) (fun _ => from_table [dX; dY]) (fun _ => from_table []) (fun _ => 0%nat) "CLooG 0.18" None 60 (fun _ => true) (fun _ => true) (fun _ => file_plain)
      ["-callable"; "1"; "x.cloog"] (set (defaults) F_callable 1) "x.cloog" (Infile "x.cloog") Stdout [] ctx0 [dX; dY] Stdout text) as (_ & f & T & A & B & _ & _ & D & F & G1 & G2);
      [exact library50|reflexivity| |reflexivity|discriminate|reflexivity|reflexivity|discriminate| | | |exact M|].
    + split; [reflexivity|]. split; [reflexivity|]. split; [reflexivity|]. split; [discriminate|]. split; [discriminate|]. intro Hx. elim Hx. reflexivity.
    + apply file_plain_good. intros x Hx [-> |[-> | ->]]; cbn in Hx; intuition discriminate.
    + exists dX, [0; 0]. split; [left; reflexivity|reflexivity].
    + intros res E. rewrite G0, A0 in E. rewrite C0. exact (loops_plain true res E).
    + exists text, f, T. split; [exact M|]. split; [now apply A|]. split; [exact B|]. split; [exact D|]. split; [exact F|]. assert (SC : scans_iterators (set defaults F_callable 1) 2) by (split; [reflexivity|left; reflexivity]). split; [exact (G1 2%nat SC D2')|exact (G2 2%nat SC D2)].
Qed.
