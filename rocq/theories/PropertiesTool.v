(** Property C50: the whole command, from the command line and the input file to what the printed program
    does.

    Specification: ToolSpec.v (which statements run, and when), LoopSpec.v and ProgramSpec.v (points, dates,
    what isl guarantees), FileReader.v and FileSpec.v (how C files are read and run). *)
From Coq Require Import ZArith List Bool Arith String Ascii Permutation Lia.
From Verif Require Import LoopModel LoopSpec LoopCount LoopBox LoopExamples ProgramModel ProgramSpec ProgramMain ProgramBox ClastModel ClastSpec LoopOtl ClastMain ClastExamples ClastReady ClastEnd
  PprintModel CReader PprintSpec PprintEnd PropertiesLoop PropertiesProgram PropertiesClast PropertiesPprint FileModel FileReader FileSpec EndSpec LoopFrom EndProofs PropertiesFile
  OptionsModel ToolModel ToolSpec ToolProofs.
From Verif Require NamesModel NamesSpec InputModel.
Import ListNotations.
Local Open Scope string_scope.
Local Open Scope Z_scope.

(** The options for which C01, C02 and C16 hold: no -stop, no -strides, no -override, -f not 0, -first-unroll not 0,
    -sh only if the simple hulls are exact. *)
Definition usual_options (P : Poly) (Se : Sem P) (o : opts) : Prop :=
  o F_stop < 0 /\ o F_strides = 0 /\ o F_override = 0 /\ o F_f <> 0 /\ o F_first_unroll <> 0 /\ (o F_sh <> 0 -> simple_hull_tight P Se).
(** when blocks of statements keep the order (C34) *)
Definition blocks_keep_order {P} (Se : Sem P) {C : Scat P} (rel : ScatSem C) (o : opts) (input : list (dom P * smap C)) : Prop :=
  o F_noblocks <> 0 \/ o F_noscalars <> 0 \/ one_at_a_time Se rel input /\ moving Se rel input.
Lemma truth_true : forall z, z <> 0 -> truth z = true. Proof. intros z H. unfold truth. apply Z.eqb_neq in H. now rewrite H. Qed.
Lemma truth_false : forall z, z = 0 -> truth z = false. Proof. intros z ->. reflexivity. Qed.
Lemma usual_plain P Se o : usual_options P Se o -> plain_options P Se (generator_options o) /\ o_strides (generator_options o) = false /\
  o_override (generator_options o) = false /\ o_f (generator_options o) <> 0 /\ o_ls (generator_options o) = None.
Proof.
  intros (H1 & H2 & H3 & H4 & H5 & H6). cbn. rewrite (truth_false _ H2), (truth_false _ H3). split; [|repeat split; auto]. split; [exact H1|]. split; [exact H5|].
  cbn. intro E. apply H6. intro E0. rewrite (truth_false _ E0) in E. discriminate E.
Qed.

Section Command.
Variables (P : Poly) (Se : Sem P) (C : Scat P) (rel : ScatSem C) (rows_of : dom P -> list row).
Variables (sort_exprs : list expr -> list expr) (sort_eqns : list eqn -> list eqn) (reduce : list (option (eqtype * row)) -> list row -> nat -> list row).
Variables (read_ctx : string -> option (dom P * string)) (read_dom : nat -> string -> option (dom P * string)) (read_scat : dom P -> string -> option (smap C * string)) (par_dim : dom P -> nat).
Variables (version : string) (time : option string).
Notation input_read := (InputModel.input_read (dom P) (smap C) read_ctx read_dom read_scat par_dim (dim P) (s_dim C)).
Notation in_ctx := (InputModel.in_ctx (dom P) (smap C)).
Notation in_ud := (InputModel.in_ud (dom P) (smap C)).
Notation main := (cloog_main P C rows_of sort_exprs sort_eqns reduce read_ctx read_dom read_scat par_dim version time).
(** what the libraries guarantee for the values [pv] of the parameters *)
Definition library_right (pv : list Z) : Prop :=
  Laws P Se /\ OrderLaws P Se /\ otl_sound P Se /\ ScatLaws P Se C rel /\
  (forall l, Permutation l (sort_exprs l)) /\ (forall l, Permutation l (sort_eqns l)) /\ reduce_right pv reduce /\ reduce_fits (List.length pv) reduce.
(** The input file holds these statements; for the values of the parameters every iteration has one date, the
    context is satisfied, no statement without iterators precedes one with iterators; the names fit. *)
Definition good_file (reserved : string -> Prop) (pv : list Z) (file : string) (ctx : dom P) (input : list (dom P * smap C)) : Prop :=
  exists inp rest, input_read file = Some (InputModel.LangC, inp, rest) /\ in_ctx inp = ctx /\ par_dim ctx = List.length pv /\
    map NamesModel.d_dom (NamesModel.u_domains (in_ud inp)) = all_scattered input /\ input <> [] /\ dated Se rel input /\ flat_last input /\
    dim P ctx = 0%nat /\ mem Se ctx [] = true /\
    (forall n, NamesModel.program_names (in_ud inp) (nb_scattdims P C (all_scattered input)) = Some n -> names_fit reserved n).

Lemma command : forall (pv : list Z) reserved fuel readable writable contents args o name src snk ctx input snk' text,
  library_right pv -> options_read readable writable args = Ready o name src snk -> usual_options P Se o ->
  good_file reserved pv (contents src) ctx input ->
  (forall scaldims res, alloc_and_generate P C (alloc_options_of o) (generator_options o) fuel ctx (all_scattered input) = Some (scaldims, res) -> writable_loops P Se rows_of pv (clast_options o) res) ->
  main fuel readable writable contents args = Some (snk', text) ->
  snk' = snk /\ exists stmt_name nm bs ss rho T, (forall n, stmt_name n = None) /\
    program_pprint {| fo_compilable := o F_compilable; fo_callable := truth (o F_callable); fo_lang := LangC; fo_name := name; fo_version := version; fo_time := time |} stmt_name nm bs ss = Some text /\
    List.length (nm_par nm) = List.length pv /\ well_named reserved nm bs /\ ~ In 0%nat (flat_map snd bs) /\ uses_names nm ss /\ calls_blocks bs ss /\
    forallb (printable_stmt {| p_lang := LangC; p_callable := truth (o F_callable) |} stmt_name) ss = true /\
    exec ss (with_params (nm_par nm) pv) = Some (rho, numbered T) /\ each_once Se input T /\ (blocks_keep_order Se rel o input -> in_order rel input T).
Proof.
  intros pv reserved fuel readable writable contents args o name src snk ctx input snk' text (L & OL & OS & CL & S1 & S2 & R & RF) Ho UO (inp & rest & Hr & <- & Hpv & ES & Hne & Hdt & Hfl & Hd & Hc & HN) HW E.
  unfold cloog_main in E. rewrite Ho in E. destruct (truth (o F_leaks) || truth (o F_structure)); [discriminate|]. rewrite Hr in E.
  destruct (tool_print _ _ _ _ _ _ _ _ fuel o name (language_of InputModel.LangC) inp) as [t|] eqn:Et; [|discriminate]. apply ClastNames.some_eq in E. apply pair_equal_spec in E. destruct E as [-> ->]. split; [reflexivity|].
  unfold tool_print in Et. destruct (tool_alloc P C (alloc_options_of o) (in_ud inp)) as [[[nm sd] lls]|] eqn:Ea; [|discriminate].
  pose proof (read_history _ _ _ _ _ _ _ _ _ _ _ _ Hr) as HH.
  destruct (alloc_named P Se C rel L CL reserved _ _ _ input nm sd lls HH ES Hne Hdt HN Ea) as (ls & Epa & -> & Hns & Hnp & ND & WN & N0 & SN).
  destruct (cloog_program_generate P sd (generator_options o) fuel (in_ctx inp) (map (to_loop P) ls)) as [res|] eqn:Eg; [|discriminate].
  destruct (clast_create _ _ _ _ _ _ _ _ _ _ res) as [ss|] eqn:CC; [|discriminate].
  assert (Hag : alloc_and_generate P C (alloc_options_of o) (generator_options o) fuel (in_ctx inp) (all_scattered input) = Some (sd, res)) by (unfold alloc_and_generate; rewrite Epa, Eg; reflexivity).
  destruct (HW _ _ Hag) as (Hready & Hpairs). destruct (usual_plain P Se o UO) as (U1 & U2 & U3 & U4 & U5).
  destruct (alloc_shape P Se C rel L CL _ input sd ls Hdt Hne Epa) as (Bs & kinds & G & HS).
  pose proof (shape_statement_loops P Se C rel L _ _ _ _ _ _ _ HS) as SL.
  pose proof (sh_sd _ _ _ _ _ _ _ _ _ _ _ HS) as Esd. pose proof Eg as Eg'. rewrite Esd in Eg'.
  pose proof (generated_from P Se L kinds _ fuel (in_ctx inp) _ res (proj1 U1) (or_introl U2) Hd SL Eg') as FI.
  assert (Hotl : Forall (otl_right P Se []) res).
  { apply (generated_otl P Se L kinds (generator_options o) fuel (in_ctx inp) (map (to_loop P) ls) res OS (proj1 U1) (or_introl U2) Hd Hc SL); [|exact Eg']. apply Forall_map. rewrite Forall_forall. intros pl _. reflexivity. }
  assert (LP : List.length pv = List.length (nm_par nm)) by congruence. rewrite <- LP in CC.
  pose proof (level_inj nm ND) as I3. pose proof (level_par nm ND) as I4. rewrite <- LP in I4.
  pose proof (level_ident nm (wn_ident _ _ _ WN)) as I1. pose proof (param_ident nm (wn_ident _ _ _ WN)) as I2.
  destruct (C16_clast_runs_loops _ _ sort_exprs sort_eqns reduce P Se rows_of pv (clast_options o) _ S1 S2 I3 I4 R res ss (with_params (nm_par nm) pv) CC Hready Hotl) as (Ls & rho & RU & EX).
  { intros i Hi. apply params_set; [apply (wn_par _ _ _ WN)|exact LP|exact Hi]. }
  destruct (program_run P Se C rel L CL _ _ fuel (in_ctx inp) input sd res U1 U2 Hd Hc Hne Hdt Hfl Hag Ls RU) as (T & ET & EO & OO).
  rewrite Hns, ET in EX. rewrite <- Hns in WN, N0.
  assert (NM : forall n, call_name_ok {| p_lang := LangC; p_callable := truth (o F_callable) |} (statement_name P C (in_ud inp)) n = true) by (intro n; apply label_ok; right; exact SN).
  pose proof (C20_generated_is_printable _ _ sort_exprs sort_eqns reduce P Se rows_of pv (clast_options o) _ _ _ S1 S2 I1 I2 I3 I4 NM res ss Hready Hpairs CC) as PR.
  destruct (made_facts sort_exprs sort_eqns reduce P Se rows_of pv (clast_options o) nm S1 S2 RF LP (map (to_loop P) ls) res ss _ WN) as [UN CB]; try assumption.
  { rewrite Forall_forall. intros l Hl. unfold statement_loops in SL. rewrite Forall_forall in SL. destruct (SL l Hl) as (d & ot & b & -> & Hdd). cbn [l_blk l_dom]. split; [discriminate|].
    rewrite Hns, (shape_scanned P Se C rel _ _ _ _ _ _ _ HS). exact Hdd. }
  exists (statement_name P C (in_ud inp)), nm, (blocks_of P (List.length (nm_scat nm)) (map (to_loop P) ls)), ss, rho, T. split; [exact SN|]. split; [exact Et|].
  split; [congruence|]. split; [exact WN|]. split; [exact N0|]. split; [exact UN|]. split; [exact CB|]. split; [exact PR|]. split; [exact EX|]. split; [exact EO|].
  intro BK. apply OO. destruct BK as [B|[B|[B1 B2]]].
  - eapply C02_program_order_partial; eauto. left. cbn. now apply truth_true.
  - eapply C02_program_order_partial; eauto. right. cbn. now apply truth_true.
  - eapply C34_blocking_keeps_order_partial; eauto.
Qed.
End Command.

(** With -compilable K: the text is written where the command line says; it is a correct C file that can be read
    in only one way; its main prints a line for every iteration of every statement (for the parameters equal to
    K), each once, in the order of their dates, and at last their number. *)
Theorem C50_compilable_command_partial :
  forall (P : Poly) (Se : Sem P) (C : Scat P) (rel : ScatSem C) (rows_of : dom P -> list row)
         (sort_exprs : list expr -> list expr) (sort_eqns : list eqn -> list eqn) (reduce : list (option (eqtype * row)) -> list row -> nat -> list row)
         read_ctx read_dom read_scat par_dim version time
         (fuel : nat) (readable writable : string -> bool) (contents : source -> string) (args : list string) o name src snk np ctx (input : list (dom P * smap C)) snk' text,
  let pv := repeat (o F_compilable) np in
  library_right P Se C rel sort_exprs sort_eqns reduce pv ->
  options_read readable writable args = Ready o name src snk -> usual_options P Se o -> o F_compilable <> 0 -> o F_callable = 0 ->
  one_line name = true -> one_line version = true -> (forall t, time = Some t -> one_line t = true) ->
  good_file P Se C rel read_ctx read_dom read_scat par_dim compilable_reserved pv (contents src) ctx input ->
  (forall scaldims res, alloc_and_generate P C (alloc_options_of o) (generator_options o) fuel ctx (all_scattered input) = Some (scaldims, res) -> writable_loops P Se rows_of pv (clast_options o) res) ->
  cloog_main P C rows_of sort_exprs sort_eqns reduce read_ctx read_dom read_scat par_dim version time fuel readable writable contents args = Some (snk', text) ->
  snk' = snk /\
  exists (f : cfile) (T : list (nat * list Z)),
    (forall g, reads_file text g <-> g = f) /\ correct f /\ f_name f = "main" /\
    (forall outs, runs f [] outs <-> outs = counted (numbered T)) /\
    each_once Se input T /\ (blocks_keep_order Se rel o input -> in_order rel input T).
Proof.
  intros P Se C rel rows_of sort_exprs sort_eqns reduce read_ctx read_dom read_scat par_dim version time fuel readable writable contents args o name src snk np ctx input snk' text pv LR Ho UO K CA H1 H2 H3 GF HW E.
  destruct (command P Se C rel rows_of sort_exprs sort_eqns reduce read_ctx read_dom read_scat par_dim version time pv _ fuel readable writable contents args o name src snk ctx input snk' text LR Ho UO GF HW E)
    as (-> & sn & nm & bs & ss & rho & T & SN & ET & LP & WN & N0 & UN & CB & PR & EX & EO & OO). split; [reflexivity|].
  rewrite (truth_false _ CA) in ET, PR.
  destruct (C46_compilable_file {| fo_compilable := o F_compilable; fo_callable := false; fo_lang := LangC; fo_name := name; fo_version := version; fo_time := time |} sn nm bs ss eq_refl K ltac:(split; [exact H1|split; [exact H2|cbn; destruct time; [now apply H3|exact Logic.I]]]) WN UN CB (or_intror SN) (or_introl eq_refl) PR) as (t & f & E' & RD & CO & FN & _ & _ & RUN).
  rewrite E' in ET. apply ClastNames.some_eq in ET. subst t. exists f, T. split; [exact RD|]. split; [exact CO|]. split; [exact FN|]. split; [|split; [exact EO|exact OO]].
  unfold pv in LP, EX. rewrite repeat_length in LP. rewrite <- LP in EX. exact (RUN _ _ EX).
Qed.
Print Assumptions C50_compilable_command_partial.

(** With -callable: the text is a correct C file of a function test; called with the values of the parameters, it
    calls hash with the number and the coordinates of every iteration of every statement (at least one). *)
Theorem C50_callable_command_partial :
  forall (P : Poly) (Se : Sem P) (C : Scat P) (rel : ScatSem C) (rows_of : dom P -> list row)
         (sort_exprs : list expr -> list expr) (sort_eqns : list eqn -> list eqn) (reduce : list (option (eqtype * row)) -> list row -> nat -> list row)
         read_ctx read_dom read_scat par_dim version time
         (fuel : nat) (readable writable : string -> bool) (contents : source -> string) (args : list string) o name src snk pv ctx (input : list (dom P * smap C)) snk' text,
  library_right P Se C rel sort_exprs sort_eqns reduce pv ->
  options_read readable writable args = Ready o name src snk -> usual_options P Se o -> o F_compilable = 0 -> o F_callable <> 0 ->
  one_line name = true -> one_line version = true -> (forall t, time = Some t -> one_line t = true) ->
  good_file P Se C rel read_ctx read_dom read_scat par_dim callable_reserved pv (contents src) ctx input ->
  (exists d s i, In (d, s) input /\ mem Se d i = true) ->
  (forall scaldims res, alloc_and_generate P C (alloc_options_of o) (generator_options o) fuel ctx (all_scattered input) = Some (scaldims, res) -> writable_loops P Se rows_of pv (clast_options o) res) ->
  cloog_main P C rows_of sort_exprs sort_eqns reduce read_ctx read_dom read_scat par_dim version time fuel readable writable contents args = Some (snk', text) ->
  snk' = snk /\
  exists (f : cfile) (T : list (nat * list Z)),
    (forall g, reads_file text g <-> g = f) /\ correct f /\ f_name f = "test" /\ List.length (f_args f) = List.length pv /\
    (forall outs, runs f pv outs <-> outs = hashed (numbered T)) /\
    each_once Se input T /\ (blocks_keep_order Se rel o input -> in_order rel input T).
Proof.
  intros P Se C rel rows_of sort_exprs sort_eqns reduce read_ctx read_dom read_scat par_dim version time fuel readable writable contents args o name src snk pv ctx input snk' text LR Ho UO K CA H1 H2 H3 GF (d & s & i & Hin & Hi) HW E.
  destruct (command P Se C rel rows_of sort_exprs sort_eqns reduce read_ctx read_dom read_scat par_dim version time pv _ fuel readable writable contents args o name src snk ctx input snk' text LR Ho UO GF HW E)
    as (-> & sn & nm & bs & ss & rho & T & SN & ET & LP & WN & N0 & UN & CB & PR & EX & EO & OO). split; [reflexivity|].
  rewrite (truth_true _ CA) in ET, PR.
  assert (NE : ss <> []).
  { intros ->. apply In_nth_error in Hin. destruct Hin as [k Hk]. assert (In (k, i) T) as HT by (apply (proj2 EO); eauto). cbn in EX. injection EX as _ EX. destruct T; [destruct HT|discriminate EX]. }
  destruct (C46_callable_file {| fo_compilable := o F_compilable; fo_callable := true; fo_lang := LangC; fo_name := name; fo_version := version; fo_time := time |} sn nm bs ss eq_refl K eq_refl ltac:(split; [exact H1|split; [exact H2|cbn; destruct time; [now apply H3|exact Logic.I]]]) WN N0 UN CB PR) as (t & f & E' & RD & CO & FN & FA & _ & RUN).
  rewrite E' in ET. apply ClastNames.some_eq in ET. subst t. exists f, T. split; [exact RD|]. split; [exact CO|]. split; [exact FN|]. split; [rewrite FA; exact LP|]. split; [|split; [exact EO|exact OO]].
  exact (proj2 (RUN pv (eq_sym LP)) NE _ _ EX).
Qed.
Print Assumptions C50_callable_command_partial.

(** ** an example *)
(** Domains, contexts and scatterings are read as their numbers in a table. *)
Definition from_table {A} (tab : list A) (f : string) : option (A * string) :=
  match TextModel.next_line f with
  | Some (line, _, rest) => match TextModel.scan_number line with
                            | Some (z, _) => match nth_error tab (Z.to_nat z) with Some a => Some (a, rest) | None => None end
                            | None => None end
  | None => None
  end.
Definition lines50 (l : list string) : string := String.concat (String (ascii_of_nat 10) "") (l ++ [""]).
(** The two statements of C34_example, dates (0, i, 0) and (0, i, 1), without names. *)
Definition file50 : string := lines50 ["# language"; "c"; "# context"; "0"; "0"; "# statements"; "2"; "0"; "0 0 0"; "0"; "0 0 0"; "0"; "# scatterings"; "2"; "0"; "1"; "0"].
Definition main50 (args : list string) : option (sink * string) :=
  cloog_main BoxPoly BoxScat (rows_box 0) (fun l => l) (fun l => l) keep_rows (from_table [ctx0]) (fun _ => from_table [dA]) (fun _ => from_table [sA; sB]) (fun _ => 0%nat) "CLooG 0.18" None
    60 (fun _ => true) (fun _ => true) (fun _ => file50) args.
Lemma file50_good : forall reserved, (forall x, In x ["c1"; "c2"; "c3"; "i"] -> ~ reserved x) ->
  good_file BoxPoly BoxSem BoxScat BoxRel (from_table [ctx0]) (fun _ => from_table [dA]) (fun _ => from_table [sA; sB]) (fun _ => 0%nat) reserved [] file50 ctx0 inputA.
Proof.
  intros reserved Hr. destruct inputA_ok as (H1 & _ & _ & H4). eexists _, _. split; [vm_compute; reflexivity|]. split; [reflexivity|]. split; [reflexivity|]. split; [reflexivity|]. split; [discriminate|].
  split; [exact H1|]. split; [exact H4|]. split; [reflexivity|]. split; [reflexivity|]. intros n E. vm_compute in E. apply ClastNames.some_eq in E. subst n. split.
  - cbn. repeat constructor; cbn; intuition discriminate.
  - intros x Hx. cbn in Hx. split; [|apply Hr; cbn; tauto]. intuition (subst; reflexivity).
Qed.
Lemma library50 : library_right BoxPoly BoxSem BoxScat BoxRel (fun l => l) (fun l => l) keep_rows [].
Proof. split; [exact box_laws|]. split; [exact box_order_laws|]. split; [exact box_otl|]. split; [exact box_scat_laws|]. split; [intro; apply Permutation_refl|]. split; [intro; apply Permutation_refl|]. split; [apply keep_rows_right|intros ? ? ? H; exact H]. Qed.
Lemma loops50 : forall callable, let co := {| co_otl := true; co_fsp := 1; co_esp := true; co_block := false; co_callable := callable |} in
  forall scaldims res, alloc_and_generate BoxPoly BoxScat blocks_on LoopExamples.opts 60 ctx0 (all_scattered inputA) = Some (scaldims, res) ->
  writable_loops BoxPoly BoxSem (rows_box 0) [] co res.
Proof.
  intros callable co sd res E.
  assert (Q : exists sd res, alloc_and_generate BoxPoly BoxScat blocks_on LoopExamples.opts 60 ctx0 (all_scattered inputA) = Some (sd, res) /\ writable_loops BoxPoly BoxSem (rows_box 0) [] co res).
  { run_alloc. cbn [map unstrip]. unfold writable_loops. split.
    - constructor; [|constructor]. apply ready0b_ok with (wit := fun _ => ([], [], [])); [apply eachb_ok with (q := fun l => one_box (l_dom BoxPoly l)); [intros l0 Hl; apply exact_describe, (rows_box_exact [] _ Hl)|vm_compute; reflexivity]|].
      unfold co. destruct callable; vm_compute; reflexivity.
    - constructor; [|constructor]. apply no_pairs0b_ok; vm_compute; reflexivity. }
  destruct Q as (sd' & res' & E' & Q). rewrite E' in E. apply ClastNames.some_eq in E. apply pair_equal_spec in E. destruct E as [_ <-]. exact Q.
Qed.
(** cloog -compilable 3 x.cloog -o x.c and cloog -callable 1 x.cloog write x.c and the standard output: the first
    file prints the two iterations of S1 and the two of S2 and their number, the second hashes them. *)
Example C50_example :
  (exists text f T, main50 ["-compilable"; "3"; "x.cloog"; "-o"; "x.c"] = Some (Outfile "x.c", text) /\ reads_file text f /\ correct f /\
     (forall outs, runs f [] outs <-> outs = counted (numbered T)) /\ each_once BoxSem inputA T /\ in_order BoxRel inputA T) /\
  (exists text f T, main50 ["-callable"; "1"; "x.cloog"] = Some (Stdout, text) /\ reads_file text f /\ correct f /\
     (forall outs, runs f [] outs <-> outs = hashed (numbered T)) /\ each_once BoxSem inputA T /\ in_order BoxRel inputA T).
Proof.
  destruct inputA_ok as (H1 & H2 & H3 & H4). split.
  - assert (G0 : generator_options (set defaults F_compilable 3) = LoopExamples.opts) by reflexivity. assert (A0 : alloc_options_of (set defaults F_compilable 3) = blocks_on) by reflexivity.
    assert (C0 : clast_options (set defaults F_compilable 3) = {| co_otl := true; co_fsp := 1; co_esp := true; co_block := false; co_callable := false |}) by reflexivity.
    assert (M : exists text, main50 ["-compilable"; "3"; "x.cloog"; "-o"; "x.c"] = Some (Outfile "x.c", text)) by (eexists; vm_compute; reflexivity).
    destruct M as [text M]. destruct (C50_compilable_command_partial BoxPoly BoxSem BoxScat BoxRel (rows_box 0) (fun l => l) (fun l => l) keep_rows
      (from_table [ctx0]) (fun _ => from_table [dA]) (fun _ => from_table [sA; sB]) (fun _ => 0%nat) "CLooG 0.18" None 60 (fun _ => true) (fun _ => true) (fun _ => file50)
      ["-compilable"; "3"; "x.cloog"; "-o"; "x.c"] (set (defaults) F_compilable 3) "x.cloog" (Infile "x.cloog") (Outfile "x.c") 0 ctx0 inputA (Outfile "x.c") text) as (_ & f & T & A & B & _ & D & F & G);
      [exact library50|reflexivity| |discriminate|reflexivity|reflexivity|reflexivity|discriminate| | |exact M|].
    + split; [reflexivity|]. split; [reflexivity|]. split; [reflexivity|]. split; [discriminate|]. split; [discriminate|]. intro Hx. elim Hx. reflexivity.
    + apply file50_good. intros x Hx [-> |[-> |[i ->]]]; cbn in Hx; intuition discriminate.
    + intros sd res E. rewrite G0, A0 in E. rewrite C0. exact (loops50 false sd res E).
    + exists text, f, T. split; [exact M|]. split; [now apply A|]. split; [exact B|]. split; [exact D|]. split; [exact F|]. apply G. right. right. split; [exact H2|exact H3].
  - assert (G0 : generator_options (set defaults F_callable 1) = LoopExamples.opts) by reflexivity. assert (A0 : alloc_options_of (set defaults F_callable 1) = blocks_on) by reflexivity.
    assert (C0 : clast_options (set defaults F_callable 1) = {| co_otl := true; co_fsp := 1; co_esp := true; co_block := false; co_callable := true |}) by reflexivity.
    assert (M : exists text, main50 ["-callable"; "1"; "x.cloog"] = Some (Stdout, text)) by (eexists; vm_compute; reflexivity).
    destruct M as [text M]. destruct (C50_callable_command_partial BoxPoly BoxSem BoxScat BoxRel (rows_box 0) (fun l => l) (fun l => l) keep_rows
      (from_table [ctx0]) (fun _ => from_table [dA]) (fun _ => from_table [sA; sB]) (fun _ => 0%nat) "CLooG 0.18" None 60 (fun _ => true) (fun _ => true) (fun _ => file50)
      ["-callable"; "1"; "x.cloog"] (set (defaults) F_callable 1) "x.cloog" (Infile "x.cloog") Stdout [] ctx0 inputA Stdout text) as (_ & f & T & A & B & _ & _ & D & F & G);
      [exact library50|reflexivity| |reflexivity|discriminate|reflexivity|reflexivity|discriminate| | | |exact M|].
    + split; [reflexivity|]. split; [reflexivity|]. split; [reflexivity|]. split; [discriminate|]. split; [discriminate|]. intro Hx. elim Hx. reflexivity.
    + apply file50_good. intros x Hx [-> |[-> | ->]]; cbn in Hx; intuition discriminate.
    + exists dA, sA, [0]. split; [left; reflexivity|reflexivity].
    + intros sd res E. rewrite G0, A0 in E. rewrite C0. exact (loops50 true sd res E).
    + exists text, f, T. split; [exact M|]. split; [now apply A|]. split; [exact B|]. split; [exact D|]. split; [exact F|]. apply G. right. right. split; [exact H2|exact H3].
Qed.
