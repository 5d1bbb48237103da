(** Property C50, that the command comes to an end: with enough time it writes a text.

    Specification: TerminateSpec.v (what isl guarantees for that), ClastSpec.v ([clear]), ToolSpec.v. *)
From Coq Require Import ZArith List Bool Arith String Ascii Permutation Lia.
From Verif Require Import LoopModel LoopSpec LoopCount LoopBox LoopExamples ProgramModel ProgramSpec ProgramMain ProgramBox ClastModel ClastSpec ClastMain ClastExamples ClastReady ClastReturns ClastEnd
  PprintModel CReader PprintSpec PprintEnd PropertiesLoop PropertiesProgram PropertiesClast PropertiesReturns PropertiesPprint FileModel FileReader FileSpec EndSpec LoopFrom EndProofs PropertiesFile
  TerminateSpec TerminateAlloc TerminateBox LoopFuel PropertiesTerminate OptionsModel ToolModel ToolSpec ToolProofs ToolTotal ToolPlain PropertiesTool PropertiesPlain.
From Verif Require NamesModel NamesSpec InputModel.
Import ListNotations.
Local Open Scope string_scope.
Local Open Scope Z_scope.

(** Every name of the input file was given or can be made up. *)
Definition has_names {P : Poly} {C : Scat P} read_ctx read_dom read_scat par_dim (file : string) (input : list (dom P * smap C)) : Prop :=
  forall lang inp rest, InputModel.input_read (dom P) (smap C) read_ctx read_dom read_scat par_dim (dim P) (s_dim C) file = Some (lang, inp, rest) ->
    NamesModel.program_names (InputModel.in_ud _ _ inp) (nb_scattdims P C (all_scattered input)) <> None.
(** The words that names must not be, according to the kind of file. *)
Definition reserved_for (o : opts) : string -> Prop := if o F_compilable =? 0 then callable_reserved else compilable_reserved.

(** The command ends and writes a text where the command line says; [V] are the values of the parameters, [v0]
    those (equal to [pv]) for which the file is good in the sense of the other theorems.  All amounts of fuel
    from some point on give the same text. *)
Theorem C50_command_answers_partial :
  forall (P : Poly) (V : Type) (v0 : V) (Sp : V -> Sem P) (nparts : dom P -> nat) (C : Scat P) (rel : V -> ScatSem C) (rows_of : dom P -> list row)
         (sort_exprs : list expr -> list expr) (sort_eqns : list eqn -> list eqn) (reduce : list (option (eqtype * row)) -> list row -> nat -> list row)
         read_ctx read_dom read_scat par_dim version time
         (readable writable : string -> bool) (contents : source -> string) (args : list string) o name src snk pv ctx (input : list (dom P * smap C)) n,
  (forall v, library_right P (Sp v) C (rel v) sort_exprs sort_eqns reduce pv) -> TotalLaws P V Sp nparts -> erase_keeps_scalars C -> reduce_keeps reduce ->
  options_read readable writable args = Ready o name src snk -> (forall v, usual_options P (Sp v) o) -> o F_leaks = 0 -> o F_structure = 0 ->
  (o F_compilable = 0 \/ o F_callable = 0) -> one_line name = true -> one_line version = true -> (forall t, time = Some t -> one_line t = true) ->
  good_file P (Sp v0) C (rel v0) read_ctx read_dom read_scat par_dim (reserved_for o) pv (contents src) ctx input ->
  has_names read_ctx read_dom read_scat par_dim (contents src) input ->
  (forall v, dated (Sp v) (rel v) input) -> (forall x, In x input -> s_dim C (snd x) = n) ->
  (forall fuel scaldims res, alloc_and_generate P C (alloc_options_of o) (generator_options o) fuel ctx (all_scattered input) = Some (scaldims, res) ->
     writable_loops P (Sp v0) rows_of pv (clast_options o) res /\ Forall (clear P rows_of (List.length pv) 0) res) ->
  exists text, returns (fun fuel => cloog_main P C rows_of sort_exprs sort_eqns reduce read_ctx read_dom read_scat par_dim version time fuel readable writable contents args) (snk, text).
Proof.
  intros P V v0 Sp nparts C rel rows_of sort_exprs sort_eqns reduce read_ctx read_dom read_scat par_dim version time readable writable contents args o name src snk pv ctx input n
    LR TL ER RK Ho UO K1 K2 MO H1 H2 H3 GF HNm Hdt Hdim HW.
  destruct (LR v0) as (L & OL & OS & CL & S1 & S2 & R & RF). pose proof GF as GF'. destruct GF' as (inp & rest & Hr & <- & Hpv & ES & Hne & _ & Hfl & Hd & Hc & HN).
  destruct (usual_plain P (Sp v0) o (UO v0)) as (U1 & U2 & U3 & U4 & U5).
  destruct (C45_program_returns_partial P V v0 Sp nparts C rel (fun v => proj1 (LR v)) TL (fun v => proj1 (proj2 (proj2 (proj2 (LR v))))) ER (alloc_options_of o) (generator_options o) (InputModel.in_ctx _ _ inp) input n
    (fun v => proj1 (usual_plain P (Sp v) o (UO v))) U2 Hd Hne Hdt Hfl Hdim) as (sd & res & (m0 & Hm) & _).
  assert (A : exists ls, program_alloc P C (alloc_options_of o) (all_scattered input) = Some (sd, ls)).
  { specialize (Hm m0 (le_n _)). unfold alloc_and_generate in Hm. destruct (program_alloc _ _ _ _) as [[sd' ls']|]; [|discriminate]. destruct (cloog_program_generate _ _ _ _ _ _); [|discriminate].
    apply ClastNames.some_eq in Hm. apply pair_equal_spec in Hm. destruct Hm as [-> _]. eexists; reflexivity. }
  destruct A as (ls & Epa).
  assert (G : forall m, (m0 <= m)%nat -> cloog_program_generate P sd (generator_options o) m (InputModel.in_ctx _ _ inp) (map (to_loop P) ls) = Some res).
  { intros m Hle. specialize (Hm m Hle). unfold alloc_and_generate in Hm. rewrite Epa in Hm. destruct (cloog_program_generate _ _ _ _ _ _) as [r|]; [|discriminate]. apply ClastNames.some_eq in Hm. apply pair_equal_spec in Hm. destruct Hm as [_ ->]. reflexivity. }
  pose proof (read_history _ _ _ _ _ _ _ _ _ _ _ _ Hr) as HH. specialize (HNm _ _ _ Hr).
  rewrite (nb_same P C input n Hne Hdim) in HNm. destruct (NamesModel.program_names (InputModel.in_ud _ _ inp) n) as [nms|] eqn:En; [|contradiction]. clear HNm.
  destruct (tool_alloc_total P C _ (alloc_options_of o) (InputModel.in_ud _ _ inp) input n nms sd ls (history_api _ _ _ _ _ _ HH) ES Hne Hdim En Epa) as (nm & Ea).
  destruct (alloc_named P (Sp v0) C (rel v0) L CL (reserved_for o) _ _ _ input nm sd _ HH ES Hne (Hdt v0) HN Ea) as (ls' & Epa' & Els & Hns & Hnp & ND & WN & N0 & SN).
  rewrite Epa' in Epa. apply ClastNames.some_eq in Epa. apply pair_equal_spec in Epa. destruct Epa as [_ ->].
  destruct (HW _ _ _ (Hm m0 (le_n _))) as ((Hready & Hpairs) & Hclear).
  assert (LP : List.length pv = List.length (nm_par nm)) by congruence.
  pose proof (level_inj nm ND) as I3. pose proof (level_par nm ND) as I4. rewrite <- LP in I4.
  pose proof (level_ident nm (wn_ident _ _ _ WN)) as I1. pose proof (param_ident nm (wn_ident _ _ _ WN)) as I2.
  assert (I5 : forall i j, (i < List.length pv)%nat -> (j < List.length pv)%nat -> param_name nm i = param_name nm j -> i = j).
  { intros i j Hi Hj E. rewrite LP in Hi, Hj. unfold param_name in E. rewrite (nth_indep _ _ "" Hi), (nth_indep _ _ "" Hj) in E. exact (proj1 (NoDup_nth _ _) (wn_par _ _ _ WN) i j Hi Hj E). }
  destruct (C51_creation_returns_partial (level_name nm) (param_name nm) sort_exprs sort_eqns reduce P (Sp v0) rows_of pv (clast_options o) (List.length (nm_scat nm)) S1 I3 I4 I5 RK res Hready Hclear) as (ss & CC).
  assert (NM : forall k, call_name_ok {| p_lang := LangC; p_callable := truth (o F_callable) |} (statement_name P C (InputModel.in_ud _ _ inp)) k = true) by (intro k; apply label_ok; right; exact SN).
  pose proof (C20_generated_is_printable _ _ sort_exprs sort_eqns reduce P (Sp v0) rows_of pv (clast_options o) _ _ _ S1 S2 I1 I2 I3 I4 NM res ss Hready Hpairs CC) as PR.
  destruct (alloc_shape P (Sp v0) C (rel v0) L CL _ input sd ls (Hdt v0) Hne Epa') as (Bs & kinds & GG & HS).
  pose proof (shape_statement_loops P (Sp v0) C (rel v0) L _ _ _ _ _ _ _ HS) as SL. pose proof (sh_sd _ _ _ _ _ _ _ _ _ _ _ HS) as Esd.
  pose proof (G m0 (le_n _)) as Eg'. rewrite Esd in Eg'.
  pose proof (generated_from P (Sp v0) L kinds _ m0 (InputModel.in_ctx _ _ inp) _ res (proj1 U1) (or_introl U2) Hd SL Eg') as FI.
  rewrite <- Hns in WN, N0.
  destruct (made_facts sort_exprs sort_eqns reduce P (Sp v0) rows_of pv (clast_options o) nm S1 S2 RF LP (map (to_loop P) ls) res ss _ WN) as [UN CB]; try assumption.
  { rewrite Forall_forall. intros l Hl. unfold statement_loops in SL. rewrite Forall_forall in SL. destruct (SL l Hl) as (d & ot & b & -> & Hdd). cbn [l_blk l_dom]. split; [discriminate|].
    rewrite Hns, (shape_scanned P (Sp v0) C (rel v0) _ _ _ _ _ _ _ HS). exact Hdd. }
  assert (TX : exists text, program_pprint {| fo_compilable := o F_compilable; fo_callable := truth (o F_callable); fo_lang := LangC; fo_name := name; fo_version := version; fo_time := time |}
      (statement_name P C (InputModel.in_ud _ _ inp)) nm (blocks_of P (List.length (nm_scat nm)) (map (to_loop P) ls)) ss = Some text).
  { destruct (Z.eq_dec (o F_compilable) 0) as [K|K].
    - destruct (Z.eq_dec (o F_callable) 0) as [CA|CA].
      + rewrite K, (truth_false _ CA) in *. unfold program_pprint. cbn [fo_compilable fo_callable fo_lang fo_name fo_version fo_time negb Z.eqb andb]. destruct (program_defined {| p_lang := LangC; p_callable := false |} (statement_name P C (InputModel.in_ud _ _ inp)) eq_refl 0%nat ss PR) as (x & Ex). rewrite Ex. unfold say, cat. eexists; reflexivity.
      + rewrite (truth_true _ CA) in *. unfold reserved_for in WN. rewrite K in WN. cbn in WN.
        destruct (C46_callable_file {| fo_compilable := o F_compilable; fo_callable := true; fo_lang := LangC; fo_name := name; fo_version := version; fo_time := time |} (statement_name P C (InputModel.in_ud _ _ inp)) nm _ ss eq_refl K eq_refl ltac:(split; [exact H1|split; [exact H2|cbn; destruct time; [now apply H3|exact Logic.I]]]) WN N0 UN CB PR) as (t & f & E' & _). exists t. exact E'.
    - destruct MO as [MO|CA]; [contradiction|]. rewrite (truth_false _ CA) in *. unfold reserved_for in WN. destruct (Z.eqb_spec (o F_compilable) 0); [contradiction|].
      destruct (C46_compilable_file {| fo_compilable := o F_compilable; fo_callable := false; fo_lang := LangC; fo_name := name; fo_version := version; fo_time := time |} (statement_name P C (InputModel.in_ud _ _ inp)) nm _ ss eq_refl K ltac:(split; [exact H1|split; [exact H2|cbn; destruct time; [now apply H3|exact Logic.I]]]) WN UN CB (or_intror SN) (or_introl eq_refl) PR) as (t & f & E' & _). exists t. exact E'. }
  destruct TX as (text & TX). exists text, m0. intros m Hle. unfold cloog_main. rewrite Ho, (truth_false _ K1), (truth_false _ K2). cbn [orb]. rewrite Hr. cbn [language_of]. unfold tool_print. rewrite Ea, (G m Hle). cbv zeta. rewrite <- LP, CC. rewrite TX. reflexivity.
Qed.
Print Assumptions C50_command_answers_partial.

(** *** the example of C50: cloog x.cloog *)
Lemma file50_named : has_names (P := BoxPoly) (C := BoxScat) (from_table [ctx0]) (fun _ => from_table [dA]) (fun _ => from_table [sA; sB]) (fun _ => 0%nat) file50 inputA.
Proof.
  intros lang inp rest E. assert (Q : match InputModel.input_read (dom BoxPoly) (smap BoxScat) (from_table [ctx0]) (fun _ => from_table [dA]) (fun _ => from_table [sA; sB]) (fun _ => 0%nat) (dim BoxPoly) (s_dim BoxScat) file50 with
    | Some (_, inp, _) => match NamesModel.program_names (InputModel.in_ud _ _ inp) (nb_scattdims BoxPoly BoxScat (all_scattered inputA)) with Some _ => true | None => false end | None => true end = true) by (vm_compute; reflexivity).
  rewrite E in Q. intros F. rewrite F in Q. discriminate Q.
Qed.

Lemma loops50_clear : forall fuel sd res, alloc_and_generate BoxPoly BoxScat blocks_on LoopExamples.opts fuel ctx0 (all_scattered inputA) = Some (sd, res) ->
  writable_loops BoxPoly BoxSem (rows_box 0) [] {| co_otl := true; co_fsp := 1; co_esp := true; co_block := false; co_callable := false |} res /\ Forall (clear BoxPoly (rows_box 0) 0 0) res.
Proof.
  intros fuel sd res E.
  assert (Q : exists sd res, alloc_and_generate BoxPoly BoxScat blocks_on LoopExamples.opts 60 ctx0 (all_scattered inputA) = Some (sd, res) /\ Forall (clear BoxPoly (rows_box 0) 0 0) res).
  { run_alloc. cbn [map unstrip].
    repeat match goal with
    | |- clear _ _ _ _ _ => constructor; [apply simple_rowsb_ok; reflexivity| |cbn [l_inner]]
    | |- Forall _ [] => constructor
    | |- Forall (clear _ _ _ _) (_ :: _) => constructor
    end.
    all: cbn [l_dom l_blk]; try (intros Hb; discriminate Hb); try (intros _ Hb; elim Hb; reflexivity).
    all: intros _ _ r s Hr Hs He; vm_compute in Hr; repeat destruct Hr as [<- |Hr]; try contradiction; discriminate He. }
  destruct Q as (sd1 & res1 & E1 & Q).
  assert (W : (sd1, res1) = (sd, res)).
  { apply ClastNames.some_eq. rewrite <- (alloc_and_generate_more _ _ _ _ _ _ 60 (60 + fuel) ltac:(lia) _ E1), <- (alloc_and_generate_more _ _ _ _ _ _ fuel (60 + fuel) ltac:(lia) _ E). reflexivity. }
  apply pair_equal_spec in W. destruct W as [<- <-]. split; [exact (loops50 false sd1 res1 E1)|exact Q].
Qed.
Example C50_answers_example : exists text,
  returns (fun fuel => cloog_main BoxPoly BoxScat (rows_box 0) (fun l => l) (fun l => l) keep_rows (from_table [ctx0]) (fun _ => from_table [dA]) (fun _ => from_table [sA; sB]) (fun _ => 0%nat) "CLooG 0.18" None
    fuel (fun _ => true) (fun _ => true) (fun _ => file50) ["-compilable"; "3"; "x.cloog"; "-o"; "x.c"]) (Outfile "x.c", text).
Proof.
  assert (G0 : generator_options (set defaults F_compilable 3) = LoopExamples.opts) by reflexivity. assert (A0 : alloc_options_of (set defaults F_compilable 3) = blocks_on) by reflexivity.
  assert (C0 : clast_options (set defaults F_compilable 3) = {| co_otl := true; co_fsp := 1; co_esp := true; co_block := false; co_callable := false |}) by reflexivity.
  destruct inputA_ok as (H1 & _ & _ & _).
  apply (C50_command_answers_partial BoxPoly unit tt (fun _ => BoxSem) (fun d => List.length (LoopBox.good d)) BoxScat (fun _ => BoxRel)) with (o := set defaults F_compilable 3) (name := "x.cloog") (src := Infile "x.cloog") (pv := []) (ctx := ctx0) (input := inputA) (n := 3%nat).
  - intros _. exact library50.
  - exact box_total_laws.
  - exact box_erase.
  - intros eqs rows n H; right; exact H.
  - reflexivity.
  - intros _. split; [reflexivity|]. split; [reflexivity|]. split; [reflexivity|]. split; [discriminate|]. split; [discriminate|]. intro Hx. elim Hx. reflexivity.
  - reflexivity.
  - reflexivity.
  - right. reflexivity.
  - reflexivity.
  - reflexivity.
  - discriminate.
  - apply file50_good. intros x Hx [-> |[-> |[i ->]]]; cbn in Hx; intuition discriminate.
  - exact file50_named.
  - intros _. exact H1.
  - intros x [<- |[<- |[]]]; reflexivity.
  - intros fuel sd res E. rewrite G0, A0 in E. rewrite C0. exact (loops50_clear fuel sd res E).
Qed.

(** ** files without scattering functions *)
Definition has_plain_names {P : Poly} {C : Scat P} read_ctx read_dom read_scat par_dim (file : string) : Prop :=
  forall lang inp rest, InputModel.input_read (dom P) (smap C) read_ctx read_dom read_scat par_dim (dim P) (s_dim C) file = Some (lang, inp, rest) -> NamesModel.program_names (InputModel.in_ud _ _ inp) 0 <> None.
Lemma plain_alloc_total (P : Poly) (C : Scat P) np ao (ud : ToolModel.udom P C) (ds : list (dom P)) n : api_history (dom P) (smap C) (dim P) (s_dim C) np ud -> statements P C ud = unscattered ds ->
  NamesModel.program_names ud 0 = Some n -> exists nm, tool_alloc P C ao ud = Some (nm, [], map (to_loop P) (from_domains P 0 ds)).
Proof.
  intros HH ES En. assert (E0 : nb_scattdims P C (unscattered ds) = 0%nat).
  { unfold nb_scattdims, unscattered. assert (Q : flat_map (fun x : dom P * option (smap C) => match snd x with Some s => [s] | None => [] end) (map (fun d => (d, None)) ds) = []) by (clear; induction ds; cbn; auto). rewrite Q. reflexivity. }
  unfold tool_alloc. rewrite ES, E0, En, plain_alloc. cbn [map]. unfold NamesModel.scalarize. unfold printed_names. assert (N0 : NamesModel.n_nb_scat n = 0%nat) by apply (program_names_sizes_api _ _ _ _ _ _ _ _ HH En). rewrite N0.
  destruct (Nat.ltb_spec (List.length (NamesModel.n_scattering n)) 0); [lia|]. eexists; reflexivity.
Qed.
Theorem C50_unscattered_answers_partial :
  forall (P : Poly) (V : Type) (v0 : V) (Sp : V -> Sem P) (nparts : dom P -> nat) (C : Scat P) (rel : V -> ScatSem C) (rows_of : dom P -> list row)
         (sort_exprs : list expr -> list expr) (sort_eqns : list eqn -> list eqn) (reduce : list (option (eqtype * row)) -> list row -> nat -> list row)
         read_ctx read_dom read_scat par_dim version time
         (readable writable : string -> bool) (contents : source -> string) (args : list string) o name src snk pv ctx (ds : list (dom P)),
  (forall v, library_right P (Sp v) C (rel v) sort_exprs sort_eqns reduce pv) -> TotalLaws P V Sp nparts -> reduce_keeps reduce ->
  options_read readable writable args = Ready o name src snk -> (forall v, usual_options P (Sp v) o) -> o F_leaks = 0 -> o F_structure = 0 ->
  (o F_compilable = 0 \/ o F_callable = 0) -> one_line name = true -> one_line version = true -> (forall t, time = Some t -> one_line t = true) ->
  good_plain_file P (Sp v0) C read_ctx read_dom read_scat par_dim (reserved_for o) pv (contents src) ctx ds ->
  has_plain_names (P := P) (C := C) read_ctx read_dom read_scat par_dim (contents src) ->
  (forall fuel res, alloc_and_generate P C (alloc_options_of o) (generator_options o) fuel ctx (unscattered ds) = Some ([], res) ->
     writable_loops P (Sp v0) rows_of pv (clast_options o) res /\ Forall (clear P rows_of (List.length pv) 0) res) ->
  exists text, returns (fun fuel => cloog_main P C rows_of sort_exprs sort_eqns reduce read_ctx read_dom read_scat par_dim version time fuel readable writable contents args) (snk, text).
Proof.
  intros P V v0 Sp nparts C rel rows_of sort_exprs sort_eqns reduce read_ctx read_dom read_scat par_dim version time readable writable contents args o name src snk pv ctx ds
    LR TL RK Ho UO K1 K2 MO H1 H2 H3 GF HNm HW.
  destruct (LR v0) as (L & OL & OS & CL & S1 & S2 & R & RF). pose proof GF as GF'. destruct GF' as (inp & rest & Hr & <- & Hpv & ES & Hd & Hc & HN).
  destruct (usual_plain P (Sp v0) o (UO v0)) as (U1 & U2 & U3 & U4 & U5). set (lls := map (to_loop P) (from_domains P 0 ds)).
  pose proof (plain_loops P ds) as SL. fold lls in SL.
  destruct (C45_generation_returns_partial P V v0 Sp nparts (fun v => proj1 (LR v)) TL [] (generator_options o) (InputModel.in_ctx _ _ inp) lls
    (fun v => proj1 (usual_plain P (Sp v) o (UO v))) (fun v Hs => False_ind _ (Bool.diff_false_true (eq_trans (eq_sym U2) Hs))) Hd SL (plain_depth P lls)) as (res & (m0 & G) & _). change (run_lengths []) with (@nil nat) in G.
  pose proof (read_history _ _ _ _ _ _ _ _ _ _ _ _ Hr) as HH. specialize (HNm _ _ _ Hr).
  assert (En' : exists nms, NamesModel.program_names (InputModel.in_ud _ _ inp) 0 = Some nms) by (destruct (NamesModel.program_names (InputModel.in_ud _ _ inp) 0) as [nms|]; [exists nms; reflexivity|contradiction]). destruct En' as (nms & En). clear HNm.
  destruct (plain_alloc_total P C _ (alloc_options_of o) (InputModel.in_ud _ _ inp) ds nms (history_api _ _ _ _ _ _ HH) ES En) as (nm & Ea). fold lls in Ea.
  destruct (plain_named P C (reserved_for o) _ _ _ ds nm [] _ HH ES HN Ea) as (_ & _ & Hns & Hnp & ND & WN & N0 & SN).
  destruct (HW _ _ (plain_generated P C (alloc_options_of o) _ _ _ _ _ (G m0 (le_n _)))) as ((Hready & Hpairs) & Hclear).
  assert (LP : List.length pv = List.length (nm_par nm)) by congruence.
  pose proof (level_inj nm ND) as I3. pose proof (level_par nm ND) as I4. rewrite <- LP in I4.
  pose proof (level_ident nm (wn_ident _ _ _ WN)) as I1. pose proof (param_ident nm (wn_ident _ _ _ WN)) as I2.
  assert (I5 : forall i j, (i < List.length pv)%nat -> (j < List.length pv)%nat -> param_name nm i = param_name nm j -> i = j).
  { intros i j Hi Hj E. rewrite LP in Hi, Hj. unfold param_name in E. rewrite (nth_indep _ _ "" Hi), (nth_indep _ _ "" Hj) in E. exact (proj1 (NoDup_nth _ _) (wn_par _ _ _ WN) i j Hi Hj E). }
  destruct (C51_creation_returns_partial (level_name nm) (param_name nm) sort_exprs sort_eqns reduce P (Sp v0) rows_of pv (clast_options o) (List.length (nm_scat nm)) S1 I3 I4 I5 RK res Hready Hclear) as (ss & CC).
  assert (NM : forall k, call_name_ok {| p_lang := LangC; p_callable := truth (o F_callable) |} (statement_name P C (InputModel.in_ud _ _ inp)) k = true) by (intro k; apply label_ok; right; exact SN).
  pose proof (C20_generated_is_printable _ _ sort_exprs sort_eqns reduce P (Sp v0) rows_of pv (clast_options o) _ _ _ S1 S2 I1 I2 I3 I4 NM res ss Hready Hpairs CC) as PR.
  pose proof (generated_from P (Sp v0) L [] _ m0 (InputModel.in_ctx _ _ inp) _ res (proj1 U1) (or_introl U2) Hd SL (G m0 (le_n _))) as FI.
  assert (Hn0 : List.length (nm_scat nm) = 0%nat) by (rewrite Hns; reflexivity).
  set (bs := blocks_of P 0 lls) in *. assert (HB : bs = blocks_of P (List.length (nm_scat nm)) lls) by (rewrite Hn0; reflexivity). rewrite HB in WN, N0.
  destruct (made_facts sort_exprs sort_eqns reduce P (Sp v0) rows_of pv (clast_options o) nm S1 S2 RF LP lls res ss _ WN) as [UN CB]; try assumption.
  { rewrite Forall_forall. intros l Hl. unfold statement_loops in SL. rewrite Forall_forall in SL. destruct (SL l Hl) as (d & ot & b & -> & Hdd). cbn [l_blk l_dom]. split; [discriminate|]. rewrite Hn0. lia. }
  assert (TX : exists text, program_pprint {| fo_compilable := o F_compilable; fo_callable := truth (o F_callable); fo_lang := LangC; fo_name := name; fo_version := version; fo_time := time |}
      (statement_name P C (InputModel.in_ud _ _ inp)) nm (blocks_of P (List.length (nm_scat nm)) lls) ss = Some text).
  { destruct (Z.eq_dec (o F_compilable) 0) as [K|K].
    - destruct (Z.eq_dec (o F_callable) 0) as [CA|CA].
      + rewrite K, (truth_false _ CA) in *. unfold program_pprint. cbn [fo_compilable fo_callable fo_lang fo_name fo_version fo_time negb Z.eqb andb]. destruct (program_defined {| p_lang := LangC; p_callable := false |} (statement_name P C (InputModel.in_ud _ _ inp)) eq_refl 0%nat ss PR) as (x & Ex). rewrite Ex. unfold say, cat. eexists; reflexivity.
      + rewrite (truth_true _ CA) in *. unfold reserved_for in WN. rewrite K in WN. cbn in WN.
        destruct (C46_callable_file {| fo_compilable := o F_compilable; fo_callable := true; fo_lang := LangC; fo_name := name; fo_version := version; fo_time := time |} (statement_name P C (InputModel.in_ud _ _ inp)) nm _ ss eq_refl K eq_refl ltac:(split; [exact H1|split; [exact H2|cbn; destruct time; [now apply H3|exact Logic.I]]]) WN N0 UN CB PR) as (t & f & E' & _). exists t. exact E'.
    - destruct MO as [MO|CA]; [contradiction|]. rewrite (truth_false _ CA) in *. unfold reserved_for in WN. destruct (Z.eqb_spec (o F_compilable) 0); [contradiction|].
      destruct (C46_compilable_file {| fo_compilable := o F_compilable; fo_callable := false; fo_lang := LangC; fo_name := name; fo_version := version; fo_time := time |} (statement_name P C (InputModel.in_ud _ _ inp)) nm _ ss eq_refl K ltac:(split; [exact H1|split; [exact H2|cbn; destruct time; [now apply H3|exact Logic.I]]]) WN UN CB (or_intror SN) (or_introl eq_refl) PR) as (t & f & E' & _). exists t. exact E'. }
  destruct TX as (text & TX). exists text, m0. intros m Hle. unfold cloog_main. rewrite Ho, (truth_false _ K1), (truth_false _ K2). cbn [orb]. rewrite Hr. cbn [language_of]. unfold tool_print. rewrite Ea, (G m Hle). cbv zeta. rewrite <- LP, CC. rewrite TX. reflexivity.
Qed.
Print Assumptions C50_unscattered_answers_partial.

Lemma loops_plain_clear : forall fuel res, alloc_and_generate BoxPoly BoxScat blocks_on LoopExamples.opts fuel ctx0 (unscattered [dX; dY]) = Some ([], res) ->
  writable_loops BoxPoly BoxSem (rows_box 0) [] {| co_otl := true; co_fsp := 1; co_esp := true; co_block := false; co_callable := false |} res /\ Forall (clear BoxPoly (rows_box 0) 0 0) res.
Proof.
  intros fuel res E.
  assert (Q : exists sd res, alloc_and_generate BoxPoly BoxScat blocks_on LoopExamples.opts 60 ctx0 (unscattered [dX; dY]) = Some (sd, res) /\ Forall (clear BoxPoly (rows_box 0) 0 0) res).
  { run_alloc. cbn [map unstrip].
    repeat match goal with
    | |- clear _ _ _ _ _ => constructor; [apply simple_rowsb_ok; reflexivity| |cbn [l_inner]]
    | |- Forall _ [] => constructor
    | |- Forall (clear _ _ _ _) (_ :: _) => constructor
    end.
    all: cbn [l_dom l_blk]; try (intros Hb; discriminate Hb); try (intros _ Hb; elim Hb; reflexivity).
    all: intros _ _ r s Hr Hs He _ Hp Hn; vm_compute in Hr, Hs; repeat destruct Hr as [<- |Hr]; try contradiction; repeat destruct Hs as [<- |Hs]; try contradiction; try discriminate He; try (exfalso; vm_compute in Hp; discriminate Hp); try (exfalso; vm_compute in Hn; discriminate Hn).
    all: eapply not_forced_two with (x := [0]) (p := []) (v := 0) (w := 1); try reflexivity; try discriminate; try exact Logic.I; try (vm_compute; discriminate). }
  destruct Q as (sd1 & res1 & E1 & Q).
  assert (W : (sd1, res1) = ([], res)).
  { apply ClastNames.some_eq. rewrite <- (alloc_and_generate_more _ _ _ _ _ _ 60 (60 + fuel) ltac:(lia) _ E1), <- (alloc_and_generate_more _ _ _ _ _ _ fuel (60 + fuel) ltac:(lia) _ E). reflexivity. }
  apply pair_equal_spec in W. destruct W as [-> <-]. split; [exact (loops_plain false res1 E1)|exact Q].
Qed.
Example C50_unscattered_answers_example : exists text,
  returns (fun fuel => cloog_main BoxPoly BoxScat (rows_box 0) (fun l => l) (fun l => l) keep_rows (from_table [ctx0]) (fun _ => from_table [dX; dY]) (fun _ => from_table []) (fun _ => 0%nat) "CLooG 0.18" None
    fuel (fun _ => true) (fun _ => true) (fun _ => file_plain) ["-compilable"; "3"; "x.cloog"; "-o"; "x.c"]) (Outfile "x.c", text).
Proof.
  assert (G0 : generator_options (set defaults F_compilable 3) = LoopExamples.opts) by reflexivity. assert (A0 : alloc_options_of (set defaults F_compilable 3) = blocks_on) by reflexivity.
  assert (C0 : clast_options (set defaults F_compilable 3) = {| co_otl := true; co_fsp := 1; co_esp := true; co_block := false; co_callable := false |}) by reflexivity.
  apply (C50_unscattered_answers_partial BoxPoly unit tt (fun _ => BoxSem) (fun d => List.length (LoopBox.good d)) BoxScat (fun _ => BoxRel)) with (o := set defaults F_compilable 3) (name := "x.cloog") (src := Infile "x.cloog") (pv := []) (ctx := ctx0) (ds := [dX; dY]).
  - intros _. exact library50.
  - exact box_total_laws.
  - intros eqs rows n H; right; exact H.
  - reflexivity.
  - intros _. split; [reflexivity|]. split; [reflexivity|]. split; [reflexivity|]. split; [discriminate|]. split; [discriminate|]. intro Hx. elim Hx. reflexivity.
  - reflexivity.
  - reflexivity.
  - right. reflexivity.
  - reflexivity.
  - reflexivity.
  - discriminate.
  - apply file_plain_good. intros x Hx [-> |[-> |[i ->]]]; cbn in Hx; intuition discriminate.
  - intros lang inp rest E. assert (Q : match InputModel.input_read (dom BoxPoly) (smap BoxScat) (from_table [ctx0]) (fun _ => from_table [dX; dY]) (fun _ => from_table []) (fun _ => 0%nat) (dim BoxPoly) (s_dim BoxScat) file_plain with
      | Some (_, inp, _) => match NamesModel.program_names (InputModel.in_ud _ _ inp) 0 with Some _ => true | None => false end | None => true end = true) by (vm_compute; reflexivity).
    rewrite E in Q. intros F. rewrite F in Q. discriminate Q.
  - intros fuel res E. rewrite G0, A0 in E. rewrite C0. exact (loops_plain_clear fuel res E).
Qed.
