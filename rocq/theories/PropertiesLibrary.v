(** Property C52: from the calls of a program that uses the library to what the generated code does.

    Specification: LibrarySpec.v (what was asked for), ToolSpec.v (which statements run, and when), LoopSpec.v and
    ProgramSpec.v (points, dates, what isl guarantees), ClastSpec.v (what a clast means), CReader.v (how C is
    read and run). *)
From Coq Require Import ZArith List Bool Arith String Ascii Permutation Lia.
From Verif Require Import LoopModel LoopSpec LoopCount LoopBox LoopExamples ProgramModel ProgramSpec ProgramMain ProgramBox ClastModel ClastSpec LoopOtl ClastMain ClastExamples ClastReady ClastEnd
  PprintModel CReader PprintSpec PprintEnd PropertiesLoop PropertiesProgram PropertiesClast PropertiesPprint FileModel FileReader FileSpec EndSpec LoopFrom EndProofs PropertiesFile
  OptionsModel ToolModel ToolSpec ToolProofs ToolPlain PropertiesTool PropertiesPlain TerminateSpec TerminateAlloc ClastReturns PropertiesReturns TerminateBox LoopFuel PropertiesTerminate ToolTotal PropertiesAnswer LibraryModel LibrarySpec.
From Verif Require NamesModel NamesSpec NamesProofs InputModel.
Import ListNotations.
Local Open Scope string_scope.
Local Open Scope Z_scope.

Section Build.
Variables (P : Poly) (C : Scat P).
Definition made_of (a : asked (P := P) (C := C)) : NamesModel.named (dom P * option (smap C)) :=
  InputModel.made (dom P) (smap C) (dim P) (s_dim C) (a_name a) (fst (a_domain a)) (snd (a_domain a)) (a_pointer a).
Lemma added_calls : forall h : list (api_call P C), NamesSpec.added (map (call_of P C) h) = map made_of (adds h).
Proof. induction h as [|[n d s u|t i n] h IH]; [reflexivity| |]; cbn; rewrite IH; reflexivity. Qed.
Lemma build_history : forall np h ud, build P C np h = Some ud -> api_history (dom P) (smap C) (dim P) (s_dim C) np ud.
Proof.
  intros np h ud E. exists (map (call_of P C) h). split; [exact E|]. intros s Hs. rewrite added_calls in Hs. apply in_map_iff in Hs. destruct Hs as (a & <- & _). reflexivity.
Qed.
Lemma build_domains : forall np h ud, build P C np h = Some ud -> NamesModel.u_domains ud = map made_of (adds h).
Proof.
  intros np h ud E. pose proof (NamesProofs.run_spec np (map (call_of P C) h)) as H. unfold build in E. rewrite E in H. destruct H as [_ I]. rewrite (NamesProofs.I_dom _ _ _ I). apply added_calls.
Qed.
Lemma build_statements : forall np h ud, build P C np h = Some ud -> statements P C ud = map a_domain (adds h).
Proof. intros np h ud E. unfold statements. rewrite (build_domains _ _ _ E), map_map. apply map_ext. intros [[[n d] s] u]. reflexivity. Qed.
Lemma build_name : forall np h ud n, build P C np h = Some ud -> statement_name P C ud n = match nth_error (map a_name (adds h)) (n - 1) with Some x => x | None => None end.
Proof.
  intros np h ud n E. unfold statement_name. rewrite (build_domains _ _ _ E), !nth_error_map. destruct (nth_error (adds h) (n - 1)) as [[[[x d] s] u]|]; reflexivity.
Qed.
Lemma build_usr : forall np h ud n, build P C np h = Some ud -> statement_usr P C ud n = nth_error (map a_pointer (adds h)) (n - 1).
Proof.
  intros np h ud n E. unfold statement_usr. rewrite (build_domains _ _ _ E), !nth_error_map. destruct (nth_error (adds h) (n - 1)) as [[[[x d] s] u]|]; reflexivity.
Qed.
Lemma build_names_ok : forall np h ud po n, build P C np h = Some ud -> names_callable h -> call_name_ok po (statement_name P C ud) n = true.
Proof.
  intros np h ud po n E HN. destruct (p_callable po) eqn:Ep; [apply label_ok; left; exact Ep|]. unfold call_name_ok, stmt_label. rewrite Ep, (build_name _ _ _ _ E).
  assert (D : forall m, ident ("S" ++ nat_text m) && negb (is_macro ("S" ++ nat_text m)) = true).
  { intro m. pose proof (label_ok {| p_lang := LangC; p_callable := true |} (fun _ => None) m (or_introl eq_refl)) as Q. exact Q. }
  destruct (nth_error (map a_name (adds h)) (n - 1)) as [[x|]|] eqn:En; [|apply D|apply D]. destruct (HN x) as [-> ->]; [eapply nth_error_In; exact En|reflexivity].
Qed.
Lemma build_calls : forall np h ud po T, build P C np h = Some ud -> p_callable po = false -> PprintSpec.named po (statement_name P C ud) (numbered T) = called h T.
Proof.
  intros np h ud po T E Ep. unfold PprintSpec.named, numbered, called. rewrite map_map. apply map_ext. intros [k i]. cbn [fst snd]. f_equal. unfold stmt_label, called_as. rewrite Ep, (build_name _ _ _ _ E).
  replace (Datatypes.S k - 1)%nat with k by lia. destruct (nth_error (map a_name (adds h)) k) as [[x|]|]; reflexivity.
Qed.
Lemma alloc_parameters : forall ao (ud : udom P C) nm sd lls, tool_alloc P C ao ud = Some (nm, sd, lls) ->
  exists n, NamesModel.program_names ud (nb_scattdims P C (statements P C ud)) = Some n /\ nm_par nm = NamesModel.n_parameters n.
Proof.
  intros ao ud nm sd lls E. unfold tool_alloc in E. destruct (NamesModel.program_names ud _) as [n|]; [|discriminate]. destruct (program_alloc P C ao _) as [[sd' ls]|]; [|discriminate].
  destruct (NamesModel.scalarize n _ _) as [n'|] eqn:Es; [|discriminate]. destruct (printed_names n') as [nm'|] eqn:Ep; [|discriminate]. injection E as <- _ _. exists n. split; [reflexivity|].
  destruct (printed_sub _ _ Ep) as (_ & _ & -> & _). unfold NamesModel.scalarize in Es. destruct (nb_scattdims P C (statements P C ud)) as [|m]; [injection Es as <-; reflexivity|].
  destruct (_ <? _)%nat; [discriminate|]. cbv zeta in Es. destruct (_ =? _)%nat; [injection Es as <-; reflexivity|]. destruct (_ <? _)%nat; [discriminate|].
  destruct (NamesModel.scalar_split _ _) as [[a b]|]; [|discriminate]. destruct (_ <? _)%nat; [discriminate|]. injection Es as <-. reflexivity.
Qed.
End Build.

Definition parameters_are (n : NamesModel.names) (pv : list Z) (rho : env) : Prop := forall i x, nth_error (NamesModel.n_parameters n) i = Some x -> rho x = Some (nth i pv 0).
Lemma par_values n nm pv rho : nm_par nm = NamesModel.n_parameters n -> List.length pv = List.length (nm_par nm) -> parameters_are n pv rho ->
  forall i, (i < List.length pv)%nat -> rho (param_name nm i) = Some (nth i pv 0).
Proof.
  intros E LP HP i Hi. apply HP. unfold param_name. rewrite <- E. apply nth_error_nth'. rewrite <- LP. exact Hi.
Qed.

(** The generated code: printed, it can be read in only one way; for all values of its variables that agree
    with [pv] on the parameters, it calls, by the names asked for, each statement once at each point of its
    domain, and in the order of the dates (C34 says when blocks keep the order).  A program that walks
    the clast instead sees the same statements in the same order, and finds in each the pointer that it gave. *)
Theorem C52_library_partial :
  forall (P : Poly) (Se : Sem P) (C : Scat P) (rel : ScatSem C) (rows_of : dom P -> list row)
         (sort_exprs : list expr -> list expr) (sort_eqns : list eqn -> list eqn) (reduce : list (option (eqtype * row)) -> list row -> nat -> list row)
         (o : opts) (h : list (api_call P C)) (pv : list Z) (ctx : dom P) (input : list (dom P * smap C)) ud n fuel ss indent,
  library_right P Se C rel sort_exprs sort_eqns reduce pv -> usual_options P Se o -> o F_callable = 0 ->
  build P C (List.length pv) h = Some ud -> map a_domain (adds h) = all_scattered input -> names_callable h ->
  input <> [] -> dated Se rel input -> flat_last input -> dim P ctx = 0%nat -> mem Se ctx [] = true ->
  NamesModel.program_names ud (nb_scattdims P C (all_scattered input)) = Some n -> names_fit (fun _ => False) n ->
  (forall scaldims res, alloc_and_generate P C (alloc_options_of o) (generator_options o) fuel ctx (all_scattered input) = Some (scaldims, res) -> writable_loops P Se rows_of pv (clast_options o) res) ->
  clast_create_from_input P C rows_of sort_exprs sort_eqns reduce fuel o ctx ud = Some ss ->
  (forall k, statement_usr P C ud (Datatypes.S k) = nth_error (map a_pointer (adds h)) k) /\
  exists text p, library_pprint P C o ud indent ss = Some text /\ (forall q, reads text q <-> q = p) /\
  forall rho, parameters_are n pv rho ->
  exists rho' T, exec ss rho = Some (rho', numbered T) /\
    (forall rho2 t2, crun program_macros p rho rho2 t2 <-> rho2 = rho' /\ t2 = called h T) /\
    each_once Se input T /\ (blocks_keep_order Se rel o input -> in_order rel input T).
Proof.
  intros P Se C rel rows_of sort_exprs sort_eqns reduce o h pv ctx input ud n fuel ss indent (L & OL & OS & CL & S1 & S2 & R & RF) UO CA EB ES0 NC Hne Hdt Hfl Hd Hc Hn HN HW Et.
  split; [intro k; rewrite (build_usr P C _ _ _ _ EB); f_equal; lia|].
  unfold clast_create_from_input in Et. destruct (tool_alloc P C (alloc_options_of o) ud) as [[[nm sd] lls]|] eqn:Ea; [|discriminate].
  pose proof (build_history P C _ _ _ EB) as HH. assert (ES : statements P C ud = all_scattered input) by (rewrite (build_statements P C _ _ _ EB); exact ES0).
  assert (HN' : forall n', NamesModel.program_names ud (nb_scattdims P C (all_scattered input)) = Some n' -> names_fit (fun _ => False) n') by (intros n' E'; rewrite Hn in E'; apply ClastNames.some_eq in E'; subst n'; exact HN).
  destruct (alloc_named_api P Se C rel L CL (fun _ => False) _ _ _ input nm sd lls HH ES Hne Hdt HN' Ea) as (ls & Epa & -> & Hns & Hnp & ND & WN & N0).
  destruct (alloc_parameters P C _ _ _ _ _ Ea) as (n1 & En1 & Epar). rewrite ES, Hn in En1. apply ClastNames.some_eq in En1. subst n1.
  destruct (cloog_program_generate P sd (generator_options o) fuel ctx (map (to_loop P) ls)) as [res|] eqn:Eg; [|discriminate]. rename Et into CC.
  assert (Hag : alloc_and_generate P C (alloc_options_of o) (generator_options o) fuel ctx (all_scattered input) = Some (sd, res)) by (unfold alloc_and_generate; rewrite Epa, Eg; reflexivity).
  destruct (HW _ _ Hag) as (Hready & Hpairs). destruct (usual_plain P Se o UO) as (U1 & U2 & U3 & U4 & U5).
  destruct (alloc_shape P Se C rel L CL _ input sd ls Hdt Hne Epa) as (Bs & kinds & G & HS).
  pose proof (shape_statement_loops P Se C rel L _ _ _ _ _ _ _ HS) as SL.
  pose proof (sh_sd _ _ _ _ _ _ _ _ _ _ _ HS) as Esd. pose proof Eg as Eg'. rewrite Esd in Eg'.
  assert (Hotl : Forall (otl_right P Se []) res).
  { apply (generated_otl P Se L kinds (generator_options o) fuel ctx (map (to_loop P) ls) res OS (proj1 U1) (or_introl U2) Hd Hc SL); [|exact Eg']. apply Forall_map. rewrite Forall_forall. intros pl _. reflexivity. }
  assert (LP : List.length pv = List.length (nm_par nm)) by congruence. rewrite <- LP in CC.
  pose proof (level_inj nm ND) as I3. pose proof (level_par nm ND) as I4. rewrite <- LP in I4.
  pose proof (level_ident nm (wn_ident _ _ _ WN)) as I1. pose proof (param_ident nm (wn_ident _ _ _ WN)) as I2.
  set (po := {| p_lang := LangC; p_callable := truth (o F_callable) |}). assert (Ep : p_callable po = false) by (cbn; apply truth_false; exact CA).
  pose proof (C20_generated_is_printable _ _ sort_exprs sort_eqns reduce P Se rows_of pv (clast_options o) _ po (statement_name P C ud) S1 S2 I1 I2 I3 I4 (fun k => build_names_ok P C _ _ _ po k EB NC) res ss Hready Hpairs CC) as PR.
  destruct (C20_program_round_trip po (statement_name P C ud) eq_refl indent ss PR (or_introl Ep)) as (text & p & ET & RD & RUN).
  exists text, p. split; [exact ET|]. split; [exact RD|]. intros rho HP.
  destruct (C16_clast_runs_loops _ _ sort_exprs sort_eqns reduce P Se rows_of pv (clast_options o) _ S1 S2 I3 I4 R res ss rho CC Hready Hotl (par_values n nm pv rho Epar LP HP)) as (Ls & rho' & RU & EX).
  destruct (program_run P Se C rel L CL _ _ fuel ctx input sd res U1 U2 Hd Hc Hne Hdt Hfl Hag Ls RU) as (T & ETr & EO & OO).
  rewrite Hns, ETr in EX. exists rho', T. split; [exact EX|]. split; [|split; [exact EO|]].
  - intros rho2 t2. rewrite (RUN _ _ _ EX rho2 t2), (build_calls P C _ _ _ po T EB Ep). reflexivity.
  - intro BK. apply OO. destruct BK as [B|[B|[B1 B2]]].
    + eapply C02_program_order_partial; eauto. left. cbn. now apply truth_true.
    + eapply C02_program_order_partial; eauto. right. cbn. now apply truth_true.
    + eapply C34_blocking_keeps_order_partial; eauto.
Qed.
Print Assumptions C52_library_partial.

(** Without scattering functions: in the lexicographic order of the iterators that all statements have. *)
Theorem C52_library_unscattered_partial :
  forall (P : Poly) (Se : Sem P) (C : Scat P) (rel : ScatSem C) (rows_of : dom P -> list row)
         (sort_exprs : list expr -> list expr) (sort_eqns : list eqn -> list eqn) (reduce : list (option (eqtype * row)) -> list row -> nat -> list row)
         (o : opts) (h : list (api_call P C)) (pv : list Z) (ctx : dom P) (ds : list (dom P)) ud n fuel ss indent,
  library_right P Se C rel sort_exprs sort_eqns reduce pv -> usual_options P Se o -> o F_callable = 0 ->
  build P C (List.length pv) h = Some ud -> map a_domain (adds h) = unscattered ds -> names_callable h ->
  dim P ctx = 0%nat -> mem Se ctx [] = true ->
  NamesModel.program_names ud 0 = Some n -> names_fit (fun _ => False) n ->
  (forall res, alloc_and_generate P C (alloc_options_of o) (generator_options o) fuel ctx (unscattered ds) = Some ([], res) -> writable_loops P Se rows_of pv (clast_options o) res) ->
  clast_create_from_input P C rows_of sort_exprs sort_eqns reduce fuel o ctx ud = Some ss ->
  (forall k, statement_usr P C ud (Datatypes.S k) = nth_error (map a_pointer (adds h)) k) /\
  exists text p, library_pprint P C o ud indent ss = Some text /\ (forall q, reads text q <-> q = p) /\
  forall rho, parameters_are n pv rho ->
  exists rho' T, exec ss rho = Some (rho', numbered T) /\
    (forall rho2 t2, crun program_macros p rho rho2 t2 <-> rho2 = rho' /\ t2 = called h T) /\
    each_point_once Se ds T /\
    (forall m, scans_iterators o m -> Forall (fun d => (m <= dim P d)%nat) ds -> lexicographic m T) /\
    (forall m, scans_iterators o m -> Forall (fun d => dim P d = m) ds -> textual_ties T).
Proof.
  intros P Se C rel rows_of sort_exprs sort_eqns reduce o h pv ctx ds ud n fuel ss indent (L & OL & OS & CL & S1 & S2 & R & RF) UO CA EB ES0 NC Hd Hc Hn HN HW Et.
  split; [intro k; rewrite (build_usr P C _ _ _ _ EB); f_equal; lia|].
  unfold clast_create_from_input in Et. destruct (tool_alloc P C (alloc_options_of o) ud) as [[[nm sd] lls]|] eqn:Ea; [|discriminate].
  pose proof (build_history P C _ _ _ EB) as HH. assert (ES : statements P C ud = unscattered ds) by (rewrite (build_statements P C _ _ _ EB); exact ES0).
  assert (HN' : forall n', NamesModel.program_names ud 0 = Some n' -> names_fit (fun _ => False) n') by (intros n' E'; rewrite Hn in E'; apply ClastNames.some_eq in E'; subst n'; exact HN).
  destruct (plain_named_api P C (fun _ => False) _ _ _ ds nm sd lls HH ES HN' Ea) as (-> & -> & Hns & Hnp & ND & WN & N0).
  destruct (alloc_parameters P C _ _ _ _ _ Ea) as (n1 & En1 & Epar).
  assert (E0 : nb_scattdims P C (unscattered ds) = 0%nat).
  { unfold nb_scattdims, unscattered. assert (Q : flat_map (fun x : dom P * option (smap C) => match snd x with Some s => [s] | None => [] end) (map (fun d => (d, None)) ds) = []) by (clear; induction ds; cbn; auto). rewrite Q. reflexivity. }
  rewrite ES, E0, Hn in En1. apply ClastNames.some_eq in En1. subst n1.
  destruct (cloog_program_generate P [] (generator_options o) fuel ctx (map (to_loop P) (from_domains P 0 ds))) as [res|] eqn:Eg; [|discriminate]. rename Et into CC.
  destruct (HW _ (plain_generated P C (alloc_options_of o) _ _ _ _ _ Eg)) as (Hready & Hpairs). destruct (usual_plain P Se o UO) as (U1 & U2 & U3 & U4 & U5).
  pose proof (plain_loops P ds) as SL.
  assert (Hotl : Forall (otl_right P Se []) res).
  { apply (generated_otl P Se L [] (generator_options o) fuel ctx (map (to_loop P) (from_domains P 0 ds)) res OS (proj1 U1) (or_introl U2) Hd Hc SL); [|exact Eg]. apply Forall_map. rewrite Forall_forall. intros pl _. reflexivity. }
  assert (LP : List.length pv = List.length (nm_par nm)) by congruence. rewrite <- LP in CC.
  pose proof (level_inj nm ND) as I3. pose proof (level_par nm ND) as I4. rewrite <- LP in I4.
  pose proof (level_ident nm (wn_ident _ _ _ WN)) as I1. pose proof (param_ident nm (wn_ident _ _ _ WN)) as I2.
  set (po := {| p_lang := LangC; p_callable := truth (o F_callable) |}). assert (Ep : p_callable po = false) by (cbn; apply truth_false; exact CA).
  pose proof (C20_generated_is_printable _ _ sort_exprs sort_eqns reduce P Se rows_of pv (clast_options o) _ po (statement_name P C ud) S1 S2 I1 I2 I3 I4 (fun k => build_names_ok P C _ _ _ po k EB NC) res ss Hready Hpairs CC) as PR.
  destruct (C20_program_round_trip po (statement_name P C ud) eq_refl indent ss PR (or_introl Ep)) as (text & p & ET & RD & RUN).
  exists text, p. split; [exact ET|]. split; [exact RD|]. intros rho HP.
  destruct (C16_clast_runs_loops _ _ sort_exprs sort_eqns reduce P Se rows_of pv (clast_options o) _ S1 S2 I3 I4 R res ss rho CC Hready Hotl (par_values n nm pv rho Epar LP HP)) as (Ls & rho' & RU & EX).
  destruct (plain_run P Se C L (alloc_options_of o) (generator_options o) fuel ctx ds res U1 U2 Hd Hc Eg Ls RU) as (T & ETr & EO & OO1 & OO2).
  assert (Hn0 : List.length (nm_scat nm) = 0%nat) by (rewrite Hns; reflexivity). rewrite Hn0, ETr in EX. exists rho', T. split; [exact EX|]. split; [|split; [exact EO|]].
  - intros rho2 t2. rewrite (RUN _ _ _ EX rho2 t2), (build_calls P C _ _ _ po T EB Ep). reflexivity.
  - split; intros m Hm HD; [exact (OO1 m OL (scans_safe _ _ (scans_command _ _ Hm)) HD)|exact (OO2 m OL (scans_safe _ _ (scans_command _ _ Hm)) HD)].
Qed.
Print Assumptions C52_library_unscattered_partial.

(** cloog_clast_create_from_input comes to an end: all amounts of fuel from some point on give the same clast.
    [V] are the values of the parameters, [v0] those equal to [pv]. *)
Theorem C52_library_answers_partial :
  forall (P : Poly) (V : Type) (v0 : V) (Sp : V -> Sem P) (nparts : dom P -> nat) (C : Scat P) (rel : V -> ScatSem C) (rows_of : dom P -> list row)
         (sort_exprs : list expr -> list expr) (sort_eqns : list eqn -> list eqn) (reduce : list (option (eqtype * row)) -> list row -> nat -> list row)
         (o : opts) (h : list (api_call P C)) (pv : list Z) (ctx : dom P) (input : list (dom P * smap C)) ud n k,
  (forall v, library_right P (Sp v) C (rel v) sort_exprs sort_eqns reduce pv) -> TotalLaws P V Sp nparts -> erase_keeps_scalars C -> reduce_keeps reduce ->
  (forall v, usual_options P (Sp v) o) ->
  build P C (List.length pv) h = Some ud -> map a_domain (adds h) = all_scattered input ->
  input <> [] -> (forall v, dated (Sp v) (rel v) input) -> (forall x, In x input -> s_dim C (snd x) = k) -> flat_last input -> dim P ctx = 0%nat -> mem (Sp v0) ctx [] = true ->
  NamesModel.program_names ud (nb_scattdims P C (all_scattered input)) = Some n -> names_fit (fun _ => False) n ->
  (forall fuel scaldims res, alloc_and_generate P C (alloc_options_of o) (generator_options o) fuel ctx (all_scattered input) = Some (scaldims, res) ->
     writable_loops P (Sp v0) rows_of pv (clast_options o) res /\ Forall (clear P rows_of (List.length pv) 0) res) ->
  exists ss, returns (fun fuel => clast_create_from_input P C rows_of sort_exprs sort_eqns reduce fuel o ctx ud) ss.
Proof.
  intros P V v0 Sp nparts C rel rows_of sort_exprs sort_eqns reduce o h pv ctx input ud n k LR TL ER RK UO EB ES0 Hne Hdt Hdim Hfl Hd Hc Hn HN HW.
  destruct (LR v0) as (L & OL & OS & CL & S1 & S2 & R & RF).
  destruct (usual_plain P (Sp v0) o (UO v0)) as (U1 & U2 & U3 & U4 & U5).
  destruct (C45_program_returns_partial P V v0 Sp nparts C rel (fun v => proj1 (LR v)) TL (fun v => proj1 (proj2 (proj2 (proj2 (LR v))))) ER (alloc_options_of o) (generator_options o) ctx input k
    (fun v => proj1 (usual_plain P (Sp v) o (UO v))) U2 Hd Hne Hdt Hfl Hdim) as (sd & res & (m0 & Hm) & _).
  assert (A : exists ls, program_alloc P C (alloc_options_of o) (all_scattered input) = Some (sd, ls)).
  { specialize (Hm m0 (le_n _)). unfold alloc_and_generate in Hm. destruct (program_alloc _ _ _ _) as [[sd' ls']|]; [|discriminate]. destruct (cloog_program_generate _ _ _ _ _ _); [|discriminate].
    apply ClastNames.some_eq in Hm. apply pair_equal_spec in Hm. destruct Hm as [-> _]. eexists; reflexivity. }
  destruct A as (ls & Epa).
  assert (G : forall m, (m0 <= m)%nat -> cloog_program_generate P sd (generator_options o) m ctx (map (to_loop P) ls) = Some res).
  { intros m Hle. specialize (Hm m Hle). unfold alloc_and_generate in Hm. rewrite Epa in Hm. destruct (cloog_program_generate _ _ _ _ _ _) as [r|]; [|discriminate]. apply ClastNames.some_eq in Hm. apply pair_equal_spec in Hm. destruct Hm as [_ ->]. reflexivity. }
  pose proof (build_history P C _ _ _ EB) as HH. assert (ES : statements P C ud = all_scattered input) by (rewrite (build_statements P C _ _ _ EB); exact ES0).
  assert (HN' : forall n', NamesModel.program_names ud (nb_scattdims P C (all_scattered input)) = Some n' -> names_fit (fun _ => False) n') by (intros n' E'; rewrite Hn in E'; apply ClastNames.some_eq in E'; subst n'; exact HN).
  pose proof Hn as En. rewrite (nb_same P C input k Hne Hdim) in En.
  destruct (tool_alloc_total P C _ (alloc_options_of o) ud input k n sd ls HH ES Hne Hdim En Epa) as (nm & Ea).
  destruct (alloc_named_api P (Sp v0) C (rel v0) L CL (fun _ => False) _ _ _ input nm sd _ HH ES Hne (Hdt v0) HN' Ea) as (ls' & Epa' & Els & Hns & Hnp & ND & WN & N0).
  destruct (HW _ _ _ (Hm m0 (le_n _))) as ((Hready & Hpairs) & Hclear).
  assert (LP : List.length pv = List.length (nm_par nm)) by congruence.
  pose proof (level_inj nm ND) as I3. pose proof (level_par nm ND) as I4. rewrite <- LP in I4.
  assert (I5 : forall i j, (i < List.length pv)%nat -> (j < List.length pv)%nat -> param_name nm i = param_name nm j -> i = j).
  { intros i j Hi Hj E. rewrite LP in Hi, Hj. unfold param_name in E. rewrite (nth_indep _ _ "" Hi), (nth_indep _ _ "" Hj) in E. exact (proj1 (NoDup_nth _ _) (wn_par _ _ _ WN) i j Hi Hj E). }
  destruct (C51_creation_returns_partial (level_name nm) (param_name nm) sort_exprs sort_eqns reduce P (Sp v0) rows_of pv (clast_options o) (List.length (nm_scat nm)) S1 I3 I4 I5 RK res Hready Hclear) as (ss & CC).
  exists ss, m0. intros m Hle. unfold clast_create_from_input. rewrite Ea, (G m Hle), <- LP. exact CC.
Qed.
Print Assumptions C52_library_answers_partial.
Theorem C52_unscattered_answers_partial :
  forall (P : Poly) (V : Type) (v0 : V) (Sp : V -> Sem P) (nparts : dom P -> nat) (C : Scat P) (rel : V -> ScatSem C) (rows_of : dom P -> list row)
         (sort_exprs : list expr -> list expr) (sort_eqns : list eqn -> list eqn) (reduce : list (option (eqtype * row)) -> list row -> nat -> list row)
         (o : opts) (h : list (api_call P C)) (pv : list Z) (ctx : dom P) (ds : list (dom P)) ud n,
  (forall v, library_right P (Sp v) C (rel v) sort_exprs sort_eqns reduce pv) -> TotalLaws P V Sp nparts -> reduce_keeps reduce ->
  (forall v, usual_options P (Sp v) o) ->
  build P C (List.length pv) h = Some ud -> map a_domain (adds h) = unscattered ds -> dim P ctx = 0%nat -> mem (Sp v0) ctx [] = true ->
  NamesModel.program_names ud 0 = Some n -> names_fit (fun _ => False) n ->
  (forall fuel res, alloc_and_generate P C (alloc_options_of o) (generator_options o) fuel ctx (unscattered ds) = Some ([], res) ->
     writable_loops P (Sp v0) rows_of pv (clast_options o) res /\ Forall (clear P rows_of (List.length pv) 0) res) ->
  exists ss, returns (fun fuel => clast_create_from_input P C rows_of sort_exprs sort_eqns reduce fuel o ctx ud) ss.
Proof.
  intros P V v0 Sp nparts C rel rows_of sort_exprs sort_eqns reduce o h pv ctx ds ud n LR TL RK UO EB ES0 Hd Hc Hn HN HW.
  destruct (LR v0) as (L & OL & OS & CL & S1 & S2 & R & RF).
  destruct (usual_plain P (Sp v0) o (UO v0)) as (U1 & U2 & U3 & U4 & U5). set (lls := map (to_loop P) (from_domains P 0 ds)).
  pose proof (plain_loops P ds) as SL. fold lls in SL.
  destruct (C45_generation_returns_partial P V v0 Sp nparts (fun v => proj1 (LR v)) TL [] (generator_options o) ctx lls
    (fun v => proj1 (usual_plain P (Sp v) o (UO v))) (fun v Hs => False_ind _ (Bool.diff_false_true (eq_trans (eq_sym U2) Hs))) Hd SL (plain_depth P lls)) as (res & (m0 & G) & _). change (run_lengths []) with (@nil nat) in G.
  pose proof (build_history P C _ _ _ EB) as HH. assert (ES : statements P C ud = unscattered ds) by (rewrite (build_statements P C _ _ _ EB); exact ES0).
  assert (HN' : forall n', NamesModel.program_names ud 0 = Some n' -> names_fit (fun _ => False) n') by (intros n' E'; rewrite Hn in E'; apply ClastNames.some_eq in E'; subst n'; exact HN).
  destruct (plain_alloc_total P C _ (alloc_options_of o) ud ds n HH ES Hn) as (nm & Ea). fold lls in Ea.
  destruct (plain_named_api P C (fun _ => False) _ _ _ ds nm [] _ HH ES HN' Ea) as (_ & _ & Hns & Hnp & ND & WN & N0).
  destruct (HW _ _ (plain_generated P C (alloc_options_of o) _ _ _ _ _ (G m0 (le_n _)))) as ((Hready & Hpairs) & Hclear).
  assert (LP : List.length pv = List.length (nm_par nm)) by congruence.
  pose proof (level_inj nm ND) as I3. pose proof (level_par nm ND) as I4. rewrite <- LP in I4.
  assert (I5 : forall i j, (i < List.length pv)%nat -> (j < List.length pv)%nat -> param_name nm i = param_name nm j -> i = j).
  { intros i j Hi Hj E. rewrite LP in Hi, Hj. unfold param_name in E. rewrite (nth_indep _ _ "" Hi), (nth_indep _ _ "" Hj) in E. exact (proj1 (NoDup_nth _ _) (wn_par _ _ _ WN) i j Hi Hj E). }
  destruct (C51_creation_returns_partial (level_name nm) (param_name nm) sort_exprs sort_eqns reduce P (Sp v0) rows_of pv (clast_options o) (List.length (nm_scat nm)) S1 I3 I4 I5 RK res Hready Hclear) as (ss & CC).
  exists ss, m0. intros m Hle. unfold clast_create_from_input. rewrite Ea, (G m Hle), <- LP. exact CC.
Qed.
Print Assumptions C52_unscattered_answers_partial.

Lemma from_input_more : forall (P : Poly) (C : Scat P) rows_of sort_exprs sort_eqns reduce o ctx ud n m, (n <= m)%nat -> forall ss,
  clast_create_from_input P C rows_of sort_exprs sort_eqns reduce n o ctx ud = Some ss -> clast_create_from_input P C rows_of sort_exprs sort_eqns reduce m o ctx ud = Some ss.
Proof.
  intros P C rows_of sort_exprs sort_eqns reduce o ctx ud n m Hle ss. unfold clast_create_from_input. destruct (tool_alloc _ _ _ _) as [[[nm sd] lls]|]; [|discriminate].
  destruct (cloog_program_generate P sd (generator_options o) n ctx lls) as [res|] eqn:E; [|discriminate]. rewrite (generate_more _ _ _ _ _ _ _ Hle _ E). exact (fun H => H).
Qed.

(** ** examples *)
(** The two statements of C34_example, the first called load, with the pointers 7 and 9; the iterator is
    called t. *)
Definition calls52 : list (api_call BoxPoly BoxScat) := [AddDomain (Some "load") dA (Some sA) 7; AddDomain None dA (Some sB) 9; SetDimName NamesModel.CLOOG_ITER 0 "t"].
Lemma usual52 : usual_options BoxPoly BoxSem defaults.
Proof. split; [reflexivity|]. split; [reflexivity|]. split; [reflexivity|]. split; [discriminate|]. split; [discriminate|]. intro Hx. elim Hx. reflexivity. Qed.
Definition lib52 := clast_create_from_input BoxPoly BoxScat (rows_box 0) (fun l => l) (fun l => l) keep_rows.
Example C52_example : exists ud ss text p,
  build BoxPoly BoxScat 0 calls52 = Some ud /\ lib52 60 defaults ctx0 ud = Some ss /\ library_pprint BoxPoly BoxScat defaults ud 0 ss = Some text /\ reads text p /\
  statement_usr BoxPoly BoxScat ud 1 = Some 7%nat /\ statement_usr BoxPoly BoxScat ud 2 = Some 9%nat /\
  returns (fun fuel => lib52 fuel defaults ctx0 ud) ss /\
  forall rho, exists rho', exec ss rho = Some (rho', numbered [(0%nat, [0]); (1%nat, [0]); (0%nat, [1]); (1%nat, [1])]) /\
    forall rho2 t2, crun program_macros p rho rho2 t2 <-> rho2 = rho' /\ t2 = [("load", [0]); ("S2", [0]); ("load", [1]); ("S2", [1])].
Proof.
  destruct inputA_ok as (H1 & H2 & H3 & H4).
  assert (G0 : generator_options defaults = LoopExamples.opts) by reflexivity. assert (A0 : alloc_options_of defaults = blocks_on) by reflexivity.
  assert (C0 : clast_options defaults = {| co_otl := true; co_fsp := 1; co_esp := true; co_block := false; co_callable := false |}) by reflexivity.
  assert (B : exists ud, build BoxPoly BoxScat 0 calls52 = Some ud) by (eexists; reflexivity). destruct B as (ud & B).
  assert (N : exists n, NamesModel.program_names ud (nb_scattdims BoxPoly BoxScat (all_scattered inputA)) = Some n /\ names_fit (fun _ => False) n).
  { injection B as <-. eexists. split; [reflexivity|]. split.
    - cbn. repeat constructor; cbn; intuition discriminate.
    - intros x Hx. cbn in Hx. split; [|exact (fun F => F)]. intuition (subst; reflexivity). }
  destruct N as (n & N1 & N2).
  assert (K : names_callable calls52) by (intros x [E|[E|[]]]; [injection E as <-; split; reflexivity|discriminate E]).
  assert (E : exists ss, lib52 60 defaults ctx0 ud = Some ss /\ forall rho, exists rho', exec ss rho = Some (rho', numbered [(0%nat, [0]); (1%nat, [0]); (0%nat, [1]); (1%nat, [1])])).
  { injection B as <-. eexists. split; [vm_compute; reflexivity|]. intro rho. eexists. cbv. reflexivity. }
  destruct E as (ss & E & X).
  destruct (C52_library_partial BoxPoly BoxSem BoxScat BoxRel (rows_box 0) (fun l => l) (fun l => l) keep_rows defaults calls52 [] ctx0 inputA ud n 60 ss 0) as (U & text & p & T1 & T2 & T3);
    [exact library50|exact usual52|reflexivity|exact B|reflexivity|exact K|discriminate|exact H1|exact H4|reflexivity|reflexivity|exact N1|exact N2| |exact E|].
  { intros sd res R. rewrite G0, A0 in R. rewrite C0. exact (loops50 false sd res R). }
  destruct (C52_library_answers_partial BoxPoly unit tt (fun _ => BoxSem) (fun d => List.length (LoopBox.good d)) BoxScat (fun _ => BoxRel) (rows_box 0) (fun l => l) (fun l => l) keep_rows defaults calls52 [] ctx0 inputA ud n 3) as (ss' & m0 & RT);
    [intros _; exact library50|exact box_total_laws|exact box_erase|intros eqs rows k Hk; right; exact Hk|intros _; exact usual52|exact B|reflexivity|discriminate|intros _; exact H1|intros x [<- |[<- |[]]]; reflexivity|exact H4|reflexivity|reflexivity|exact N1|exact N2| |].
  { intros fuel sd res R. rewrite G0, A0 in R. rewrite C0. exact (loops50_clear fuel sd res R). }
  exists ud, ss, text, p. split; [exact B|]. split; [exact E|]. split; [exact T1|]. split; [now apply T2|]. split; [exact (U 0%nat)|]. split; [exact (U 1%nat)|]. split.
  - assert (Q : ss' = ss).
    { apply ClastNames.some_eq. rewrite <- (RT (m0 + 60)%nat ltac:(lia)). exact (from_input_more BoxPoly BoxScat (rows_box 0) (fun l => l) (fun l => l) keep_rows defaults ctx0 ud 60 (m0 + 60) ltac:(lia) ss E). }
    rewrite <- Q. exists m0. exact RT.
  - intro rho. destruct (X rho) as (rho' & X'). exists rho'. split; [exact X'|]. destruct (T3 rho) as (rho1 & T & X1 & R1 & _); [intros i x Hx; injection B as <-; vm_compute in N1; apply ClastNames.some_eq in N1; subst n; destruct i; discriminate Hx|].
    rewrite X' in X1. apply ClastNames.some_eq in X1. apply pair_equal_spec in X1. destruct X1 as [<- X1]. intros rho2 t2. rewrite (R1 rho2 t2).
    assert (T = [(0%nat, [0]); (1%nat, [0]); (0%nat, [1]); (1%nat, [1])]) as ->; [|reflexivity].
    clear - X1. unfold numbered in X1. cbn [map fst snd] in X1. destruct T as [|[a a'] [|[b b'] [|[c c'] [|[d d'] [|]]]]]; cbn in X1; try discriminate X1. injection X1 as <- <- <- <- <- <- <- <-. reflexivity.
Qed.

(** No scattering functions, one parameter called size with the value 5, and two statements of the same name. *)
Definition calls52p : list (api_call BoxPoly BoxScat) := [AddDomain (Some "f") dX None 1; SetDimName NamesModel.CLOOG_PARAM 0 "size"; AddDomain (Some "f") dY None 2].
Lemma library52 : library_right BoxPoly BoxSem BoxScat BoxRel (fun l => l) (fun l => l) keep_rows [5].
Proof. split; [exact box_laws|]. split; [exact box_order_laws|]. split; [exact box_otl|]. split; [exact box_scat_laws|]. split; [intro; apply Permutation_refl|]. split; [intro; apply Permutation_refl|]. split; [apply keep_rows_right|intros ? ? ? H; exact H]. Qed.
Lemma loops52 : forall res, alloc_and_generate BoxPoly BoxScat blocks_on LoopExamples.opts 60 ctx0 (unscattered [dX; dY]) = Some ([], res) ->
  writable_loops BoxPoly BoxSem (rows_box 1) [5] {| co_otl := true; co_fsp := 1; co_esp := true; co_block := false; co_callable := false |} res.
Proof.
  intros res E. set (co := {| co_otl := true; co_fsp := 1; co_esp := true; co_block := false; co_callable := false |}).
  assert (Q : exists sd res, alloc_and_generate BoxPoly BoxScat blocks_on LoopExamples.opts 60 ctx0 (unscattered [dX; dY]) = Some (sd, res) /\ writable_loops BoxPoly BoxSem (rows_box 1) [5] co res).
  { run_alloc. cbn [map unstrip]. unfold writable_loops. split.
    - constructor; [|constructor]. apply ready0b_ok with (wit := fun _ => ([], [], [])); [apply eachb_ok with (q := fun l => one_box (l_dom BoxPoly l)); [intros l0 Hl; apply exact_describe, (rows_box_exact [5] _ Hl)|vm_compute; reflexivity]|].
      vm_compute; reflexivity.
    - constructor; [|constructor]. apply no_pairs0b_ok; vm_compute; reflexivity. }
  destruct Q as (sd' & res' & E' & Q). rewrite E' in E. apply ClastNames.some_eq in E. apply pair_equal_spec in E. destruct E as [_ <-]. exact Q.
Qed.
Example C52_unscattered_example : exists ud n ss text p,
  build BoxPoly BoxScat 1 calls52p = Some ud /\ NamesModel.program_names ud 0 = Some n /\ NamesModel.n_parameters n = ["size"] /\
  clast_create_from_input BoxPoly BoxScat (rows_box 1) (fun l => l) (fun l => l) keep_rows 60 defaults ctx0 ud = Some ss /\
  library_pprint BoxPoly BoxScat defaults ud 0 ss = Some text /\ reads text p /\
  forall rho, rho "size" = Some 5 -> exists rho' T, (forall rho2 t2, crun program_macros p rho rho2 t2 <-> rho2 = rho' /\ t2 = called calls52p T) /\
    each_point_once BoxSem [dX; dY] T /\ lexicographic 2 T /\ textual_ties T.
Proof.
  destruct C02_unscattered_example as (_ & D2 & _). assert (D2' : Forall (fun d => (2 <= dim BoxPoly d)%nat) [dX; dY]) by (eapply Forall_impl; [|exact D2]; intros d Hd; cbv beta in Hd; lia).
  assert (G0 : generator_options defaults = LoopExamples.opts) by reflexivity. assert (A0 : alloc_options_of defaults = blocks_on) by reflexivity.
  assert (C0 : clast_options defaults = {| co_otl := true; co_fsp := 1; co_esp := true; co_block := false; co_callable := false |}) by reflexivity.
  assert (B : exists ud, build BoxPoly BoxScat 1 calls52p = Some ud) by (eexists; reflexivity). destruct B as (ud & B).
  assert (N : exists n, NamesModel.program_names ud 0 = Some n /\ NamesModel.n_parameters n = ["size"] /\ names_fit (fun _ => False) n).
  { injection B as <-. eexists. split; [reflexivity|]. split; [reflexivity|]. split.
    - cbn. repeat constructor; cbn; intuition discriminate.
    - intros x Hx. cbn in Hx. split; [|exact (fun F => F)]. intuition (subst; reflexivity). }
  destruct N as (n & N1 & N3 & N2).
  assert (E : exists ss, clast_create_from_input BoxPoly BoxScat (rows_box 1) (fun l => l) (fun l => l) keep_rows 60 defaults ctx0 ud = Some ss) by (injection B as <-; eexists; vm_compute; reflexivity).
  destruct E as (ss & E).
  destruct (C52_library_unscattered_partial BoxPoly BoxSem BoxScat BoxRel (rows_box 1) (fun l => l) (fun l => l) keep_rows defaults calls52p [5] ctx0 [dX; dY] ud n 60 ss 0) as (U & text & p & T1 & T2 & T3);
    [exact library52|exact usual52|reflexivity|exact B|reflexivity| |reflexivity|reflexivity|exact N1|exact N2| |exact E|].
  { intros x [Hx|[Hx|[]]]; injection Hx as <-; split; reflexivity. }
  { intros res R. rewrite G0, A0 in R. rewrite C0. exact (loops52 res R). }
  exists ud, n, ss, text, p. split; [exact B|]. split; [exact N1|]. split; [exact N3|]. split; [exact E|]. split; [exact T1|]. split; [now apply T2|]. intros rho Hrho.
  destruct (T3 rho) as (rho' & T & _ & R & EO & O1 & O2); [intros i x Hx; rewrite N3 in Hx; destruct i as [|[|i]]; [injection Hx as <-; exact Hrho|discriminate Hx|discriminate Hx]|].
  exists rho', T. split; [exact R|]. split; [exact EO|]. assert (SC : scans_iterators defaults 2) by (split; [reflexivity|left; reflexivity]). split; [exact (O1 2%nat SC D2')|exact (O2 2%nat SC D2)].
Qed.
