(** Property C46, for generated programs: what the printed file prints, from the statements and
    their names.

    Specification: LoopSpec.v (instances and their dates), FileReader.v (how C files are read and
    run), FileSpec.v and EndSpec.v (names, what the files should print). *)
From Coq Require Import ZArith List Bool Arith String Ascii Permutation Lia.
From Verif Require Import LoopModel LoopSpec LoopCount LoopBox LoopExamples ClastModel ClastSpec LoopOtl ClastMain ClastExamples ClastReady ClastEnd PprintModel CReader PprintSpec PprintEnd
  PropertiesLoop PropertiesClast PropertiesPprint FileModel FileReader FileSpec EndSpec LoopFrom EndProofs PropertiesFile.
Import ListNotations.
Local Open Scope string_scope.
Local Open Scope Z_scope.

(** With -compilable K: main prints a line for every instance of the statements, each as often as
    the input has it, in the order of their dates, and at last their number. *)
Theorem C46_generated_compilable :
  forall (sort_exprs : list expr -> list expr) (sort_eqns : list eqn -> list eqn)
         (reduce : list (option (eqtype * row)) -> list row -> nat -> list row)
         (P : Poly) (Se : Sem P) (rows_of : dom P -> list row) (co : copts) (fo : fopts) (nm : names),
  let np := List.length (nm_par nm) in
  let ns := List.length (nm_scat nm) in
  let pv := repeat (fo_compilable fo) np in
  (forall l, Permutation l (sort_exprs l)) -> (forall l, Permutation l (sort_eqns l)) ->
  reduce_right pv reduce -> reduce_fits np reduce -> Laws P Se -> OrderLaws P Se ->
  fo_lang fo = LangC -> fo_compilable fo <> 0 -> header_ok fo -> NoDup (all_names nm) ->
  forall (kinds : list bool) (o : options) (fuel : nat) (ctx : dom P) (ls res : list (loop P)) (ss : list stmt),
  nonscalar kinds = ns -> well_named compilable_reserved nm (blocks_of P ns ls) ->
  plain_options P Se o -> o_strides o = false -> o_override o = false -> o_f o <> 0%Z -> o_ls o = None ->
  dim P ctx = 0%nat -> mem Se ctx [] = true -> statement_loops P kinds ls -> depth_order P kinds ls ->
  cloog_program_generate P (run_lengths kinds) o fuel ctx ls = Some res ->
  Forall (ready0 P Se rows_of pv co) res -> otl_sound P Se -> unmarked P ls -> Forall (no_pairs0 P rows_of (List.length pv)) res ->
  clast_create (level_name nm) (param_name nm) sort_exprs sort_eqns reduce P rows_of co ns np res = Some ss ->
  (fo_callable fo = false \/ ss <> []) ->
  let when (b : block) (y : list Z) := date kinds (b_scal b) (firstn (nonscalar kinds) y) in
  exists (text : string) (f : cfile) (T : list (block * list Z)),
    program_pprint fo (fun _ => None) nm (blocks_of P ns ls) ss = Some text /\ (forall g, reads_file text g <-> g = f) /\ correct f /\ f_name f = "main" /\
    (forall outs, runs f [] outs <-> outs = counted (calls_made ns T)) /\
    (forall b y, count_occ inst_eq_dec T (b, y) = input_count Se ls b y) /\
    ForallOrdPairs (fun e e' => ~ lex_lt (when (fst e') (snd e')) (when (fst e) (snd e))) T.
Proof.
  intros sort_exprs sort_eqns reduce P Se rows_of co fo nm np ns pv S1 S2 R RF L OL LC KO HO ND kinds o fuel ctx ls res ss NS WN H1 H2 H3 H4 H5 H6 H7 H8 H9 Hg Hr Ho Hu Hn CC NE when.
  pose proof (generated_from P Se L kinds o fuel ctx ls res (proj1 H1) (or_introl H2) H6 H8 Hg) as FI.
  assert (LP : List.length pv = np) by apply repeat_length. rewrite <- LP in CC, RF.
  pose proof (level_inj nm ND) as I3. pose proof (level_par nm ND) as I4. fold np in I4. rewrite <- LP in I4.
  pose proof (level_ident nm (wn_ident _ _ _ WN)) as I1. pose proof (param_ident nm (wn_ident _ _ _ WN)) as I2.
  destruct (C16_generated_code _ _ sort_exprs sort_eqns reduce P Se rows_of pv co ns S1 S2 I3 I4 R L OL kinds o fuel ctx ls res ss (with_params (nm_par nm) pv)
    H1 H2 H3 H4 H5 H6 H7 H8 H9 Hg Hr Ho Hu CC) as (T & rho' & EX & CNT & ORD).
  { intros i Hi. apply params_set; [apply (wn_par _ _ _ WN)|exact LP|exact Hi]. }
  assert (NM : forall n, call_name_ok {| p_lang := LangC; p_callable := fo_callable fo |} (fun _ => None) n = true) by (intro n; apply label_ok; now right).
  pose proof (C20_generated_is_printable _ _ sort_exprs sort_eqns reduce P Se rows_of pv co ns _ _ S1 S2 I1 I2 I3 I4 NM res ss Hr Hn CC) as PR.
  destruct (made_facts sort_exprs sort_eqns reduce P Se rows_of pv co nm S1 S2 RF LP ls res ss _ WN) as [UN CB]; try assumption.
  { rewrite Forall_forall. intros l Hl. unfold statement_loops in H8. rewrite Forall_forall in H8. destruct (H8 l Hl) as (d & ot & b & -> & Hd). cbn [l_blk l_dom]. split; [discriminate|]. fold ns. lia. }
  destruct (C46_compilable_file fo (fun _ => None) nm (blocks_of P ns ls) ss LC KO HO WN UN CB) as (text & f & E & RD & CO & FN & _ & _ & RUN); [now right|exact NE|exact PR|].
  exists text, f, T. split; [exact E|]. split; [exact RD|]. split; [exact CO|]. split; [exact FN|]. split; [|split; [exact CNT|exact ORD]]. exact (RUN rho' _ EX).
Qed.
Print Assumptions C46_generated_compilable.

(** With -callable: test, called with the values of the parameters, calls hash with the number and
    the coordinates of every instance, in the order of their dates. *)
Theorem C46_generated_callable :
  forall (sort_exprs : list expr -> list expr) (sort_eqns : list eqn -> list eqn)
         (reduce : list (option (eqtype * row)) -> list row -> nat -> list row)
         (P : Poly) (Se : Sem P) (rows_of : dom P -> list row) (co : copts) (fo : fopts) (nm : names) (stmt_name : nat -> option string) (pv : list Z),
  let np := List.length (nm_par nm) in
  let ns := List.length (nm_scat nm) in
  List.length pv = np ->
  (forall l, Permutation l (sort_exprs l)) -> (forall l, Permutation l (sort_eqns l)) ->
  reduce_right pv reduce -> reduce_fits np reduce -> Laws P Se -> OrderLaws P Se ->
  fo_lang fo = LangC -> fo_compilable fo = 0 -> fo_callable fo = true -> header_ok fo -> NoDup (all_names nm) ->
  forall (kinds : list bool) (o : options) (fuel : nat) (ctx : dom P) (ls res : list (loop P)) (ss : list stmt),
  nonscalar kinds = ns -> well_named callable_reserved nm (blocks_of P ns ls) -> ~ In 0%nat (flat_map snd (blocks_of P ns ls)) ->
  plain_options P Se o -> o_strides o = false -> o_override o = false -> o_f o <> 0%Z -> o_ls o = None ->
  dim P ctx = 0%nat -> mem Se ctx [] = true -> statement_loops P kinds ls -> depth_order P kinds ls ->
  cloog_program_generate P (run_lengths kinds) o fuel ctx ls = Some res ->
  Forall (ready0 P Se rows_of pv co) res -> otl_sound P Se -> unmarked P ls -> Forall (no_pairs0 P rows_of (List.length pv)) res ->
  clast_create (level_name nm) (param_name nm) sort_exprs sort_eqns reduce P rows_of co ns np res = Some ss -> ss <> [] ->
  let when (b : block) (y : list Z) := date kinds (b_scal b) (firstn (nonscalar kinds) y) in
  exists (text : string) (f : cfile) (T : list (block * list Z)),
    program_pprint fo stmt_name nm (blocks_of P ns ls) ss = Some text /\ (forall g, reads_file text g <-> g = f) /\ correct f /\ f_name f = "test" /\
    (forall outs, runs f pv outs <-> outs = hashed (calls_made ns T)) /\
    (forall b y, count_occ inst_eq_dec T (b, y) = input_count Se ls b y) /\
    ForallOrdPairs (fun e e' => ~ lex_lt (when (fst e') (snd e')) (when (fst e) (snd e))) T.
Proof.
  intros sort_exprs sort_eqns reduce P Se rows_of co fo nm stmt_name pv np ns LP S1 S2 R RF L OL LC KO CA HO ND kinds o fuel ctx ls res ss NS WN N0 H1 H2 H3 H4 H5 H6 H7 H8 H9 Hg Hr Ho Hu Hn CC NE when.
  pose proof (generated_from P Se L kinds o fuel ctx ls res (proj1 H1) (or_introl H2) H6 H8 Hg) as FI.
  rewrite <- LP in CC, RF.
  pose proof (level_inj nm ND) as I3. pose proof (level_par nm ND) as I4. fold np in I4. rewrite <- LP in I4.
  pose proof (level_ident nm (wn_ident _ _ _ WN)) as I1. pose proof (param_ident nm (wn_ident _ _ _ WN)) as I2.
  destruct (C16_generated_code _ _ sort_exprs sort_eqns reduce P Se rows_of pv co ns S1 S2 I3 I4 R L OL kinds o fuel ctx ls res ss (with_params (nm_par nm) pv)
    H1 H2 H3 H4 H5 H6 H7 H8 H9 Hg Hr Ho Hu CC) as (T & rho' & EX & CNT & ORD).
  { intros i Hi. apply params_set; [apply (wn_par _ _ _ WN)|exact LP|exact Hi]. }
  assert (NM : forall n, call_name_ok {| p_lang := LangC; p_callable := true |} stmt_name n = true) by (intro n; apply label_ok; now left).
  pose proof (C20_generated_is_printable _ _ sort_exprs sort_eqns reduce P Se rows_of pv co ns _ _ S1 S2 I1 I2 I3 I4 NM res ss Hr Hn CC) as PR.
  destruct (made_facts sort_exprs sort_eqns reduce P Se rows_of pv co nm S1 S2 RF LP ls res ss _ WN) as [UN CB]; try assumption.
  { rewrite Forall_forall. intros l Hl. unfold statement_loops in H8. rewrite Forall_forall in H8. destruct (H8 l Hl) as (d & ot & b & -> & Hd). cbn [l_blk l_dom]. split; [discriminate|]. fold ns. lia. }
  destruct (C46_callable_file fo stmt_name nm (blocks_of P ns ls) ss LC KO CA HO WN N0 UN CB PR) as (text & f & E & RD & CO & FN & _ & _ & RUN).
  exists text, f, T. split; [exact E|]. split; [exact RD|]. split; [exact CO|]. split; [exact FN|]. split; [|split; [exact CNT|exact ORD]].
  exact (proj2 (RUN pv LP) NE rho' _ EX).
Qed.
Print Assumptions C46_generated_callable.

(** two statements with a scattering dimension and an iterator *)
Definition kinds46 : list bool := [false].
Definition input46 : list (loop BoxPoly) := [st (B 2 [[(0, 1); (0, 1)]]) 0 []; st (B 2 [[(1, 2); (5, 6)]]) 1 []].
Definition names46' : names := {| nm_scat := ["c1"]; nm_iter := ["i"]; nm_par := [] |}.
Lemma named46' : forall R, (forall x, In x ["c1"; "i"] -> ~ R x) -> well_named R names46' (blocks_of BoxPoly 1 input46).
Proof.
  intros R H. constructor.
  - intros x Hx. cbn in Hx. intuition (subst; reflexivity).
  - repeat constructor; cbn; intuition discriminate.
  - repeat constructor; cbn; intuition discriminate.
  - constructor.
  - intros x [].
  - intros x Hx. apply H. cbn in *. tauto.
  - intros d ns [E|[E|[]]]; injection E as <- <-; cbn; repeat constructor.
  - repeat constructor; cbn; intuition discriminate.
Qed.
Lemma generated46 : exists res, cloog_program_generate BoxPoly (run_lengths kinds46) opts 60 ctx0 input46 = Some res /\
  Forall (ready0 BoxPoly BoxSem (rows_box 0) [] co1) res /\
  Forall (no_pairs0 BoxPoly (rows_box 0) 0) res /\
  exists ss, clast_create (level_name names46') (param_name names46') (fun l => l) (fun l => l) keep_rows BoxPoly (rows_box 0) co1 1 0 res = Some ss /\ ss <> [] /\
    exists rho, exec ss (fun _ => None) = Some (rho, [(1%nat, [0]); (1%nat, [1]); (1%nat, [0]); (1%nat, [1]); (2%nat, [5]); (2%nat, [6]); (2%nat, [5]); (2%nat, [6])]).
Proof.
  run_result. cbn [map unstrip]. split; [|split].
  - repeat (constructor; [apply ready0b_ok with (wit := fun _ => ([], [], [])); [|vm_compute; reflexivity]; apply eachb_ok with (q := fun l => one_box (l_dom BoxPoly l)); [intros l H; apply exact_describe, (rows_box_exact [] _ H)|vm_compute; reflexivity]|]). constructor.
  - repeat (constructor; [apply no_pairs0b_ok; vm_compute; reflexivity|]). constructor.
  - eexists. split; [vm_compute; reflexivity|]. split; [discriminate|]. eexists. vm_compute. reflexivity.
Qed.
Lemma statements46 : statement_loops BoxPoly kinds46 input46.
Proof. repeat (constructor; [eexists _, _, _; split; [reflexivity|cbn; lia]|]); constructor. Qed.
Example C46_generated_example : exists text f T text' f' T',
  reads_file text f /\ correct f /\
  (forall outs, runs f [] outs <-> outs = counted (calls_made 1 T)) /\
  count_occ inst_eq_dec T (blk 0 [], [1; 0]) = 1%nat /\ count_occ inst_eq_dec T (blk 1 [], [0; 5]) = 0%nat /\
  reads_file text' f' /\ correct f' /\ (forall outs, runs f' [] outs <-> outs = hashed (calls_made 1 T')) /\ count_occ inst_eq_dec T' (blk 1 [], [2; 5]) = 1%nat.
Proof.
  destruct generated46 as (res & Hg & Hr & Hn & ss & CC & NE & _).
  destruct (C46_generated_compilable (fun l => l) (fun l => l) keep_rows BoxPoly BoxSem (rows_box 0) co1 (options46 3 false) names46'
    (fun l => Permutation_refl l) (fun l => Permutation_refl l) (keep_rows_right _) (fun _ _ _ H => H) box_laws box_order_laws
    eq_refl ltac:(discriminate) ltac:(repeat split) ltac:(repeat constructor; cbn; intuition discriminate)
    kinds46 opts 60%nat ctx0 input46 res ss eq_refl) as (text & f & T & _ & RD & CO & _ & RU & CNT & _);
    [apply named46'; intros x Hx [-> |[-> |[i ->]]]; cbn in Hx; intuition discriminate|split; [reflexivity|split; discriminate]|reflexivity|reflexivity|discriminate|reflexivity|reflexivity|reflexivity
    |exact statements46|intro H; discriminate H|exact Hg|exact Hr|exact box_otl|repeat constructor|exact Hn|exact CC|now right|].
  destruct (C46_generated_callable (fun l => l) (fun l => l) keep_rows BoxPoly BoxSem (rows_box 0) co1 (options46 0 true) names46' (fun _ => None) [] eq_refl
    (fun l => Permutation_refl l) (fun l => Permutation_refl l) (keep_rows_right _) (fun _ _ _ H => H) box_laws box_order_laws
    eq_refl eq_refl eq_refl ltac:(repeat split) ltac:(repeat constructor; cbn; intuition discriminate)
    kinds46 opts 60%nat ctx0 input46 res ss eq_refl) as (text' & f' & T' & _ & RD' & CO' & _ & RU' & CNT' & _);
    [apply named46'; intros x Hx [-> |[-> | ->]]; cbn in Hx; intuition discriminate|cbn; intuition discriminate|split; [reflexivity|split; discriminate]|reflexivity|reflexivity|discriminate|reflexivity|reflexivity|reflexivity
    |exact statements46|intro H; discriminate H|exact Hg|exact Hr|exact box_otl|repeat constructor|exact Hn|exact CC|exact NE|].
  exists text, f, T, text', f', T'.  split; [now apply RD|]. split; [exact CO|]. split; [exact RU|]. rewrite !CNT, CNT'.
  split; [vm_compute; reflexivity|]. split; [vm_compute; reflexivity|]. split; [now apply RD'|]. split; [exact CO'|]. split; [exact RU'|]. vm_compute. reflexivity.
Qed.
