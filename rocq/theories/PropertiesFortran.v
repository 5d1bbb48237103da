(** Property C48: programs printed in Fortran.

    Specification: LoopSpec.v (instances and their dates), FReader.v (how Fortran texts are read and
    run), FSpec.v (names and statements that can be printed in Fortran). *)
From Coq Require Import ZArith List Bool Arith String Ascii QArith Permutation Lia.
From Verif Require Import LoopModel LoopSpec LoopCount LoopBox LoopExamples ClastModel ClastSpec LoopOtl ClastMain ClastExamples ClastReady ClastEnd PprintModel CReader PprintSpec PprintEnd
  PropertiesLoop PropertiesClast PropertiesPprint FileModel FileReader FileSpec EndSpec LoopFrom LoopNoStride EndProofs PropertiesFile PropertiesEnd
  FReader FReal FSpec FStmt FEnd FExact FFile FClast.
Import ListNotations.
Local Open Scope string_scope.
Local Open Scope Z_scope.

(** Printed statements are a program that can be read in exactly one way, unless a line is too
    long; it has exactly one run, which makes the calls of the statements in their order, however
    reals are rounded to nearest, as long as the quotients that are rounded are small. *)
Theorem C48_program_round_trip :
  forall (o : popts) (stmt_name : nat -> option string), p_lang o = LangFortran ->
  forall (indent : nat) (ss : list stmt),
  forallb (fprintable_stmt o stmt_name) ss = true -> case_distinct (flat_map stmt_vars ss) -> p_callable o = false \/ ss <> [] ->
  exists text p, clast_pprint o stmt_name indent ss = Some text /\ (forall q, freads text q <-> q = p /\ lines_fit 0 text = true) /\
  forall rnd rho rho' t rf, nearest rnd -> exec_with small_eval ss rho = Some (rho', t) -> fagree (flat_map stmt_vars ss) rho rf ->
    exists rf', fagree (flat_map stmt_vars ss) rho' rf' /\ forall rf2 t2, frun rnd p rf rf2 t2 <-> rf2 = rf' /\ t2 = fnamed o stmt_name t.
Proof. exact fprogram_text. Qed.
Print Assumptions C48_program_round_trip.
(** Executions with small quotients are the executions of the statements; without floors and
    ceilings all executions are. *)
Theorem C48_small_is_exact : forall ss rho,
  (forall r, exec_with small_eval ss rho = Some r -> exec ss rho = Some r) /\
  (forallb unrounded_stmt ss = true -> exec_with small_eval ss rho = exec ss rho).
Proof. intros ss rho. split; [apply sexec_exec|]. intro H. now apply unrounded_exec. Qed.
Print Assumptions C48_small_is_exact.
(** There are roundings to nearest. *)
Theorem C48_rounding_exists : nearest round24.
Proof. exact nearest_round24. Qed.
Print Assumptions C48_rounding_exists.

Definition pof : popts := {| p_lang := LangFortran; p_callable := false |}.
Definition id x := ETerm 1 (Some (EName x)).
(** IF ((N>=2) .AND. (MOD(N, 3)==0)) THEN
      DO i=CEILING(REAL(-N+1)/REAL(2)), MIN(N-1,10)
        j = 2*i/3 ... *)
Definition program48 : list stmt :=
  [SGuard [{| e_lhs := id "N"; e_rhs := Some (ETerm 2 None); e_sign := 1 |};
           {| e_lhs := EBin BMod (ERed RSum [id "N"]) 3; e_rhs := Some (ETerm 0 None); e_sign := 0 |}]
     [SFor "i" (Some (EBin BCdiv (ERed RSum [ETerm (-1) (Some (EName "N")); ETerm 1 None]) 2)) (Some (ERed RMin [ERed RSum [id "N"; ETerm (-1) None]; ETerm 4 None])) 1
        [SAss "j" (Some (EBin BDiv (ERed RSum [ETerm 2 (Some (EName "i"))]) 3)); SUser 1 [Some (id "i"); Some (EBin BFdiv (ERed RSum [id "i"; id "N"]) 4)]; SUser 2 [Some (id "j")]]]].
Example C48_program_example :
  exists text p rf', clast_pprint pof (fun _ => None) 0 program48 = Some text /\ freads text p /\
    frun round24 p (fun s => if String.eqb s "n" then Some 6 else None) rf'
      (flat_map (fun i => [("s1", [i; (i + 6) / 4]); ("s2", [Z.quot (2 * i) 3])]) [-2; -1; 0; 1; 2; 3; 4]).
Proof.
  destruct (C48_program_round_trip pof (fun _ => None) eq_refl 0 program48) as (text & p & E & RD & RUN); [vm_compute; reflexivity| |now left|].
  { intros x y Hx Hy. cbn in Hx, Hy. intuition (subst; try reflexivity; try discriminate). }
  assert (F : lines_fit 0 text = true).
  { assert (X : match clast_pprint pof (fun _ => None) 0 program48 with Some t => lines_fit 0 t | None => false end = true) by (vm_compute; reflexivity). rewrite E in X. exact X. }
  assert (G : exists r, exec_with small_eval program48 (fun s => if String.eqb s "N" then Some 6 else None) =
    Some (r, flat_map (fun i => [(1%nat, [i; (i + 6) / 4]); (2%nat, [Z.quot (2 * i) 3])]) [-2; -1; 0; 1; 2; 3; 4])) by (eexists; vm_compute; reflexivity).
  destruct G as (r & G). destruct (RUN round24 _ r _ (fun s => if String.eqb s "n" then Some 6 else None) nearest_round24 G) as (rf' & _ & R).
  { intros x z Hx. cbn in Hx. intuition (subst; try discriminate; assumption). }
  exists text, p, rf'. split; [exact E|]. split; [now apply RD|]. apply R. split; [reflexivity|]. vm_compute. reflexivity.
Qed.

(** From statement domains to the calls made by the program in the printed file, for programs
    generated without -strides and without -block. *)
Theorem C48_generated_file_runs_partial :
  forall (sort_exprs : list expr -> list expr) (sort_eqns : list eqn -> list eqn)
         (reduce : list (option (eqtype * row)) -> list row -> nat -> list row)
         (P : Poly) (Se : Sem P) (rows_of : dom P -> list row) (co : copts) (fo : fopts) (nm : names) (stmt_name : nat -> option string) (pv : list Z),
  let np := List.length (nm_par nm) in
  let ns := List.length (nm_scat nm) in
  let label n := stmt_label {| p_lang := LangFortran; p_callable := fo_callable fo |} stmt_name n in
  List.length pv = np -> co_block co = false -> co_callable co = false ->
  (forall l, Permutation l (sort_exprs l)) -> (forall l, Permutation l (sort_eqns l)) ->
  reduce_right pv reduce -> reduce_fits np reduce -> Laws P Se -> OrderLaws P Se ->
  fo_lang fo = LangFortran -> fo_callable fo = false -> fheader_ok fo -> NoDup (all_names nm) ->
  (forall x, In x (all_names nm) -> fname x = true) -> case_distinct (all_names nm) ->
  forall (kinds : list bool) (o : options) (fuel : nat) (ctx : dom P) (ls res : list (loop P)) (ss : list stmt),
  nonscalar kinds = ns -> well_named (fun _ => False) nm (blocks_of P ns ls) ->
  (forall n, In n (flat_map snd (blocks_of P ns ls)) -> fname (label n) = true) ->
  plain_options P Se o -> o_strides o = false -> o_override o = false -> o_f o <> 0%Z -> o_ls o = None ->
  dim P ctx = 0%nat -> mem Se ctx [] = true -> statement_loops P kinds ls -> depth_order P kinds ls ->
  cloog_program_generate P (run_lengths kinds) o fuel ctx ls = Some res ->
  Forall (ready0 P Se rows_of pv co) res -> otl_sound P Se -> unmarked P ls -> Forall (no_pairs0 P rows_of (List.length pv)) res ->
  clast_create (level_name nm) (param_name nm) sort_exprs sort_eqns reduce P rows_of co ns np res = Some ss ->
  exec_with small_eval ss (with_params (nm_par nm) pv) <> None ->
  let when (b : block) (y : list Z) := date kinds (b_scal b) (firstn (nonscalar kinds) y) in
  let calls T := flat_map (fun e : block * list Z => map (fun n => (lower (label n), skipn ns (snd e))) (b_stmts (fst e))) T in
  exists (text : string) (p : list fstmt) (T : list (block * list Z)),
    program_pprint fo stmt_name nm (blocks_of P ns ls) ss = Some text /\ (forall q, freads text q <-> q = p /\ lines_fit 0 text = true) /\
    (forall rnd rf, nearest rnd -> (forall i, (i < np)%nat -> rf (lower (nth i (nm_par nm) "")) = Some (nth i pv 0)) ->
       (exists rf', frun rnd p rf rf' (calls T)) /\ forall rf' t, frun rnd p rf rf' t -> t = calls T) /\
    (forall b y, count_occ inst_eq_dec T (b, y) = input_count Se ls b y) /\
    ForallOrdPairs (fun e e' => ~ lex_lt (when (fst e') (snd e')) (when (fst e) (snd e))) T.
Proof.
  intros sort_exprs sort_eqns reduce P Se rows_of co fo nm stmt_name pv np ns label LP CB0 CC0 S1 S2 R RF L OL LF CA HO ND FN CD kinds o fuel ctx ls res ss NS WN FL
    H1 H2 H3 H4 H5 H6 H7 H8 H9 Hg Hr Ho Hu Hn CC SM when calls.
  pose proof (generated_from P Se L kinds o fuel ctx ls res (proj1 H1) (or_introl H2) H6 H8 Hg) as FI.
  rewrite <- LP in CC, RF.
  pose proof (level_inj nm ND) as I3. pose proof (level_par nm ND) as I4. fold np in I4. rewrite <- LP in I4.
  pose proof (level_ident nm (wn_ident _ _ _ WN)) as I1. pose proof (param_ident nm (wn_ident _ _ _ WN)) as I2.
  destruct (C16_generated_code _ _ sort_exprs sort_eqns reduce P Se rows_of pv co ns S1 S2 I3 I4 R L OL kinds o fuel ctx ls res ss (with_params (nm_par nm) pv)
    H1 H2 H3 H4 H5 H6 H7 H8 H9 Hg Hr Ho Hu CC) as (T & rho' & EX & CNT & ORD).
  { intros i Hi. apply params_set; [apply (wn_par _ _ _ WN)|exact LP|exact Hi]. }
  set (poc := {| p_lang := LangC; p_callable := false |}).
  assert (NM : forall n, call_name_ok poc (fun _ => None) n = true) by (intro n; apply label_ok; now right).
  pose proof (C20_generated_is_printable _ _ sort_exprs sort_eqns reduce P Se rows_of pv co ns _ _ S1 S2 I1 I2 I3 I4 NM res ss Hr Hn CC) as PR.
  destruct (made_facts sort_exprs sort_eqns reduce P Se rows_of pv co nm S1 S2 RF LP ls res ss _ WN) as [UN CB]; try assumption.
  { rewrite Forall_forall. intros l Hl. unfold statement_loops in H8. rewrite Forall_forall in H8. destruct (H8 l Hl) as (d & ot & b & -> & Hd). cbn [l_blk l_dom]. split; [discriminate|]. fold ns. lia. }
  assert (PL : Forall (each_loop (fun l => l_st P l = None)) res).
  { unfold cloog_program_generate in Hg. eapply (generate_plain P); [|eapply statements_plain; exact H8|exact Hg]. unfold sanitize. destruct (o_override o); exact H2. }
  pose proof (create_flat _ _ sort_exprs sort_eqns reduce P rows_of (List.length pv) S1 S2 co ns CB0 CC0 res ss PL CC) as FS.
  set (po := {| p_lang := LangFortran; p_callable := fo_callable fo |}).
  assert (FP : forallb (fprintable_stmt po stmt_name) ss = true).
  { rewrite forallb_forall in *. intros s Hs. apply (flat_stmt_fprintable po poc stmt_name (fun _ => None)); [now apply FS| | |now apply PR].
    - intros x Hx. apply FN, UN, in_flat_map. now exists s.
    - intros [n d] Hc. apply FL. destruct (CB n d) as (ns' & B1 & B2); [apply in_flat_map; now exists s|]. apply in_flat_map. now exists (d, ns'). }
  assert (CDs : case_distinct (flat_map stmt_vars ss)) by (intros x y Hx Hy; apply CD; now apply UN).
  destruct (file_text fo stmt_name nm (blocks_of P ns ls) ss LF HO FP CDs (or_introl CA)) as (text & p & E & RD & RUN).
  exists text, p, T. split; [exact E|]. split; [exact RD|]. split; [|split; [exact CNT|exact ORD]].
  destruct (exec_with small_eval ss (with_params (nm_par nm) pv)) as [[r t]|] eqn:SX; [|congruence]. pose proof (sexec_exec _ _ _ SX) as SE. rewrite EX in SE. injection SE as _ <-.
  intros rnd rf RN PS. assert (A : fagree (flat_map stmt_vars ss) (with_params (nm_par nm) pv) rf).
  { intros x z _ Hx. clear - PS Hx LP. unfold np in *. clear np. revert pv LP PS Hx. induction (nm_par nm) as [|q ps IH]; intros [|v pv] LP PS Hx; try discriminate.
    cbn [with_params] in Hx. unfold assign in Hx. destruct (String.eqb_spec q x) as [-> |NE].
    - injection Hx as <-. apply (PS 0%nat). cbn. lia.
    - apply (IH pv); [now injection LP| |exact Hx]. intros i Hi. apply (PS (S i)). cbn. lia. }
  assert (EC : fnamed po stmt_name (flat_map (fun e => map (fun n => (n, skipn ns (snd e))) (b_stmts (fst e))) T) = calls T).
  { unfold fnamed, calls, label. fold po. clear. induction T as [|e T IH]; [reflexivity|]. cbn [flat_map]. rewrite map_app, IH, map_map. reflexivity. }
  destruct (RUN rnd _ _ _ rf RN SX A) as (rf' & _ & RU). rewrite <- EC. split; [exists rf'; now apply RU|]. intros rf2 t2 H. now apply RU in H.
Qed.
Print Assumptions C48_generated_file_runs_partial.
Definition fo48 : fopts := {| fo_compilable := 0; fo_callable := false; fo_lang := LangFortran; fo_name := "x.cloog"; fo_version := "CLooG"; fo_time := None |}.
Example C48_generated_example : exists text p T rf',
  freads text p /\ frun round24 p (fun _ => None) rf' (flat_map (fun e : block * list Z => map (fun n => (lower ("S" ++ nat_text n), skipn 1 (snd e))) (b_stmts (fst e))) T) /\
  count_occ inst_eq_dec T (blk 0 [], [1; 0]) = 1%nat /\ count_occ inst_eq_dec T (blk 1 [], [0; 5]) = 0%nat.
Proof.
  destruct generated46 as (res & Hg & Hr & Hn & ss & CC & NE & (rho & EX)).
  assert (U : forallb unrounded_stmt ss = true /\ match program_pprint fo48 (fun _ => None) names46' (blocks_of BoxPoly (List.length (nm_scat names46')) input46) ss with Some t => lines_fit 0 t | None => false end = true).
  { revert Hg CC. clear. intros Hg CC. assert (X : option_map (fun res => clast_create (level_name names46') (param_name names46') (fun l => l) (fun l => l) keep_rows BoxPoly (rows_box 0) co1 1 0 res)
      (cloog_program_generate BoxPoly (run_lengths kinds46) opts 60 ctx0 input46) = Some (Some ss)) by (rewrite Hg; cbn [option_map]; now rewrite CC).
    clear Hg CC res. vm_compute in X. injection X as <-. split; vm_compute; reflexivity. }
  destruct U as [U1 U2].
  destruct (C48_generated_file_runs_partial (fun l => l) (fun l => l) keep_rows BoxPoly BoxSem (rows_box 0) co1 fo48 names46' (fun _ => None) [] eq_refl eq_refl eq_refl
    (fun l => Permutation_refl l) (fun l => Permutation_refl l) (keep_rows_right _) (fun _ _ _ H => H) box_laws box_order_laws
    eq_refl eq_refl ltac:(repeat split) ltac:(repeat constructor; cbn; intuition discriminate)) with (kinds := kinds46) (o := opts) (fuel := 60%nat) (ctx := ctx0) (ls := input46) (res := res) (ss := ss)
    as (text & p & T & E & RD & RU & CNT & _);
    [intros x Hx; cbn in Hx; intuition (subst; reflexivity)|intros x y Hx Hy; cbn in Hx, Hy; intuition (subst; try reflexivity; try discriminate)|reflexivity
    |apply named46'; intros x _ []|intros n Hn0; cbn in Hn0; intuition (subst; reflexivity)|split; [reflexivity|split; discriminate]|reflexivity|reflexivity|discriminate|reflexivity|reflexivity|reflexivity
    |exact statements46|intro H; discriminate H|exact Hg|exact Hr|exact box_otl|repeat constructor|exact Hn|exact CC|rewrite unrounded_exec by exact U1; cbn [with_params nm_par names46']; rewrite EX; discriminate|].
  rewrite E in U2. destruct (RU round24 (fun _ => None) nearest_round24) as [(rf' & R) _]; [intros i Hi; cbn in Hi; lia|].
  exists text, p, T, rf'. split; [apply RD; split; [reflexivity|exact U2]|]. split; [exact R|]. rewrite !CNT. split; vm_compute; reflexivity.
Qed.

(** *** what goes wrong *)
(** -block: braces are no Fortran.  The statements are those made for the loop i = 3. *)
Definition co_braces : copts := {| co_otl := true; co_fsp := 2; co_esp := true; co_block := true; co_callable := false |}.
Theorem C48_block_refuted : exists (ls : list (loop RowPoly)) ss text,
  clast_create iname pname (fun l => l) (fun l => l) keep_rows RowPoly rrows co_braces 0 0 ls = Some ss /\
  exec ss (fun _ => None) = Some (assign (fun _ => None) "i_" 3, [(1%nat, [3])]) /\
  clast_pprint pof (fun _ => None) 0 ss = Some text /\ forall p, ~ freads text p.
Proof.
  exists [rloop 0 [] None [rloop 1 [eq0 [1] (-3)] None [rstmt 1 [] 1]]]. eexists. eexists. split; [vm_compute; reflexivity|]. split; [vm_compute; reflexivity|].
  split; [vm_compute; reflexivity|]. intros p (_ & fuel & H). destruct fuel as [|fuel]; [discriminate|]. vm_compute in H. discriminate.
Qed.
Print Assumptions C48_block_refuted.
(** floors of large quotients: S1(floord(N,2)) with N = 33554435 calls S1(16777218) *)
Theorem C48_large_quotient_refuted : exists ss text p, forallb (fprintable_stmt pof (fun _ => None)) ss = true /\
  clast_pprint pof (fun _ => None) 0 ss = Some text /\ freads text p /\
  exec ss (fun _ => Some 33554435) = Some (fun _ => Some 33554435, [(1%nat, [16777217])]) /\
  forall rnd rho t, nearest rnd -> frun rnd p (fun _ => Some 33554435) rho t -> t = [("s1", [16777218])].
Proof.
  exists [SUser 1 [Some (EBin BFdiv (id "N") 2)]]. eexists. exists [FLine "s1" [FCall "floor" [FBin CDiv (FCall "real" [FVar "n"]) (FCall "real" [FInt 2])]]].
  split; [reflexivity|]. split; [vm_compute; reflexivity|]. split; [split; [vm_compute; reflexivity|exists 40%nat; vm_compute; reflexivity]|]. split; [reflexivity|].
  intros rnd rho t R H. inversion H as [|s p rho0 rho1 t1 rho2 t2 H1 H2]; subst. inversion H2; subst. inversion H1 as [|f es rho0 zs NI V| | |]; subst. rewrite app_nil_r. f_equal. f_equal.
  cbn [fints] in V. unfold fint in V. cbn [feval option_map] in V. change (fcall_meaning rnd "real" [VInt 33554435]) with (Some (VReal (rnd (inject_Z 33554435)))) in V.
  change (fcall_meaning rnd "real" [VInt 2]) with (Some (VReal (rnd (inject_Z 2)))) in V. cbn [fbin_meaning] in V.
  destruct (Qeq_bool (rnd (inject_Z 2)) 0) eqn:Z0.
  - cbn in V. discriminate V.
  - change (fcall_meaning rnd "floor" [VReal (rnd (rnd (inject_Z 33554435) / rnd (inject_Z 2))%Q)]) with (Some (VInt (Qround.Qfloor (rnd (rnd (inject_Z 33554435) / rnd (inject_Z 2))%Q)))) in V.
    rewrite (floor_large rnd R) in V. now injection V as <-.
Qed.
Print Assumptions C48_large_quotient_refuted.
(** An iterator m and a parameter M are the same variable in Fortran. *)
Theorem C48_case_refuted : exists ss text p, forallb (fprintable_stmt pof (fun _ => None)) ss = true /\
  clast_pprint pof (fun _ => None) 0 ss = Some text /\ freads text p /\
  (exists rho, exec ss (with_params ["M"] [5]) = Some (rho, [(1%nat, [0; 5]); (1%nat, [1; 5])])) /\
  forall rnd rf rho t, rf "m" = Some 5 -> frun rnd p rf rho t -> t = [("s1", [0; 0]); ("s1", [1; 1])].
Proof.
  exists [SFor "m" (Some (ETerm 0 None)) (Some (ETerm 1 None)) 1 [SUser 1 [Some (id "m"); Some (id "M")]]]. eexists.
  exists [FDo "m" (FInt 0) (FInt 1) None [FLine "s1" [FVar "m"; FVar "m"]]].
  split; [reflexivity|]. split; [vm_compute; reflexivity|]. split; [split; [vm_compute; reflexivity|exists 40%nat; vm_compute; reflexivity]|]. split; [eexists; vm_compute; reflexivity|].
  intros rnd rf rho t _ H. assert (X : exists r, frun rnd [FDo "m" (FInt 0) (FInt 1) None [FLine "s1" [FVar "m"; FVar "m"]]] rf r [("s1", [0; 0]); ("s1", [1; 1])]).
  { eexists. change [("s1", [0; 0]); ("s1", [1; 1])] with (([("s1", [0; 0])] ++ [("s1", [1; 1])] ++ []) ++ [])%list. eapply F_cons; [|apply F_nil]. eapply F_do; try reflexivity; [discriminate|].
    change (iteration_count 0 1 1) with 2%nat. eapply F_more; [reflexivity| | |eapply F_more; [reflexivity| | |apply F_stop]].
    1,3: change [("s1", ?v)] with ([("s1", v)] ++ [])%list; eapply F_cons; [apply F_line; reflexivity|apply F_nil].
    all: reflexivity. }
  destruct X as (r & X). exact (proj2 (proj2 (proj2 (frun_unique rnd)) _ _ _ _ X _ _ H)).
Qed.
Print Assumptions C48_case_refuted.
(** Lines are not broken: an argument that is a sum of fifty parameters. *)
Theorem C48_long_line_refuted : exists ss text, forallb (fprintable_stmt pof (fun _ => None)) ss = true /\
  clast_pprint pof (fun _ => None) 0 ss = Some text /\ forall p, ~ freads text p.
Proof.
  exists [SUser 1 [Some (ERed RSum (map (fun n => id ("N" ++ nat_text n)) (seq 1 50)))]]. eexists. split; [vm_compute; reflexivity|]. split; [vm_compute; reflexivity|].
  intros p (F & _). vm_compute in F. discriminate.
Qed.
Print Assumptions C48_long_line_refuted.
