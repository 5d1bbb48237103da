(** Properties of the printed text (C19-C22).  CReader.v reads C text and runs it, and does not
    depend on the printer; PprintSpec.v says which statements are printable. *)
From Coq Require Import ZArith List Bool Arith String Ascii Permutation Lia.
From Verif Require Import LoopModel LoopSpec LoopCount LoopBox LoopExamples PropertiesLoop ClastModel ClastSpec LoopOtl ClastMain ClastExamples ClastReady ClastEnd PropertiesClast
  PprintModel CReader PprintSpec PprintLex PprintParse PprintExpr PprintStmt ClastPrint PprintEnd.
Import ListNotations.
Local Open Scope string_scope.
Local Open Scope Z_scope.

(** ** C19: the macros *)
(** [program_macros]: the texts of the four macros, read as C.  Used on any arguments, for any
    numerator and positive denominator, they compute floor, ceiling, maximum and minimum. *)
Theorem C19_macros :
  forall (rho : env) (e1 e2 : cexpr) (x y : Z), value program_macros rho e1 = Some x -> value program_macros rho e2 = Some y ->
  (0 < y -> exists q, value program_macros rho (CCall "floord" [e1; e2]) = Some q /\ q * y <= x < (q + 1) * y) /\
  (0 < y -> exists q, value program_macros rho (CCall "ceild" [e1; e2]) = Some q /\ (q - 1) * y < x <= q * y) /\
  (exists m, value program_macros rho (CCall "max" [e1; e2]) = Some m /\ x <= m /\ y <= m /\ (m = x \/ m = y)) /\
  (exists m, value program_macros rho (CCall "min" [e1; e2]) = Some m /\ m <= x /\ m <= y /\ (m = x \/ m = y)).
Proof.
  intros rho e1 e2 x y H1 H2. repeat split.
  - intro D. exists (x / y). split; [now apply value_floord|]. pose proof (Z.div_mod x y ltac:(lia)). pose proof (Z.mod_pos_bound x y D). lia.
  - intro D. exists (- (- x / y)). split; [now apply value_ceild|]. pose proof (Z.div_mod (- x) y ltac:(lia)). pose proof (Z.mod_pos_bound (- x) y D). lia.
  - exists (Z.max x y). split; [now apply value_max|]. lia.
  - exists (Z.min x y). split; [now apply value_min|]. lia.
Qed.
Print Assumptions C19_macros.
Definition num (z : Z) : cexpr := CInt z.
Example C19_example :
  List.length program_macros = 4%nat /\
  map (fun x => value program_macros (params []) (CCall "floord" [num x; num 3])) [-4; -3; -2; -1; 0; 1; 2; 3] = map Some [-2; -1; -1; -1; 0; 0; 0; 1] /\
  map (fun x => value program_macros (params []) (CCall "ceild" [num x; num 3])) [-4; -3; -2; -1; 0; 1; 2; 3] = map Some [-1; -1; 0; 0; 0; 1; 1; 1].
Proof. repeat split; reflexivity. Qed.

(** Every loop bound made from constraints is printed as one expression of C, which has the
    value of the bound. *)
Theorem C19_bounds_print_right :
  forall (iter_name par_name : nat -> string) (sort_exprs : list expr -> list expr),
  (forall l, Permutation l (sort_exprs l)) ->
  (forall i, ident (iter_name (S i)) = true) -> (forall j, ident (par_name j) = true) ->
  forall (n : nat) (rows : list row) (level : nat) (low : bool) (st : option (Z * Z)) (e : expr),
  minmax iter_name par_name sort_exprs n rows level low 0 false st = Some e ->
  exists text c, pprint_expr LangC e = Some text /\ (forall c', reads_expr text c' <-> c' = c) /\
    forall rho z, eval rho e = Some z -> value program_macros rho c = Some z.
Proof.
  intros iter_name par_name sort_exprs S1 I1 I2 n rows level low st e H.
  destruct (minmax_facts iter_name par_name sort_exprs S1 I1 I2 _ _ _ _ _ _ _ _ H) as [PR _].
  now apply expr_text.
Qed.
Print Assumptions C19_bounds_print_right.
Definition po : popts := {| p_lang := LangC; p_callable := false |}.
Lemma ticks_id n : all_chars is_idchar (ticks n) = true.
Proof. induction n as [|n IH]; [reflexivity|]. cbn [ticks all_chars]. rewrite IH. reflexivity. Qed.
Lemma iname_ident i : ident (iname (S i)) = true.
Proof. unfold ident, iname. change (ticks (S i)) with (String "_" (ticks i)). cbn [all_chars]. rewrite ticks_id. reflexivity. Qed.
Lemma pname_ident j : ident (pname j) = true.
Proof. unfold ident, pname. rewrite ticks_id. destruct j; reflexivity. Qed.
(** 3j >= i + N - 5, 2j >= -N, j >= 1: a maximum of two rounded quotients and a number *)
Example C19_bounds_example :
  (forall i, ident (iname (S i)) = true) /\ (forall j, ident (pname j) = true) /\
  exists e text c, minmax iname pname (fun l => l) 2 [ge [-1; 3; -1] 5; ge [0; 2; 1] 0; ge [0; 1; 0] (-1)] 2 true 0 false None = Some e /\
  pprint_expr LangC e = Some text /\ text = "max(max(ceild(i_+p-5,3),ceild(-p,2)),1)" /\ reads_expr text c /\
  eval (assign (params [8]) (iname 1) 2) e = Some 2 /\ value program_macros (assign (params [8]) (iname 1) 2) c = Some 2.
Proof.
  split; [exact iname_ident|]. split; [exact pname_ident|]. do 3 eexists. split; [vm_compute; reflexivity|]. split; [vm_compute; reflexivity|]. split; [reflexivity|].
  split; [exists 60%nat; vm_compute; reflexivity|]. split; vm_compute; reflexivity.
Qed.

(** ** C20: the printed text means what the statements mean *)
(** An expression: the text is read as exactly one expression of C, with the same value. *)
Theorem C20_expression_round_trip :
  forall (e : expr), printable LvAdd e = true ->
  exists text c, pprint_expr LangC e = Some text /\ (forall c', reads_expr text c' <-> c' = c) /\
    forall rho z, eval rho e = Some z -> value program_macros rho c = Some z.
Proof. exact expr_text. Qed.
Print Assumptions C20_expression_round_trip.
(** -2i+3*floor((j-4)/5) and a minimum; a sum that starts with a negative term *)
Definition e20 : expr :=
  ERed RMin [ERed RSum [ETerm (-2) (Some (EName "i")); ETerm 1 (Some (EName "j")); ETerm (-7) None];
             EBin BFdiv (ERed RSum [ETerm 1 (Some (EName "j")); ETerm (-4) None]) 5;
             ETerm (-3) (Some (ERed RSum [ETerm 1 (Some (EName "i")); ETerm 4 None]))].
Example C20_expression_example : printable LvAdd e20 = true /\ pprint_expr LangC e20 = Some "min(min(-2*i+j-7,floord(j-4,5)),-3*(i+4))".
Proof. split; reflexivity. Qed.
(** Not every tree a caller can build prints right: a term whose variable is a quotient is printed
    without parentheses, so 2*(x/3) is printed as 2*x/3. *)
Theorem C20_any_expression_refuted :
  exists (e : expr) text c rho x, pprint_expr LangC e = Some text /\ reads_expr text c /\
    eval rho e = Some x /\ value program_macros rho c <> Some x.
Proof.
  exists (ETerm 2 (Some (EBin BDiv (EName "x") 3))), "2*x/3". exists (COp CDiv (COp CMul (CInt 2) (CVar "x")) (CInt 3)).
  exists (fun _ => Some 2), 0. split; [reflexivity|]. split; [exists 40%nat; reflexivity|]. split; [reflexivity|]. vm_compute. discriminate.
Qed.
Print Assumptions C20_any_expression_refuted.

(** A whole program: the text is read as exactly one program of C, and whenever the statements
    run, that program has exactly one run, which makes the same calls in the same order. *)
Theorem C20_program_round_trip :
  forall (o : popts) (stmt_name : nat -> option string), p_lang o = LangC ->
  forall (indent : nat) (ss : list stmt),
  forallb (printable_stmt o stmt_name) ss = true -> p_callable o = false \/ ss <> [] ->
  exists text p, clast_pprint o stmt_name indent ss = Some text /\ (forall q, reads text q <-> q = p) /\
  forall rho rho' t, exec ss rho = Some (rho', t) ->
    forall rho2 t2, crun program_macros p rho rho2 t2 <-> rho2 = rho' /\ t2 = named o stmt_name t.
Proof. exact program_text. Qed.
Print Assumptions C20_program_round_trip.

(** From constraints to text: the statements made from a loop structure are printable when the
    names are identifiers and no level is fixed by a pair of inequalities (see C21). *)
Theorem C20_generated_is_printable :
  forall (iter_name par_name : nat -> string) (sort_exprs : list expr -> list expr) (sort_eqns : list eqn -> list eqn)
         (reduce : list (option (eqtype * row)) -> list row -> nat -> list row)
         (P : Poly) (Se : Sem P) (rows_of : dom P -> list row) (pv : list Z) (co : copts) (ns : nat) (po : popts) (stmt_name : nat -> option string),
  (forall l, Permutation l (sort_exprs l)) -> (forall l, Permutation l (sort_eqns l)) ->
  (forall i, ident (iter_name (S i)) = true) -> (forall j, ident (par_name j) = true) ->
  (forall i j, iter_name (S i) = iter_name (S j) -> i = j) ->
  (forall i j, (j < List.length pv)%nat -> iter_name (S i) <> par_name j) ->
  (forall n, call_name_ok po stmt_name n = true) ->
  forall (ls : list (loop P)) (ss : list stmt),
  Forall (ready0 P Se rows_of pv co) ls -> Forall (no_pairs0 P rows_of (List.length pv)) ls ->
  clast_create iter_name par_name sort_exprs sort_eqns reduce P rows_of co ns (List.length pv) ls = Some ss ->
  forallb (printable_stmt po stmt_name) ss = true.
Proof.
  intros iter_name par_name sort_exprs sort_eqns reduce P Se rows_of pv co ns po stmt_name S1 S2 I1 I2 I3 I4 NM ls ss R N H.
  eapply create_printable; try eassumption. rewrite Forall_forall in *. intros l Hl. eapply ready0_shaped; [apply R; exact Hl|apply N; exact Hl].
Qed.
Print Assumptions C20_generated_is_printable.

(** From statement domains to the calls made by the printed program. *)
Theorem C20_generated_text_runs :
  forall (iter_name par_name : nat -> string) (sort_exprs : list expr -> list expr) (sort_eqns : list eqn -> list eqn)
         (reduce : list (option (eqtype * row)) -> list row -> nat -> list row)
         (P : Poly) (Se : Sem P) (rows_of : dom P -> list row) (pv : list Z) (co : copts) (ns : nat) (po : popts) (stmt_name : nat -> option string),
  (forall l, Permutation l (sort_exprs l)) -> (forall l, Permutation l (sort_eqns l)) ->
  (forall i, ident (iter_name (S i)) = true) -> (forall j, ident (par_name j) = true) ->
  (forall i j, iter_name (S i) = iter_name (S j) -> i = j) ->
  (forall i j, (j < List.length pv)%nat -> iter_name (S i) <> par_name j) ->
  p_lang po = LangC -> p_callable po = false -> (forall n, call_name_ok po stmt_name n = true) ->
  reduce_right pv reduce -> Laws P Se -> OrderLaws P Se ->
  forall (kinds : list bool) (o : options) (fuel : nat) (ctx : dom P) (ls res : list (loop P)) (ss : list stmt) (rho : env) (indent : nat),
  plain_options P Se o -> o_strides o = false -> o_override o = false -> o_f o <> 0%Z -> o_ls o = None ->
  dim P ctx = 0%nat -> mem Se ctx [] = true -> statement_loops P kinds ls -> depth_order P kinds ls ->
  cloog_program_generate P (run_lengths kinds) o fuel ctx ls = Some res ->
  Forall (ready0 P Se rows_of pv co) res -> otl_sound P Se -> unmarked P ls -> Forall (no_pairs0 P rows_of (List.length pv)) res ->
  clast_create iter_name par_name sort_exprs sort_eqns reduce P rows_of co ns (List.length pv) res = Some ss ->
  (forall i, (i < List.length pv)%nat -> rho (par_name i) = Some (nth i pv 0)) ->
  let when (b : block) (y : list Z) := date kinds (b_scal b) (firstn (nonscalar kinds) y) in
  exists (text : string) (p : list cstmt) (T : list (block * list Z)),
    clast_pprint po stmt_name indent ss = Some text /\ (forall q, reads text q <-> q = p) /\
    (exists rho', crun program_macros p rho rho' (flat_map (fun e => map (fun n => (stmt_label po stmt_name n, skipn ns (snd e))) (b_stmts (fst e))) T)) /\
    (forall rho2 t2, crun program_macros p rho rho2 t2 -> t2 = flat_map (fun e => map (fun n => (stmt_label po stmt_name n, skipn ns (snd e))) (b_stmts (fst e))) T) /\
    (forall b y, count_occ inst_eq_dec T (b, y) = input_count Se ls b y) /\
    ForallOrdPairs (fun e e' => ~ lex_lt (when (fst e') (snd e')) (when (fst e) (snd e))) T.
Proof.
  intros iter_name par_name sort_exprs sort_eqns reduce P Se rows_of pv co ns po stmt_name S1 S2 I1 I2 I3 I4 LC NC NM R L OL kinds o fuel ctx ls res ss rho indent
    H1 H2 H3 H4 H5 H6 H7 H8 H9 Hg Hr Ho Hu Hn Hc Hp when.
  destruct (C16_generated_code iter_name par_name sort_exprs sort_eqns reduce P Se rows_of pv co ns S1 S2 I3 I4 R L OL kinds o fuel ctx ls res ss rho
    H1 H2 H3 H4 H5 H6 H7 H8 H9 Hg Hr Ho Hu Hc Hp) as (T & rho' & EX & CNT & ORD).
  pose proof (C20_generated_is_printable iter_name par_name sort_exprs sort_eqns reduce P Se rows_of pv co ns po stmt_name S1 S2 I1 I2 I3 I4 NM res ss Hr Hn Hc) as PR.
  destruct (C20_program_round_trip po stmt_name LC indent ss PR (or_introl NC)) as (text & p & E & RD & RUN). specialize (RUN rho rho' _ EX).
  assert (EN : named po stmt_name (flat_map (fun e => map (fun n => (n, skipn ns (snd e))) (b_stmts (fst e))) T) =
               flat_map (fun e => map (fun n => (stmt_label po stmt_name n, skipn ns (snd e))) (b_stmts (fst e))) T).
  { unfold named. clear. induction T as [|e T IH]; [reflexivity|]. cbn [flat_map]. rewrite map_app, IH, map_map. reflexivity. }
  rewrite EN in RUN. exists text, p, T. split; [exact E|]. split; [exact RD|]. split; [exists rho'; now apply RUN|]. split; [|split; [exact CNT|exact ORD]].
  intros rho2 t2 C. now apply RUN in C.
Qed.
Print Assumptions C20_generated_text_runs.
Definition div_equalitiesb {P} (rows_of : dom P -> list row) (np : nat) (d : dom P) : bool :=
  forallb (fun r => negb (has_div (dim P d) (n_divs (dim P d) np (rows_of d)) r) || r_eq r) (rows_of d).
Lemma div_equalitiesb_ok {P} (rows_of : dom P -> list row) np d : div_equalitiesb rows_of np d = true -> div_equalities P rows_of np d.
Proof. unfold div_equalitiesb, div_equalities. intro H. rewrite forallb_forall in H. apply Forall_forall. intros r Hr E. specialize (H r Hr). now rewrite E in H. Qed.
Fixpoint no_pairsb {P} (rows_of : dom P -> list row) (np : nat) (l : loop P) : bool :=
  match l with
  | Loop _ d _ _ _ inner => match defining_inequalities (dim P d) (flat_rows P rows_of np d) (dim P d) with None => true | Some _ => false end &&
      div_equalitiesb rows_of np d && forallb (no_pairsb rows_of np) inner
  end.
Lemma no_pairsb_ok {P} (rows_of : dom P -> list row) np l : no_pairsb rows_of np l = true -> no_pairs P rows_of np l.
Proof.
  induction l as [d ot st b inner IH] using (loop_ind' P). intro H. cbn [no_pairsb] in H. rewrite !andb_true_iff in H. destruct H as [[H1 HE] H2]. constructor; cbn [l_dom l_inner].
  - now destruct (defining_inequalities _ _ _).
  - now apply div_equalitiesb_ok.
  - rewrite forallb_forall in H2. rewrite Forall_forall in IH |- *. auto.
Qed.
Definition no_pairs0b {P} (rows_of : dom P -> list row) (np : nat) (l : loop P) : bool :=
  div_equalitiesb rows_of np (l_dom P l) && forallb (no_pairsb rows_of np) (l_inner P l).
Lemma no_pairs0b_ok {P} (rows_of : dom P -> list row) np l : no_pairs0b rows_of np l = true -> no_pairs0 P rows_of np l.
Proof.
  unfold no_pairs0b. intro H. apply andb_true_iff in H. destruct H as [H1 H2]. split; [now apply div_equalitiesb_ok|].
  rewrite forallb_forall in H2. apply Forall_forall. intros l' Hl'. apply no_pairsb_ok. now apply H2.
Qed.
Definition label20 (n : nat) : option string := Some (String "S" (ticks n)).
Lemma label20_ok n : call_name_ok po label20 n = true.
Proof. unfold call_name_ok, ident. cbn [stmt_label p_callable po label20]. rewrite ticks_id. destruct n; reflexivity. Qed.
(** the loops of ClastExamples.v, and their text *)
Example C20_program_example :
  Forall (ready0 RowPoly (RowSem [6]) rrows [6] co1) loops7 /\ Forall (no_pairs0 RowPoly rrows 1) loops7 /\
  exists ss, clast_create iname pname (fun l => l) (fun l => l) keep_rows RowPoly rrows co1 0 1 loops7 = Some ss /\
  clast_pprint po label20 0 ss = Some
"if (p >= 2) {
  for (i_=2;i_<=p;i_+=2) {
    S_(i_);
    if (i_ >= 5) {
      for (i__=i_;i__<=2*p+1;i__++) {
        S__(i_,i__);
      }
    }
  }
  if (p%2 == 0) {
    S___((p/2));
  }
}
".
Proof.
  split; [apply C16_example|]. split.
  - repeat (constructor; [apply no_pairs0b_ok; vm_compute; reflexivity|]). constructor.
  - eexists. split; [reflexivity|]. vm_compute. reflexivity.
Qed.
Example C20_generated_text_example :
  exists res, cloog_program_generate BoxPoly (run_lengths kinds1) opts 60 ctx0 input1 = Some res /\
  Forall (ready0 BoxPoly BoxSem (rows_box 0) [] co1) res /\ otl_sound BoxPoly BoxSem /\ unmarked BoxPoly input1 /\
  Forall (no_pairs0 BoxPoly (rows_box 0) 0) res /\
  exists ss, clast_create iname pname (fun l => l) (fun l => l) keep_rows BoxPoly (rows_box 0) co1 0 0 res = Some ss /\
    clast_pprint po label20 0 ss = Some
"for (i_=0;i_<=1;i_++) {
  S_(i_);
}
for (i_=2;i_<=3;i_++) {
  S_(i_);
  S__(i_);
}
for (i_=4;i_<=5;i_++) {
  S__(i_);
}
".
Proof.
  run_result. cbn [map unstrip]. split; [|split; [|split; [|split]]].
  - repeat (constructor; [apply ready0b_ok with (wit := fun _ => ([], [], [])); [|vm_compute; reflexivity]; apply eachb_ok with (q := fun l => one_box (l_dom BoxPoly l)); [intros l H; apply exact_describe, (rows_box_exact [] _ H)|vm_compute; reflexivity]|]). constructor.
  - exact box_otl.
  - repeat constructor.
  - repeat (constructor; [apply no_pairs0b_ok; vm_compute; reflexivity|]). constructor.
  - eexists. split; [vm_compute; reflexivity|]. vm_compute. reflexivity.
Qed.

(** ** C21: modulo guards *)
(** A congruence is printed as "== 0": right for every dividend. *)
Theorem C21_congruence_exact :
  forall (l : expr) (m : Z), 0 < m -> printable (if is_group l then LvAdd else LvMul) l = true ->
  exists text c, pprint_equation LangC {| e_lhs := EBin BMod l m; e_rhs := Some (ETerm 0 None); e_sign := 0 |} = Some text /\
    (forall c', reads_expr text c' <-> c' = c) /\
    forall rho x, eval rho l = Some x -> exists v, value program_macros rho c = Some v /\ (v <> 0 <-> x mod m = 0).
Proof.
  intros l m M PR. destruct (mod_text l m 0 0 M PR) as (text & c & E & R & V). exists text, c. split; [exact E|]. split; [exact R|].
  intros rho x X. eexists. split; [exact (V rho x X)|]. cbn. rewrite rem_zero by exact M. destruct (Z.eqb_spec (x mod m) 0); cbn; split; intro; congruence.
Qed.
Print Assumptions C21_congruence_exact.
(** The bound on a remainder ("<= b") is right when the dividend is not negative. *)
Theorem C21_residue_bound_partial :
  forall (l : expr) (m b : Z), 0 < m -> printable (if is_group l then LvAdd else LvMul) l = true ->
  exists text c, pprint_equation LangC {| e_lhs := EBin BMod l m; e_rhs := Some (ETerm b None); e_sign := -1 |} = Some text /\
    (forall c', reads_expr text c' <-> c' = c) /\
    forall rho x, eval rho l = Some x -> 0 <= x -> exists v, value program_macros rho c = Some v /\ (v <> 0 <-> x mod m <= b).
Proof.
  intros l m b M PR. destruct (mod_text l m b (-1) M PR) as (text & c & E & R & V). exists text, c. split; [exact E|]. split; [exact R|].
  intros rho x X N. eexists. split; [exact (V rho x X)|]. cbn. rewrite Z.rem_mod_nonneg by lia. destruct (Z.leb_spec (x mod m) b); cbn; split; intro; lia.
Qed.
Print Assumptions C21_residue_bound_partial.
Definition e21 : expr := ERed RSum [ETerm 2 (Some (EName "i")); ETerm (-5) None].
Example C21_example : printable (if is_group e21 then LvAdd else LvMul) e21 = true /\
  pprint_equation LangC {| e_lhs := EBin BMod e21 3; e_rhs := Some (ETerm 0 None); e_sign := 0 |} = Some "(2*i-5)%3 == 0" /\
  pprint_equation LangC {| e_lhs := EBin BMod e21 3; e_rhs := Some (ETerm 1 None); e_sign := -1 |} = Some "(2*i-5)%3 <= 1".
Proof. repeat split; reflexivity. Qed.

(** It is wrong when the dividend is negative.  The loops: i from -1 to 0, j with i-1 <= 3j <= i.
    Only (0,0) satisfies the constraints, and the statements run only that; the printed program
    also calls S_ for (-1,-1). *)
Definition loops21 : list (loop RowPoly) :=
  [rloop 0 [] None [rloop 1 [ge [1] 1; ge [-1] 0] None [rloop 2 [ge [1; -3] 0; ge [-1; 3] 1] None [rstmt 2 [] 1]]]].
Lemma run_same ms p rho rho' t t' : crun ms p rho rho' t -> t = t' -> crun ms p rho rho' t'.
Proof. now intros H <-. Qed.
Ltac run_c := first
  [ apply R_nil | eapply R_cons; [run_c|run_c] | eapply R_assign; reflexivity | eapply R_proc; reflexivity
  | eapply R_skip; reflexivity | eapply R_then; [reflexivity|discriminate|run_c] | eapply R_for; [reflexivity|run_c]
  | eapply R_stop; [reflexivity|reflexivity|lia] | eapply R_more; [reflexivity|reflexivity|lia|run_c|reflexivity|run_c] ].
Theorem C21_residue_bound_refuted :
  exists (ss : list stmt) text p rho' rho2,
  clast_create iname pname (fun l => l) (fun l => l) keep_rows RowPoly rrows co1 0 0 loops21 = Some ss /\
  exec ss (params []) = Some (rho', [(1%nat, [0; 0])]) /\
  clast_pprint po label20 0 ss = Some text /\ reads text p /\
  crun program_macros p (params []) rho2 [("S_", [-1; -1]); ("S_", [0; 0])].
Proof.
  do 5 eexists. split; [vm_compute; reflexivity|]. split; [vm_compute; reflexivity|]. split; [vm_compute; reflexivity|].
  split; [exists 60%nat; vm_compute; reflexivity|].
  eapply run_same; [run_c|reflexivity].
Qed.
Print Assumptions C21_residue_bound_refuted.

(** ** C22: Fortran *)
(** The DO statement of Fortran: the third item is the stride, 1 when missing. *)
Definition do_line (it lb ub : string) (stride : Z) : string :=
  "DO " ++ it ++ "=" ++ lb ++ ", " ++ ub ++ (if stride =? 1 then "" else ", " ++ int_text stride) ++ newline.
(** Loops without a stride are printed right. *)
Lemma length_app_s a b : String.length (a ++ b) = (String.length a + String.length b)%nat.
Proof. induction a as [|c a IH]; [reflexivity|]. cbn. now rewrite IH. Qed.
Theorem C22_unit_stride_partial :
  forall (o : popts) (it : string) (lb ub : expr) (tl tu : string), p_lang o = LangFortran ->
  pprint_expr LangFortran lb = Some tl -> pprint_expr LangFortran ub = Some tu ->
  pprint_for_header o it (Some lb) (Some ub) 1 = Some (do_line it tl tu 1).
Proof.
  intros o it lb ub tl tu L HL HU. unfold pprint_for_header, do_line. rewrite L, HL, HU. cbn [Z.ltb Z.compare Pos.compare Pos.compare_cont Z.eqb Pos.eqb cat say].
  cbn [append]. rewrite !app_assoc_s. cbn [append]. reflexivity.
Qed.
Print Assumptions C22_unit_stride_partial.
Example C22_example : pprint_for_header {| p_lang := LangFortran; p_callable := false |} "i" (Some (ETerm 1 None)) (Some (ERed RMin [ETerm 9 None; ETerm 1 (Some (EName "N"))])) 1
  = Some (do_line "i" "1" "MIN(9,N)" 1).
Proof. reflexivity. Qed.
(** Loops with a stride are not: the stride is glued to the upper bound.  For every stride above
    1 the text differs from the DO statement of the loop, and two loops with different effects
    have the same text. *)
Theorem C22_stride_refuted :
  (forall (o : popts) (it : string) (lb ub : expr) (tl tu : string) (stride : Z), p_lang o = LangFortran -> 1 < stride ->
     pprint_expr LangFortran lb = Some tl -> pprint_expr LangFortran ub = Some tu ->
     exists line, pprint_for_header o it (Some lb) (Some ub) stride = Some line /\ line <> do_line it tl tu stride) /\
  let loop u st := [SFor "i" (Some (ETerm 1 None)) (Some (ETerm u None)) st [SUser 1 [Some (EName "i")]]] in
  let o := {| p_lang := LangFortran; p_callable := false |} in
  clast_pprint o label20 0 (loop 10 2) = clast_pprint o label20 0 (loop 102 1) /\
  clast_pprint o label20 0 (loop 10 2) <> None /\
  option_map snd (exec (loop 10 2) (params [])) = Some [(1%nat, [1]); (1%nat, [3]); (1%nat, [5]); (1%nat, [7]); (1%nat, [9])] /\
  option_map (fun r => List.length (snd r)) (exec (loop 102 1) (params [])) = Some 102%nat.
Proof.
  split.
  - intros o it lb ub tl tu stride L S HL HU. unfold pprint_for_header, do_line. rewrite L, HL, HU. replace (1 <? stride) with true by lia. replace (stride =? 1) with false by lia.
    cbn [cat say]. eexists. split; [reflexivity|]. intro E. apply (f_equal String.length) in E. repeat (rewrite ?length_app_s in E; cbn [append String.length] in E). lia.
  - cbv zeta. split; [reflexivity|]. split; [discriminate|]. split; vm_compute; reflexivity.
Qed.
Print Assumptions C22_stride_refuted.
