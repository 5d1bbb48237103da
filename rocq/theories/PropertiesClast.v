(** Properties of the statements made by clast.c (C12-C18, C42, C49).  The vocabulary is in ClastSpec.v
    (evaluating expressions, executing statements, the meaning of constraints); the proofs are in
    the other Clast*.v files. *)
From Coq Require Import ZArith List Bool Arith String Sorted Permutation Lia.
From Verif Require Import LoopModel LoopSpec LoopCount LoopBox LoopExamples PropertiesLoop ClastModel ClastSpec LoopOtl ClastBounds ClastGuards ClastModulo ClastHeader ClastDivs ClastMain ClastCmp ClastExamples ClastTotal ClastReady ClastEnd.
Import ListNotations.
Local Open Scope Z_scope.

(** ** C13: loop bounds *)
(** A loop with outer iterators [x] and parameters [pv], inside constraints over [x], its own
    iterator and the parameters. *)
Theorem C13_loop_bounds_exact :
  forall (iter_name par_name : nat -> string) (sort_exprs : list expr -> list expr),
  (forall l, Permutation l (sort_exprs l)) ->
  forall (rows : list row) (x pv : list Z) (rho : env) (lb ub : expr),
  let n := List.length x in
  (forall i, (i < n)%nat -> rho (iter_name (S i)) = Some (nth i x 0)) ->
  (forall i, (i < List.length pv)%nat -> rho (par_name i) = Some (nth i pv 0)) ->
  Forall (fun r => List.length (r_co r) = S n + List.length pv)%nat rows ->
  minmax iter_name par_name sort_exprs (S n) rows (S n) true 0 false None = Some lb ->
  minmax iter_name par_name sort_exprs (S n) rows (S n) false 0 false None = Some ub ->
  exists a b, eval rho lb = Some a /\ eval rho ub = Some b /\
    forall v, a <= v <= b <->
      Forall (fun r => r_eq r = false -> coef r n <> 0 -> row_holds (x ++ v :: pv) r) rows.
Proof. exact bounds_exact. Qed.
Print Assumptions C13_loop_bounds_exact.

(** A bound is missing only if no constraint gives one. *)
Theorem C13_missing_bound :
  forall (iter_name par_name : nat -> string) (sort_exprs : list expr -> list expr) (n : nat) (rows : list row) (level : nat) (low : bool),
  (1 <= level)%nat ->
  (minmax iter_name par_name sort_exprs n rows level low 0 false None = None <->
   Forall (fun r => r_eq r = false -> if low then coef r (level - 1) <= 0 else 0 <= coef r (level - 1)) rows).
Proof. exact missing_bound. Qed.
Print Assumptions C13_missing_bound.

(** 2 <= i, 3j >= i + 1, j >= 0, 2j <= N: with i = 7 and N = 13, j goes from ceil(8/3) to floor(13/2) *)
Definition rows13 : list row := [ge [1; 0; 0] (-2); ge [-1; 3; 0] (-1); ge [0; 1; 0] 0; ge [0; -2; 1] 0].
Definition rho13 : env := assign (params [13]) (iname 1) 7.
Example C13_example :
  (forall i, (i < 1)%nat -> rho13 (iname (S i)) = Some (nth i [7] 0)) /\
  (forall i, (i < 1)%nat -> rho13 (pname i) = Some (nth i [13] 0)) /\
  Forall (fun r => List.length (r_co r) = 3%nat) rows13 /\
  exists lb ub, minmax iname pname (fun l => l) 2 rows13 2 true 0 false None = Some lb /\
    minmax iname pname (fun l => l) 2 rows13 2 false 0 false None = Some ub /\ eval rho13 lb = Some 3 /\ eval rho13 ub = Some 6.
Proof.
  split; [intros [|i] H; [reflexivity|lia]|]. split; [intros [|i] H; [reflexivity|lia]|]. split; [repeat constructor|].
  do 2 eexists. repeat split; reflexivity.
Qed.

(** ** C12: strided loops *)
(** A loop with a stride (positive, with a constant offset, and constant lower bounds; [st = None]: no stride)
    visits the values of the stride between its bounds and no others, in ascending order. *)
Theorem C12_strided_loop_partial :
  forall (iter_name par_name : nat -> string) (sort_exprs : list expr -> list expr),
  (forall l, Permutation l (sort_exprs l)) ->
  forall (rows : list row) (x pv : list Z) (rho : env) (lb ub : expr) (st : option (Z * Z)) (it : string)
         (body : list stmt) (T : Z -> list event),
  let n := List.length x in
  (forall i, (i < n)%nat -> rho (iter_name (S i)) = Some (nth i x 0)) ->
  (forall i, (i < List.length pv)%nat -> rho (par_name i) = Some (nth i pv 0)) ->
  Forall (fun r => List.length (r_co r) = S n + List.length pv)%nat rows ->
  match st with
  | None => True
  | Some (s, off) => 0 < s /\ Forall (fun r => 0 < coef r n -> forall i, i <> n -> coef r i = 0) rows
  end ->
  minmax iter_name par_name sort_exprs (S n) rows (S n) true 0 false st = Some lb ->
  minmax iter_name par_name sort_exprs (S n) rows (S n) false 0 false None = Some ub ->
  (forall v rho1, rho1 it = Some v -> exists rho2, exec body rho1 = Some (rho2, T v)) ->
  exists vs, StronglySorted Z.lt vs /\
    (forall v, In v vs <-> match st with None => True | Some (s, off) => (v - off) mod s = 0 end /\
                           Forall (fun r => r_eq r = false -> coef r n <> 0 -> row_holds (x ++ v :: pv) r) rows) /\
    exists rho', exec [SFor it (Some lb) (Some ub) (stride_of st) body] rho = Some (rho', flat_map T vs).
Proof. exact strided_loop. Qed.
Print Assumptions C12_strided_loop_partial.
(** i >= -4 and i <= N with stride 5 and offset 7, N = 13: -3, 2, 7 and 12 *)
Definition rows12 : list row := [ge [1; 0] 4; ge [-1; 1] 0].
Example C12_strided_example :
  Forall (fun r => List.length (r_co r) = 2%nat) rows12 /\
  Forall (fun r => 0 < coef r 0 -> forall i, i <> 0%nat -> coef r i = 0) rows12 /\
  exists lb ub rho', minmax iname pname (fun l => l) 1 rows12 1 true 0 false (Some (5, 7)) = Some lb /\
    minmax iname pname (fun l => l) 1 rows12 1 false 0 false None = Some ub /\
    exec [SFor (iname 1) (Some lb) (Some ub) 5 [SUser 1 [Some (EName (iname 1))]]] (params [13])
    = Some (rho', [(1%nat, [-3]); (1%nat, [2]); (1%nat, [7]); (1%nat, [12])]).
Proof.
  split; [repeat constructor|]. split; [repeat constructor; cbn; try lia; intros _ [|[|[|i]]] H; cbn; try reflexivity; lia|].
  do 3 eexists. repeat split; vm_compute; reflexivity.
Qed.

(** ** C14: guards *)
(** [w]: the values of the [n] iterators and [np] parameters.  The guard placed before the loop of
    level [level] (or a statement, when [level] is 0 or beyond [n]) lets the body run exactly when
    the constraints that do not involve that loop's iterator hold. *)
Theorem C14_guard_exact :
  forall (iter_name par_name : nat -> string) (sort_exprs : list expr -> list expr) (sort_eqns : list eqn -> list eqn),
  (forall l, Permutation l (sort_exprs l)) -> (forall l, Permutation l (sort_eqns l)) ->
  forall (rho : env) (n np : nat) (rows : list row) (level : nat) (w : list Z) (body : list stmt),
  Forall (fun r => (List.length (r_co r) <= n + np)%nat /\ exists i, coef r i <> 0) rows ->
  (forall i, (i < n)%nat -> i <> (level - 1)%nat \/ (n < level)%nat \/ level = 0%nat -> rho (iter_name (S i)) = Some (nth i w 0)) ->
  (forall i, (i < np)%nat -> rho (par_name i) = Some (nth (n + i) w 0)) ->
  let outer r := ~ ((1 <= level <= n)%nat /\ coef r (level - 1) <> 0) in
  (Forall (fun r => outer r -> row_holds w r) rows /\
     exec (plug (insert_guard iter_name par_name sort_exprs sort_eqns n np rows level) body) rho = exec body rho) \/
  (Exists (fun r => outer r /\ ~ row_holds w r) rows /\
     exec (plug (insert_guard iter_name par_name sort_exprs sort_eqns n np rows level) body) rho = Some (rho, [])).
Proof. exact guard_exact. Qed.
Print Assumptions C14_guard_exact.
(** i >= 2, i >= M, 3i <= N, i <= 7, 2i = M + 2 around a loop on j: two conditions of max/min kind and an equality *)
Definition rows14 : list row := [ge [1; 0; 0; 0] (-2); ge [1; 0; -1; 0] 0; ge [-3; 0; 0; 1] 0; eq0 [2; 0; -1; 0] (-2); ge [-1; 0; 0; 0] 7; ge [1; 1; 0; 0] 0].
Definition rho14 (i : Z) : env := assign (params [4; 13]) (iname 1) i.
Example C14_example :
  Forall (fun r => (List.length (r_co r) <= 2 + 2)%nat /\ exists i, coef r i <> 0) rows14 /\
  List.length (guard_eqns iname pname (fun l => l) 2 2 rows14 2) = 3%nat /\
  option_map snd (exec (plug (insert_guard iname pname (fun l => l) (fun l => l) 2 2 rows14 2) [SUser 1 []]) (assign (params [2; 13]) (iname 1) 2)) = Some [(1%nat, [])] /\
  option_map snd (exec (plug (insert_guard iname pname (fun l => l) (fun l => l) 2 2 rows14 2) [SUser 1 []]) (rho14 4)) = Some [].
Proof.
  split; [repeat constructor; cbn; try lia; exists 0%nat; cbn; discriminate|]. repeat split.
Qed.

(** ** C42: the array of conditions never overflows *)
(** new_clast_guard is given the number of constraints; there are never more conditions. *)
Theorem C42_guard_fits :
  forall (iter_name par_name : nat -> string) (sort_exprs : list expr -> list expr) (n np : nat) (rows : list row) (level : nat),
  (List.length (guard_eqns iter_name par_name sort_exprs n np rows level) <= List.length rows)%nat.
Proof. exact guard_length. Qed.
Print Assumptions C42_guard_fits.
Example C42_example : List.length (guard_eqns iname pname (fun l => l) 2 2 rows14 0) = 6%nat /\ List.length rows14 = 6%nat.
Proof. split; reflexivity. Qed.

(** ** C15: one possible value *)
(** The level is fixed by the equality [upper], or by the opposite inequalities [upper] and
    [lower].  [nfo] holds the equalities and strides of the [n] enclosing loops.  The body runs
    exactly when there is an integer solution, and then with it (assigned, or left to be
    substituted, when the equality is spread). *)
Theorem C15_equation_exact :
  forall (iter_name par_name : nat -> string) (reduce : list (option (eqtype * row)) -> list row -> nat -> list row)
         (x pv : list Z) (rho : env) (o : copts) (nfo : infos) (upper : row) (lower : option row) res,
  let n := List.length x in
  let sol v := Forall (row_holds (x ++ v :: pv)) (upper :: match lower with Some l => [l] | None => [] end) in
  reduce_right pv reduce -> co_otl o = true ->
  (forall i, (i < n)%nat -> rho (iter_name (S i)) = Some (nth i x 0)) ->
  (forall i, (i < List.length pv)%nat -> rho (par_name i) = Some (nth i pv 0)) ->
  List.length (i_eqs nfo) = n -> List.length (i_strides nfo) = n ->
  (forall i t r, nth_error (i_eqs nfo) i = Some (Some (t, r)) ->
     r_eq r = true /\ List.length (r_co r) = (S i + List.length pv)%nat /\ coef r i <> 0 /\ row_holds (firstn (S i) x ++ pv) r) ->
  (forall i s off, nth_error (i_strides nfo) i = Some (Some (s, off)) -> 0 < s /\ (nth i x 0 - off) mod s = 0) ->
  Forall (fun r => List.length (r_co r) = S n + List.length pv)%nat (upper :: match lower with Some l => [l] | None => [] end) ->
  match lower with
  | None => r_eq upper = true /\ coef upper n <> 0
  | Some l => r_eq upper = false /\ r_eq l = false /\ opposite upper l = true /\ coef upper n < -1 /\ 0 <= r_k upper + r_k l < - coef upper n
  end ->
  forall st, insert_equation iter_name par_name reduce o (S n) {| i_eqs := i_eqs nfo; i_strides := i_strides nfo ++ [st] |} st upper lower (S n) = Some res ->
  match res with
  | None => forall v, ~ sol v
  | Some (fs, _) =>
      (exists v, (forall v', sol v' <-> v' = v) /\ eval_opt rho (bound_from_constraint iter_name par_name (S n) upper (S n)) = Some v /\
         let spread := match lower with Some _ => false | None => equal_allow o (equal_type (S n) upper (S n)) (S n) end in
         forall body, exec (plug fs body) rho = exec body (if spread then rho else assign rho (iter_name (S n)) v)) \/
      ((forall v, ~ sol v) /\ forall body, exec (plug fs body) rho = Some (rho, []))
  end.
Proof. exact equation_exact. Qed.
Print Assumptions C15_equation_exact.

(** 3j = i + N at level 2, inside a level of stride 2 with offset 1 (i = 7): the guard tests
    i + N modulo 3; with N = 5, j = 4 *)
Definition nfo15 : infos := {| i_eqs := [None]; i_strides := [Some (2, 1)] |}.
Example C15_example :
  reduce_right [5] keep_rows /\
  (forall i t r, nth_error (i_eqs nfo15) i = Some (Some (t, r)) -> False) /\
  (forall i s off, nth_error (i_strides nfo15) i = Some (Some (s, off)) -> 0 < s /\ (nth i [7] 0 - off) mod s = 0) /\
  exists fs e, insert_equation iname pname keep_rows co1 2 {| i_eqs := [None]; i_strides := [Some (2, 1); None] |} None (eq0 [-1; 3; -1] 0) None 2 = Some (Some (fs, e)) /\
  List.length fs = 1%nat /\
  eval_opt (assign (params [5]) (iname 1) 7) (bound_from_constraint iname pname 2 (eq0 [-1; 3; -1] 0) 2) = Some 4.
Proof.
  split; [apply keep_rows_right|]. split; [intros [|[|i]] t r H; discriminate|].
  split; [intros [|[|i]] s off H; try discriminate; injection H as <- <-; split; [lia|reflexivity]|].
  do 2 eexists. repeat split; reflexivity.
Qed.

(** With -otl 0 the equality becomes a loop between truncated bounds without a modulo guard: for
    i in 0..3 and 2j = i the statement also runs for i = 1, which is no instance. *)
Definition co_no_otl : copts := {| co_otl := false; co_fsp := 1; co_esp := true; co_block := false; co_callable := false |}.
Definition loops15 : list (loop RowPoly) :=
  [rloop 0 [] None [rloop 1 [ge [1] 0; ge [-1] 3] None [rloop 2 [eq0 [-1; 2] 0] None [rstmt 2 [] 1]]]].
Theorem C15_otl0_refuted :
  Forall (ready0 RowPoly (RowSem []) rrows [] co1) loops15 /\
  exists ss rho' T, clast_create iname pname (fun l => l) (fun l => l) keep_rows RowPoly rrows co_no_otl 0 0 loops15 = Some ss /\
    exec ss (params []) = Some (rho', T) /\ In (1%nat, [1; 0]) T /\
    forall p b, ~ Exec RowPoly (RowSem []) loops15 [] p b [1; 0].
Proof.
  split.
  { constructor; [|constructor]. apply ready0b_ok with (wit := fun _ => ([], [], [])); [|reflexivity]. apply eachb_ok with (q := fun l => forallb (fun r => (List.length (r_co r) =? rd (l_dom RowPoly l) + 0)%nat) (rrows (l_dom RowPoly l))); [|reflexivity].
    intros l H. apply exact_describe, rows_exact_rows. apply Forall_forall. intros r Hr. rewrite forallb_forall in H. apply Nat.eqb_eq. apply H. exact Hr. }
  do 3 eexists. split; [reflexivity|]. split; [vm_compute; reflexivity|]. split; [right; left; reflexivity|].
  intros p b H. no_exec H. destruct He1 as (M & _). discriminate M.
Qed.
Print Assumptions C15_otl0_refuted.

(** ** C16: statements execute the loop structure *)
Theorem C16_clast_runs_loops :
  forall (iter_name par_name : nat -> string) (sort_exprs : list expr -> list expr) (sort_eqns : list eqn -> list eqn)
         (reduce : list (option (eqtype * row)) -> list row -> nat -> list row)
         (P : Poly) (Se : Sem P) (rows_of : dom P -> list row) (pv : list Z) (o : copts) (ns : nat),
  (forall l, Permutation l (sort_exprs l)) -> (forall l, Permutation l (sort_eqns l)) ->
  (forall i j, iter_name (S i) = iter_name (S j) -> i = j) ->
  (forall i j, (j < List.length pv)%nat -> iter_name (S i) <> par_name j) ->
  reduce_right pv reduce ->
  forall (ls : list (loop P)) (ss : list stmt) (rho : env),
  clast_create iter_name par_name sort_exprs sort_eqns reduce P rows_of o ns (List.length pv) ls = Some ss ->
  Forall (ready0 P Se rows_of pv o) ls -> Forall (otl_right P Se []) ls ->
  (forall i, (i < List.length pv)%nat -> rho (par_name i) = Some (nth i pv 0)) ->
  exists L rho', runs Se ls [] L /\ exec ss rho = Some (rho', calls ns L).
Proof. exact create_ok. Qed.
Print Assumptions C16_clast_runs_loops.
Example C16_example :
  Forall (ready0 RowPoly (RowSem [6]) rrows [6] co1) loops7 /\ Forall (otl_right RowPoly (RowSem [6]) []) loops7 /\
  exists ss rho', clast_create iname pname (fun l => l) (fun l => l) keep_rows RowPoly rrows co1 0 1 loops7 = Some ss /\
  exec ss (params [6]) = Some (rho', [(1%nat, [2]); (1%nat, [4]); (1%nat, [6])] ++ map (fun j => (2%nat, [6; j])) [6; 7; 8; 9; 10; 11; 12; 13] ++ [(3%nat, [3])]).
Proof.
  split; [|split].
  - constructor; [|constructor]. apply ready0b_ok with (wit := fun _ => ([], [], [])); [|reflexivity]. apply eachb_ok with (q := fun l => forallb (fun r => (List.length (r_co r) =? rd (l_dom RowPoly l) + 1)%nat) (rrows (l_dom RowPoly l))); [|reflexivity].
    intros l H. apply exact_describe, rows_exact_rows. apply Forall_forall. intros r Hr. rewrite forallb_forall in H. apply Nat.eqb_eq. apply H. exact Hr.
  - constructor; [|constructor]. apply otl_none. apply eachb_ok with (q := fun l => negb (l_otl RowPoly l)); [|reflexivity]. intros l H. apply negb_true_iff. exact H.
  - do 2 eexists. split; [reflexivity|]. vm_compute. reflexivity.
Qed.

(** From the statement domains to the executed calls: the trace [T] of executed blocks holds each
    instance of the input exactly once, in an order compatible with the scattering. *)
Theorem C16_generated_code :
  forall (iter_name par_name : nat -> string) (sort_exprs : list expr -> list expr) (sort_eqns : list eqn -> list eqn)
         (reduce : list (option (eqtype * row)) -> list row -> nat -> list row)
         (P : Poly) (Se : Sem P) (rows_of : dom P -> list row) (pv : list Z) (co : copts) (ns : nat),
  (forall l, Permutation l (sort_exprs l)) -> (forall l, Permutation l (sort_eqns l)) ->
  (forall i j, iter_name (S i) = iter_name (S j) -> i = j) ->
  (forall i j, (j < List.length pv)%nat -> iter_name (S i) <> par_name j) ->
  reduce_right pv reduce -> Laws P Se -> OrderLaws P Se ->
  forall (kinds : list bool) (o : options) (fuel : nat) (ctx : dom P) (ls res : list (loop P)) (ss : list stmt) (rho : env),
  plain_options P Se o -> o_strides o = false -> o_override o = false -> o_f o <> 0%Z -> o_ls o = None ->
  dim P ctx = 0%nat -> mem Se ctx [] = true -> statement_loops P kinds ls -> depth_order P kinds ls ->
  cloog_program_generate P (run_lengths kinds) o fuel ctx ls = Some res ->
  Forall (ready0 P Se rows_of pv co) res -> otl_sound P Se -> unmarked P ls ->
  clast_create iter_name par_name sort_exprs sort_eqns reduce P rows_of co ns (List.length pv) res = Some ss ->
  (forall i, (i < List.length pv)%nat -> rho (par_name i) = Some (nth i pv 0)) ->
  let when (b : block) (y : list Z) := date kinds (b_scal b) (firstn (nonscalar kinds) y) in
  exists (T : list (block * list Z)) rho',
    exec ss rho = Some (rho', flat_map (fun e => map (fun num => (num, skipn ns (snd e))) (b_stmts (fst e))) T) /\
    (forall b y, count_occ inst_eq_dec T (b, y) = input_count Se ls b y) /\
    ForallOrdPairs (fun e e' => ~ lex_lt (when (fst e') (snd e')) (when (fst e) (snd e))) T.
Proof.
  intros iter_name par_name sort_exprs sort_eqns reduce P Se rows_of pv co ns S1 S2 I1 I2 R L OL kinds o fuel ctx ls res ss rho H1 H2 H3 H4 H5 H6 H7 H8 H9 Hg Hr HO Hu Hc Hp when.
  pose proof (generated_otl P Se L kinds o fuel ctx ls res HO (proj1 H1) (or_introl H2) H6 H7 H8 Hu Hg) as Ho.
  destruct (C16_clast_runs_loops iter_name par_name sort_exprs sort_eqns reduce P Se rows_of pv co ns S1 S2 I1 I2 R res ss rho Hc Hr Ho Hp) as (Ls & rho' & A & B).
  exists (trace Ls), rho'. split; [rewrite B, calls_trace; reflexivity|]. split.
  - intros b y. destruct (C01_instances_exactly_once P Se L kinds o fuel ctx ls res H1 H2 H6 H7 H8 H9 Hg b y) as (ps & N & Len & In). rewrite <- Len. eapply runs_count; eassumption.
  - apply (runs_order Se res [] Ls (fun b y b' y' => lex_lt (when b y) (when b' y')) A). intros p b y p' b' y' E E' Hlt.
    exact (C02_scattering_order P Se L OL kinds o fuel ctx ls res H1 H2 H3 H4 H5 H6 H7 H8 H9 Hg p b y p' b' y' E E' Hlt).
Qed.
Print Assumptions C16_generated_code.
Example C16_generated_example :
  exists res, cloog_program_generate BoxPoly (run_lengths kinds1) opts 60 ctx0 input1 = Some res /\
  Forall (ready0 BoxPoly BoxSem (rows_box 0) [] co1) res /\ otl_sound BoxPoly BoxSem /\ unmarked BoxPoly input1 /\
  exists ss rho', clast_create iname pname (fun l => l) (fun l => l) keep_rows BoxPoly (rows_box 0) co1 0 0 res = Some ss /\
    exec ss (params []) = Some (rho', map (fun e => (fst e, [snd e])) [(1%nat, 0); (1%nat, 1); (1%nat, 2); (2%nat, 2); (1%nat, 3); (2%nat, 3); (2%nat, 4); (2%nat, 5)]).
Proof.
  run_result. cbn [map unstrip]. split; [|split; [|split]].
  - repeat (constructor; [apply ready0b_ok with (wit := fun _ => ([], [], [])); [|vm_compute; reflexivity]; apply eachb_ok with (q := fun l => one_box (l_dom BoxPoly l)); [intros l H; apply exact_describe, (rows_box_exact [] _ H)|vm_compute; reflexivity]|]). constructor.
  - exact box_otl.
  - repeat constructor.
  - do 2 eexists. split; [vm_compute; reflexivity|]. vm_compute. reflexivity.
Qed.

(** ** C17: comparing expressions *)
Theorem C17_equal_equivalence :
  (forall e, expr_equal e e = true) /\
  (forall a b, expr_equal a b = expr_equal b a) /\
  (forall a b c, expr_equal a b = true -> expr_equal b c = true -> expr_equal a c = true).
Proof.
  unfold expr_equal. split; [|split].
  - intros e. apply Z.eqb_eq. apply cmp_refl.
  - intros a b. pose proof (zero_sym a b). destruct (Z.eqb_spec (expr_cmp a b) 0), (Z.eqb_spec (expr_cmp b a) 0); tauto || reflexivity.
  - intros a b c. rewrite !Z.eqb_eq. apply equal_trans.
Qed.
Print Assumptions C17_equal_equivalence.
Theorem C17_equal_same_value : forall a b, expr_equal a b = true -> forall rho, eval rho a = eval rho b.
Proof. intros a b H rho. apply equal_eval. apply Z.eqb_eq. exact H. Qed.
Print Assumptions C17_equal_same_value.
Theorem C17_antisymmetric : forall a b, expr_cmp a b < 0 <-> 0 < expr_cmp b a.
Proof. exact neg_pos. Qed.
Print Assumptions C17_antisymmetric.
(** A max of one bound and a min of one bound are equal although they are different expressions. *)
Example C17_example :
  expr_equal (ERed RMax [ETerm 3 (Some (EName "i"))]) (ERed RMin [ETerm 3 (Some (EName "i"))]) = true /\
  expr_cmp (ERed RMax [ETerm 3 (Some (EName "i")); ETerm 0 None]) (ERed RMin [ETerm 3 (Some (EName "i")); ETerm 0 None]) > 0.
Proof. split; reflexivity. Qed.

(** Transitivity fails: the conditions generated for a statement with the constraints i = j,
    i >= 0, i <= N and i <= M form a cycle for the comparison qsort is given. *)
Definition rows17 : list row := [eq0 [1; -1; 0; 0] 0; ge [1; 0; 0; 0] 0; ge [-1; 0; 1; 0] 0; ge [-1; 0; 0; 1] 0].
Theorem C17_transitivity_refuted :
  exists q1 q2 q3, guard_eqns iname pname (fun l => l) 2 2 rows17 3 = [q1; q2; q3] /\
    eqn_cmp q2 q1 < 0 /\ eqn_cmp q1 q3 < 0 /\ eqn_cmp q3 q2 < 0.
Proof. do 3 eexists. repeat split; reflexivity. Qed.
Print Assumptions C17_transitivity_refuted.
(** It holds between expressions in which no min or max has a single operand (as between the
    bounds collected in one min or max). *)
Theorem C17_transitive_partial :
  forall a b c, no_single a = true -> no_single b = true -> no_single c = true ->
  (expr_cmp a b <= 0 -> expr_cmp b c <= 0 -> expr_cmp a c <= 0) /\
  (expr_cmp a b < 0 -> expr_cmp b c <= 0 -> expr_cmp a c < 0) /\
  (expr_cmp a b <= 0 -> expr_cmp b c < 0 -> expr_cmp a c < 0).
Proof.
  intros a b c Ha Hb Hc. pose proof (order_chain a b c Ha Hb Hc) as C. unfold chain, leq in C. split; [tauto|split; intros H1 H2; destruct (C ltac:(lia) ltac:(lia)) as (C1 & C2)]; [lia|].
  destruct (Z.eq_dec (expr_cmp a c) 0) as [E|E]; [|lia]. specialize (C2 E). apply zero_sym in E. pose proof (equal_trans c a b E C2) as X. apply zero_sym in X. lia.
Qed.
Print Assumptions C17_transitive_partial.
(** The bounds collected in one min or max are such expressions. *)
Theorem C17_bounds_no_single :
  forall (iter_name par_name : nat -> string) (n : nat) (r : row) (level : nat) (e : expr) (st : option (Z * Z)),
  bound_from_constraint iter_name par_name n r level = Some e -> no_single (update_lower_bound e st) = true.
Proof.
  intros iter_name par_name n r level e st H.
  assert (T : forall sign, forallb no_single (bound_terms iter_name par_name n r level sign) = true).
  { intros sign. unfold bound_terms. apply forallb_forall. intros x Hx. apply in_flat_map in Hx. destruct Hx as (i & _ & Hx). destruct (_ || _); [destruct Hx|]. destruct Hx as [<-|[]]. reflexivity. }
  assert (E : no_single e = true).
  { unfold bound_from_constraint in H. destruct (coef r (level - 1) =? 0); [discriminate|]. set (sg := - Z.sgn _) in *. specialize (T sg). destruct (bound_terms iter_name par_name n r level sg) as [|t ts].
    - repeat match type of H with context [if ?c then _ else _] => destruct c end; injection H as <-; reflexivity.
    - assert (R : no_single (ERed RSum ((t :: ts) ++ (if sg * r_k r =? 0 then [] else [ETerm (sg * r_k r) None]))) = true).
      { cbn [no_single]. cbn [andb]. rewrite forallb_app, T. destruct (_ =? 0); reflexivity. }
      destruct (_ || _); [injection H as <-; exact R|]. destruct (r_eq r); injection H as <-; cbn [no_single]; exact R. }
  destruct st as [[s off]|]; [|destruct e; exact E]. destruct e as [|v [x|]| |]; exact E || reflexivity.
Qed.
Print Assumptions C17_bounds_no_single.

(** ** C18: empty loops *)
Theorem C18_only_empty_loops_dropped :
  forall (lb ub : expr), is_bigger_constant (Some lb) (Some ub) = true ->
  forall (rho : env) (it : string) (step : Z) (body : list stmt), 0 < step ->
  exists a b, eval rho lb = Some a /\ eval rho ub = Some b /\ b < a /\
    exec [SFor it (Some lb) (Some ub) step body] rho = Some (assign rho it a, []).
Proof.
  intros lb ub H rho it step body Hs. cbn [is_bigger_constant] in H. assert (G : exists a b, eval rho lb = Some a /\ eval rho ub = Some b).
  { revert H. clear. intros H. assert (V2 : forall v e, is_bigger_constant2 v e = true -> exists b, eval rho e = Some b).
    { fix V2 2. intros v e. destruct e as [s|w [y|]|t y q|t [|y [|y2 ys]]]; intros Hv; cbn [is_bigger_constant2] in Hv; try discriminate; [eexists; reflexivity|]. rewrite eval_single. exact (V2 v y Hv). }
    revert lb H. fix V1 1. intros e H. destruct e as [s|w [y|]|t y q|t [|y [|y2 ys]]]; cbn [is_bigger_constant1] in H; try discriminate.
    - destruct (V2 w ub H) as (b & B). exists w, b. split; [reflexivity|exact B].
    - rewrite eval_single. exact (V1 y H). }
  destruct G as (a & b & A & B). pose proof (bigger1_val rho lb ub a b H A B) as C. exists a, b. split; [exact A|]. split; [exact B|]. split; [lia|].
  rewrite exec_single, exec1_list. cbn [eval_opt]. rewrite A, B. rewrite (proj2 (Z.ltb_lt _ _) Hs). unfold trip_count. rewrite (proj2 (Z.ltb_lt _ _) C). reflexivity.
Qed.
Print Assumptions C18_only_empty_loops_dropped.
Example C18_example :
  is_bigger_constant (minmax iname pname (fun l => l) 1 [ge [1] (-7); ge [-2] 11] 1 true 0 false None)
                     (minmax iname pname (fun l => l) 1 [ge [1] (-7); ge [-2] 11] 1 false 0 false None) = true.
Proof. reflexivity. Qed.

(** ** C49: remainder conditions *)
(** Constraints with existential dimensions, as isl keeps for "i = 1 mod 3" or "i mod 4 <= 1": the
    columns are the [n] iterators, the existential dimensions, the parameters.  The conditions
    placed in front of a loop or statement are true exactly when some values of the existential
    dimensions satisfy all constraints that do not involve the loop's own iterator. *)
Theorem C49_remainder_conditions :
  forall (iter_name par_name : nat -> string) (sort_exprs : list expr -> list expr) (sort_eqns : list eqn -> list eqn),
  (forall l, Permutation l (sort_exprs l)) -> (forall l, Permutation l (sort_eqns l)) ->
  forall (rows : list row) (level : nat) (nfo : infos) (y pv : list Z) (rho : env) (guard : list frame),
  let n := List.length y in
  let nd := n_divs n (List.length pv) rows in
  let outer (r : row) := level = 0%nat \/ (n < level)%nat \/ coef r (level - 1) = 0 in
  let on_strides (z : list Z) := forall j s off, nth_error (i_strides nfo) j = Some (Some (s, off)) -> (j < n)%nat /\ 0 < s /\ (nth j z 0 - off) mod s = 0 in
  insert_guards iter_name par_name sort_exprs sort_eqns n (List.length pv) nfo rows level = Some guard ->
  Forall (fun r => List.length (r_co r) = n + nd + List.length pv)%nat rows -> Forall (fun r => exists i, coef r i <> 0) rows ->
  (forall i, (i < n)%nat -> S i <> level -> rho (iter_name (S i)) = Some (nth i y 0)) ->
  (forall i, (i < List.length pv)%nat -> rho (par_name i) = Some (nth i pv 0)) ->
  on_strides y ->
  (exists y' q' pv', List.length y' = n /\ List.length q' = nd /\ List.length pv' = List.length pv /\ on_strides y' /\
     forall r, In r rows -> outer r -> row_holds (y' ++ q' ++ pv') r) ->
  let inside := exists q, List.length q = nd /\ forall r, In r rows -> outer r -> row_holds (y ++ q ++ pv) r in
  forall body, (inside -> exec (plug guard body) rho = exec body rho) /\ (~ inside -> exec (plug guard body) rho = Some (rho, [])).
Proof.
  intros iter_name par_name sort_exprs sort_eqns S1 S2 rows level nfo y pv rho guard n nd outer on_strides HG HL HV HI HP HS (y' & q' & pv' & Y1 & Y2 & Y3 & Y4 & Y5) inside.
  assert (HO : forall r, own n level r = false <-> outer r).
  { intros r. unfold own, outer, involves. destruct (Nat.eqb_spec level 0) as [E|E]; [cbn [negb andb]; tauto|]. destruct (Nat.leb_spec level n) as [G|G]; cbn [negb andb].
    - destruct (Z.eqb_spec (coef r (level - 1)) 0); cbn [negb]; split; intros X; try tauto; [discriminate|]. destruct X as [X|[X|X]]; [contradiction|lia|contradiction].
    - split; [right; left; exact G|reflexivity]. }
  assert (HD : forall r, In r rows -> has_div n nd r = true -> own n level r = false) by (exact (guards_own iter_name par_name sort_exprs sort_eqns n (List.length pv) nfo level rows guard HG)).
  destruct (guards_ok iter_name par_name sort_exprs sort_eqns S1 S2 rho n (List.length pv) nfo level rows y pv guard eq_refl HG HL) as (b & O & HB).
  - apply Forall_forall. intros s Hs. apply plain_in in Hs. destruct Hs as (r & A & B & ->). rewrite Forall_forall in HL, HV. destruct (HV r A) as (i & Hi). fold nd. fold nd in B.
    destruct (Nat.lt_ge_cases i n) as [G|G]; [exists i|].
    + unfold involves. rewrite without_coef by (rewrite (HL r A); lia). destruct (Nat.ltb_spec i n); [|lia]. apply negb_true_iff, Z.eqb_neq. exact Hi.
    + destruct (Nat.lt_ge_cases i (n + nd)) as [G2|G2]; [exfalso; apply Hi; apply (proj1 (has_div_not n nd r) B); lia|]. exists (i - nd)%nat. unfold involves. rewrite without_coef by (rewrite (HL r A); lia).
      destruct (Nat.ltb_spec (i - nd) n); [lia|]. replace (i - nd + nd)%nat with i by lia. apply negb_true_iff, Z.eqb_neq. exact Hi.
  - intros r Hr Ho j Hj Hn. apply HO in Ho. fold nd in Hn |- *. unfold variable_expr. destruct (Nat.leb_spec (S j) (n + nd)) as [G|G].
    + assert (Gj : (j < n)%nat) by lia. rewrite app_nth1 by exact Gj. cbn [eval]. apply HI; [exact Gj|].
      intros E. subst level. destruct Ho as [Ho|[Ho|Ho]]; [discriminate|lia|]. apply Hj. rewrite <- Ho. f_equal. lia.
    + rewrite app_nth2 by (fold n; lia). rewrite app_nth2 by (rewrite repeat_length; fold n; lia). rewrite repeat_length. cbn [eval]. fold n.
      rewrite Forall_forall in HL. assert (Lj : (j < n + nd + List.length pv)%nat) by (rewrite <- (HL r Hr); destruct (Nat.lt_ge_cases j (List.length (r_co r))) as [X|X]; [exact X|]; exfalso; apply Hj; unfold coef; apply nth_overflow; exact X).
      replace (S j - (n + nd) - 1)%nat with (j - n - nd)%nat by lia. rewrite HP by lia. reflexivity.
  - intros _. split; [apply strides_all_ok; [reflexivity|exact HS]|]. exists y', q', pv'. split; [exact Y1|]. split; [exact Y2|]. split; [apply strides_all_ok; [exact Y1|exact Y4]|].
    apply Forall_forall. intros r Hr Ho. apply Y5; [exact Hr|apply HO; exact Ho].
  - fold nd in HB. assert (HM : b = true <-> inside).
    { rewrite HB. unfold inside, remainders. rewrite Forall_forall. rewrite Forall_forall in HL. split.
      - intros ((q & Q1 & Q2) & HP2). exists q. split; [exact Q1|]. intros r Hr Ho. destruct (has_div n nd r) eqn:E; [apply Q2; assumption|].
        apply (without_holds n nd y pv r eq_refl ltac:(rewrite (HL r Hr); lia) E q Q1). apply HP2; [apply plain_in; exists r; auto|]. rewrite without_own by (rewrite (HL r Hr); lia). apply HO. exact Ho.
      - intros (q & Q1 & Q2). split; [exists q; split; [exact Q1|]; intros r Hr E; apply Q2; [exact Hr|apply HO, HD; assumption]|].
        intros s Hs Ho. apply plain_in in Hs. destruct Hs as (r & A & B & ->). fold nd in B, Ho |- *. rewrite without_own in Ho by (rewrite (HL r A); lia).
        apply (without_holds n nd y pv r eq_refl ltac:(rewrite (HL r A); lia) B q Q1). apply Q2; [exact A|apply HO; exact Ho]. }
    intros body. split; intros X; rewrite (O body).
    + now rewrite (proj2 HM X).
    + destruct b; [|reflexivity]. exfalso. apply X, HM. reflexivity.
Qed.
Print Assumptions C49_remainder_conditions.
(** i mod 4 <= 1 and 3 | N + i, with i = 13, N = 20 and then N = 21 *)
Definition rows49 : list row := [ge [1; -4; 0; 0] 0; ge [-1; 4; 0; 0] 1; eq0 [1; 0; 3; 1] 0].
Example C49_conditions_example :
  exists guard, insert_guards iname pname (fun l => l) (fun l => l) 1 1 {| i_eqs := [None]; i_strides := [Some (2, 1)] |} rows49 2 = Some guard /\
  Forall (fun r => List.length (r_co r) = 1 + n_divs 1 1 rows49 + 1)%nat rows49 /\ Forall (fun r => exists i, coef r i <> 0) rows49 /\
  Forall (row_holds ([13] ++ [3; -11] ++ [20])) rows49 /\
  option_map snd (exec (plug guard [SUser 2 []]) (assign (params [20]) (iname 1) 13)) = Some [(2%nat, [])] /\
  option_map snd (exec (plug guard [SUser 2 []]) (assign (params [21]) (iname 1) 13)) = Some [].
Proof.
  eexists. split; [vm_compute; reflexivity|]. split; [repeat constructor|]. split; [repeat (constructor; [exists 0%nat; discriminate|]); constructor|]. split; [repeat constructor; vm_compute; discriminate|].
  split; vm_compute; reflexivity.
Qed.
(** Whole loop structures (C16_clast_runs_loops): the domains of [loops49] have such constraints. *)
Definition wit49 (d : rdom) : list Z * list Z * list Z :=
  match rd d, List.length (match rrows d with [] => [] | r :: _ => r_co r end), rrows d with
  | 0%nat, _, _ => ([], [0], [0])
  | _, 4%nat, _ => ([0], [0; 0], [0])
  | _, _, {| r_k := -1 |} :: _ => ([1], [0], [0])
  | _, _, _ => ([0], [0], [0])
  end.
Lemma describe_solve pv (d : rdom) : Forall (fun r => List.length (r_co r) = rd d + n_divs (rd d) (List.length pv) (rrows d) + List.length pv)%nat (rrows d) ->
  (forall x q, List.length x = rd d -> List.length q = n_divs (rd d) (List.length pv) (rrows d) -> Forall (row_holds (x ++ q ++ pv)) (rrows d) ->
     Forall (row_holds (x ++ solve (rd d) (n_divs (rd d) (List.length pv) (rrows d)) (rrows d) x pv ++ pv)) (rrows d)) ->
  rows_describe RowPoly (DivSem pv) rrows pv d.
Proof.
  intros HL HF. split; [exact HL|]. intros x Hx. cbn [mem DivSem dim RowPoly] in *. rewrite (proj2 (Nat.eqb_eq _ _) Hx). cbn [andb]. rewrite forallb_forall. split.
  - intros (q & Hq & HQ) r Hr. specialize (HF x q Hx Hq HQ). rewrite Forall_forall in HF. apply row_holdsb_ok. now apply HF.
  - intros H. eexists. split; [|apply Forall_forall; intros r Hr; apply row_holdsb_ok; now apply H]. unfold solve. now rewrite map_length, seq_length.
Qed.
Ltac describe49 :=
  apply describe_solve; [repeat constructor|]; intros x q Hx Hq; cbn [rd rrows] in *; unfold n_divs, eq0, ge in *; cbn [List.length r_co Nat.add Nat.sub] in *;
  repeat (destruct x as [|? x]; try discriminate Hx); repeat (destruct q as [|? q]; try discriminate Hq); clear Hx Hq;
  unfold solve, solve1, row_holds, row_val, involves, coef; cbn [r_co r_eq r_k List.length Nat.add Nat.sub seq map repeat app find nth negb Z.eqb andb Z.ltb Z.compare dot Z.opp];
  rewrite ?Forall_cons_iff; cbn [r_co r_eq r_k dot]; intros HQ; repeat (split; [Z.to_euclidean_division_equations; lia|]); constructor.
Example C49_example :
  Forall (ready0 RowPoly (DivSem [20]) rrows [20] co1) loops49 /\ Forall (otl_right RowPoly (DivSem [20]) []) loops49 /\
  exists ss rho', clast_create iname pname (fun l => l) (fun l => l) keep_rows RowPoly rrows co1 0 1 loops49 = Some ss /\
  exec ss (params [20]) = Some (rho', [(1%nat, [1]); (2%nat, [1]); (1%nat, [4]); (2%nat, [4]); (1%nat, [7]); (1%nat, [10]); (1%nat, [13]); (2%nat, [13]); (1%nat, [16]);
     (2%nat, [16]); (1%nat, [19]); (3%nat, [0]); (3%nat, [4]); (3%nat, [8]); (3%nat, [12]); (3%nat, [16]); (3%nat, [20])]).
Proof.
  split; [|split].
  - constructor; [|constructor]. apply ready0b_ok with (wit := wit49); [|vm_compute; reflexivity]. unfold loops49, rloop, rstmt.
    repeat match goal with |- each_loop _ _ => constructor; cbn [l_dom l_inner] | |- Forall _ [] => constructor | |- Forall (each_loop _) (_ :: _) => constructor end.
    all: describe49.
  - constructor; [|constructor]. apply otl_none. apply eachb_ok with (q := fun l => negb (l_otl RowPoly l)); [|reflexivity]. intros l H. apply negb_true_iff. exact H.
  - do 2 eexists. split; [reflexivity|]. vm_compute. reflexivity.
Qed.
(** A condition that the strides make constant and false is dropped instead of the body: in
    [loops49o] the statement runs although its domain holds no point of the loop. *)
Theorem C49_unsatisfiable_refuted :
  each_loop (fun l => rows_describe RowPoly (DivSem []) rrows [] (l_dom RowPoly l)) (hd (rstmt 0 [] 0) loops49o) /\
  exists ss rho', clast_create iname pname (fun l => l) (fun l => l) keep_rows RowPoly rrows co1 0 0 loops49o = Some ss /\
    exec ss (params []) = Some (rho', [(1%nat, [0]); (1%nat, [2]); (1%nat, [4])]) /\
    forall p b y, ~ Exec RowPoly (DivSem []) loops49o [] p b y.
Proof.
  split.
  - unfold loops49o, rloop, rstmt. cbn [hd].
    repeat match goal with |- each_loop _ _ => constructor; cbn [l_dom l_inner] | |- Forall _ [] => constructor | |- Forall (each_loop _) (_ :: _) => constructor end.
    all: describe49.
  - do 2 eexists. split; [reflexivity|]. split; [vm_compute; reflexivity|]. intros p b y H. no_exec H.
    destruct He0 as (_ & S0). destruct He1 as (M1 & _). cbn in S0, M1.
    rewrite andb_true_r in M1. apply Z.eqb_eq in S0, M1. unfold row_val, eq0 in M1. cbn [r_co r_k dot] in M1. Z.to_euclidean_division_equations; lia.
Qed.
Print Assumptions C49_unsatisfiable_refuted.
