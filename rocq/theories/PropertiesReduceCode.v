(** C58 for whole programs: the code created with the reduction of modulo guards that the isl backend does. *)
From Coq Require Import ZArith List Bool Arith String Permutation Lia.
From Verif Require Import StrideModel UnrollModel UnrollSpec LoopModel LoopSpec LoopCount LoopExamples BackendModel BackendSpec BackendSets BackendCode PropertiesLoop PropertiesBackend ClastModel ClastSpec LoopOtl ClastEnd ClastReady ClastExamples PropertiesClast PropertiesBackendCode ReduceModel ReduceSpec ReduceSets PropertiesReduce.
Import ListNotations.
Local Arguments Nat.ltb : simpl never. Local Arguments Nat.leb : simpl never. Local Arguments Nat.eqb : simpl never. Local Arguments Nat.sub : simpl never.
Local Open Scope Z_scope.

(** The whole way: the generator is run once and its loops are made code, with modulo guards reduced by isl's
    gist.  If isl obeys the laws of its operations and the reductions have the form the caller handles, the code
    makes the calls of all statement instances, each as often as it is asked for, for all parameter values. *)
Theorem C58_code_right_with_reduction :
  forall (iter_name par_name : nat -> string) (sort_exprs : list expr -> list expr) (sort_eqns : list eqn -> list eqn)
         (G : Gist) (np : nat) (I : IslSet) (co : copts) (ns : nat),
  (forall l, Permutation l (sort_exprs l)) -> (forall l, Permutation l (sort_eqns l)) ->
  (forall i j, iter_name (S i) = iter_name (S j) -> i = j) ->
  (forall i j, (j < np)%nat -> iter_name (S i) <> par_name j) ->
  GistOk np G -> keeps_form np (reduce_isl G np) ->
  IslLaws np I -> single_valued_means np I -> forall contains, decides I contains ->
  forall (kinds : list bool) (o : options) (fuel : nat) (ctx : iset I) (ls res : list (loop (isl_poly np I))) (ss : list stmt),
  o_stop o < 0 -> o_first_unroll o <> 0 -> o_strides o = false -> (o_sh o = true -> simple_hull_stays np I) ->
  i_dim I ctx = 0%nat ->
  statement_loops (isl_poly np I) kinds ls -> depth_order (isl_poly np I) kinds ls -> unmarked (isl_poly np I) ls ->
  cloog_program_generate (isl_poly np I) (run_lengths kinds) o fuel ctx ls = Some res ->
  Forall (writable0 np I co) res ->
  clast_create iter_name par_name sort_exprs sort_eqns (reduce_isl G np) (isl_poly np I) (isl_rows np I) co ns np res = Some ss ->
  forall p, List.length p = np -> pts I ctx [] p ->
  forall rho : env, (forall i, (i < np)%nat -> rho (par_name i) = Some (nth i p 0)) ->
  exists (T : list (block * list Z)) rho',
    exec ss rho = Some (rho', flat_map (fun e => map (fun num => (num, skipn ns (snd e))) (b_stmts (fst e))) T) /\
    forall b y, count_occ inst_eq_dec T (b, y) = input_count (isl_sem np I contains p) ls b y.
Proof.
  intros iter_name par_name sort_exprs sort_eqns G np I co ns S1 S2 N1 N2 OK K.
  exact (C56_code_right_for_all_parameters iter_name par_name sort_exprs sort_eqns (reduce_isl G np) np I co ns S1 S2 N1 N2 (C58_reduction_usable np G OK K)).
Qed.
Print Assumptions C58_code_right_with_reduction.

(** The program of C56_example again, with the reduction. *)
Example C58_code_example :
  exists res, cloog_program_generate (isl_poly 1 SetIsl) (run_lengths [false]) opts 60 ctx56 input56 = Some res /\
  exists ss, clast_create iname pname (fun l => l) (fun l => l) (reduce_isl SmallGist 1) (isl_poly 1 SetIsl) (isl_rows 1 SetIsl) co1 0 1 res = Some ss /\
  (forall M, 1 <= M -> exists T rho',
     exec ss (params [M]) = Some (rho', flat_map (fun e => map (fun num => (num, skipn 0 (snd e))) (b_stmts (fst e))) T) /\
     forall b y, count_occ inst_eq_dec T (b, y) = input_count (isl_sem 1 SetIsl set_contains [M]) input56 b y).
Proof.
  destruct C56_code_example as (H3 & H4 & res & E & W & _).
  assert (H1 : statement_loops (isl_poly 1 SetIsl) [false] input56) by (repeat (constructor; [eexists _, _, _; split; [reflexivity|cbn; lia]|]); constructor).
  assert (H2 : depth_order (isl_poly 1 SetIsl) [false] input56) by dord.
  exists res. split; [exact E|].
  destruct (clast_create iname pname (fun l => l) (fun l => l) (reduce_isl SmallGist 1) (isl_poly 1 SetIsl) (isl_rows 1 SetIsl) co1 0 1 res) as [ss|] eqn:C.
  2: { exfalso. assert (C' : option_map (fun l => match clast_create iname pname (fun l => l) (fun l => l) (reduce_isl SmallGist 1) (isl_poly 1 SetIsl) (isl_rows 1 SetIsl) co1 0 1 l with Some _ => true | None => false end)
         (cloog_program_generate (isl_poly 1 SetIsl) (run_lengths [false]) opts 60 ctx56 input56) = Some true) by (vm_cast_no_check (eq_refl (Some true))).
       rewrite E in C'. cbn [option_map] in C'. rewrite C in C'. discriminate C'. }
  exists ss. split; [reflexivity|]. intros M HM.
  apply (C58_code_right_with_reduction iname pname (fun l => l) (fun l => l) SmallGist 1 SetIsl co1 0
           (fun l => Permutation_refl l) (fun l => Permutation_refl l) iname_inj (fun i j _ => iname_pname i j) (small_ok 1) (small_form 1)
           (set_laws 1) H3 set_contains set_decides [false] opts 60 ctx56 input56 res ss eq_refl ltac:(discriminate) eq_refl ltac:(discriminate) eq_refl H1 H2 H4 E W C [M] eq_refl).
  - apply pts_sat. split; [reflexivity|]. eexists. split; [left; reflexivity|]. constructor; [|constructor]. right. split; [reflexivity|]. cbn [row56 c_iter c_par c_const prod]. lia.
  - intros i Hi. apply params_ok. exact Hi.
Qed.
