(** C56 for the code: the statements created once by clast.c are right for all values of the parameters. *)
From Coq Require Import ZArith List Bool Arith String Permutation Lia.
From Verif Require Import StrideModel UnrollModel UnrollSpec LoopModel LoopSpec LoopCount LoopExamples BackendModel BackendSpec BackendSets BackendCode PropertiesLoop PropertiesBackend ClastModel ClastSpec LoopOtl ClastEnd ClastReady ClastExamples PropertiesClast.
Import ListNotations.
Local Arguments Nat.ltb : simpl never. Local Arguments Nat.leb : simpl never. Local Arguments Nat.eqb : simpl never. Local Arguments Nat.sub : simpl never.
Local Open Scope Z_scope.

Lemma dot_app a b x y : List.length a = List.length x -> dot (a ++ b) (x ++ y) = dot a x + dot b y.
Proof. revert x. induction a as [|z a IH]; intros [|v x] H; cbn [List.length] in H; try lia; cbn [app dot]; [lia|]. rewrite IH by lia. lia. Qed.
Lemma dot_prod a x : dot a x = prod a x.
Proof. reflexivity. Qed.
Lemma coefs_length n l : List.length (coefs n l) = n.
Proof. revert l. induction n as [|n IH]; intros [|z l]; cbn [coefs List.length]; rewrite ?IH; reflexivity. Qed.
Lemma coefs_nil n x : dot (coefs n []) x = 0.
Proof. revert x. induction n as [|n IH]; intros [|v x]; cbn [coefs dot]; try reflexivity. rewrite IH. lia. Qed.
Lemma coefs_dot n l x : List.length x = n -> dot (coefs n l) x = prod l x.
Proof.
  revert l x. induction n as [|n IH]; intros l [|v x] H; cbn [List.length] in H; try lia.
  - destruct l; reflexivity.
  - destruct l as [|z l]; cbn [coefs dot prod]; [rewrite coefs_nil; lia|]. rewrite IH by lia. reflexivity.
Qed.

Section Rows.
Variable np : nat.
Variable I : IslSet.
Hypothesis IL : IslLaws np I.
Variable contains : bset -> list Z -> list Z -> bool.
Hypothesis dec : decides I contains.
Notation P := (isl_poly np I).
Notation rows := (isl_rows np I).

Lemma row_con_holds c n nd x q p : List.length (c_iter c) = n -> List.length (c_div c) = nd ->
  List.length x = n -> List.length q = nd -> List.length p = np -> (row_holds (x ++ q ++ p) (con_row np c) <-> holds c x p q).
Proof.
  intros H1 H2 Hx Hq Hp. unfold row_holds, row_val, holds, value, con_row. cbn [r_eq r_co r_k].
  rewrite !dot_app by congruence. rewrite (coefs_dot np (c_par c) p Hp). change dot with prod. destruct (c_eq c); lia.
Qed.
Lemma rows_shape (d : iset I) b : i_sets I d = [b] -> List.length (cons_of b) = 0%nat \/ n_divs (i_dim I d) np (rows d) = n_div b.
Proof.
  intros E. pose proof (il_shape _ _ IL d) as H. rewrite E, Forall_cons_iff in H. destruct H as [H _]. unfold isl_rows. rewrite E.
  destruct (cons_of b) as [|c l] eqn:Ec; [left; reflexivity|right]. unfold shaped in H. rewrite Ec, Forall_cons_iff in H. destruct H as [[H1 H2] _].
  cbn [map n_divs con_row r_co]. rewrite !app_length, coefs_length. lia.
Qed.
Lemma rows_points (d : iset I) b p : i_sets I d = [b] -> List.length p = np ->
  Forall (fun r => List.length (r_co r) = i_dim I d + n_divs (i_dim I d) np (rows d) + np)%nat (rows d) /\
  forall x, List.length x = i_dim I d ->
    ((exists q, List.length q = n_divs (i_dim I d) np (rows d) /\ Forall (row_holds (x ++ q ++ p)) (rows d)) <-> pts I d x p).
Proof.
  intros E Hp. destruct (rows_shape d b E) as [H0|Hn].
  - apply length_zero_iff_nil in H0. assert (R : rows d = []) by (unfold isl_rows; rewrite E, H0; reflexivity). rewrite R. split; [constructor|].
    intros x Hx. unfold pts, point_of. rewrite E. split.
    + intros _. split; [exact Hx|]. exists b. split; [left; reflexivity|]. exists (repeat 0 (n_div b)). rewrite repeat_length, H0. split; [reflexivity|constructor].
    + intros _. exists []. split; [reflexivity|constructor].
  - rewrite Hn. pose proof (il_shape _ _ IL d) as H. rewrite E, Forall_cons_iff in H. destruct H as [H _]. unfold shaped in H. rewrite Forall_forall in H.
    unfold isl_rows. rewrite E. split.
    + apply Forall_map. apply Forall_forall. intros c Hc. destruct (H c Hc) as [H1 H2]. cbn [con_row r_co]. rewrite !app_length, coefs_length. lia.
    + intros x Hx. unfold pts, point_of. rewrite E. split.
      * intros (q & Hq & F). split; [exact Hx|]. exists b. split; [left; reflexivity|]. exists q. split; [exact Hq|].
        rewrite Forall_map in F. rewrite Forall_forall in *. intros c Hc. destruct (H c Hc) as [H1 H2]. apply (row_con_holds c _ _ x q p H1 H2 Hx Hq Hp). auto.
      * intros [_ (b' & [<-|[]] & q & Hq & F)]. exists q. split; [exact Hq|].
        apply Forall_map. rewrite Forall_forall in *. intros c Hc. destruct (H c Hc) as [H1 H2]. apply (row_con_holds c _ _ x q p H1 H2 Hx Hq Hp). auto.
Qed.

Lemma writable_inv o spread l : writable np I o spread l ->
  l_st P l = None /\ one_part I (l_dom P l) /\ not_void np I (l_dom P l) /\ Forall (avoids spread) (rows (l_dom P l)) /\
  ((exists b, l_blk P l = Some b) /\ l_inner P l = [] /\ i_dim I (l_dom P l) = List.length spread /\ rows_variable P (flat_rows P rows np) (l_dom P l) \/
   l_blk P l = None /\ i_dim I (l_dom P l) = S (List.length spread) /\ rows_normal P (flat_rows P rows np) (l_dom P l) /\
   bounded P (flat_rows P rows np) (l_dom P l) /\ (co_otl o = false -> unit_equation P (flat_rows P rows np) (l_dom P l)) /\
   Forall (writable np I o (spread ++ [is_spread P (flat_rows P rows np) o (l_dom P l)])) (l_inner P l)).
Proof. intros H. inversion H; subst; repeat (split; [assumption|]); [left|right]; eauto 10. Qed.
Lemma writable0_inv o l : writable0 np I o l ->
  i_dim I (l_dom P l) = 0%nat /\ l_st P l = None /\ (l_blk P l <> None -> l_inner P l = []) /\
    one_part I (l_dom P l) /\ not_void np I (l_dom P l) /\ rows_variable P (flat_rows P rows np) (l_dom P l) /\
    Forall (writable np I o []) (l_inner P l).
Proof. intros H. inversion H; subst. auto 10. Qed.

Section At.
Variable pv : list Z.
Hypothesis Hpv : List.length pv = np.
Notation Se := (isl_sem np I contains pv).
Lemma rows_describe_isl (d : iset I) : one_part I d -> rows_describe P Se rows pv d.
Proof.
  intros (b & E). destruct (rows_points d b pv E Hpv) as [H1 H2]. unfold rows_describe. rewrite Hpv. split; [exact H1|].
  intros x Hx. cbn [isl_poly dim]. rewrite (H2 x Hx). symmetry. apply (mem_pts np I contains dec pv).
Qed.
Lemma consistent_isl sts (d : iset I) : one_part I d -> not_void np I d -> Forall (fun s => s = None) sts -> consistent P rows pv sts d.
Proof.
  intros (b & E) Hv Hs. unfold consistent. rewrite Hpv. cbn [isl_poly dim]. intros H. destruct (Hv H) as (x & p & Hp & Hx).
  pose proof (proj1 Hx) as Hl. destruct (rows_points d b p E Hp) as [_ H2]. apply (H2 x Hl) in Hx. destruct Hx as (q & Hq & F).
  exists x, q, p. repeat (split; [assumption|]). intros i s off Hi. apply nth_error_In in Hi. rewrite Forall_forall in Hs. discriminate (Hs _ Hi).
Qed.
Variable o : copts.
Lemma ready_isl : forall l spread sts, Forall (fun s => s = None) sts -> writable np I o spread l -> ready P Se rows pv o spread sts l.
Proof.
  induction l as [d ot st b inner IH] using (loop_ind' P). intros spread sts Hs H. apply writable_inv in H. destruct H as (B1 & B2 & B3 & B4 & [((b' & B5) & B6 & B7 & B8)|(B5 & B6 & B7 & B8 & B9 & B10)]).
  - eapply Ready_stmt; try eassumption; [apply rows_describe_isl; assumption|apply consistent_isl; assumption|rewrite Hpv; assumption].
  - apply Ready_loop; rewrite ?Hpv; try assumption; [apply rows_describe_isl; assumption|apply consistent_isl; assumption|unfold stride_usable; rewrite B1; exact Logic.I|].
    rewrite Forall_forall in B10, IH. apply Forall_forall. intros k Hk. apply (IH k Hk); [|exact (B10 k Hk)]. apply Forall_app. split; [assumption|]. constructor; [|constructor].
    unfold stride_at, const_stride. rewrite B1. reflexivity.
Qed.
Lemma ready0_isl l : writable0 np I o l -> ready0 P Se rows pv o l.
Proof.
  intros H. apply writable0_inv in H. destruct H as (B1 & B2 & B3 & B4 & B5 & B6 & B7). constructor; rewrite ?Hpv; try assumption; [apply rows_describe_isl; assumption|apply consistent_isl; [assumption|assumption|constructor]|].
  rewrite Forall_forall in *. intros k Hk. apply ready_isl; [constructor|auto].
Qed.
Lemma otl_isl : single_valued_means np I -> otl_sound P Se.
Proof.
  intros H d level x y H1 H2 Ho Hx Hy E. cbn [isl_poly dim is_otl] in *. apply (mem_pts np I contains dec pv) in Hx, Hy.
  apply (H d (level - 1)%nat x y pv Hpv); try assumption. lia.
Qed.
End At.
End Rows.

(** The program is generated and its code created once, from sets with parameters; executed with any values
    of the parameters (among those the context allows), the code runs every instance of every statement
    exactly once.  [reduce] simplifies modulo guards; the names are what the printer uses. *)
Theorem C56_code_right_for_all_parameters :
  forall (iter_name par_name : nat -> string) (sort_exprs : list expr -> list expr) (sort_eqns : list eqn -> list eqn)
         (reduce : list (option (eqtype * row)) -> list row -> nat -> list row) (np : nat) (I : IslSet) (co : copts) (ns : nat),
  (forall l, Permutation l (sort_exprs l)) -> (forall l, Permutation l (sort_eqns l)) ->
  (forall i j, iter_name (S i) = iter_name (S j) -> i = j) ->
  (forall i j, (j < np)%nat -> iter_name (S i) <> par_name j) ->
  (forall p, List.length p = np -> reduce_right p reduce) ->
  IslLaws np I -> single_valued_means np I -> forall contains, decides I contains ->
  forall (kinds : list bool) (o : options) (fuel : nat) (ctx : iset I) (ls res : list (loop (isl_poly np I))) (ss : list stmt),
  o_stop o < 0 -> o_first_unroll o <> 0 -> o_strides o = false -> (o_sh o = true -> simple_hull_stays np I) ->
  i_dim I ctx = 0%nat ->
  statement_loops (isl_poly np I) kinds ls -> depth_order (isl_poly np I) kinds ls -> unmarked (isl_poly np I) ls ->
  cloog_program_generate (isl_poly np I) (run_lengths kinds) o fuel ctx ls = Some res ->
  Forall (writable0 np I co) res ->
  clast_create iter_name par_name sort_exprs sort_eqns reduce (isl_poly np I) (isl_rows np I) co ns np res = Some ss ->
  forall p, List.length p = np -> pts I ctx [] p ->
  forall rho : env, (forall i, (i < np)%nat -> rho (par_name i) = Some (nth i p 0)) ->
  exists (T : list (block * list Z)) rho',
    exec ss rho = Some (rho', flat_map (fun e => map (fun num => (num, skipn ns (snd e))) (b_stmts (fst e))) T) /\
    forall b y, count_occ inst_eq_dec T (b, y) = input_count (isl_sem np I contains p) ls b y.
Proof.
  intros iter_name par_name sort_exprs sort_eqns reduce np I co ns S1 S2 N1 N2 R IL SV contains dec kinds o fuel ctx ls res ss H1 H2 H3 Hsh Hd Hs Hdo Hu Hg Hw Hc p Hp Hx rho Hr.
  pose proof (C56_backend_laws np I IL contains dec p Hp) as L.
  assert (Hm : mem (isl_sem np I contains p) ctx [] = true) by (apply (mem_pts np I contains dec p); exact Hx).
  pose proof (generated_otl (isl_poly np I) (isl_sem np I contains p) L kinds o fuel ctx ls res (otl_isl np I contains dec p Hp SV) H1 (or_introl H3) Hd Hm Hs Hu Hg) as Ho.
  assert (Hy : Forall (ready0 (isl_poly np I) (isl_sem np I contains p) (isl_rows np I) p co) res).
  { rewrite Forall_forall in *. intros l Hl. apply (ready0_isl np I IL contains dec p Hp). auto. }
  destruct (C16_clast_runs_loops iter_name par_name sort_exprs sort_eqns reduce (isl_poly np I) (isl_sem np I contains p) (isl_rows np I) p co ns S1 S2 N1
    ltac:(rewrite Hp; exact N2) (R p Hp) res ss rho ltac:(rewrite Hp; exact Hc) Hy Ho ltac:(rewrite Hp; exact Hr)) as (Ls & rho' & A & B).
  exists (trace Ls), rho'. split; [rewrite B, calls_trace; reflexivity|]. intros b y.
  destruct (C56_right_for_all_parameters np I IL contains dec kinds o fuel ctx ls res H1 H2 H3 Hsh Hd Hs Hdo Hg p Hp Hx b y) as (ps & N & Len & Q).
  rewrite <- Len. eapply runs_count; eassumption.
Qed.
Print Assumptions C56_code_right_for_all_parameters.

(** A check of the conditions on the loops (for loops without existential dimensions). *)
Section Check.
Variable np : nat.
Variable I : IslSet.
Variable o : copts.
Notation P := (isl_poly np I).
Notation rows := (isl_rows np I).
Notation flat := (flat_rows P rows np).
Definition domb (d : iset I) : bool := match i_sets I d with [_] => true | _ => false end && (n_divs (i_dim I d) np (rows d) =? 0)%nat.
Lemma domb_ok d : domb d = true -> one_part I d /\ not_void np I d.
Proof.
  unfold domb. rewrite andb_true_iff, Nat.eqb_eq. intros [H1 H2]. split; [|intros H; lia]. unfold one_part. destruct (i_sets I d) as [|b [|? ?]]; try discriminate. exists b. reflexivity.
Qed.
Fixpoint writableb (l : loop P) (spread : list bool) {struct l} : bool :=
  match l with
  | Loop _ d ot st b inner =>
    domb d && match st with None => true | _ => false end && forallb (avoidsb spread) (rows d) &&
    match b with
    | Some _ => match inner with [] => true | _ => false end && (i_dim I d =? List.length spread)%nat && forallb has_var (flat d)
    | None => (i_dim I d =? S (List.length spread))%nat && normalb (i_dim I d) (flat d) && boundedb P flat d && (co_otl o || unitb P flat d) &&
        forallb (fun l' => writableb l' (spread ++ [is_spread P flat o d])) inner
    end
  end.
Lemma writableb_ok l : forall spread, writableb l spread = true -> writable np I o spread l.
Proof.
  induction l as [d ot st b inner IH] using (loop_ind' P). intros spread H. cbn [writableb] in H. rewrite !andb_true_iff in H. destruct H as (((H1 & H2) & H3) & H4).
  apply domb_ok in H1. destruct H1 as [H1 H1']. assert (H3' : Forall (avoids spread) (rows d)) by (apply Forall_forall; intros r Hr; rewrite forallb_forall in H3; apply avoidsb_ok, H3; exact Hr).
  destruct st; [discriminate|]. destruct b as [b|]; rewrite !andb_true_iff in H4.
  - destruct H4 as ((H4 & H5) & H6). destruct inner; [|discriminate]. apply Nat.eqb_eq in H5. apply Writable_stmt with (b := b); try reflexivity; try assumption.
    apply Forall_forall. intros r Hr. rewrite forallb_forall in H6. apply has_var_ok, H6. exact Hr.
  - destruct H4 as ((((H4 & H5) & H6) & H7) & H8). apply Nat.eqb_eq in H4. apply Writable_loop; try reflexivity; try assumption.
    + apply (normalb_ok P). exact H5.
    + apply boundedb_ok. exact H6.
    + intros E. rewrite E in H7. apply unitb_ok. exact H7.
    + cbn [l_inner]. rewrite forallb_forall in H8. apply Forall_forall. intros k Hk. rewrite Forall_forall in IH. apply (IH k Hk). apply (H8 k Hk).
Qed.
Definition writable0b (l : loop P) : bool :=
  (i_dim I (l_dom P l) =? 0)%nat && match l_st P l with None => true | _ => false end &&
  match l_blk P l, l_inner P l with Some _, _ :: _ => false | _, _ => true end &&
  domb (l_dom P l) && forallb has_var (flat (l_dom P l)) && forallb (fun l' => writableb l' []) (l_inner P l).
Lemma writable0b_ok l : writable0b l = true -> writable0 np I o l.
Proof.
  intros H. unfold writable0b in H. rewrite !andb_true_iff in H. destruct H as (((((H1 & H2) & H3) & HC) & H4) & H5). apply domb_ok in HC. apply Nat.eqb_eq in H1. constructor; try tauto.
  - destruct (l_st P l); [discriminate|reflexivity].
  - intros Hb. destruct (l_blk P l); [|contradiction]. destruct (l_inner P l); [reflexivity|discriminate].
  - apply Forall_forall. intros r Hr. rewrite forallb_forall in H4. apply has_var_ok, H4. exact Hr.
  - apply Forall_forall. intros l' Hl'. rewrite forallb_forall in H5. apply writableb_ok, H5. exact Hl'.
Qed.
End Check.

(** The program of C56_example: its code, created once, is right for all values of the parameter M >= 1; with
    M = 6, for example, it makes these calls.  (The comparisons of [SetIsl] put everything in any order.) *)
Example C56_code_example :
  single_valued_means 1 SetIsl /\ unmarked (isl_poly 1 SetIsl) input56 /\
  exists res, cloog_program_generate (isl_poly 1 SetIsl) (run_lengths [false]) opts 60 ctx56 input56 = Some res /\
  Forall (writable0 1 SetIsl co1) res /\
  exists ss, clast_create iname pname (fun l => l) (fun l => l) keep_rows (isl_poly 1 SetIsl) (isl_rows 1 SetIsl) co1 0 1 res = Some ss /\
  (forall M, 1 <= M -> exists T rho',
     exec ss (params [M]) = Some (rho', flat_map (fun e => map (fun num => (num, skipn 0 (snd e))) (b_stmts (fst e))) T) /\
     forall b y, count_occ inst_eq_dec T (b, y) = input_count (isl_sem 1 SetIsl set_contains [M]) input56 b y) /\
  exists rho', exec ss (params [6]) = Some (rho', map (fun e => (fst e, [snd e]))
     [(1%nat, 5); (2%nat, 5); (1%nat, 6); (2%nat, 6); (1%nat, 0); (1%nat, 1); (1%nat, 2); (1%nat, 3); (1%nat, 4)]).
Proof.
  assert (H1 : statement_loops (isl_poly 1 SetIsl) [false] input56) by (repeat (constructor; [eexists _, _, _; split; [reflexivity|cbn; lia]|]); constructor).
  assert (H2 : depth_order (isl_poly 1 SetIsl) [false] input56) by dord.
  assert (H3 : single_valued_means 1 SetIsl) by (intros d k x y p _ _ H; discriminate H).
  assert (H4 : unmarked (isl_poly 1 SetIsl) input56) by (repeat constructor).
  split; [exact H3|]. split; [exact H4|].
  run_result.
  match goal with |- Forall _ ?r /\ _ => set (res := r) end.
  assert (E : cloog_program_generate (isl_poly 1 SetIsl) (run_lengths [false]) opts 60 ctx56 input56 = Some res).
  { apply strip_eq. vm_cast_no_check (eq_refl (option_map (map (strip (isl_poly 1 SetIsl))) (cloog_program_generate (isl_poly 1 SetIsl) (run_lengths [false]) opts 60 ctx56 input56))). }
  assert (W : Forall (writable0 1 SetIsl co1) res).
  { assert (Wb : forallb (writable0b 1 SetIsl co1) res = true) by (unfold res; vm_compute; reflexivity). rewrite forallb_forall in Wb. apply Forall_forall. intros l Hl. apply writable0b_ok. exact (Wb l Hl). }
  split; [exact W|].
  destruct (clast_create iname pname (fun l => l) (fun l => l) keep_rows (isl_poly 1 SetIsl) (isl_rows 1 SetIsl) co1 0 1 res) as [ss|] eqn:C; [|exfalso; unfold res in C; vm_compute in C; discriminate C].
  exists ss. split; [reflexivity|]. split.
  - intros M HM. clearbody res.
    apply (C56_code_right_for_all_parameters iname pname (fun l => l) (fun l => l) keep_rows 1 SetIsl co1 0
             (fun l => Permutation_refl l) (fun l => Permutation_refl l) iname_inj (fun i j _ => iname_pname i j) (fun p _ => keep_rows_right p)
             (set_laws 1) H3 set_contains set_decides [false] opts 60 ctx56 input56 res ss eq_refl ltac:(discriminate) eq_refl ltac:(discriminate) eq_refl H1 H2 H4 E W C [M] eq_refl).
    + apply pts_sat. split; [reflexivity|]. eexists. split; [left; reflexivity|]. constructor; [|constructor]. right. split; [reflexivity|]. cbn [row56 c_iter c_par c_const prod]. lia.
    + intros i Hi. apply params_ok. exact Hi.
  - eexists. unfold res in C. vm_compute in C. apply (f_equal (fun o => match o with Some s => s | None => [] end)) in C. rewrite <- C. vm_compute. reflexivity.
Qed.
