(** Properties C11 and C34, and C01, C02, C43 for the whole way from statements with
    scatterings to the generated loops: cloog_program_alloc and cloog_program_generate. *)
From Coq Require Import ZArith List Bool Arith Lia.
From Verif Require Import LoopModel LoopSpec LoopBox LoopExamples PropertiesLoop.
From Verif Require Import ProgramModel ProgramSpec ProgramScalars ProgramBlock ProgramLoopBlock ProgramMain ProgramBox.
Import ListNotations.
Local Open Scope nat_scope.

(** ** C11 *)
(** Which dimensions are extracted ([kinds]), what is recorded about them ([scaldims]), and
    that the dates of every statement are those that its scalar values and the dates of the
    remaining scattering give together. *)
Theorem C11_extraction_keeps_dates :
  forall (P : Poly) (Se : Sem P) (C : Scat P) (rel : ScatSem C), ScatLaws P Se C rel ->
  forall (nb : nat) (ls : list (ploop P)) (ss : list (smap C)) scaldims ls' ss',
  length ls = length ss -> Forall (fun l => pl_scal P l = None) ls ->
  extract_scalars P C nb ls ss = Some (scaldims, ls', ss') ->
  exists kinds, length kinds = nb /\ length scaldims = nb /\
    (forall n, nth_error kinds n = Some true <-> n < nb /\ forall s, In s ss -> s_scalar C s n <> None) /\
    (forall n, nth n scaldims 0 = leading (skipn n kinds)) /\
    length ls' = length ls /\ length ss' = length ss /\
    forall k l s, nth_error ls k = Some l -> nth_error ss k = Some s -> s_dim C s = nb ->
    exists l' s', nth_error ls' k = Some l' /\ nth_error ss' k = Some s' /\
      pl_dom P l' = pl_dom P l /\ pl_stmts P l' = pl_stmts P l /\
      length (scals P l') = nscalar kinds /\ s_dim C s' = nonscalar kinds /\
      forall t i, rel s t i = true <->
        exists u, length u = nonscalar kinds /\ rel s' u i = true /\ t = date kinds (scals P l') u.
Proof.
  intros P Se C rel CL nb ls ss scaldims ls' ss' Hlen Hn He.
  destruct (extract_dates P Se C rel CL nb ls ss scaldims ls' ss' Hlen Hn He) as (kinds & H1 & H2 & H3 & H4 & H5).
  assert (Hk : length kinds = nb) by (rewrite H2; apply scalar_dims_length).
  exists kinds. split; [exact Hk|]. split; [rewrite H1, LoopKeys.run_lengths_length; exact Hk|]. split; [|split; [|split; [exact H3|split; [exact H4|]]]].
  - intros n. rewrite H2. unfold scalar_dims. rewrite nth_error_map.
    destruct (Nat.lt_ge_cases n nb) as [Hl|Hl].
    + assert (Q : nth_error (seq 0 nb) n = Some n) by (rewrite (nth_error_nth' _ 0) by (rewrite seq_length; exact Hl); rewrite seq_nth by exact Hl; reflexivity).
      rewrite Q. cbn. split.
      * intros E. injection E as E. split; [exact Hl|]. intros s Hs. rewrite forallb_forall in E. specialize (E s Hs). destruct (s_scalar C s n); [discriminate|discriminate E].
      * intros [_ E]. f_equal. apply forallb_forall. intros s Hs. specialize (E s Hs). destruct (s_scalar C s n); [reflexivity|congruence].
    + assert (Q : nth_error (seq 0 nb) n = None) by (apply nth_error_None; rewrite seq_length; exact Hl). rewrite Q. cbn. split; [discriminate|lia].
  - intros n. rewrite H1. apply run_lengths_nth.
  - intros k l s E1 E2 Hd. destruct (H5 k l s E1 E2 Hd) as (l' & s' & F1 & F2 & F3 & F4 & F5 & F6 & F7 & F8).
    exists l', s'. repeat (split; [assumption|]). intros t i. split.
    + intros Ht. destruct (F8 t i Ht) as (u & Hu & ->). exists u. split; [exact Hu|]. split; [rewrite F7 by exact Hu; exact Ht|reflexivity].
    + intros (u & Hu & Hr & ->). rewrite F7 in Hr by exact Hu. exact Hr.
Qed.
Print Assumptions C11_extraction_keeps_dates.

(** Two statements with dates (0, i, 0) and (0, i, 1), i = 0 .. 1: dimensions 0 and 2 are
    extracted. *)
Definition tab (n : nat) (l : list (list Z * list Z)) : smap BoxScat := {| td := n; tp := l |} .
Definition sA : smap BoxScat := tab 3 [([0; 0; 0], [0]); ([0; 1; 0], [1])]%Z.
Definition sB : smap BoxScat := tab 3 [([0; 0; 1], [0]); ([0; 1; 1], [1])]%Z.
Definition dA : dom BoxPoly := B 1 [[(0, 1)]%Z].
Example C11_example :
  ScatLaws BoxPoly BoxSem BoxScat BoxRel /\
  exists ls' ss', extract_scalars BoxPoly BoxScat 3 (from_domains BoxPoly 0 [dA; dA]) [sA; sB] = Some ([1; 0; 1], ls', ss') /\
    s_dim BoxScat sA = 3 /\ map (pl_scal BoxPoly) ls' = [Some [0; 0]%Z; Some [0; 1]%Z] /\ BoxRel sB [0; 1; 1]%Z [1]%Z = true.
Proof. split; [exact box_scat_laws|]. eexists _, _. split; [reflexivity|]. repeat split. Qed.

(** ** Statements run exactly once *)
(** Every statement of the input, scattered and blocked in any way the program chooses, runs
    exactly once for each of its iterations and for nothing else. *)
Theorem C01_program_instances_exactly_once :
  forall (P : Poly) (Se : Sem P) (C : Scat P) (rel : ScatSem C), Laws P Se -> ScatLaws P Se C rel ->
  forall (ao : alloc_options) (o : options) (fuel : nat) (ctx : dom P) (input : list (dom P * smap C)) scaldims res,
  plain_options P Se o -> o_strides o = false -> dim P ctx = 0 -> mem Se ctx [] = true ->
  input <> [] -> dated Se rel input -> flat_last input ->
  alloc_and_generate P C ao o fuel ctx (all_scattered input) = Some (scaldims, res) ->
  (forall p k i, Runs Se res (scanned scaldims) p k i -> exists d s, nth_error input k = Some (d, s) /\ mem Se d i = true) /\
  (forall k d s i, nth_error input k = Some (d, s) -> mem Se d i = true ->
     exists p, Runs Se res (scanned scaldims) p k i /\ forall p', Runs Se res (scanned scaldims) p' k i -> p' = p).
Proof.
  intros P Se C rel L CL ao o fuel ctx input scaldims res Ho Hs Hd Hc Hne Hdt Hfl H.
  unfold alloc_and_generate in H. destruct (program_alloc P C ao (all_scattered input)) as [[sd ls]|] eqn:Ea; [|discriminate].
  destruct (cloog_program_generate P sd o fuel ctx (map (to_loop P) ls)) as [res'|] eqn:Eg; [|discriminate]. injection H as <- <-.
  destruct (alloc_shape P Se C rel L CL ao input sd ls Hdt Hne Ea) as (Bs & kinds & G & HS).
  eapply runs_once; [exact L|exact HS|].
  eapply C01_instances_exactly_once with (kinds := kinds); eauto.
  - eapply shape_statement_loops; eauto.
  - eapply shape_depth_order; eauto.
  - rewrite <- (sh_sd _ _ _ _ _ _ _ _ _ _ _ HS). exact Eg.
Qed.
Print Assumptions C01_program_instances_exactly_once.

(** The same without any scattering. *)
Theorem C01_program_without_scattering :
  forall (P : Poly) (Se : Sem P) (C : Scat P), Laws P Se ->
  forall (ao : alloc_options) (o : options) (fuel : nat) (ctx : dom P) (ds : list (dom P)) scaldims res,
  plain_options P Se o -> o_strides o = false -> dim P ctx = 0 -> mem Se ctx [] = true ->
  alloc_and_generate P C ao o fuel ctx (map (fun d => (d, None)) ds) = Some (scaldims, res) ->
  scaldims = [] /\
  (forall p k i, Runs Se res 0 p k i -> exists d, nth_error ds k = Some d /\ mem Se d i = true) /\
  (forall k d i, nth_error ds k = Some d -> mem Se d i = true ->
     exists p, Runs Se res 0 p k i /\ forall p', Runs Se res 0 p' k i -> p' = p).
Proof.
  intros P Se C L ao o fuel ctx ds scaldims res Ho Hs Hd Hc H.
  unfold alloc_and_generate, program_alloc in H.
  assert (E1 : flat_map (fun x : dom P * option (smap C) => match snd x with Some s => [s] | None => [] end) (map (fun d => (d, None)) ds) = []).
  { clear. induction ds; cbn; auto. }
  rewrite E1, map_map in H. cbn [fst] in H. rewrite map_id in H.
  destruct (cloog_program_generate P [] o fuel ctx (map (to_loop P) (from_domains P 0 ds))) as [res'|] eqn:Eg; [|discriminate].
  injection H as <- <-. split; [reflexivity|].
  set (lp := fun d n => {| pl_dom := d; pl_stmts := [S n]; pl_scal := None |} : ploop P).
  assert (Hat : forall ds n k, nth_error (from_domains P n ds) k = option_map (fun d => lp d (n + k)) (nth_error ds k)).
  { induction ds0 as [|d r IH]; intros n [|k]; cbn; try reflexivity.
    - unfold lp. rewrite Nat.add_0_r. reflexivity.
    - rewrite IH. replace (S n + k) with (n + S k) by lia. reflexivity. }
  assert (Hcount : forall b y, exists ps, NoDup ps /\ length ps = input_count Se (map (to_loop P) (from_domains P 0 ds)) b y /\
    forall p, In p ps <-> Exec P Se res' [] p b y).
  { eapply C01_instances_exactly_once with (kinds := []); eauto.
    - apply Forall_forall. intros x Hx. apply in_map_iff in Hx. destruct Hx as (l & <- & _). eexists _, _, _. split; [reflexivity|]. cbn. lia.
    - intros Hl. discriminate Hl. }
  assert (Hrun : forall p k i, Runs Se res' 0 p k i -> exists d q, nth_error ds k = Some d /\ mem Se d i = true /\
     p = q ++ [0%Z] /\ Exec P Se res' [] q (blk_of P (lp d k)) i).
  { intros p k i (q & b & y & j & HE & Hj & -> & ->). cbn [skipn].
    destruct (exec_in P Se (from_domains P 0 ds) res' Hcount q b y HE) as (a & w & Ha & -> & Hm).
    rewrite Hat in Ha. destruct (nth_error ds a) as [d|] eqn:Ed; [|discriminate]. cbn in Ha. injection Ha as <-.
    destruct j as [|[|]]; try discriminate. cbn in Hj. injection Hj as ->. exists d, q. auto. }
  split.
  - intros p k i HR. destruct (Hrun p k i HR) as (d & q & Q1 & Q2 & _). eauto.
  - intros k d i Hk Hi.
    assert (Hone : input_count Se (map (to_loop P) (from_domains P 0 ds)) (blk_of P (lp d k)) i = 1).
    { unfold input_count.
      assert (Q : forall ds k n, nth_error ds k = Some d -> length (filter (has_instance Se (blk_of P (lp d (n + k))) i) (map (to_loop P) (from_domains P n ds))) = 1).
      { clear - Hi. assert (Hno : forall ds n m, m < n -> filter (has_instance Se (blk_of P (lp d m)) i) (map (to_loop P) (from_domains P n ds)) = []).
        { induction ds as [|x r IH]; intros n m Hm; cbn [from_domains map filter]; [reflexivity|].
          destruct (has_instance Se (blk_of P (lp d m)) i (to_loop P {| pl_dom := x; pl_stmts := [S n]; pl_scal := None |})) eqn:E.
          - apply has_inst in E. destruct E as [E _]. apply (f_equal b_stmts) in E. cbn in E. injection E as E. lia.
          - apply IH. lia. }
        induction ds as [|x r IH]; intros k n Hk; [destruct k; discriminate|]. cbn [from_domains map filter].
        fold (lp x n). destruct k as [|k]; cbn [nth_error] in Hk.
        - injection Hk as ->. replace (n + 0) with n by lia.
          assert (E : has_instance Se (blk_of P (lp d n)) i (to_loop P (lp d n)) = true) by (apply has_inst; auto).
          rewrite E, Hno by lia. reflexivity.
        - destruct (has_instance Se (blk_of P (lp d (n + S k))) i (to_loop P (lp x n))) eqn:E.
          + apply has_inst in E. destruct E as [E _]. apply (f_equal b_stmts) in E. cbn in E. injection E as E. lia.
          + replace (n + S k) with (S n + k) by lia. apply IH. exact Hk. }
      apply (Q ds k 0 Hk). }
    destruct (Hcount (blk_of P (lp d k)) i) as (ps & Hn & Hl & Hp). rewrite Hone in Hl. destruct ps as [|q [|]]; try discriminate.
    exists (q ++ [0%Z]). split.
    + exists q, (blk_of P (lp d k)), i, 0. split; [apply Hp; left; reflexivity|]. repeat split.
    + intros p' HR. destruct (Hrun p' k i HR) as (d' & q' & Q1 & Q2 & -> & HE). rewrite Hk in Q1. injection Q1 as <-.
      apply Hp in HE. destruct HE as [->|[]]. reflexivity.
Qed.
Print Assumptions C01_program_without_scattering.

(** ** Order *)
(** Without blocks, or without scalar extraction (then only cloog_program_block makes blocks),
    the dates are respected by every pair of statements. *)
Theorem C02_program_order_partial :
  forall (P : Poly) (Se : Sem P) (C : Scat P) (rel : ScatSem C), Laws P Se -> OrderLaws P Se -> ScatLaws P Se C rel ->
  forall (ao : alloc_options) (o : options) (fuel : nat) (ctx : dom P) (input : list (dom P * smap C)) scaldims res,
  plain_options P Se o -> o_strides o = false -> o_override o = false -> o_f o <> 0%Z -> o_ls o = None ->
  dim P ctx = 0 -> mem Se ctx [] = true ->
  input <> [] -> dated Se rel input -> flat_last input ->
  a_noblocks ao = true \/ a_noscalars ao = true ->
  alloc_and_generate P C ao o fuel ctx (all_scattered input) = Some (scaldims, res) ->
  forall p k i d s t p' k' i' d' s' t',
  nth_error input k = Some (d, s) -> nth_error input k' = Some (d', s') ->
  Runs Se res (scanned scaldims) p k i -> Runs Se res (scanned scaldims) p' k' i' ->
  rel s t i = true -> rel s' t' i' = true -> lex_lt t t' -> lex_lt p p'.
Proof.
  intros P Se C rel L OL CL ao o fuel ctx input scaldims res Ho Hs Hov Hf Hls Hd Hc Hne Hdt Hfl Hao H.
  unfold alloc_and_generate in H. destruct (program_alloc P C ao (all_scattered input)) as [[sd ls]|] eqn:Ea; [|discriminate].
  destruct (cloog_program_generate P sd o fuel ctx (map (to_loop P) ls)) as [res'|] eqn:Eg; [|discriminate]. injection H as <- <-.
  destruct (alloc_shape P Se C rel L CL ao input sd ls Hdt Hne Ea) as (Bs & kinds & G & HS).
  assert (H1 : statement_loops P kinds (map (to_loop P) ls)) by (eapply shape_statement_loops; eauto).
  assert (H2 : depth_order P kinds (map (to_loop P) ls)) by (eapply shape_depth_order; eauto).
  rewrite (sh_sd _ _ _ _ _ _ _ _ _ _ _ HS) in Eg.
  eapply runs_order with (kinds := kinds); [exact L|exact CL|exact HS| | |].
  - eapply C01_instances_exactly_once; eauto.
  - left. apply (sh_single _ _ _ _ _ _ _ _ _ _ _ HS). exact Hao.
  - eapply C02_scattering_order; eauto.
Qed.
Print Assumptions C02_program_order_partial.

(** ** C34 *)
(** Blocks are consecutive statements in the order of the input. *)
Theorem C34_blocks_are_segments :
  forall (P : Poly) (Se : Sem P) (C : Scat P) (rel : ScatSem C), Laws P Se -> ScatLaws P Se C rel ->
  forall (ao : alloc_options) (input : list (dom P * smap C)) scaldims ls,
  input <> [] -> dated Se rel input ->
  program_alloc P C ao (all_scattered input) = Some (scaldims, ls) ->
  flat_map (pl_stmts P) ls = seq 1 (length input).
Proof.
  intros P Se C rel L CL ao input scaldims ls Hne Hdt H.
  destruct (alloc_shape P Se C rel L CL ao input scaldims ls Hdt Hne H) as (Bs & kinds & G & HS).
  eapply all_stmts; eauto.
Qed.
Print Assumptions C34_blocks_are_segments.

(** With both kinds of blocking: each statement runs exactly on its own domain (see
    C01_program_instances_exactly_once, which has no condition on the blocks), and the dates
    are respected if no two iterations of a statement share a date and no scattering dimension
    that stays is constant for a statement.  Both conditions are needed, see below. *)
Theorem C34_blocking_keeps_order_partial :
  forall (P : Poly) (Se : Sem P) (C : Scat P) (rel : ScatSem C), Laws P Se -> OrderLaws P Se -> ScatLaws P Se C rel ->
  forall (ao : alloc_options) (o : options) (fuel : nat) (ctx : dom P) (input : list (dom P * smap C)) scaldims res,
  plain_options P Se o -> o_strides o = false -> o_override o = false -> o_f o <> 0%Z -> o_ls o = None ->
  dim P ctx = 0 -> mem Se ctx [] = true ->
  input <> [] -> dated Se rel input -> flat_last input ->
  one_at_a_time Se rel input -> moving Se rel input ->
  alloc_and_generate P C ao o fuel ctx (all_scattered input) = Some (scaldims, res) ->
  forall p k i d s t p' k' i' d' s' t',
  nth_error input k = Some (d, s) -> nth_error input k' = Some (d', s') ->
  Runs Se res (scanned scaldims) p k i -> Runs Se res (scanned scaldims) p' k' i' ->
  rel s t i = true -> rel s' t' i' = true -> lex_lt t t' -> lex_lt p p'.
Proof.
  intros P Se C rel L OL CL ao o fuel ctx input scaldims res Ho Hs Hov Hf Hls Hd Hc Hne Hdt Hfl Hone Hmov H.
  unfold alloc_and_generate in H. destruct (program_alloc P C ao (all_scattered input)) as [[sd ls]|] eqn:Ea; [|discriminate].
  destruct (cloog_program_generate P sd o fuel ctx (map (to_loop P) ls)) as [res'|] eqn:Eg; [|discriminate]. injection H as <- <-.
  destruct (alloc_shape P Se C rel L CL ao input sd ls Hdt Hne Ea) as (Bs & kinds & G & HS).
  assert (H1 : statement_loops P kinds (map (to_loop P) ls)) by (eapply shape_statement_loops; eauto).
  assert (H2 : depth_order P kinds (map (to_loop P) ls)) by (eapply shape_depth_order; eauto).
  rewrite (sh_sd _ _ _ _ _ _ _ _ _ _ _ HS) in Eg.
  eapply runs_order with (kinds := kinds); [exact L|exact CL|exact HS| | |].
  - eapply C01_instances_exactly_once; eauto.
  - eapply keeps_order_input; eauto.
  - eapply C02_scattering_order; eauto.
Qed.
Print Assumptions C34_blocking_keeps_order_partial.

(** Examples are run with records that do not mention the library. *)
Definition pstrip P (l : ploop P) : dom P * list nat * option (list Z) := (pl_dom P l, pl_stmts P l, pl_scal P l).
Definition punstrip P (t : dom P * list nat * option (list Z)) : ploop P :=
  {| pl_dom := fst (fst t); pl_stmts := snd (fst t); pl_scal := snd t |}.
Lemma alloc_steps : forall P C ao o fuel ctx input sd t,
  option_map (fun r => (fst r, map (pstrip P) (snd r))) (program_alloc P C ao input) = Some (sd, t) ->
  forall res, cloog_program_generate P sd o fuel ctx (map (to_loop P) (map (punstrip P) t)) = Some res ->
  alloc_and_generate P C ao o fuel ctx input = Some (sd, res).
Proof.
  intros P C ao o fuel ctx input sd t H res Hr. unfold alloc_and_generate.
  destruct (program_alloc P C ao input) as [[sd' ls]|]; [|discriminate]. cbn in H. injection H as <- <-.
  replace (map (punstrip P) (map (pstrip P) ls)) with ls in Hr; [rewrite Hr; reflexivity|].
  rewrite map_map. rewrite <- (map_id ls) at 1. apply map_ext. intros [d s c]. reflexivity.
Qed.
Ltac run_alloc :=
  match goal with
  | |- exists (sd : list nat) (res : list (loop ?P)), alloc_and_generate _ ?C ?ao ?o ?f ?ctx ?inp = Some (sd, res) /\ @?Q sd res =>
    let v := eval vm_compute in (option_map (fun r => (fst r, map (pstrip P) (snd r))) (program_alloc P C ao inp)) in
    match v with
    | Some (?sd, ?t) =>
      let H := fresh in
      assert (H : option_map (fun r => (fst r, map (pstrip P) (snd r))) (program_alloc P C ao inp) = Some (sd, t))
        by (vm_cast_no_check (@eq_refl (option (list nat * list (dom P * list nat * option (list Z)))) (Some (sd, t))));
      exists sd;
      let HR := fresh in
      assert (HR : exists res, cloog_program_generate P sd o f ctx (map (to_loop P) (map (punstrip P) t)) = Some res /\ Q sd res);
      [run_result | let r := fresh "r" in let E := fresh in let HQ := fresh in
        destruct HR as (r & E & HQ); exists r; split; [exact (alloc_steps P C ao o f ctx inp sd t H r E)|exact HQ]]
    end
  end.
Ltac run_stmt q y n := exists q; eexists _; exists y, n; split; [run_exec|]; split; [reflexivity|]; split; reflexivity.
Ltac lex := cbn; repeat (first [apply lex_here; reflexivity | apply lex_next]).

Definition blocks_on : alloc_options := {| a_noblocks := false; a_noscalars := false |}.
Definition blocks_off : alloc_options := {| a_noblocks := true; a_noscalars := false |}.

(** The two statements above: they are put in one block, which runs them in turn. *)
Definition inputA : list (dom BoxPoly * smap BoxScat) := [(dA, sA); (dA, sB)].
Lemma in_entries : forall s t i, BoxRel s t i = true -> In (t, i) (entries s). Proof. intros s t i. apply box_rel. Qed.
Ltac dated_tac :=
  intros d s [E|[E|E]]; try destruct E; injection E as <- <-.
Lemma inputA_ok : dated BoxSem BoxRel inputA /\ one_at_a_time BoxSem BoxRel inputA /\ moving BoxSem BoxRel inputA /\ flat_last inputA.
Proof.
  assert (Hm : forall i, mem BoxSem dA i = true -> i = [0%Z] \/ i = [1%Z]).
  { intros i H. cbn in H. unfold bmem in H. cbn in H. destruct i as [|v [|]]; try discriminate. cbn in H.
    rewrite orb_false_r, andb_true_r in H. unfold ini, ge_lo, le_hi in H. cbn in H. apply andb_true_iff in H. destruct H as [H1 H2].
    apply Z.leb_le in H1. apply Z.leb_le in H2. assert (v = 0 \/ v = 1)%Z as [-> | ->] by lia; auto. }
  split; [|split; [|split]].
  - intros d s [E|[E|[]]]; injection E as <- <-.
    + split.
      * intros i Hi. destruct (Hm i Hi) as [-> | ->]; [exists [0; 0; 0]%Z|exists [0; 1; 0]%Z]; reflexivity.
      * intros i t t' _ H1 H2. apply in_entries in H1, H2. cbn in H1, H2. intuition congruence.
    + split.
      * intros i Hi. destruct (Hm i Hi) as [-> | ->]; [exists [0; 0; 1]%Z|exists [0; 1; 1]%Z]; reflexivity.
      * intros i t t' _ H1 H2. apply in_entries in H1, H2. cbn in H1, H2. intuition congruence.
  - intros d s [E|[E|[]]]; injection E as <- <-; intros i i' t _ _ H1 H2; apply in_entries in H1, H2; cbn in H1, H2; intuition congruence.
  - intros d s Hin n Hn. destruct Hin as [E|[E|[]]]; injection E as <- <-; cbn in Hn.
    + destruct n as [|[|[|]]]; [left| |left|lia].
      * intros x [<-|[<-|[]]]; discriminate.
      * right. exists [0%Z], [1%Z], [0; 0; 0]%Z, [0; 1; 0]%Z. repeat split. discriminate.
      * intros x [<-|[<-|[]]]; discriminate.
    + destruct n as [|[|[|]]]; [left| |left|lia].
      * intros x [<-|[<-|[]]]; discriminate.
      * right. exists [0%Z], [1%Z], [0; 0; 1]%Z, [0; 1; 1]%Z. repeat split. discriminate.
      * intros x [<-|[<-|[]]]; discriminate.
  - repeat constructor.
Qed.
Example C34_example :
  OrderLaws BoxPoly BoxSem /\ ScatLaws BoxPoly BoxSem BoxScat BoxRel /\
  dated BoxSem BoxRel inputA /\ one_at_a_time BoxSem BoxRel inputA /\ moving BoxSem BoxRel inputA /\ flat_last inputA /\
  exists sd res, alloc_and_generate BoxPoly BoxScat blocks_on opts 60 ctx0 (all_scattered inputA) = Some (sd, res) /\
    exists p p', Runs BoxSem res (scanned sd) p 0 [1%Z] /\ Runs BoxSem res (scanned sd) p' 1 [1%Z] /\ lex_lt p p'.
Proof.
  split; [exact LoopBox.box_order_laws|]. split; [exact box_scat_laws|].
  destruct inputA_ok as (H1 & H2 & H3 & H4). repeat (split; [assumption|]).
  run_alloc. exists [0; 1; 1; 0; 1; 0; 0]%Z, [0; 1; 1; 0; 1; 0; 1]%Z.
  split; [run_stmt [Z.of_nat 0; Z.of_nat 1; 1%Z; Z.of_nat 0; 1%Z; Z.of_nat 0] [1; 1]%Z 0|].
  split; [run_stmt [Z.of_nat 0; Z.of_nat 1; 1%Z; Z.of_nat 0; 1%Z; Z.of_nat 0] [1; 1]%Z 1|lex].
Qed.

(** Two iterations with one date: both statements get scalar dates only, 0 for the first and 1
    for the second.  cloog_loop_block puts them in one block because the domains are equal and
    nothing separates the scalar dates, so the second statement runs on its first iteration
    before the first statement has run on all of its own. *)
Definition inputF : list (dom BoxPoly * smap BoxScat) :=
  [(dA, tab 1 [([0], [0]); ([0], [1])]%Z); (dA, tab 1 [([1], [0]); ([1], [1])]%Z)].
Theorem C34_equal_domains_refuted :
  Laws BoxPoly BoxSem /\ OrderLaws BoxPoly BoxSem /\ ScatLaws BoxPoly BoxSem BoxScat BoxRel /\
  dated BoxSem BoxRel inputF /\ flat_last inputF /\ moving BoxSem BoxRel inputF /\
  exists sd res, alloc_and_generate BoxPoly BoxScat blocks_on opts 60 ctx0 (all_scattered inputF) = Some (sd, res) /\
  exists p k i d s t p' k' i' d' s' t',
    nth_error inputF k = Some (d, s) /\ nth_error inputF k' = Some (d', s') /\
    Runs BoxSem res (scanned sd) p k i /\ Runs BoxSem res (scanned sd) p' k' i' /\
    BoxRel s t i = true /\ BoxRel s' t' i' = true /\ lex_lt t t' /\ lex_lt p' p.
Proof.
  split; [exact box_laws|]. split; [exact LoopBox.box_order_laws|]. split; [exact box_scat_laws|].
  assert (Hm : forall i, mem BoxSem dA i = true -> i = [0%Z] \/ i = [1%Z]).
  { intros i H. cbn in H. unfold bmem in H. cbn in H. destruct i as [|v [|]]; try discriminate. cbn in H.
    rewrite orb_false_r, andb_true_r in H. unfold ini, ge_lo, le_hi in H. cbn in H. apply andb_true_iff in H. destruct H as [H1 H2].
    apply Z.leb_le in H1. apply Z.leb_le in H2. assert (v = 0 \/ v = 1)%Z as [-> | ->] by lia; auto. }
  split; [|split; [repeat constructor|split]].
  - intros d s [E|[E|[]]]; injection E as <- <-.
    + split.
      * intros i Hi. destruct (Hm i Hi) as [-> | ->]; exists [0%Z]; reflexivity.
      * intros i t t' _ H1 H2. apply in_entries in H1, H2. cbn in H1, H2. intuition congruence.
    + split.
      * intros i Hi. destruct (Hm i Hi) as [-> | ->]; exists [1%Z]; reflexivity.
      * intros i t t' _ H1 H2. apply in_entries in H1, H2. cbn in H1, H2. intuition congruence.
  - intros d s Hin n Hn. left. destruct Hin as [E|[E|[]]]; injection E as <- <-; cbn in Hn;
      (destruct n; [|lia]); intros x [<-|[<-|[]]]; discriminate.
  - run_alloc. exists [0; 1; 1; 0; 0]%Z, 0, [1%Z], dA, (tab 1 [([0], [0]); ([0], [1])]%Z), [0%Z].
    exists [0; 0; 0; 0; 1]%Z, 1, [0%Z], dA, (tab 1 [([1], [0]); ([1], [1])]%Z), [1%Z].
    split; [reflexivity|]. split; [reflexivity|].
    split; [run_stmt [Z.of_nat 0; Z.of_nat 1; 1%Z; Z.of_nat 0] [1]%Z 0|].
    split; [run_stmt [Z.of_nat 0; Z.of_nat 0; 0%Z; Z.of_nat 0] [0]%Z 1|].
    split; [reflexivity|]. split; [reflexivity|]. split; lex.
Qed.
Print Assumptions C34_equal_domains_refuted.

(** A constant dimension between scalar ones: dates (0, i, 0) for i = 0 .. 2, (0, 0, 1) and
    (1, 0, 0).  No two instances share a date.  The two statements without iterators are put in
    one block, because the middle dimension is constant for them; so the last statement,
    which has to run at the end, runs right after the second. *)
Definition inputG : list (dom BoxPoly * smap BoxScat) :=
  [(B 1 [[(0, 2)]%Z], tab 3 [([0; 0; 0], [0]); ([0; 1; 0], [1]); ([0; 2; 0], [2])]%Z);
   (B 0 [[]], tab 3 [([0; 0; 1], [])]%Z); (B 0 [[]], tab 3 [([1; 0; 0], [])]%Z)].
Theorem C34_constant_dimension_refuted :
  Laws BoxPoly BoxSem /\ OrderLaws BoxPoly BoxSem /\ ScatLaws BoxPoly BoxSem BoxScat BoxRel /\
  dated BoxSem BoxRel inputG /\ flat_last inputG /\ one_at_a_time BoxSem BoxRel inputG /\
  exists sd res, alloc_and_generate BoxPoly BoxScat blocks_on opts 60 ctx0 (all_scattered inputG) = Some (sd, res) /\
  exists p k i d s t p' k' i' d' s' t',
    nth_error inputG k = Some (d, s) /\ nth_error inputG k' = Some (d', s') /\
    Runs BoxSem res (scanned sd) p k i /\ Runs BoxSem res (scanned sd) p' k' i' /\
    BoxRel s t i = true /\ BoxRel s' t' i' = true /\ lex_lt t t' /\ lex_lt p' p.
Proof.
  split; [exact box_laws|]. split; [exact LoopBox.box_order_laws|]. split; [exact box_scat_laws|].
  assert (Hm : forall i, mem BoxSem (B 1 [[(0, 2)]%Z]) i = true -> i = [0%Z] \/ i = [1%Z] \/ i = [2%Z]).
  { intros i H. cbn in H. unfold bmem in H. cbn in H. destruct i as [|v [|]]; try discriminate. cbn in H.
    rewrite orb_false_r, andb_true_r in H. unfold ini, ge_lo, le_hi in H. cbn in H. apply andb_true_iff in H. destruct H as [H1 H2].
    apply Z.leb_le in H1. apply Z.leb_le in H2. assert (v = 0 \/ v = 1 \/ v = 2)%Z as [-> | [-> | ->]] by lia; auto. }
  assert (Hm0 : forall i, mem BoxSem (B 0 [[]]) i = true -> i = []).
  { intros [|] H; [reflexivity|discriminate]. }
  split; [|split; [|split]].
  - intros d s [E|[E|[E|[]]]]; injection E as <- <-.
    + split.
      * intros i Hi. destruct (Hm i Hi) as [-> | [-> | ->]]; [exists [0; 0; 0]%Z|exists [0; 1; 0]%Z|exists [0; 2; 0]%Z]; reflexivity.
      * intros i t t' _ H1 H2. apply in_entries in H1, H2. cbn in H1, H2. intuition congruence.
    + split.
      * intros i Hi. rewrite (Hm0 i Hi). exists [0; 0; 1]%Z. reflexivity.
      * intros i t t' _ H1 H2. apply in_entries in H1, H2. cbn in H1, H2. intuition congruence.
    + split.
      * intros i Hi. rewrite (Hm0 i Hi). exists [1; 0; 0]%Z. reflexivity.
      * intros i t t' _ H1 H2. apply in_entries in H1, H2. cbn in H1, H2. intuition congruence.
  - repeat constructor; cbn; lia.
  - intros d s [E|[E|[E|[]]]]; injection E as <- <-; intros i i' t _ _ H1 H2; apply in_entries in H1, H2; cbn in H1, H2; intuition congruence.
  - run_alloc.
    exists [0; 1; 1; 0; 1; 0; 0]%Z, 0, [1%Z], (B 1 [[(0, 2)]%Z]), (tab 3 [([0; 0; 0], [0]); ([0; 1; 0], [1]); ([0; 2; 0], [2])]%Z), [0; 1; 0]%Z.
    exists [0; 0; 0; 1; 1]%Z, 2, [], (B 0 [[]]), (tab 3 [([1; 0; 0], [])]%Z), [1; 0; 0]%Z.
    split; [reflexivity|]. split; [reflexivity|].
    split; [run_stmt [Z.of_nat 0; Z.of_nat 1; 1%Z; Z.of_nat 0; 1%Z; Z.of_nat 0] [1; 1]%Z 0|].
    split; [run_stmt [Z.of_nat 0; Z.of_nat 0; 0%Z; Z.of_nat 1] [0]%Z 1|].
    split; [reflexivity|]. split; [reflexivity|]. split; lex.
Qed.
Print Assumptions C34_constant_dimension_refuted.

(** Without blocks the same inputs are run in the order of their dates
    (C02_program_order_partial); here the first of them. *)
Example C02_program_example :
  dated BoxSem BoxRel inputA /\ flat_last inputA /\
  exists sd res, alloc_and_generate BoxPoly BoxScat blocks_off opts 60 ctx0 (all_scattered inputA) = Some (sd, res) /\
    exists p p', Runs BoxSem res (scanned sd) p 1 [0%Z] /\ Runs BoxSem res (scanned sd) p' 0 [1%Z] /\ lex_lt p p'.
Proof.
  destruct inputA_ok as (H1 & H2 & H3 & H4). split; [exact H1|]. split; [exact H4|].
  run_alloc. exists [0; 0; 0; 1; 0; 0; 0]%Z, [0; 1; 1; 0; 1; 0; 0]%Z.
  split; [run_stmt [Z.of_nat 0; Z.of_nat 0; 0%Z; Z.of_nat 1; 0%Z; Z.of_nat 0] [0; 0]%Z 0|].
  split; [run_stmt [Z.of_nat 0; Z.of_nat 1; 1%Z; Z.of_nat 0; 1%Z; Z.of_nat 0] [1; 1]%Z 0|lex].
Qed.

(** ** C43 *)
(** Every statement has a scattering, no blocks and no extraction: the program is accepted exactly when all
    scatterings have the same dimension, and then each statement is scanned with its own scattering. *)
Theorem C43_own_scattering_partial :
  forall (P : Poly) (C : Scat P) (ao : alloc_options) (input : list (dom P * smap C)),
  a_noblocks ao = true -> a_noscalars ao = true -> input <> [] ->
  ((exists r, program_alloc P C ao (all_scattered input) = Some r) <->
     forall d s d' s', In (d, s) input -> In (d', s') input -> s_dim C s = s_dim C s') /\
  forall scaldims ls, program_alloc P C ao (all_scattered input) = Some (scaldims, ls) ->
    length ls = length input /\
    forall k d s, nth_error input k = Some (d, s) ->
      nth_error ls k = Some {| pl_dom := s_scatter C d s; pl_stmts := [Datatypes.S k]; pl_scal := None |}.
Proof.
  intros P C ao input Hb Hs Hne. unfold program_alloc. rewrite Hb, Hs.
  assert (E1 : flat_map (fun x : dom P * option (smap C) => match snd x with Some s => [s] | None => [] end) (all_scattered input) = map snd input).
  { clear. unfold all_scattered. induction input as [|[d s] r IH]; cbn; [reflexivity|f_equal; exact IH]. }
  assert (E2 : map fst (all_scattered input) = map fst input).
  { clear. unfold all_scattered. rewrite map_map. reflexivity. }
  rewrite E1, E2. clear E1 E2. destruct input as [|[d0 s0] rest]; [congruence|]. clear Hne. cbn [map snd fst]. cbn [from_domains]. unfold program_scatter.
  assert (Hgen : forall n r i, 
    match scatter_rest P C n (from_domains P i (map fst r)) (map snd r) with
    | Some ls => (forall d s, In (d, s) r -> s_dim C s = n) /\ length ls = length r /\
                 forall k d s, nth_error r k = Some (d, s) -> nth_error ls k = Some {| pl_dom := s_scatter C d s; pl_stmts := [Datatypes.S (i + k)]; pl_scal := None |}
    | None => ~ forall d s, In (d, s) r -> s_dim C s = n
    end).
  { intros n r. induction r as [|[d s] r IH]; intros i; cbn [map fst snd from_domains scatter_rest].
    - split; [intros d s []|]. split; [reflexivity|]. intros k d s H. destruct k; discriminate.
    - destruct (Nat.eqb_spec (s_dim C s) n) as [En|En].
      + specialize (IH (Datatypes.S i)). destruct (scatter_rest P C n (from_domains P (Datatypes.S i) (map fst r)) (map snd r)) as [ls|].
        * destruct IH as (H1 & H2 & H3). split; [intros d' s' [E|H]; [congruence|eauto]|]. split; [cbn; congruence|].
          intros [|k] d' s' Hk; cbn in Hk |- *.
          -- injection Hk as <- <-. rewrite Nat.add_0_r. reflexivity.
          -- rewrite (H3 _ _ _ Hk). do 4 f_equal. lia.
        * intros H. apply IH. intros d' s' Hi. apply (H d'). right. exact Hi.
      + intros H. apply En. apply (H d). left. reflexivity. }
  specialize (Hgen (s_dim C s0) ((d0, s0) :: rest) 0). cbn [map snd fst from_domains] in Hgen.
  match goal with |- context[scatter_rest P C ?n ?a ?b] => destruct (scatter_rest P C n a b) as [ls|] end.
  - destruct Hgen as (H1 & H2 & H3). split.
    + split; [|eauto]. intros _ d s d' s' Hi Hi'. rewrite (H1 _ _ Hi), (H1 _ _ Hi'). reflexivity.
    + intros sd ls' E. injection E as <- <-. split; [exact H2|exact H3].
  - split; [|discriminate]. split; [intros [r Hr]; discriminate|]. intros H. exfalso. apply Hgen. intros d s Hi. apply (H d s d0 s0 Hi). left. reflexivity.
Qed.
Print Assumptions C43_own_scattering_partial.
Example C43_example :
  program_alloc BoxPoly BoxScat {| a_noblocks := true; a_noscalars := true |} (all_scattered [(dA, tab 1 [([0], [0]); ([1], [1])]%Z); (dA, tab 1 [([3], [0]); ([2], [1])]%Z)]) =
    Some ([0], [ {| pl_dom := s_scatter BoxScat dA (tab 1 [([0], [0]); ([1], [1])]%Z); pl_stmts := [1]; pl_scal := None |};
                 {| pl_dom := s_scatter BoxScat dA (tab 1 [([3], [0]); ([2], [1])]%Z); pl_stmts := [2]; pl_scal := None |} ]).
Proof. reflexivity. Qed.

(** ** Partly scattered inputs *)
(** Only the second of two statements has a scattering: with blocks the program reads past the
    end of the list of scatterings; without, the scattering is applied to the first statement. *)
Theorem C43_partial_scattering_refuted :
  program_alloc BoxPoly BoxScat blocks_on [(dA, None); (dA, Some (tab 1 [([0], [0]); ([1], [1])]%Z))] = None /\
  program_alloc BoxPoly BoxScat blocks_off [(dA, None); (dA, Some (tab 1 [([0], [0]); ([1], [1])]%Z))] =
    Some ([0], [ {| pl_dom := s_scatter BoxScat dA (tab 1 [([0], [0]); ([1], [1])]%Z); pl_stmts := [1]; pl_scal := None |};
                 {| pl_dom := dA; pl_stmts := [2]; pl_scal := None |} ]).
Proof. split; reflexivity. Qed.
Print Assumptions C43_partial_scattering_refuted.
