(** The whole of cloog_program_generate: generation, simplification, execution. *)
From Coq Require Import ZArith List Bool Arith Lia.
From Verif Require Import SortModel LoopModel LoopSpec LoopLists LoopCount LoopKeys LoopOrder LoopGen LoopSimplify.
Import ListNotations.

Section Main.
Variable P : Poly.
Variable Se : Sem P.
Hypothesis L : Laws P Se.
Variable kinds : list bool.
Variable M : nat.
Variable tie : bool.
Variable O : Prop.
Variable o : options.
Notation R := (prec kinds M tie).
Notation okl := (okl P Se O R (isconvex P)).
Notation okl' := (LoopOrder.okl P Se O R (fun _ => true)).
Notation T := (fun _ : list Z => True).
Hypothesis HSM : nonscalar kinds <= M.
Hypothesis HOL : O -> OrderLaws P Se.
Hypothesis Hopt : plain_options P Se o.
Hypothesis Hst : strides_ok P Se o.
Hypothesis Hsafe : O -> depth_safe o (M + nscalar kinds).

Lemma ok1_cv l : forall n A, LoopOrder.ok1 P Se O R (isconvex P) l n A -> LoopOrder.ok1 P Se O R (fun _ => true) l n A.
Proof.
  induction l as [d ot st blk inner IH] using loop_ind'. intros n A H. destruct blk as [b|]; [exact H|].
  apply ok1_node in H as [_ H]. apply ok1_node. split; [left; reflexivity|]. rewrite Forall_forall in IH.
  assert (G : forall m B, LoopOrder.okl P Se O R (isconvex P) m B inner -> LoopOrder.okl P Se O R (fun _ => true) m B inner).
  { intros m B [H1 H2]. split; [|exact H2]. rewrite Forall_forall in *. intros l Hl. apply IH; auto. }
  destruct H as [[H1 H2]|(H1 & H2 & H3)]; [left|right]; auto.
Qed.
Lemma okl_cv n A ls : okl n A ls -> okl' n A ls.
Proof. intros [H1 H2]. split; [|exact H2]. eapply Forall_impl; [|exact H1]. intros l. apply ok1_cv. Qed.

Lemma input_inv ls : statement_loops P kinds ls -> depth_order P kinds ls ->
  (O -> Forall (fun l => M <= dim P (l_dom P l) /\ (tie = true -> dim P (l_dom P l) = M)) ls) ->
  (O -> tie = true -> textual_order P ls) -> Inv P kinds M tie O 0 ls.
Proof.
  intros H1 H2 H3 H4. unfold statement_loops in H1. split.
  - eapply Forall_impl; [|exact H1]. cbn. intros l (d & ot & b & -> & _). unfold leaf; cbn. eauto.
  - constructor.
    + rewrite Forall_map. eapply Forall_impl; [|exact H1]. cbn. intros l (d & ot & b & -> & Hd). exact Hd.
    + intros HO. rewrite Forall_map. exact (H3 HO).
    + intros k k' _ _ i Hi. lia.
    + apply FOP_map. apply FOP_nth. intros i j a c Hij Ha Hc. split.
      * intros HO Ht. pose proof (proj1 (FOP_nth _ _) (H4 HO Ht) i j a c Hij Ha Hc) as Hp.
        rewrite Forall_forall in H1. destruct (H1 a (nth_error_In _ _ Ha)) as (d & ot & b & -> & _). destruct (H1 c (nth_error_In _ _ Hc)) as (d' & ot' & b' & -> & _).
        exact Hp.
      * intros Hl. exact (proj1 (FOP_nth _ _) (H2 Hl) i j a c Hij Ha Hc).
Qed.

Lemma input_cnts ls b y : statement_loops P kinds ls -> cnts P Se ls b y = input_count Se ls b y.
Proof.
  intros H. unfold statement_loops in H. induction H as [|l ls (d & ot & b' & -> & _) H IH]; [reflexivity|]. rewrite cnts_cons, IH. unfold input_count. cbn [filter].
  unfold has_instance at 2. cbn [l_blk l_dom cnt]. rewrite inn_none.
  destruct (block_eq_dec b' b) as [->|Hne].
  - destruct (Nat.eqb_spec (length y) (dim P d)) as [E|E].
    + rewrite <- E, firstn_all. destruct (mem Se d y); reflexivity.
    + destruct (mem Se d y) eqn:Em; [apply (L_len _ _ L) in Em; lia|]. destruct (mem Se d (firstn (dim P d) y)); reflexivity.
  - cbn. destruct (mem Se d (firstn (dim P d) y)); reflexivity.
Qed.

Theorem program_spec fuel ctx ls res :
  dim P ctx = 0 -> mem Se ctx [] = true ->
  statement_loops P kinds ls -> depth_order P kinds ls ->
  (O -> Forall (fun l => M <= dim P (l_dom P l) /\ (tie = true -> dim P (l_dom P l) = M)) ls) ->
  (O -> tie = true -> textual_order P ls) ->
  program_generate P (run_lengths kinds) o fuel ctx ls = Some res ->
  (forall b y, cnts P Se res b y = input_count Se ls b y) /\ okl' 0 T res.
Proof.
  intros Hd Hc H1 H2 H3 H4 H. pose proof (input_inv ls H1 H2 H3 H4) as HI.
  destruct Hopt as (Hs & Hu & Hsh). unfold program_generate in H. destruct ls as [|l0 ls0] eqn:Els.
  { injection H as <-. split; [reflexivity|apply okl_nil]. }
  rewrite <- Els in *. apply obind_some in H as (r & Er & H).
  destruct (generate_spec P Se L kinds M tie O o HSM HOL) with (fuel := fuel) (ctx := ctx) (ls := ls) (res := r) as [G1 G2]; auto.
  - intros E. apply Hst; exact E.
  - intros E. apply Hst; exact E.
  - intros HO. apply (Hsafe HO).
  - intros HO. destruct (Hsafe HO) as (_ & S & _). exact S.
  - intros HO. destruct (Hsafe HO) as (_ & _ & S). exact S.
  - rewrite Hc in G1.
    assert (G1' : forall b y, cnts P Se r b y = input_count Se ls b y).
    { intros b y. rewrite G1, <- input_cnts by exact H1. cbn. lia. }
    destruct (o_nosimplify o).
    + injection H as <-. split; [exact G1'|apply okl_cv; exact G2].
    + destruct (simplify_spec P Se L O R (prec_irrefl kinds M tie HSM) 0 T fuel ctx r res G2 ltac:(lia) H) as [K1 K2].
      assert (Hi : forall y, inn P Se ctx None y = true) by (intros y; rewrite inn_none, Hd; exact Hc).
      split; [intros b y; rewrite K1 by apply Hi; apply G1'|]. eapply okl_mono; [|exact K2]. intros b y _ _. split; [exact I|apply Hi].
Qed.

Theorem program_count fuel ctx ls res :
  dim P ctx = 0 -> mem Se ctx [] = true ->
  statement_loops P kinds ls -> depth_order P kinds ls ->
  (O -> Forall (fun l => M <= dim P (l_dom P l) /\ (tie = true -> dim P (l_dom P l) = M)) ls) ->
  (O -> tie = true -> textual_order P ls) ->
  program_generate P (run_lengths kinds) o fuel ctx ls = Some res ->
  forall b y, exists ps, NoDup ps /\ length ps = input_count Se ls b y /\ forall p, In p ps <-> Exec P Se res [] p b y.
Proof.
  intros Hd Hc H1 H2 H3 H4 H b y. destruct (program_spec fuel ctx ls res Hd Hc H1 H2 H3 H4 H) as [G1 [G2 _]].
  destruct (exec_count P Se O R (fun _ => true) L res b y) as (ps & N & Ln & I).
  - eapply Forall_impl; [|exact G2]. cbn. eauto.
  - exists ps. rewrite <- G1. auto.
Qed.

Theorem program_order fuel ctx ls res : O ->
  dim P ctx = 0 -> mem Se ctx [] = true ->
  statement_loops P kinds ls -> depth_order P kinds ls ->
  (O -> Forall (fun l => M <= dim P (l_dom P l) /\ (tie = true -> dim P (l_dom P l) = M)) ls) ->
  (O -> tie = true -> textual_order P ls) ->
  program_generate P (run_lengths kinds) o fuel ctx ls = Some res ->
  forall p b y p' b' y', Exec P Se res [] p b y -> Exec P Se res [] p' b' y' -> R b y b' y' -> lex_lt p p'.
Proof.
  intros HO Hd Hc H1 H2 H3 H4 H p b y p' b' y' E1 E2 HR. destruct (program_spec fuel ctx ls res Hd Hc H1 H2 H3 H4 H) as [_ G2].
  eapply (exec_order P Se O R (fun _ => true) L HO (prec_irrefl kinds M tie HSM)); eauto.
Qed.
End Main.
