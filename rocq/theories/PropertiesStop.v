(** Property C37: option -stop, for the whole of cloog_program_generate. *)
From Coq Require Import ZArith List Bool Arith Lia.
From Verif Require Import SortModel LoopModel LoopSpec LoopLists LoopCount LoopKeys LoopOrder LoopGen LoopSimplify LoopMain LoopBox LoopExamples StopSpec StopProofs.
Require Import Verif.PropertiesLoop.
Import ListNotations.

(** ** the whole function *)
Lemma program_cut : forall (P : Poly) (Se : Sem P), Laws P Se -> exact_projection P Se ->
  forall (kinds : list bool) (o : options) (fuel : nat) (ctx : dom P) (ls res : list (loop P)),
  (0 <= o_stop o)%Z -> (o_l o < 0)%Z -> o_ls o = None -> o_strides o = false -> o_backtrack o = false -> o_first_unroll o <> 0%Z -> hull_ok P Se o ->
  dim P ctx = 0 -> mem Se ctx [] = true -> statement_loops P kinds ls -> depth_order P kinds ls ->
  program_generate P (run_lengths kinds) o fuel ctx ls = Some res ->
  Cut P Se (stop_depth kinds (Z.to_nat (o_stop o))) ls res /\
  LoopOrder.okl P Se False (prec kinds (cf kinds) false) (fun _ => true) 0 (fun _ => True) res.
Proof.
  intros P Se L EP kinds o fuel ctx ls res Hs Hl Hls Hstr Hbt Hu Hh Hd Hc H1 H2 H.
  pose proof (input_inv P kinds (cf kinds) false False (le_n _) ls H1 H2 (fun f => match f with end) (fun f => match f with end)) as HI.
  unfold program_generate in H. destruct ls as [|l0 ls0] eqn:Els; [injection H as <-; split; [apply cut_nil|apply okl_nil]|].
  rewrite <- Els in *. apply obind_some in H as (r & Er & H).
  destruct (generate_cut P Se L kinds o Hs Hl Hls Hstr Hbt Hu Hh EP _ fuel ctx ls r Hd Hc HI eq_refl Er) as [G1 G2].
  destruct (o_nosimplify o).
  - injection H as <-. split; [exact G1|apply okl_cv; exact G2].
  - destruct (simplify_spec P Se L False (prec kinds (cf kinds) false) (prec_irrefl kinds (cf kinds) false (le_n _)) 0 (fun _ => True) fuel ctx r res G2 ltac:(lia) H) as [K1 K2].
    assert (Hi : forall y, inn P Se ctx None y = true) by (intros y; rewrite inn_none, Hd; exact Hc).
    split; [|eapply okl_mono; [|exact K2]; intros b y _ _; split; [exact I|apply Hi]].
    destruct G1 as (A1 & A2 & A3). split; [|split]; intros b y.
    + rewrite K1 by apply Hi. apply A1.
    + rewrite K1 by apply Hi. apply A2.
    + rewrite K1 by apply Hi. apply A3.
Qed.

Theorem C37_stop_program_partial :
  forall (P : Poly) (Se : Sem P), Laws P Se -> exact_projection P Se ->
  forall (kinds : list bool) (o : options) (fuel : nat) (ctx : dom P) (ls res : list (loop P)),
  only_stop P Se o -> dim P ctx = 0 -> mem Se ctx [] = true -> statement_loops P kinds ls -> depth_order P kinds ls ->
  cloog_program_generate P (run_lengths kinds) o fuel ctx ls = Some res ->
  let depth := stop_depth kinds (Z.to_nat (o_stop o)) in
  (* a statement is inside [depth] loops, or all of its own if it has fewer *)
  (forall p b x, Exec P Se res [] p b x -> exists l, In l ls /\ l_blk P l = Some b /\ length x = Nat.min depth (dim P (l_dom P l))) /\
  (* its block runs there at most once for each loop it came in with *)
  (forall b x, exists ps, NoDup ps /\ length ps <= length (filter (holds_block b) ls) /\ forall p, In p ps <-> Exec P Se res [] p b x) /\
  (* every instance of it is inside one of the iterations where it runs *)
  (forall l b y, In l ls -> l_blk P l = Some b -> mem Se (l_dom P l) y = true -> exists p, Exec P Se res [] p b (firstn depth y)).
Proof.
  intros P Se L EP kinds o fuel ctx ls res (O1 & O2 & O3 & O4 & O5 & O6 & O7 & O8) Hd Hc H1 H2 H depth.
  unfold cloog_program_generate in H. set (o' := sanitize (length (run_lengths kinds)) o) in *.
  assert (Hf : o_stop o' = o_stop o /\ o_first_unroll o' = o_first_unroll o /\ o_sh o' = o_sh o /\ o_strides o' = o_strides o /\ o_ls o' = o_ls o /\ o_backtrack o' = o_backtrack o).
  { unfold o', sanitize. destruct (o_override o); auto 10. }
  destruct Hf as (F1 & F2 & F3 & F4 & F5 & F6).
  assert (F7 : (o_l o' < 0)%Z).
  { unfold o', sanitize. destruct (o_override o); [exact O2|]. destruct O4 as [O4|O4]; [discriminate|]. cbn [with_l o_l].
    destruct (Z.leb_spec 0 (o_l o)) as [X|_]; [lia|]. rewrite andb_false_r. destruct (Z.ltb_spec 1 (o_f o)) as [X|_]; [lia|]. destruct (Z.ltb_spec (o_f o) 0) as [X|_]; [lia|]. exact O2. }
  destruct (program_cut P Se L EP kinds o' fuel ctx ls res) as [(A1 & A2 & A3) [A4 _]]; try congruence; try (rewrite ?F1, ?F2; assumption).
  { unfold hull_ok. rewrite F3. exact O8. }
  rewrite F1 in A2, A3. fold depth in A2, A3.
  assert (Ex : forall b x, exists ps, NoDup ps /\ length ps = cnts P Se res b x /\ forall p, In p ps <-> Exec P Se res [] p b x).
  { intros b x. apply (exec_count P Se False (prec kinds (cf kinds) false) (fun _ => true) L res b x). eapply Forall_impl; [|exact A4]. cbn. eauto. }
  assert (Hpos : forall b x, 0 < cnts P Se res b x <-> exists p, Exec P Se res [] p b x).
  { intros b x. destruct (Ex b x) as (ps & _ & E1 & E2). rewrite <- E1. split.
    - destruct ps as [|p ps]; [cbn; lia|]. intros _. exists p. apply E2. left; reflexivity.
    - intros [p Hp]. apply E2 in Hp. destruct ps; [destruct Hp|cbn; lia]. }
  split; [|split].
  - intros p b x Hp. apply (A3 b x). apply Hpos. eauto.
  - intros b x. destruct (Ex b x) as (ps & E0 & E1 & E2). exists ps. split; [exact E0|]. split; [|exact E2]. rewrite E1. eapply Nat.le_trans; [apply A1|].
    unfold nl. clear. induction ls as [|l ls IH]; [cbn; lia|]. rewrite sumn_cons. cbn [filter]. destruct (holds_block b l); cbn [Nat.b2n length]; lia.
  - intros l b y Hl Hb Hm. apply Hpos. apply A2. apply cnts_pos. exists l. split; [exact Hl|].
    unfold statement_loops in H1. rewrite Forall_forall in H1. destruct (H1 l Hl) as (d & ot & b0 & -> & _). cbn in Hb, Hm. injection Hb as ->.
    rewrite (leaf_cnt P Se L); [|unfold leaf; cbn; eauto]. unfold holds_block. cbn [l_blk l_dom]. destruct (block_eq_dec b b); [|congruence]. rewrite Hm. cbn. lia.
Qed.
Print Assumptions C37_stop_program_partial.

(** The depth is the one that was asked for when no dimension of the scattering is scalar,
    and never more. *)
Theorem C37_stop_depth :
  forall (kinds : list bool) (s : nat), stop_depth kinds s <= s /\ (forallb negb kinds = true -> stop_depth kinds s = s).
Proof. intros kinds s. split; [exact (depth_le kinds false s)|intros H; apply depth_loops; exact H]. Qed.
Print Assumptions C37_stop_depth.

(** A scattering (c, i, c', j): with -stop 2 the statements are inside the loop on i, with
    -stop 3 they are inside both loops. *)
Example C37_stop_depth_example : stop_depth [true; false; true; false] 2 = 1 /\ stop_depth [true; false; true; false] 3 = 2.
Proof. split; reflexivity. Qed.

Lemma box_exact_projection : exact_projection BoxPoly BoxSem.
Proof.
  intros d n x Hn H. cbn [BoxPoly BoxSem mem project dim] in *. apply bmem_iff in H as (q & Hq & Hx). apply good_in in Hq as (Hq & _). cbn [bs] in Hq.
  apply in_map_iff in Hq as (p & <- & Hp). pose proof (proj1 (good_in _ _) Hp) as (_ & Hlen & Hne).
  assert (Hs : bempty (skipn n p) = false).
  { rewrite <- (firstn_skipn n p) in Hne. rewrite bempty_app in Hne. apply orb_false_iff in Hne. apply Hne. }
  destruct (bempty_ex _ Hs) as [z Hz]. pose proof (inb_len _ _ Hx) as Hl. rewrite firstn_length, Hlen, Nat.min_l in Hl by exact Hn.
  exists (x ++ z). split.
  - apply bmem_iff. exists p. split; [exact Hp|]. rewrite <- (firstn_skipn n p), inb_app. rewrite firstn_length, Hlen, Nat.min_l by exact Hn.
    rewrite firstn_app, skipn_app, <- Hl, Nat.sub_diag, firstn_all, skipn_all. cbn [firstn skipn app]. rewrite app_nil_r. rewrite Hl. rewrite Hx. exact Hz.
  - rewrite firstn_app, <- Hl, Nat.sub_diag, firstn_all. cbn [firstn]. apply app_nil_r.
Qed.

Definition opts_stop (s l : Z) : options :=
  {| o_l := l; o_f := 1; o_stop := s; o_strides := false; o_sh := false; o_otl := true; o_backtrack := false;
     o_first_unroll := -1; o_fs := None; o_ls := None; o_nosimplify := false; o_override := false |}.

(** three statements, -stop 1: the first runs at the first coordinate of its instance (1,1) *)
Example C37_stop_program_example :
  Laws BoxPoly BoxSem /\ exact_projection BoxPoly BoxSem /\ only_stop BoxPoly BoxSem (opts_stop 1 (-1)) /\
  statement_loops BoxPoly kinds2 input2 /\ depth_order BoxPoly kinds2 input2 /\ stop_depth kinds2 1 = 1 /\
  exists res, cloog_program_generate BoxPoly (run_lengths kinds2) (opts_stop 1 (-1)) 60 ctx0 input2 = Some res /\
    exists p, Exec BoxPoly BoxSem res [] p (blk 0 []) [1%Z].
Proof.
  split; [exact box_laws|]. split; [exact box_exact_projection|].
  split; [repeat split; try discriminate; try (cbn; lia); right; cbn; lia|].
  split; [repeat (constructor; [eexists _, _, _; split; [reflexivity|cbn; lia]|]); constructor|].
  split; [dord|]. split; [reflexivity|].
  run_result. exists [Z.of_nat 0; Z.of_nat 1; 1%Z; Z.of_nat 0]. run_exec.
Qed.

(** Not when -l is given as well: cloog_loop_nest makes all the remaining loops from the
    depth of -l on, whatever -stop says. *)
Theorem C37_stop_and_l_refuted :
  exists (o : options) (ls res : list (loop BoxPoly)),
  o = opts_stop 1 1 /\ statement_loops BoxPoly [] ls /\ depth_order BoxPoly [] ls /\ stop_depth [] (Z.to_nat (o_stop o)) = 1 /\
  cloog_program_generate BoxPoly (run_lengths []) o 60 ctx0 ls = Some res /\
  exists p b x, Exec BoxPoly BoxSem res [] p b x /\ length x = 2.
Proof.
  exists (opts_stop 1 1), [st (B 2 [[(0, 3); (0, 3)]]%Z) 0 []].
  assert (Hr : exists res, cloog_program_generate BoxPoly (run_lengths []) (opts_stop 1 1) 60 ctx0 [st (B 2 [[(0, 3); (0, 3)]]%Z) 0 []] = Some res /\
     exists p b x, Exec BoxPoly BoxSem res [] p b x /\ length x = 2).
  { run_result. exists [Z.of_nat 0; Z.of_nat 0; 1%Z; Z.of_nat 0; 2%Z; Z.of_nat 0], (blk 0 []), [1; 2]%Z. split; [run_exec|reflexivity]. }
  destruct Hr as (res & H1 & H2). exists res. split; [reflexivity|]. split; [repeat (constructor; [eexists _, _, _; split; [reflexivity|cbn; lia]|]); constructor|].
  split; [dord|]. split; [reflexivity|]. auto.
Qed.
Print Assumptions C37_stop_and_l_refuted.
