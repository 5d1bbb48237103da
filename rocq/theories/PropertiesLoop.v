(** Properties C01-C06, C10, C28, C36, C37 (and the combination part of C12): the loop
    generator and its parts, for every polyhedral library that obeys LoopSpec.Laws (and,
    for statements about order, LoopSpec.OrderLaws). *)
From Coq Require Import ZArith List Bool Arith Lia Permutation.
From Verif Require Import LoopModel LoopSpec LoopBox LoopCube LoopMain LoopFun LoopExamples.
Import ListNotations.

Ltac run_exec := eapply Exec_at; [reflexivity|];
  first [ eapply Exec_block; [reflexivity|reflexivity|split; reflexivity]
        | eapply Exec_test; [reflexivity|reflexivity|split; reflexivity|run_exec]
        | eapply Exec_iter; [reflexivity|reflexivity|split; reflexivity|run_exec] ].
Ltac no_exec H :=
  let i := fresh "i" in let Hi := fresh "Hi" in let H1 := fresh "H1" in let Hb := fresh "Hb" in let Hd := fresh "Hd" in let He := fresh "He" in let Hx := fresh "Hx" in
  inversion H as [? i ? ? ? ? ? Hi H1]; clear H; subst; apply nth_error_In in Hi; cbn in Hi;
  repeat (destruct Hi as [Hi|Hi]); subst; try contradiction;
  inversion H1 as [? ? ? Hb Hd He|? ? ? ? ? Hb Hd He Hx|? ? ? ? ? ? Hb Hd He Hx]; clear H1; subst; cbn in Hb, Hd, He; try discriminate; try (cbn in Hx; no_exec Hx).
Ltac dord := first [ intros H; discriminate H | intros _; repeat first [ apply FOP_nil | apply FOP_cons | apply Forall_nil | apply Forall_cons ]; cbn; intros; lia ].

(** ** C01 *)
Theorem C01_instances_exactly_once :
  forall (P : Poly) (Se : Sem P), Laws P Se ->
  forall (kinds : list bool) (o : options) (fuel : nat) (ctx : dom P) (ls res : list (loop P)),
  plain_options P Se o -> o_strides o = false ->
  dim P ctx = 0 -> mem Se ctx [] = true ->
  statement_loops P kinds ls -> depth_order P kinds ls ->
  cloog_program_generate P (run_lengths kinds) o fuel ctx ls = Some res ->
  forall b y, exists ps, NoDup ps /\ length ps = input_count Se ls b y /\
    forall p, In p ps <-> Exec P Se res [] p b y.
Proof.
  intros P Se L kinds o fuel ctx ls res Ho Hs Hd Hc H1 H2 H.
  set (o' := sanitize (length (run_lengths kinds)) o) in *.
  assert (Hf : o_stop o' = o_stop o /\ o_first_unroll o' = o_first_unroll o /\ o_sh o' = o_sh o /\ o_strides o' = o_strides o).
  { unfold o', sanitize. destruct (o_override o); auto. }
  destruct Hf as (F1 & F2 & F3 & F4).
  apply (program_count P Se L kinds (nonscalar kinds) false False o') with (fuel := fuel) (ctx := ctx); auto; try tauto.
  - unfold plain_options in *. rewrite F1, F2, F3. exact Ho.
  - unfold strides_ok. rewrite F4, Hs. discriminate.
Qed.
Print Assumptions C01_instances_exactly_once.

Theorem C01_instances_exactly_once_strides_partial :
  forall (P : Poly) (Se : Sem P), Laws P Se ->
  forall (kinds : list bool) (o : options) (fuel : nat) (ctx : dom P) (ls res : list (loop P)),
  plain_options P Se o -> strides_ok P Se o ->
  dim P ctx = 0 -> mem Se ctx [] = true ->
  statement_loops P kinds ls -> depth_order P kinds ls ->
  cloog_program_generate P (run_lengths kinds) o fuel ctx ls = Some res ->
  forall b y, exists ps, NoDup ps /\ length ps = input_count Se ls b y /\
    forall p, In p ps <-> Exec P Se res [] p b y.
Proof.
  intros P Se L kinds o fuel ctx ls res Ho Hs Hd Hc H1 H2 H.
  set (o' := sanitize (length (run_lengths kinds)) o) in *.
  assert (Hf : o_stop o' = o_stop o /\ o_first_unroll o' = o_first_unroll o /\ o_sh o' = o_sh o /\ o_strides o' = o_strides o).
  { unfold o', sanitize. destruct (o_override o); auto. }
  destruct Hf as (F1 & F2 & F3 & F4).
  apply (program_count P Se L kinds (nonscalar kinds) false False o') with (fuel := fuel) (ctx := ctx); auto; try tauto.
  - unfold plain_options in *. rewrite F1, F2, F3. exact Ho.
  - unfold strides_ok in *. rewrite F4. exact Hs.
Qed.
Print Assumptions C01_instances_exactly_once_strides_partial.

(** The hypotheses are met: unions of boxes, three statements of different shapes and depths;
    generation succeeds, and one instance is seen to run. *)
Example C01_example :
  Laws BoxPoly BoxSem /\ plain_options BoxPoly BoxSem opts /\ o_strides opts = false /\
  statement_loops BoxPoly kinds2 input2 /\ depth_order BoxPoly kinds2 input2 /\
  exists res, cloog_program_generate BoxPoly (run_lengths kinds2) opts 60 ctx0 input2 = Some res /\
    input_count BoxSem input2 (blk 0 []) [1; 1]%Z = 1 /\ exists p, Exec BoxPoly BoxSem res [] p (blk 0 []) [1; 1]%Z.
Proof.
  split; [exact box_laws|]. split; [split; [reflexivity|split; [discriminate|discriminate]]|]. split; [reflexivity|].
  split; [repeat (constructor; [eexists _, _, _; split; [reflexivity|cbn; lia]|]); constructor|].
  split; [dord|].
  run_result. split; [reflexivity|]. exists [Z.of_nat 0; Z.of_nat 1; 1%Z; Z.of_nat 0; 1%Z; Z.of_nat 0]. run_exec.
Qed.

(** ** C02 *)
(** The order of the scattering is respected (whatever the options -f, -l, ...: -l is
    sanitised). *)
Theorem C02_scattering_order :
  forall (P : Poly) (Se : Sem P), Laws P Se -> OrderLaws P Se ->
  forall (kinds : list bool) (o : options) (fuel : nat) (ctx : dom P) (ls res : list (loop P)),
  plain_options P Se o -> o_strides o = false -> o_override o = false -> o_f o <> 0%Z -> o_ls o = None ->
  dim P ctx = 0 -> mem Se ctx [] = true ->
  statement_loops P kinds ls -> depth_order P kinds ls ->
  cloog_program_generate P (run_lengths kinds) o fuel ctx ls = Some res ->
  forall p b y p' b' y', Exec P Se res [] p b y -> Exec P Se res [] p' b' y' ->
  lex_lt (date kinds (b_scal b) (firstn (nonscalar kinds) y)) (date kinds (b_scal b') (firstn (nonscalar kinds) y')) ->
  lex_lt p p'.
Proof.
  intros P Se L OL kinds o fuel ctx ls res Ho Hs Hov Hf Hls Hd Hc H1 H2 H p b y p' b' y' E E' HR.
  assert (Hn : length (run_lengths kinds) = nonscalar kinds + nscalar kinds).
  { rewrite LoopKeys.run_lengths_length. unfold nonscalar, nscalar. clear. induction kinds as [|[] ks IH]; cbn; lia. }
  set (o' := sanitize (length (run_lengths kinds)) o) in *.
  assert (Hfs : o_stop o' = o_stop o /\ o_first_unroll o' = o_first_unroll o /\ o_sh o' = o_sh o /\ o_strides o' = o_strides o
     /\ o_f o' = o_f o /\ o_ls o' = o_ls o /\ ((o_l o' < 0)%Z \/ (Z.of_nat (length (run_lengths kinds)) <= o_l o')%Z)).
  { unfold o', sanitize. rewrite Hov. cbn. repeat split.
    destruct (Z.ltb_spec (o_l o) (Z.of_nat (length (run_lengths kinds)))), (Z.leb_spec 0 (o_l o)); cbn;
    match goal with |- context [if ?c then _ else _] => destruct c end; lia. }
  destruct Hfs as (F1 & F2 & F3 & F4 & F5 & F6 & F7).
  eapply (program_order P Se L kinds (nonscalar kinds) false True o') with (fuel := fuel) (ctx := ctx); eauto.
  - unfold plain_options in *. rewrite F1, F2, F3. exact Ho.
  - unfold strides_ok. rewrite F4, Hs. discriminate.
  - intros _. unfold depth_safe. rewrite F5, F6, Hls. split; [exact Hf|]. split; [|exact I]. rewrite Hn, Nat.add_comm in F7. rewrite Nat.add_comm. exact F7.
  - intros _. eapply Forall_impl; [|exact H1]. intros l (d & ot & b0 & -> & Hl). cbn. split; [exact Hl|discriminate].
  - discriminate.
  - left. exact HR.
Qed.
Print Assumptions C02_scattering_order.

(** All options as they are used (no sanitising), and more order: the dates may include
    iterators after the scattering dimensions (the first [M] coordinates), and, when every
    domain has exactly [M] dimensions, ties are broken by the order of the input. *)
Theorem C02_order_all_dimensions :
  forall (P : Poly) (Se : Sem P), Laws P Se -> OrderLaws P Se ->
  forall (kinds : list bool) (M : nat) (tie : bool) (o : options) (fuel : nat) (ctx : dom P) (ls res : list (loop P)),
  nonscalar kinds <= M -> plain_options P Se o -> strides_ok P Se o -> depth_safe o (M + nscalar kinds) ->
  dim P ctx = 0 -> mem Se ctx [] = true ->
  statement_loops P kinds ls -> depth_order P kinds ls ->
  Forall (fun l => M <= dim P (l_dom P l) /\ (tie = true -> dim P (l_dom P l) = M)) ls ->
  (tie = true -> textual_order P ls) ->
  program_generate P (run_lengths kinds) o fuel ctx ls = Some res ->
  forall p b y p' b' y', Exec P Se res [] p b y -> Exec P Se res [] p' b' y' ->
  prec kinds M tie b y b' y' -> lex_lt p p'.
Proof.
  intros P Se L OL kinds M tie o fuel ctx ls res HM Ho Hs Hd Hc Hm H1 H2 H3 H4 H.
  intros p b y p' b' y' E E' HR.
  eapply (program_order P Se L kinds M tie True o) with (fuel := fuel) (ctx := ctx); eauto.
Qed.
Print Assumptions C02_order_all_dimensions.

Example C02_example :
  OrderLaws BoxPoly BoxSem /\ statement_loops BoxPoly kinds1 input1 /\ depth_order BoxPoly kinds1 input1 /\
  Forall (fun l => 1 <= dim BoxPoly (l_dom BoxPoly l) /\ (true = true -> dim BoxPoly (l_dom BoxPoly l) = 1)) input1 /\
  textual_order BoxPoly input1 /\ depth_safe opts (1 + nscalar kinds1) /\
  exists res, cloog_program_generate BoxPoly (run_lengths kinds1) opts 60 ctx0 input1 = Some res /\
    exists p p', Exec BoxPoly BoxSem res [] p (blk 0 [0; 0]%Z) [3%Z] /\ Exec BoxPoly BoxSem res [] p' (blk 1 [0; 1]%Z) [3%Z] /\ lex_lt p p'.
Proof.
  split; [exact box_order_laws|].
  assert (HS : statement_loops BoxPoly kinds1 input1).
  { repeat (constructor; [eexists _, _, _; split; [reflexivity|cbn; lia]|]); constructor. }
  assert (HD : depth_order BoxPoly kinds1 input1) by dord.
  split; [exact HS|]. split; [exact HD|].
  split; [repeat constructor|]. split; [repeat constructor|].
  split; [split; [discriminate|split; [left; reflexivity|exact I]]|].
  run_result. exists [Z.of_nat 0; Z.of_nat 1; 3%Z; Z.of_nat 0], [Z.of_nat 0; Z.of_nat 1; 3%Z; Z.of_nat 1].
  split; [run_exec|]. split; [run_exec|].
  apply lex_next, lex_next, lex_next, lex_here. reflexivity.
Qed.

(** The full statement (without OrderLaws) fails: for sets that are disjoint and convex for
    the library but cross each other, the two loops over the inner iterator are put in one
    fixed order, whatever the library answers when it is asked to compare them. *)
Theorem C02_order_refuted :
  forall c : Z,
  Laws (CubePoly c) (CubeSem c) /\ plain_options (CubePoly c) (CubeSem c) opts /\
  statement_loops (CubePoly c) kinds4 (input4 c) /\ depth_order (CubePoly c) kinds4 (input4 c) /\
  exists res, cloog_program_generate (CubePoly c) (run_lengths kinds4) opts 60 (ctx4 c) (input4 c) = Some res /\
  exists p b y p' b' y',
    Exec (CubePoly c) (CubeSem c) res [] p b y /\ Exec (CubePoly c) (CubeSem c) res [] p' b' y' /\
    lex_lt (date kinds4 (b_scal b) y) (date kinds4 (b_scal b') y') /\ lex_lt p' p.
Proof.
  intros c. split; [apply cube_laws|]. split; [split; [reflexivity|split; [discriminate|discriminate]]|].
  split; [repeat (constructor; [eexists _, _, _; split; [reflexivity|cbn; lia]|]); constructor|].
  split; [dord|].
  destruct c as [|c|c].
  - run_result. exists [Z.of_nat 0; Z.of_nat 0; 1%Z; Z.of_nat 1; 0%Z; Z.of_nat 0], (blk 1 []), [1; 0]%Z,
               [Z.of_nat 0; Z.of_nat 0; 1%Z; Z.of_nat 0; 1%Z; Z.of_nat 0], (blk 0 []), [1; 1]%Z.
    split; [run_exec|]. split; [run_exec|].
    split; [apply lex_next, lex_here; reflexivity|apply lex_next, lex_next, lex_next, lex_here; reflexivity].
  - run_result. exists [Z.of_nat 0; Z.of_nat 0; 1%Z; Z.of_nat 1; 0%Z; Z.of_nat 0], (blk 1 []), [1; 0]%Z,
               [Z.of_nat 0; Z.of_nat 0; 1%Z; Z.of_nat 0; 1%Z; Z.of_nat 0], (blk 0 []), [1; 1]%Z.
    split; [run_exec|]. split; [run_exec|].
    split; [apply lex_next, lex_here; reflexivity|apply lex_next, lex_next, lex_next, lex_here; reflexivity].
  - run_result. exists [Z.of_nat 0; Z.of_nat 0; 0%Z; Z.of_nat 1; 0%Z; Z.of_nat 0], (blk 0 []), [0; 0]%Z,
               [Z.of_nat 0; Z.of_nat 0; 0%Z; Z.of_nat 0; 1%Z; Z.of_nat 0], (blk 1 []), [0; 1]%Z.
    split; [run_exec|]. split; [run_exec|].
    split; [apply lex_next, lex_here; reflexivity|apply lex_next, lex_next, lex_next, lex_here; reflexivity].
Qed.
Print Assumptions C02_order_refuted.

(** ** C03 *)
Theorem C03_no_statement_lost_partial :
  forall (P : Poly) (Se : Sem P), Laws P Se ->
  forall (kinds : list bool) (o : options) (fuel : nat) (ctx : dom P) (ls res : list (loop P)),
  plain_options P Se o -> o_strides o = false ->
  dim P ctx = 0 -> mem Se ctx [] = true ->
  statement_loops P kinds ls -> depth_order P kinds ls ->
  cloog_program_generate P (run_lengths kinds) o fuel ctx ls = Some res ->
  forall l b y, In l ls -> l_blk P l = Some b -> mem Se (l_dom P l) y = true -> exists p, Exec P Se res [] p b y.
Proof.
  intros P Se L kinds o fuel ctx ls res Ho Hs Hd Hc H1 H2 H l b y Hl Hb Hy.
  destruct (C01_instances_exactly_once P Se L kinds o fuel ctx ls res Ho Hs Hd Hc H1 H2 H b y) as (ps & _ & Hn & Hp).
  destruct ps as [|p ps]; [|exists p; apply Hp; left; reflexivity]. exfalso. cbn in Hn.
  assert (Hi : In l (filter (has_instance Se b y) ls)).
  { apply filter_In. split; [exact Hl|]. unfold has_instance. rewrite Hb, Hy. destruct (block_eq_dec b b); [reflexivity|congruence]. }
  unfold input_count in Hn. destruct (filter (has_instance Se b y) ls); [destruct Hi|discriminate].
Qed.
Print Assumptions C03_no_statement_lost_partial.

(** Without the condition on depths it is false: a deeper statement that follows one without
    iterators and with the same scalar dates disappears. *)
Theorem C03_statement_lost_refuted :
  Laws BoxPoly BoxSem /\ statement_loops BoxPoly kinds3 input3 /\
  exists res, cloog_program_generate BoxPoly (run_lengths kinds3) opts 60 ctx0 input3 = Some res /\
    exists l b y, In l input3 /\ l_blk BoxPoly l = Some b /\ mem BoxSem (l_dom BoxPoly l) y = true /\
    forall p, ~ Exec BoxPoly BoxSem res [] p b y.
Proof.
  split; [exact box_laws|]. split; [repeat (constructor; [eexists _, _, _; split; [reflexivity|cbn; lia]|]); constructor|].
  run_result. exists (st (B 1 [[(2, 5)]%Z]) 1 [0%Z]), (blk 1 [0%Z]), [3%Z].
  split; [right; left; reflexivity|]. split; [reflexivity|]. split; [reflexivity|].
  intros p He. no_exec He.
Qed.
Print Assumptions C03_statement_lost_refuted.
Example C03_example : exists l b y, In l input2 /\ l_blk BoxPoly l = Some b /\ mem BoxSem (l_dom BoxPoly l) y = true.
Proof. exists (st (B 3 [[(0, 9); (0, 9); (0, 1)]]%Z) 2 []), (blk 2 []), [4; 5; 1]%Z. split; [right; right; left; reflexivity|split; reflexivity]. Qed.

(** ** C04 *)
Theorem C04_separate :
  forall (P : Poly) (Se : Sem P), Laws P Se ->
  forall (fuel n : nat) (ls res : list (loop P)),
  separate P fuel ls = Some res -> Forall (plain_loop n) ls ->
  Forall (plain_loop n) res /\ Forall (fun l => isconvex P (l_dom P l) = true) res /\
  ForallOrdPairs (fun a b => disjoint_sets Se (l_dom P a) (l_dom P b)) res /\
  (forall y, (exists N, In N res /\ mem Se (l_dom P N) y = true) <-> (exists l, In l ls /\ mem Se (l_dom P l) y = true)) /\
  (forall N y, In N res -> mem Se (l_dom P N) y = true -> l_inner P N = flat_map (l_inner P) (covering Se ls y)).
Proof. intros P Se L fuel n ls res. apply separate_fun. exact L. Qed.
Print Assumptions C04_separate.
Theorem C04_separate_instances :
  forall (P : Poly) (Se : Sem P), Laws P Se ->
  forall (fuel n : nat) (ls res : list (loop P)),
  separate P fuel ls = Some res -> Forall (plain_loop n) ls ->
  forall b x, cnts P Se res b x = cnts P Se ls b x.
Proof. intros P Se L fuel n ls res. apply separate_instances. exact L. Qed.
Print Assumptions C04_separate_instances.
(** overlapping boxes, one of them a union, one equal to another *)
Definition node (d : dom BoxPoly) (p : nat) : loop BoxPoly := @Loop BoxPoly d false None None [st d p []].
Definition input5 : list (loop BoxPoly) :=
  [node (B 1 [[(0, 5)]; [(4, 9)]]%Z) 0; node (B 1 [[(3, 7)]]%Z) 1; node (B 1 [[(3, 7)]]%Z) 2; node (B 1 [[(20, 30)]]%Z) 3].
Example C04_example :
  Forall (plain_loop 1) input5 /\ exists res, separate BoxPoly 60 input5 = Some res /\ length res = 5 /\
  exists N, In N res /\ mem BoxSem (l_dom BoxPoly N) [4%Z] = true /\ length (l_inner BoxPoly N) = 3.
Proof.
  split; [repeat constructor|]. run_result. split; [reflexivity|].
  eexists. split; [left; reflexivity|]. split; reflexivity.
Qed.

(** ** C05 *)
Theorem C05_merge :
  forall (P : Poly) (Se : Sem P), Laws P Se ->
  forall (fuel : nat) (o : options) (level n : nat) (ls res : list (loop P)),
  (o_sh o = true -> simple_hull_tight P Se) ->
  merge P fuel o level ls = Some res -> Forall (plain_loop n) ls ->
  Forall (plain_loop n) res /\ Forall (fun l => isconvex P (l_dom P l) = true) res /\
  Forall (fun l => l_inner P l = flat_map (l_inner P) ls) res /\
  ForallOrdPairs (fun a b => disjoint_sets Se (l_dom P a) (l_dom P b)) res /\
  (forall y l, In l ls -> mem Se (l_dom P l) y = true -> exists N, In N res /\ mem Se (l_dom P N) y = true) /\
  (Forall (body_inside Se) ls -> forall b x, cnts P Se res b x = cnts P Se ls b x).
Proof. intros P Se L fuel o level n ls res. apply merge_fun. exact L. Qed.
Print Assumptions C05_merge.
Theorem C05_constant_level :
  forall (P : Poly) (Se : Sem P), Laws P Se ->
  forall (n : nat) (ls : list (loop P)), Forall (plain_loop n) ls ->
  length (constant P ls) <= 1 /\
  Forall (fun N => plain_loop n N /\ isconvex P (l_dom P N) = true /\ l_inner P N = flat_map (l_inner P) ls) (constant P ls) /\
  (forall y l, In l ls -> mem Se (l_dom P l) y = true -> exists N, In N (constant P ls) /\ mem Se (l_dom P N) y = true) /\
  (Forall (body_inside Se) ls -> forall b x, cnts P Se (constant P ls) b x = cnts P Se ls b x).
Proof. intros P Se L n ls. apply constant_fun. exact L. Qed.
Print Assumptions C05_constant_level.
(** The order in a complete run that merges at every level (-f -1). *)
(** A level is taken for constant only when all the loops have one and the same value there. *)
Theorem C05_constant_is_constant :
  forall (P : Poly) (Se : Sem P), (forall d k c, lazy_isconstant P d k = Some c -> forall y, mem Se d y = true -> nth k y 0%Z = c) ->
  forall (level : nat) (ls : list (loop P)), is_constant P level ls = true ->
  exists c, forall l y, In l ls -> mem Se (l_dom P l) y = true -> nth (level - 1) y 0%Z = c.
Proof.
  intros P Se HC level [|l ls] H; [discriminate|]. cbn in H. destruct (lazy_isconstant P (l_dom P l) (level - 1)) as [c|] eqn:E; [|discriminate].
  rewrite forallb_forall in H. exists c. intros l' y [<-|Hl] Hy; [exact (HC _ _ _ E _ Hy)|]. specialize (H l' Hl). destruct (lazy_isconstant P (l_dom P l') (level - 1)) as [c'|] eqn:E'; [|discriminate].
  apply Z.eqb_eq in H. subst c'. exact (HC _ _ _ E' _ Hy).
Qed.
Print Assumptions C05_constant_is_constant.
Example C05_constant_is_constant_example :
  is_constant BoxPoly 1 [Loop BoxPoly (B 1 [[(3, 3)]]%Z) false None None []; Loop BoxPoly (B 1 [[(3, 3)]]%Z) false None None []] = true /\
  is_constant BoxPoly 1 [Loop BoxPoly (B 1 [[(3, 3)]]%Z) false None None []; Loop BoxPoly (B 1 [[(4, 4)]]%Z) false None None []] = false.
Proof. split; vm_compute; reflexivity. Qed.

Theorem C05_merge_order :
  forall (P : Poly) (Se : Sem P), Laws P Se -> OrderLaws P Se ->
  forall (kinds : list bool) (M : nat) (o : options) (fuel : nat) (ctx : dom P) (ls res : list (loop P)),
  o_f o = (-1)%Z -> nonscalar kinds <= M -> plain_options P Se o -> o_strides o = false -> depth_safe o (M + nscalar kinds) ->
  dim P ctx = 0 -> mem Se ctx [] = true ->
  statement_loops P kinds ls -> depth_order P kinds ls -> Forall (fun l => M <= dim P (l_dom P l)) ls ->
  program_generate P (run_lengths kinds) o fuel ctx ls = Some res ->
  forall p b y p' b' y', Exec P Se res [] p b y -> Exec P Se res [] p' b' y' ->
  lex_lt (date kinds (b_scal b) (firstn M y)) (date kinds (b_scal b') (firstn M y')) -> lex_lt p p'.
Proof.
  intros P Se L OL kinds M o fuel ctx ls res _ HM Ho Hs Hsafe Hd Hm H1 H2 H3 H p b y p' b' y' E E' HR.
  eapply (C02_order_all_dimensions P Se L OL kinds M false o fuel ctx ls res); eauto; try discriminate.
  - unfold strides_ok. rewrite Hs. discriminate.
  - eapply Forall_impl; [|exact H3]. intros l Hl. cbn in Hl. split; [exact Hl|discriminate].
  - left. exact HR.
Qed.
Print Assumptions C05_merge_order.
Example C05_example :
  Forall (plain_loop 1) input5 /\ Forall (body_inside BoxSem) input5 /\
  (exists res, merge BoxPoly 60 opts 1 input5 = Some res /\ res <> []) /\
  (exists N, constant BoxPoly input5 = [N] /\ length (l_inner BoxPoly N) = 4) /\
  exists res, program_generate BoxPoly (run_lengths kinds2) (opts_f (-1) (-1)) 60 ctx0 input2 = Some res /\ res <> [].
Proof.
  split; [repeat constructor|]. split.
  { assert (G : forall d p, body_inside BoxSem (node d p)).
    { intros d p b x H. unfold node in *. cbn [l_inner l_dom l_st] in *. unfold cnts, sumn, st in H. cbn [map cnt list_sum fold_right] in H.
      destruct (inn BoxPoly BoxSem d None x); [reflexivity|cbn in H; lia]. }
    repeat constructor; apply G. }
  split; [run_result; discriminate|].
  split; [eexists; split; [unfold constant; reflexivity|reflexivity]|].
  run_result; discriminate.
Qed.

(** ** C06 *)
Theorem C06_simplify_same_instances :
  forall (P : Poly) (Se : Sem P), Laws P Se ->
  forall (fuel : nat) (ctx : dom P) (x : list Z) (ls rs : list (loop P)),
  Forall (scannable (length x)) ls ->
  Forall (each_loop (fun l => l_blk P l = None -> isconvex P (l_dom P l) = true \/ l_st P l = None)) ls ->
  dim P ctx <= length x -> mem Se ctx (firstn (dim P ctx) x) = true ->
  simplify P fuel ctx ls = Some rs -> same_instances Se x ls rs.
Proof. intros P Se L fuel ctx x ls rs. apply simplify_instances. exact L. Qed.
Print Assumptions C06_simplify_same_instances.
(** Any relation between instances that the loops respected is still respected. *)
Theorem C06_simplify_same_order :
  forall (P : Poly) (Se : Sem P), Laws P Se ->
  forall (R : block -> list Z -> block -> list Z -> Prop) (fuel : nat) (ctx : dom P) (x : list Z) (ls rs : list (loop P)),
  (forall b y, ~ R b y b y) ->
  Forall (scannable (length x)) ls ->
  Forall (each_loop (fun l => l_blk P l = None -> isconvex P (l_dom P l) = true)) ls ->
  dim P ctx <= length x -> mem Se ctx (firstn (dim P ctx) x) = true ->
  simplify P fuel ctx ls = Some rs -> respects Se x ls R -> respects Se x rs R.
Proof. intros P Se L R fuel ctx x ls rs. apply simplify_order. exact L. Qed.
Print Assumptions C06_simplify_same_order.
(** a nest of two loops with a test, and a context that makes the outer bounds redundant *)
Definition input6 : list (loop BoxPoly) :=
  [@Loop BoxPoly (B 2 [[(0, 9); (0, 9)]]%Z) false None None
     [@Loop BoxPoly (B 2 [[(0, 9); (3, 9)]]%Z) false None None [st (B 2 [[(0, 5); (3, 9)]]%Z) 0 []];
      st (B 2 [[(0, 9); (0, 9)]]%Z) 1 []]].
Example C06_example :
  Forall (scannable (length [4%Z])) input6 /\
  Forall (each_loop (fun l => l_blk BoxPoly l = None -> isconvex BoxPoly (l_dom BoxPoly l) = true)) input6 /\
  mem BoxSem (B 1 [[(0, 9)]]%Z) (firstn 1 [4%Z]) = true /\
  exists rs, simplify BoxPoly 60 (B 1 [[(0, 9)]]%Z) input6 = Some rs /\ rs <> input6 /\
    Exec BoxPoly BoxSem rs [4%Z] [Z.of_nat 0; 3%Z; Z.of_nat 0; Z.of_nat 0] (blk 0 []) [4; 3]%Z.
Proof.
  split; [constructor; [apply Scan_loop; [reflexivity|]; repeat constructor|constructor]|].
  split; [repeat constructor; discriminate|]. split; [reflexivity|].
  run_result. split; [discriminate|]. run_exec.
Qed.
(** Convexity of the loops is needed for the order: a loop over {0,2} united with {1} is cut in
    two loops that are not sorted again. *)
Definition input6' : list (loop BoxPoly) :=
  [@Loop BoxPoly (B 1 [[(0, 0)]; [(2, 2)]; [(1, 1)]]%Z) false None None [st (B 1 [[(0, 9)]]%Z) 0 []]].
Theorem C06_order_nonconvex_refuted :
  Laws BoxPoly BoxSem /\ Forall (scannable 0) input6' /\
  exists rs, simplify BoxPoly 60 ctx0 input6' = Some rs /\
  exists p q p' q',
    Exec BoxPoly BoxSem input6' [] p (blk 0 []) [1%Z] /\ Exec BoxPoly BoxSem input6' [] q (blk 0 []) [2%Z] /\ lex_lt p q /\
    Exec BoxPoly BoxSem rs [] p' (blk 0 []) [1%Z] /\ Exec BoxPoly BoxSem rs [] q' (blk 0 []) [2%Z] /\ lex_lt q' p'.
Proof.
  split; [exact box_laws|]. split; [constructor; [apply Scan_loop; [reflexivity|]; repeat constructor|constructor]|].
  run_result. exists [Z.of_nat 0; 1%Z; Z.of_nat 0], [Z.of_nat 0; 2%Z; Z.of_nat 0], [Z.of_nat 2; 1%Z; Z.of_nat 0], [Z.of_nat 1; 2%Z; Z.of_nat 0].
  split; [run_exec|]. split; [run_exec|]. split; [apply lex_next, lex_here; reflexivity|].
  split; [run_exec|]. split; [run_exec|]. apply lex_here; reflexivity.
Qed.
Print Assumptions C06_order_nonconvex_refuted.

(** ** C10 *)
(** At loop depth [n + 1] with [scalar] scalar dimensions behind us, the vector is made of the
    consecutive scalar dimensions that follow. *)
Theorem C10_scalar_sort :
  forall (P : Poly) (kinds : list bool) (n scalar : nat) (ls : list (loop P)), ls <> [] ->
  let vec := scalar_vector (P := P) scalar (leading (skipn (n + scalar) kinds)) in
  exists rs, scalar_sort P (run_lengths kinds) (S n) scalar ls = Some rs /\ Permutation rs ls /\
    ForallOrdPairs (fun a b => vec a = vec b \/ lex_lt (vec a) (vec b)) rs /\
    forall v, filter (fun l => if list_eq_dec Z.eq_dec (vec l) v then true else false) rs =
              filter (fun l => if list_eq_dec Z.eq_dec (vec l) v then true else false) ls.
Proof. intros P kinds n scalar ls. apply scalar_sort_fun. Qed.
Print Assumptions C10_scalar_sort.
Example C10_example :
  map (b_pos) (flat_map (fun l => match l_blk BoxPoly l with Some b => [b] | None => [] end)
    (match scalar_sort BoxPoly (run_lengths [true; true; false]) 1 0
       [st ctx0 0 [1; 0]%Z; st ctx0 1 [0; 5]%Z; st ctx0 2 [1; -3]%Z; st ctx0 3 [0; 5]%Z] with Some r => r | None => [] end)) = [1; 3; 2; 0].
Proof. vm_compute. reflexivity. Qed.

(** ** C12: what combining adjacent loops does to strides *)
(** Two loops over 0..10, with strides 2 and 3, become one loop with stride 2 over both
    bodies: the second body runs at other points. *)
Definition sloop (s : Z) (p : nat) : loop BoxPoly :=
  @Loop BoxPoly (B 1 [[(0, 10)]]%Z) false (Some (s, 0%Z, None)) None [st (B 1 [[(0, 10)]]%Z) p []].
Theorem C12_combine_loses_stride_refuted :
  exists p b y, Exec BoxPoly BoxSem [sloop 2 0; sloop 3 1] [] p b y /\
    forall q, ~ Exec BoxPoly BoxSem (combine BoxPoly [sloop 2 0; sloop 3 1]) [] q b y.
Proof.
  exists [Z.of_nat 1; 3%Z; Z.of_nat 0], (blk 1 []), [3%Z]. split; [run_exec|].
  intros q He. cbn in He. no_exec He. destruct He0 as [_ He0]. cbn in He0. discriminate.
Qed.
Print Assumptions C12_combine_loses_stride_refuted.

(** ** C28 *)
(** After sanitising, -l leaves all [nb] scattering dimensions to the generator; nothing else
    is changed. *)
Theorem C28_sanitize_safe :
  forall (nb : nat) (o : options), o_override o = false ->
  let o' := sanitize nb o in
  ((o_l o' < 0)%Z \/ (Z.of_nat nb <= o_l o')%Z) /\
  ((1 < o_f o \/ o_f o < 0)%Z -> o_l o' = Z.of_nat nb) /\
  o' = with_l o (o_l o').
Proof.
  intros nb o Hov. unfold sanitize. rewrite Hov. cbn.
  split; [|split; [|reflexivity]].
  - destruct (Z.ltb_spec (o_l o) (Z.of_nat nb)), (Z.leb_spec 0 (o_l o)); cbn;
    match goal with |- context [if ?c then _ else _] => destruct c end; lia.
  - intros Hf. destruct (Z.ltb_spec 1 (o_f o)), (Z.ltb_spec (o_f o) 0); cbn; try lia;
    destruct (Z.ltb_spec (o_l o) (Z.of_nat nb)), (Z.leb_spec 0 (o_l o)); cbn;
    repeat match goal with |- context [Z.ltb ?a ?b] => destruct (Z.ltb_spec a b) end; cbn; lia.
Qed.
Print Assumptions C28_sanitize_safe.
(** Values that are safe already (and everything, with -override) stay as they are; sanitising
    twice is the same as once. *)
Theorem C28_sanitize_unchanged :
  forall (nb : nat) (o : options),
  o_override o = true \/ (o_l o = Z.of_nat nb) \/
  ((0 <= o_f o <= 1)%Z /\ ((o_l o < 0)%Z \/ (Z.of_nat nb <= o_l o)%Z)) ->
  sanitize nb o = o.
Proof.
  intros nb o H. unfold sanitize. destruct (o_override o) eqn:E; [reflexivity|].
  assert (G : o_l (with_l o (o_l o)) = o_l o -> with_l o (o_l o) = o) by (intros _; destruct o; cbn in *; subst; reflexivity).
  destruct H as [H|[H|[Hf H]]]; [discriminate| |].
  - rewrite H, Z.ltb_irrefl. cbn [andb]. rewrite Z.ltb_irrefl. cbn [orb]. destruct (Z.ltb_spec (Z.of_nat nb) 0); [lia|].
    rewrite andb_false_r. rewrite <- H. apply G. reflexivity.
  - destruct (Z.ltb_spec 1 (o_f o)); [lia|]. destruct (Z.ltb_spec (o_f o) 0); [lia|]. cbn [orb andb].
    destruct (Z.ltb_spec (o_l o) (Z.of_nat nb)), (Z.leb_spec 0 (o_l o)); cbn [andb]; try lia; apply G; reflexivity.
Qed.
Print Assumptions C28_sanitize_unchanged.
Theorem C28_sanitize_idempotent : forall (nb : nat) (o : options), sanitize nb (sanitize nb o) = sanitize nb o.
Proof.
  intros nb o. destruct (o_override o) eqn:E; [unfold sanitize at 2; rewrite E; unfold sanitize; rewrite E; reflexivity|].
  destruct (C28_sanitize_safe nb o E) as (H1 & H2 & H3). apply C28_sanitize_unchanged.
  assert (Hf : o_f (sanitize nb o) = o_f o) by (rewrite H3; reflexivity). rewrite Hf.
  destruct (Z.ltb_spec 1 (o_f o)); [right; left; apply H2; lia|]. destruct (Z.ltb_spec (o_f o) 0); [right; left; apply H2; lia|].
  right. right. split; [lia|exact H1].
Qed.
Print Assumptions C28_sanitize_idempotent.
(** Consequence (C02_scattering_order): the scattering is respected for all -f, -l.  Without
    sanitising it is not: with -override and -l 1, a two-dimensional scattering is violated. *)
Definition input7 : list (loop BoxPoly) := [st (B 2 [[(0, 1); (0, 1)]]%Z) 0 []; st (B 2 [[(0, 1); (0, 1)]]%Z) 1 []].
Theorem C28_override_refuted :
  statement_loops BoxPoly kinds2 input7 /\ plain_options BoxPoly BoxSem (opts_f 1 1) /\ o_override (opts_f 1 1) = true /\
  exists res, cloog_program_generate BoxPoly (run_lengths kinds2) (opts_f 1 1) 60 ctx0 input7 = Some res /\
  exists p b y p' b' y',
    Exec BoxPoly BoxSem res [] p b y /\ Exec BoxPoly BoxSem res [] p' b' y' /\
    lex_lt (date kinds2 (b_scal b) y) (date kinds2 (b_scal b') y') /\ lex_lt p' p.
Proof.
  split; [repeat (constructor; [eexists _, _, _; split; [reflexivity|cbn; lia]|]); constructor|].
  split; [split; [reflexivity|split; [discriminate|discriminate]]|]. split; [reflexivity|].
  run_result. exists [Z.of_nat 0; Z.of_nat 0; 0%Z; Z.of_nat 1; 0%Z; Z.of_nat 0], (blk 1 []), [0; 0]%Z,
             [Z.of_nat 0; Z.of_nat 0; 0%Z; Z.of_nat 0; 1%Z; Z.of_nat 0], (blk 0 []), [0; 1]%Z.
  split; [run_exec|]. split; [run_exec|].
  split; [apply lex_next, lex_here; reflexivity|apply lex_next, lex_next, lex_next, lex_here; reflexivity].
Qed.
Print Assumptions C28_override_refuted.
Example C28_example : o_l (sanitize 3 (opts)) = (-1)%Z /\
  o_l (sanitize 3 {| o_l := 1; o_f := 1; o_stop := -1; o_strides := false; o_sh := false; o_otl := true; o_backtrack := false;
     o_first_unroll := -1; o_fs := None; o_ls := None; o_nosimplify := false; o_override := false |}) = 3%Z.
Proof. split; reflexivity. Qed.

(** ** C36 *)
(** One loop over a single convex set, with its statements (the generator unrolls no other
    loops: C01 rests on this): unrolling keeps the instances; each copy has one value of
    the iterator, and the copies come in increasing order of it. *)
Theorem C36_unroll :
  forall (P : Poly) (Se : Sem P), Laws P Se ->
  forall (level : nat) (l : loop P),
  1 <= level -> dim P (l_dom P l) = level -> isconvex P (l_dom P l) = true -> l_blk P l = None -> body_inside Se l ->
  Forall (fun i => statement_leaf i /\ level <= dim P (l_dom P i)) (l_inner P l) ->
  (forall b x, cnts P Se (loop_unroll P level l) b x = cnt P Se l b x) /\
  (can_unroll P (l_dom P l) level <> None ->
   ForallOrdPairs (fun c c' => forall b y b' y', 0 < cnt P Se c b y -> 0 < cnt P Se c' b' y' -> agree (level - 1) y y' ->
      (nth (level - 1) y 0 < nth (level - 1) y' 0)%Z) (loop_unroll P level l) /\
   Forall (fun c => forall b y b' y', 0 < cnt P Se c b y -> 0 < cnt P Se c b' y' -> agree (level - 1) y y' ->
      nth (level - 1) y 0%Z = nth (level - 1) y' 0%Z) (loop_unroll P level l)).
Proof. intros P Se L level l. apply unroll_fun. exact L. Qed.
Print Assumptions C36_unroll.
Example C36_example :
  body_inside BoxSem (node (B 2 [[(0, 3); (2, 4)]]%Z) 0) /\ isconvex BoxPoly (B 2 [[(0, 3); (2, 4)]]%Z) = true /\
  can_unroll BoxPoly (B 2 [[(0, 3); (2, 4)]]%Z) 2 <> None /\ length (loop_unroll BoxPoly 2 (node (B 2 [[(0, 3); (2, 4)]]%Z) 0)) = 3.
Proof.
  split.
  { intros b x H. unfold node in *. cbn [l_inner l_dom l_st] in *. unfold cnts, sumn, st in H. cbn [map cnt list_sum fold_right] in H.
    destruct (inn BoxPoly BoxSem (B 2 [[(0, 3); (2, 4)]]%Z) None x); [reflexivity|cbn in H; lia]. }
  split; [reflexivity|split; [discriminate|reflexivity]].
Qed.

(** ** C37 *)
Theorem C37_stop_partial :
  forall (P : Poly) (Se : Sem P) (ctx : dom P) (ls : list (loop P)) (x : list Z),
  Forall statement_leaf ls -> length x = dim P ctx ->
  forall p b y, Exec P Se (stop P ctx ls) x p b y <->
    y = x /\ mem Se ctx x = true /\ exists i l, nth_error ls i = Some l /\ l_blk P l = Some b /\ p = [Z.of_nat i].
Proof. intros P Se ctx ls x. apply stop_fun. Qed.
Print Assumptions C37_stop_partial.
Example C37_example : exists p, Exec BoxPoly BoxSem (stop BoxPoly (B 1 [[(0, 3)]]%Z) input2) [2%Z] p (blk 2 []) [2%Z].
Proof. exists [Z.of_nat 2]. unfold stop. cbn [map input2]. run_exec. Qed.
