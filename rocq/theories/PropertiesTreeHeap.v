(** C59: memory of the generated code. *)
From Coq Require Import ZArith List Bool Arith String Permutation Lia.
From Verif Require HeapModel HeapProofs.
From Verif Require Import ClastModel TreeHeapModel TreeHeapSpec TreeHeapOwn TreeHeapProofs TreeHeapInv.
Import ListNotations.
Local Open Scope nat_scope.
Local Arguments Nat.eqb : simpl never.

(** Whatever was done before, a call that the rules of ownership allow reads, writes and frees only allocated
    memory, and ends. *)
Theorem C59_no_invalid_access h v o after : history h v -> user v o after -> exists h' new, exec h o = Some (h', new).
Proof. intros H HU. destruct (step _ _ _ _ (history_inv _ _ H) HU) as (h' & new & E & _). eauto. Qed.
Print Assumptions C59_no_invalid_access.

(** The allocated nodes are those the user owns, directly or in a tree, and no node is in two places. *)
Theorem C59_nodes h v : history h v ->
  NoDup (map root (all_nodes v)) /\
  forall x c, get (h_cells h) x = Some c <-> exists t, In t (all_nodes v) /\ root t = x /\ c = {| c_lab := lab t; c_fields := map at_root (kids t) |}.
Proof.
  intros H. apply history_inv in H as [Ho _]. split; [exact (own_roots _ _ Ho)|]. pose proof (O_cells _ _ Ho) as Hp. rewrite items_cells in Hp. intros x c. split.
  - intros Hg. apply get_is in Hg. apply (Permutation_in _ Hp) in Hg. apply in_map_iff in Hg as (t & E & Ht). injection E as <- <-. exists t. auto.
  - intros (t & Ht & <- & ->). apply get_of; [exact (O_nd _ _ Ho)|]. eapply Permutation_in; [symmetry; exact Hp|]. apply in_map_iff. exists t. auto.
Qed.
Print Assumptions C59_nodes.

(** A table of names is allocated as long as somebody refers to it, the user or a root, and counts how many do.
    There is one reference to a set, and one copy of a statement, for each node that has it and each the user holds;
    the numbers that are initialised are those of the terms, binary expressions and loops there are. *)
Theorem C59_references h v : history h v ->
  (forall n, (exists r, get (h_nms h) n = Some r) <-> In n (names_refs v)) /\
  (forall n r, get (h_nms h) n = Some r -> r = Z.of_nat (count_occ Nat.eq_dec (names_refs v) n)) /\
  Permutation (h_doms h) (dom_refs v) /\ Permutation (h_sts h) (st_refs v) /\ Permutation (h_ints h) (int_owners v).
Proof.
  intros H. apply history_inv in H as [Ho _]. repeat split.
  - intros [r Hr]. apply HeapProofs.get_in in Hr. apply (O_live _ _ Ho) in Hr. eapply Permutation_in; [apply items_nms|exact Hr].
  - intros Hn. apply HeapProofs.in_get. apply (O_live _ _ Ho). eapply Permutation_in; [symmetry; apply items_nms|exact Hn].
  - intros n r Hr. rewrite (O_nms _ _ Ho n r Hr). f_equal. apply HeapProofs.cnt_perm. apply items_nms.
  - rewrite (O_doms _ _ Ho). apply items_doms.
  - rewrite (O_sts _ _ Ho). apply items_sts.
  - rewrite (O_ints _ _ Ho), items_ints. reflexivity.
Qed.
Print Assumptions C59_references.

Lemma reads_node h ts t : (forall n, In n (nodes t) -> get (h_cells h) (root n) = Some (cell_of n)) -> ts = t -> reads h (Some (root t)) (Some (shape_of t)).
Proof.
  intros H _. induction t as [x l ks IH] using tree_ind'. cbn [shape_of root].
  pose proof (H _ (or_introl eq_refl)) as Hg. change (Sh l (map (option_map shape_of) ks)) with (Sh (c_lab (cell_of (T x l ks))) (map (option_map shape_of) ks)).
  constructor; [exact Hg|]. cbn [cell_of c_fields kids].
  assert (Hk : forall k n, In (Some k) ks -> In n (nodes k) -> get (h_cells h) (root n) = Some (cell_of n)).
  { intros k n Hk Hn. apply H. rewrite nodes_eq. right. apply in_flat_map. exists (Some k). auto. }
  clear H Hg. induction ks as [|o ks IHks]; cbn [map]; constructor.
  - destruct o as [k|]; [|constructor]. apply IH; [left; reflexivity|]. intros n Hn. apply (Hk k); [left; reflexivity|exact Hn].
  - apply IHks; [intros k Hin; apply IH; right; exact Hin|]. intros k n Hin. apply Hk. right. exact Hin.
Qed.
(** What the user owns can be read, with the contents it was given. *)
Theorem C59_contents h v t : history h v -> In t (all_nodes v) -> reads h (Some (root t)) (Some (shape_of t)).
Proof.
  intros H Ht. apply (reads_node h t t); [|reflexivity]. intros n Hn. apply (proj2 (C59_nodes _ _ H)). exists n. split; [|auto].
  unfold all_nodes in *. apply in_flat_map in Ht as (t0 & H0 & Ht). apply in_flat_map. exists t0. split; [exact H0|].
  clear - Ht Hn. induction t0 as [x l ks IH] using tree_ind'. rewrite nodes_eq in Ht. destruct Ht as [->|Ht]; [exact Hn|].
  apply in_flat_map in Ht as ([k|] & Hk & Ht); [|contradiction]. rewrite nodes_eq. right. apply in_flat_map. exists (Some k). split; [exact Hk|]. apply IH; assumption.
Qed.
Print Assumptions C59_contents.

Lemma copy_fresh f : forall h p h' new, copy_expr f h p = Some (h', new) -> h_fresh h <= h_fresh h' /\ (forall x, In x new -> h_fresh h <= x).
Proof.
  induction f as [|f IH]; intros h p h' new E; destruct p as [x|]; cbn [copy_expr] in E; try discriminate; try (injection E as <- <-; split; [lia|intros ? []]).
  destruct (get (h_cells h) x) as [c|]; [|discriminate]. cbn [bind] in E. destruct c as [l fs]. cbn [c_lab c_fields] in E.
  assert (Hone : forall v (k : heap -> list nat -> heap), (forall h1 l, h_fresh h1 <= h_fresh (k h1 l)) -> (do (h1, l) <- copy_expr f h v; Some (k h1 l, h_fresh h1 :: l)) = Some (h', new) -> h_fresh h <= h_fresh h' /\ (forall x, In x new -> h_fresh h <= x)).
  { intros v k Hk K. destruct (copy_expr f h v) as [[h1 l1]|] eqn:E1; [|discriminate]. cbn [bind] in K. injection K as <- <-. destruct (IH _ _ _ _ E1) as [H1 H2]. specialize (Hk h1 l1). split; [lia|]. intros y [<-|Hy]; [lia|]. apply H2. exact Hy. }
  destruct l; try discriminate.
  - destruct fs; [|discriminate]. injection E as <- <-. cbn. split; [lia|]. intros y [<-|[]]. lia.
  - destruct fs as [|v [|? ?]]; try discriminate. apply (Hone v (fun h1 l => new_term h1 val (first l))); [intros; cbn; lia|exact E].
  - destruct fs as [|v [|? ?]]; try discriminate. apply (Hone v (fun h1 l => new_bin h1 t (first l) rhs)); [intros; cbn; lia|exact E].
  - destruct (copy_elts _ _ _ _ _) as [[h2 l2]|] eqn:E2; [|discriminate]. cbn [bind] in E. injection E as <- <-.
    assert (G : forall es h0 r i h3 l3, copy_elts (copy_expr f) h0 r i es = Some (h3, l3) -> h_fresh h0 <= h_fresh h3 /\ (forall x, In x l3 -> h_fresh h0 <= x)).
    { clear - IH. induction es as [|e es IHe]; intros h0 r i h3 l3 E; cbn [copy_elts] in E; [injection E as <- <-; split; [lia|intros ? []]|].
      destruct (copy_expr f h0 e) as [[h1 l1]|] eqn:E1; [|discriminate]. cbn [bind] in E. destruct (write h1 r i (first l1)) as [h2|] eqn:E2; [|discriminate]. cbn [bind] in E.
      destruct (copy_elts (copy_expr f) h2 r (S i) es) as [[h4 l4]|] eqn:E4; [|discriminate]. cbn [bind] in E. injection E as <- <-.
      assert (Hf : h_fresh h2 = h_fresh h1) by (unfold write in E2; destruct (get (h_cells h1) r); [|discriminate]; cbn [bind] in E2; destruct (_ <? _); [|discriminate]; injection E2 as <-; reflexivity).
      destruct (IH _ _ _ _ E1) as [A1 A2]. destruct (IHe _ _ _ _ _ E4) as [B1 B2]. split; [lia|]. intros x Hx. apply in_app_iff in Hx as [Hx|Hx]; [apply A2; exact Hx|]. apply B2 in Hx. lia. }
    apply G in E2 as [A B]. cbn in A, B. split; [lia|]. intros y [<-|Hy]; [lia|]. apply B in Hy. lia.
Qed.
(** A copy of an expression reads like the original, which stays as it was, and has none of its nodes. *)
Theorem C59_copy h v t : history h v -> In t (all_nodes v) -> is_expr (lab t) = true ->
  exists h' new, exec h (CopyExpr (Some (root t))) = Some (h', new) /\
    reads h' (first new) (Some (shape_of t)) /\ reads h' (Some (root t)) (Some (shape_of t)) /\ (forall x, In x new -> get (h_cells h) x = None).
Proof.
  intros H Ht He. destruct (step h v _ _ (history_inv _ _ H) (U_copy v t Ht He)) as (h' & new & E & HI). exists h', new. split; [exact E|].
  pose proof (H_call _ _ _ _ _ _ H (U_copy v t Ht He) E) as H'. cbn [exec] in E.
  assert (Hn : exists y l, new = y :: l).
  { destruct (enough h); cbn [copy_expr] in E; [discriminate|]. destruct (get (h_cells h) (root t)) as [c|]; [|discriminate]. cbn [bind] in E. destruct c as [l fs]. cbn [c_lab c_fields] in E.
    destruct l; try discriminate.
    - destruct fs; [|discriminate]. injection E as _ <-. eauto.
    - destruct fs as [|w [|? ?]]; try discriminate. destruct (copy_expr n h w) as [[h1 l1]|]; [|discriminate]. cbn in E. injection E as _ <-. eauto.
    - destruct fs as [|w [|? ?]]; try discriminate. destruct (copy_expr n h w) as [[h1 l1]|]; [|discriminate]. cbn in E. injection E as _ <-. eauto.
    - destruct (copy_elts _ _ _ _ _) as [[h1 l1]|]; [|discriminate]. cbn in E. injection E as _ <-. eauto. }
  destruct Hn as (y & l & En). split; [|split].
  - assert (Hroot : first new = Some (root (fst (renumber new t)))) by (rewrite En; destruct t; reflexivity). rewrite Hroot, <- (renumber_shape t new).
    apply (C59_contents _ _ _ H'). unfold all_nodes. cbn [with_t v_t flat_map]. apply in_app_iff. left. destruct (fst (renumber new t)). left. reflexivity.
  - apply (C59_contents _ _ _ H'). unfold all_nodes in *. cbn [with_t v_t flat_map]. apply in_app_iff. right. exact Ht.
  - intros x Hx. destruct (get (h_cells h) x) eqn:Eg; [|reflexivity]. exfalso. apply HeapProofs.get_in in Eg. apply (O_fresh _ _ (I_own _ _ (history_inv _ _ H))) in Eg. apply copy_fresh in E as [_ E]. apply E in Hx. lia.
Qed.
Print Assumptions C59_copy.

(** Whoever holds a root can read the names, even when the program that made the code has been freed; and when
    nothing is held any more, nothing is allocated. *)
Theorem C59_names_outlive h v t n : history h v -> In t (all_nodes v) -> lab t = LRoot n -> exists r, get (h_nms h) n = Some r.
Proof.
  intros H Ht El. apply (C59_references _ _ H). unfold names_refs. apply in_app_iff. right. apply in_flat_map. exists t. split; [exact Ht|]. rewrite El. left. reflexivity.
Qed.
Print Assumptions C59_names_outlive.
Theorem C59_nothing_left h v : history h v -> v_t v = [] -> v_n v = [] -> v_d v = [] -> v_s v = [] ->
  h_cells h = [] /\ h_ints h = [] /\ h_nms h = [] /\ h_doms h = [] /\ h_sts h = [].
Proof.
  intros H E1 E2 E3 E4. apply history_inv in H as [Ho _]. assert (E : items v = []) by (unfold items; rewrite E1, E2, E3, E4; reflexivity). rewrite E in Ho.
  destruct Ho as [A B C D F G HH I J K]. repeat split; try (apply Permutation_nil; symmetry; assumption).
  destruct (h_nms h) as [|[n r] l]; [reflexivity|]. destruct (proj1 (I n)). left. reflexivity.
Qed.
Print Assumptions C59_nothing_left.

(** A program's names and a root for them; a loop from 0 to 0 whose upper bound is a copy of the lower one; the loop
    is put after the root and gets a body; the program gives up its names.  The names are still there, with one
    reference; when the code is freed, nothing is left. *)
Lemma call h v o after h' new v' : history h v -> user v o after -> exec h o = Some (h', new) -> after new = v' -> history h' v'.
Proof. intros H HU E <-. eapply H_call; eassumption. Qed.
Definition zero : tree := T 2 (LTerm 0) [None].
Definition zero' : tree := T 3 (LTerm 0) [None].
Definition loop_node (body : option tree) : tree := T 4 (LFor None "i"%string 1) [Some zero; Some zero'; body; None].
Definition body_node : tree := T 5 LBlock [None; None].
Example C59_example : exists h, history h {| v_t := [T 1 (LRoot 0) [Some (loop_node (Some body_node))]]; v_n := []; v_d := []; v_s := [] |} /\
  get (h_nms h) 0 = Some 1%Z /\ exists h', exec h (FreeClast (Some 1)) = Some (h', []) /\ history h' v0 /\ h_cells h' = [] /\ h_nms h' = [] /\ h_ints h' = [].
Proof.
  assert (exists h, history h {| v_t := [T 1 (LRoot 0) [Some (loop_node (Some body_node))]]; v_n := []; v_d := []; v_s := [] |} /\ h = {| h_fresh := 6;
    h_cells := [(5, {| c_lab := LBlock; c_fields := [None; None] |}); (4, {| c_lab := LFor None "i"%string 1; c_fields := [Some 2; Some 3; Some 5; None] |});
      (3, {| c_lab := LTerm 0; c_fields := [None] |}); (2, {| c_lab := LTerm 0; c_fields := [None] |}); (1, {| c_lab := LRoot 0; c_fields := [Some 4] |})];
    h_ints := [4; 3; 2]; h_nms := [(0, 1%Z)]; h_doms := []; h_sts := [] |}) as (h & H & Eh).
  { pose proof H_start as H.
    eapply (call _ _ _ _ _ [0] {| v_t := []; v_n := [0]; v_d := []; v_s := [] |}) in H; [|apply U_names_new|vm_compute; reflexivity|reflexivity].
    eapply (call _ _ _ _ _ [1] {| v_t := [T 1 (LRoot 0) [None]]; v_n := [0]; v_d := []; v_s := [] |}) in H; [|apply U_root; left; reflexivity|vm_compute; reflexivity|reflexivity].
    eapply (call _ _ _ _ _ [2] {| v_t := [zero; T 1 (LRoot 0) [None]]; v_n := [0]; v_d := []; v_s := [] |}) in H; [|apply (U_term _ 0 None None); apply Takes_null|vm_compute; reflexivity|reflexivity].
    eapply (call _ _ _ _ _ [3] {| v_t := [zero'; zero; T 1 (LRoot 0) [None]]; v_n := [0]; v_d := []; v_s := [] |}) in H; [|apply (U_copy _ zero); [left; reflexivity|reflexivity]|vm_compute; reflexivity|reflexivity].
    eapply (call _ _ _ _ _ [4] {| v_t := [loop_node None; T 1 (LRoot 0) [None]]; v_n := [0]; v_d := []; v_s := [] |}) in H; [|apply (U_for _ None "i"%string (Some 2) (Some 3) (Some zero) (Some zero') 1 [zero'; T 1 (LRoot 0) [None]] [T 1 (LRoot 0) [None]]); [discriminate|apply (Takes_one true zero); [apply perm_swap|reflexivity]|apply (Takes_one true zero'); [apply Permutation_refl|reflexivity]]|vm_compute; reflexivity|reflexivity].
    eapply (call _ _ _ _ _ [] {| v_t := [T 1 (LRoot 0) [Some (loop_node None)]]; v_n := [0]; v_d := []; v_s := [] |}) in H; [|apply (U_write _ 1 0 (Some 4) (Some (loop_node None)) (T 1 (LRoot 0) [None]) (LRoot 0) [None] [loop_node None] []); [apply perm_swap|cbn; auto|reflexivity|apply (Takes_one false (loop_node None)); [apply Permutation_refl|reflexivity]]|vm_compute; reflexivity|reflexivity].
    eapply (call _ _ _ _ _ [5] {| v_t := [body_node; T 1 (LRoot 0) [Some (loop_node None)]]; v_n := [0]; v_d := []; v_s := [] |}) in H; [|apply U_block|vm_compute; reflexivity|reflexivity].
    eapply (call _ _ _ _ _ [] {| v_t := [T 1 (LRoot 0) [Some (loop_node (Some body_node))]]; v_n := [0]; v_d := []; v_s := [] |}) in H; [|apply (U_write _ 4 2 (Some 5) (Some body_node) (T 1 (LRoot 0) [Some (loop_node None)]) (LFor None "i"%string 1) [Some zero; Some zero'; None; None] [body_node] []); [apply perm_swap|cbn; auto|reflexivity|apply (Takes_one false body_node); [apply Permutation_refl|reflexivity]]|vm_compute; reflexivity|reflexivity].
    eapply (call _ _ _ _ _ [] {| v_t := [T 1 (LRoot 0) [Some (loop_node (Some body_node))]]; v_n := []; v_d := []; v_s := [] |}) in H; [|apply (U_names_free _ 0 []); apply Permutation_refl|vm_compute; reflexivity|reflexivity].
    eexists. split; [exact H|reflexivity]. }
  exists h. split; [exact H|]. split; [subst h; reflexivity|].
  assert (E : exec h (FreeClast (Some 1)) = Some ({| h_fresh := 6; h_cells := []; h_ints := []; h_nms := []; h_doms := []; h_sts := [] |}, [])) by (subst h; vm_compute; reflexivity).
  eexists. split; [exact E|]. split; [|repeat split]. clear Eh.
  refine (call _ _ _ _ _ _ _ H (U_free_clast _ (Some 1) (Some (T 1 (LRoot 0) [Some (loop_node (Some body_node))])) [] _) E eq_refl).
  apply (Takes_one false (T 1 (LRoot 0) [Some (loop_node (Some body_node))])); [apply Permutation_refl|reflexivity].
Qed.
