(** A loop that the generator marks "at most once" runs at most once. *)
From Coq Require Import ZArith List Bool Arith Lia Permutation.
From Verif Require Import LoopModel LoopSpec LoopLists LoopCount LoopKeys LoopGen LoopSimplify LoopFrom LoopBox ClastSpec.
Import ListNotations.
Local Arguments Nat.ltb : simpl never.
Local Arguments Nat.leb : simpl never.
Local Arguments Nat.eqb : simpl never.
Local Arguments Nat.sub : simpl never.

Section Otl.
Variable P : Poly.
Variable Se : Sem P.
Hypothesis L : Laws P Se.
Notation dim := (dim P).
Notation mem := (mem Se).
Definition single (d : dom P) : Prop := forall x v v', mem d (x ++ [v]) = true -> mem d (x ++ [v']) = true -> v = v'.
Lemma single_sub d d' : dim d' = dim d -> (forall y, mem d' y = true -> mem d y = true) -> single d -> single d'.
Proof. intros _ H S x v v' H1 H2. eapply S; apply H; eassumption. Qed.
Lemma single_otl : otl_sound P Se -> forall d, 1 <= dim d -> is_otl P d (dim d) = true -> single d.
Proof.
  intros H d Hd E x v v' H1 H2. pose proof (L_len _ _ L _ _ H1) as Hl. rewrite app_length in Hl. cbn [length] in Hl.
  pose proof (H d (dim d) (x ++ [v]) (x ++ [v']) Hd (le_n _) E H1 H2) as K. assert (EI : dim d - 1 = length x) by lia. rewrite EI in K. rewrite !app_nth2, Nat.sub_diag in K by lia. apply K.
  intros i Hi. destruct (Nat.lt_ge_cases i (length x)); [rewrite !nth_error_app1 by lia; reflexivity|]. rewrite !nth_error_app2 by lia. destruct (i - length x) as [|k] eqn:Ek; [lia|]. cbn. now destruct k.
Qed.
Lemma single_fixed d n lb i : can_unroll P d (dim d) = Some (n, lb) -> single (fixed_offset P d (dim d) lb i).
Proof.
  intros Hu x v v' H1 H2. pose proof (L_len _ _ L _ _ H1) as Hl. rewrite (L_fixed_dim _ _ L), app_length in Hl. cbn [length] in Hl. rewrite (L_fixed _ _ L _ _ n lb) in H1, H2 by (lia || reflexivity || exact Hu).
  apply andb_prop in H1, H2. destruct H1 as [_ H1], H2 as [_ H2]. apply Z.eqb_eq in H1, H2. assert (EI : dim d - 1 = length x) by lia. rewrite EI in H1, H2. rewrite !app_nth2, !Nat.sub_diag in H1, H2 by lia.
  rewrite !firstn_app, !firstn_all, Nat.sub_diag in H1, H2. cbn in H1, H2. congruence.
Qed.
Definition promise (l : loop P) : Prop := l_otl P l = true -> single (l_dom P l).
Lemma otl_each l : each_loop promise l -> forall x, otl_right P Se x l.
Proof.
  induction l as [d ot st b inner IH] using (loop_ind' P). intros He x. inversion He as [l0 Hp Hi E0]. subst l0. cbn [l_inner] in *. rewrite Forall_forall in *. constructor.
  - intros E v v' [H1 _] [H2 _]. exact (Hp E x v v' H1 H2).
  - intros v _. cbn [l_inner]. rewrite Forall_forall. intros a Ha. now apply IH; [|apply Hi].
  - intros _. cbn [l_inner]. rewrite Forall_forall. intros a Ha. now apply IH; [|apply Hi].
Qed.
(** dimensions do not shrink from a loop to the loops in it *)
Definition nested (l : loop P) : Prop := Forall (fun i => dim (l_dom P l) <= dim (l_dom P i)) (l_inner P l).
Lemma otl_simplify fuel l : forall ctx r x, each_loop promise l -> each_loop nested l -> dim ctx <= dim (l_dom P l) -> mem ctx x = true ->
  simplify1 P fuel ctx l = Some r -> Forall (otl_right P Se x) r.
Proof.
  induction l as [d otl st blk inner IH] using loop_ind'. intros ctx r x He Hn Hd Hx E. rewrite simplify1_eq in E. cbv zeta in E. cbn [l_dom] in Hd.
  inversion He as [l0 Hp Hpi E0]. subst l0. inversion Hn as [l0 Hn1 Hni E0]. subst l0. unfold nested in Hn1. unfold promise in Hp. cbn [l_otl l_dom l_inner] in *.
  set (d1 := if isconvex P d then d else simplify_union P d) in *.
  assert (D1 : dim d1 = dim d) by (unfold d1; destruct (isconvex P d); [reflexivity|apply (L_su_dim _ _ L)]).
  assert (M1 : forall y, mem d1 y = mem d y) by (intro y; unfold d1; destruct (isconvex P d); [reflexivity|apply (L_su _ _ L)]). clearbody d1.
  apply obind_some in E as (parts & E1 & E).
  assert (FP : Forall (fun p => dim (fst (fst p)) = dim d /\ (snd (fst p) = true -> single (fst (fst p)))) parts).
  { destruct (isconvex P d1).
    - injection E1 as <-. constructor; [|constructor]. cbn [fst snd]. split; [exact D1|]. intro Ho. apply (single_sub d); [exact D1| |now apply Hp]. intros y Hy. rewrite <- M1. exact Hy.
    - apply obind_some in E1 as (ds & Ed & E1). injection E1 as <-. destruct (pieces_spec P Se L fuel) as [Hq _]. destruct (Hq _ _ Ed) as [HF _].
      apply Forall_map. eapply Forall_impl; [|exact HF]. intros y [Hy _]. cbn [fst snd]. split; [congruence|discriminate]. }
  eapply oconcat_forall; [|exact E|exact FP]. clear E E1 FP parts. intros [[y ot'] st'] b [Hy Ho] E. cbn [fst snd] in Hy, Ho. unfold part in E. cbv zeta in E.
  assert (DE : dim (extend P ctx (dim y)) = dim y) by (apply (L_extend_dim _ _ L); lia).
  destruct (never_integral P _); [injection E as <-; constructor|]. apply obind_some in E as (ins & Ei & E).
  pose proof (L_len _ _ L _ _ Hx) as Lx.
  (* a point of the simplified loop that extends x is a point of the loop *)
  assert (PT : forall w, mem (gist P y (extend P ctx (dim y))) (x ++ w) = true -> mem y (x ++ w) = true /\ mem (intersection P y (extend P ctx (dim y))) (x ++ w) = true).
  { intros w Hw. pose proof (L_len _ _ L _ _ Hw) as Lw. rewrite (L_gist_dim _ _ L) in Lw by lia.
    assert (HE : mem (extend P ctx (dim y)) (x ++ w) = true) by (rewrite (L_extend _ _ L) by lia; rewrite <- Lx, firstn_app, firstn_all, Nat.sub_diag; cbn; rewrite app_nil_r; exact Hx).
    rewrite (L_gist _ _ L) in Hw by (auto; lia). split; [exact Hw|]. rewrite (L_inter _ _ L), Hw, HE by lia. reflexivity. }
  assert (FI : forall z, mem (intersection P y (extend P ctx (dim y))) z = true -> Forall (otl_right P Se z) ins).
  { intros z Hz. eapply (oconcat_forall _ (fun a => In a inner)); [|exact Ei|rewrite Forall_forall; auto]. intros a r' Ha Er. rewrite Forall_forall in *.
    specialize (Hn1 a Ha). eapply Forall_forall. eapply (IH a Ha); [apply Hpi, Ha|apply Hni, Ha| |exact Hz|exact Er]. rewrite (L_inter_dim _ _ L); lia. }
  assert (G : otl_right P Se x (Loop P (gist P y (extend P ctx (dim y))) ot' st' blk ins)).
  { constructor; cbn [l_otl l_inner].
    - intros Ht v v' [H1 _] [H2 _]. cbn [l_dom] in H1, H2. apply PT in H1, H2. exact (Ho Ht x v v' (proj1 H1) (proj1 H2)).
    - intros v [H1 _]. cbn [l_dom] in H1. apply PT in H1. apply FI. tauto.
    - intros [H1 _]. cbn [l_dom] in H1. pose proof (PT [] ltac:(rewrite app_nil_r; exact H1)) as H2. rewrite app_nil_r in H2. apply FI. tauto. }
  destruct ins as [|i ins]; [destruct blk|]; injection E as <-; [|constructor|]; (constructor; [exact G|constructor]).
Qed.

Theorem generated_otl (kinds : list bool) (o : options) (fuel : nat) (ctx : dom P) (ls res : list (loop P)) :
  otl_sound P Se -> (o_stop o < 0)%Z -> o_strides o = false \/ StrideLaws P Se -> dim ctx = 0 -> mem ctx [] = true ->
  statement_loops P kinds ls -> unmarked P ls ->
  cloog_program_generate P (run_lengths kinds) o fuel ctx ls = Some res -> Forall (otl_right P Se []) res.
Proof.
  intros HO Hs Ht Hc Hx Hl Hf E. unfold cloog_program_generate in E. set (o' := sanitize (length (run_lengths kinds)) o) in *.
  assert (Eo : o_stop o' = o_stop o /\ o_strides o' = o_strides o) by (unfold o', sanitize; destruct (o_override o); auto). clearbody o'. destruct Eo as [E1 E2].
  unfold program_generate in E. destruct ls as [|l0 ls]; [injection E as <-; constructor|]. revert Hl Hf E. generalize (l0 :: ls). clear l0 ls. intros ls Hl Hf E. apply obind_some in E as (res0 & Eg & E).
  set (K := fun (d : nat) (b : block) => exists l0, In l0 ls /\ l_blk P l0 = Some b /\ d = dim (l_dom P l0)).
  assert (HK : forall d b, K d b -> cf kinds <= d).
  { intros d b (l0 & I0 & _ & ->). unfold statement_loops in Hl. rewrite Forall_forall in Hl. destruct (Hl l0 I0) as (d' & ot & b' & -> & Hd). exact Hd. }
  assert (SL : o_strides o' = true -> StrideLaws P Se) by (intro H; destruct Ht as [e|e]; [congruence|exact e]).
  pose proof (generate_big P Se L kinds o' ltac:(lia) SL K HK single single_sub (fun _ => single_otl HO) single_fixed fuel ctx ls res0 Hc) as G.
  assert (HF : Forall (leafK P K single) ls).
  { unfold statement_loops, unmarked in *. rewrite Forall_forall in *. intros l Hi. destruct (Hl l Hi) as (d' & ot & b' & El & Hd). pose proof (Hf l Hi) as Ho. rewrite El. split; [reflexivity|]. split.
    - exists b'. split; [reflexivity|]. exists l. split; [exact Hi|]. rewrite El. split; reflexivity.
    - intro H. rewrite El in Ho. cbn in *. congruence. }
  specialize (G HF Eg).
  assert (G1 : Forall (fun l => each_loop promise l /\ each_loop nested l) res0).
  { eapply Forall_impl; [|exact G]. clear. intros l [H _]. induction l as [d ot st blk inner IH] using (loop_ind' P). inversion H as [l0 (_ & A & B) I E0]. subst l0. cbn [l_inner] in *. rewrite Forall_forall in *.
    split; (constructor; [|cbn [l_inner]; rewrite Forall_forall; intros a Ha; now apply IH; [|apply I]]); [exact B|unfold nested; cbn [l_inner]; rewrite Forall_forall; exact A]. }
  destruct (o_nosimplify o'); [injection E as <-; eapply Forall_impl; [|exact G1]; intros a [A _]; now apply otl_each|].
  unfold simplify in E. eapply oconcat_forall; [|exact E|exact G1]. intros a b [H1 H2] Eb. apply (otl_simplify fuel a ctx b [] H1 H2); [lia|exact Hx|exact Eb].
Qed.
End Otl.

(** the library of boxes keeps the promise *)
Lemma box_otl : otl_sound BoxPoly BoxSem.
Proof.
  intros d level x y H1 H2 E Hx Hy _. cbn [is_otl BoxPoly] in E. cbn [mem BoxSem] in Hx, Hy. rewrite bmem_good in Hx, Hy. destruct (good d) as [|p [|]]; try discriminate. cbn [existsb] in Hx, Hy. rewrite orb_false_r in Hx, Hy.
  destruct (nth (level - 1) p full) as [[a|] [b|]] eqn:En; try discriminate. apply Z.eqb_eq in E. subst b.
  assert (K : forall n p x, nth n p full = (Some a, Some a) -> inb p x = true -> nth n x 0%Z = a).
  { clear. induction n as [|n IH]; intros [|i p] [|v x] E H; cbn in E, H; try discriminate.
    - subst i. apply andb_prop in H. destruct H as [H _]. unfold ini, ge_lo, le_hi in H. cbn [fst snd] in H. apply andb_prop in H. rewrite !Z.leb_le in H. cbn. lia.
    - apply andb_prop in H. cbn. apply (IH p x E). apply H. }
  rewrite (K _ _ _ En Hx), (K _ _ _ En Hy). reflexivity.
Qed.
