(** From executions to counts and back, and single functions of loop.c stated over both. *)
From Coq Require Import ZArith List Bool Arith Lia Permutation.
From Verif Require Import SortModel LoopModel LoopSpec LoopLists LoopCount LoopKeys LoopOrder LoopGen LoopSimplify.
Import ListNotations.
Local Arguments Nat.ltb : simpl never.
Local Arguments Nat.leb : simpl never.
Local Arguments Nat.eqb : simpl never.
Local Arguments Nat.sub : simpl never.

Section Bridge.
Variable P : Poly.
Variable Se : Sem P.
Hypothesis L : Laws P Se.
Notation loop := (loop P).
Notation dim := (dim P).
Notation mem := (mem Se).
Notation Loop := (@Loop P).
Notation cnt := (cnt P Se).
Notation cnts := (cnts P Se).
Notation inn := (inn P Se).
Notation noR := (fun (_ : block) (_ : list Z) (_ : block) (_ : list Z) => False).
Notation T := (fun _ : list Z => True).

Lemma scannable_ok1 (cv : dom P -> bool) l : forall n A, scannable n l ->
  each_loop (fun l => l_blk P l = None -> cv (l_dom P l) = true \/ l_st P l = None) l ->
  ok1 P Se False noR cv l n A.
Proof.
  induction l as [d ot st blk inner IH] using loop_ind'. intros n A H He.
  assert (G : forall m B, Forall (scannable m) inner -> okl P Se False noR cv m B inner).
  { intros m B Hm. inversion He as [l Hq Hi]; subst. cbn in Hi. split.
    - rewrite Forall_forall in *. intros l Hl. apply IH; auto.
    - apply FOP_nth. intros i j a c _ _ _ []. }
  inversion H; subst.
  - cbn. auto.
  - apply ok1_node. split.
    + inversion He as [l Hq _]; subst. destruct (Hq eq_refl) as [E|E]; [left; exact E|right]. split; [exact E|]. intros [].
    + left. split; [reflexivity|]. apply G. assumption.
  - apply ok1_node. split.
    + inversion He as [l Hq _]; subst. destruct (Hq eq_refl) as [E|E]; [left; exact E|right]. split; [exact E|]. intros [].
    + right. split; [assumption|]. split; [intros []|]. apply G. assumption.
Qed.
Lemma each_true (cv : dom P -> bool) l : (forall d, cv d = true) ->
  each_loop (fun l => l_blk P l = None -> cv (l_dom P l) = true \/ l_st P l = None) l.
Proof.
  intros H. induction l as [d ot st blk inner IH] using loop_ind'. constructor; [auto|exact IH].
Qed.

Lemma exec_count_at O R cv n A x ls b y : Forall (fun l => ok1 P Se O R cv l n A) ls -> length x = n ->
  exists ps, NoDup ps /\ length ps = (if list_eq_dec Z.eq_dec (firstn n y) x then cnts ls b y else 0) /\
    forall p, In p ps <-> Exec P Se ls x p b y.
Proof.
  intros H Hx. destruct (list_eq_dec Z.eq_dec (firstn n y) x) as [E|E].
  - assert (Hn : n <= length y). { rewrite <- E, firstn_length in Hx. lia. }
    destruct (list_paths P Se O R cv ls) with (n := n) (A := A) (b := b) (y := y) as (ps & N & Ln & I); auto.
    + rewrite Forall_forall. intros l _. apply all_paths; exact L.
    + exists ps. split; [exact N|]. split; [exact Ln|]. intros p. rewrite I, E, exec_iff. reflexivity.
  - exists []. split; [constructor|]. split; [reflexivity|]. intros p. split; [intros []|]. intros He. exfalso. apply E.
    destruct (exec_app1 P Se _ _ _ _ _ He) as (t & ->). rewrite <- Hx. apply firstn_app_exact.
Qed.

Lemma same_instances_cnts O R cv O' R' cv' n A A' x ls rs :
  Forall (fun l => ok1 P Se O R cv l n A) ls -> Forall (fun l => ok1 P Se O' R' cv' l n A') rs -> length x = n ->
  (forall b y, firstn n y = x -> cnts ls b y = cnts rs b y) -> same_instances Se x ls rs.
Proof.
  intros H1 H2 Hx H b y.
  destruct (exec_count_at _ _ _ _ _ _ _ b y H1 Hx) as (ps & N1 & L1 & I1).
  destruct (exec_count_at _ _ _ _ _ _ _ b y H2 Hx) as (qs & N2 & L2 & I2).
  exists ps, qs. split; [exact N1|]. split; [exact N2|]. split; [|auto].
  rewrite L1, L2. destruct (list_eq_dec Z.eq_dec (firstn n y) x) as [E|]; [apply H; exact E|reflexivity].
Qed.

(** executions give back the static order *)
Section Converse.
Variable R : block -> list Z -> block -> list Z -> Prop.
Variable cv : dom P -> bool.
Notation ok1 := (ok1 P Se True R cv).
Notation okl := (okl P Se True R cv).

Lemma cnt_exec n A l b y : scannable n l -> 0 < cnt l b y -> LoopOrder.ok1 P Se False noR (fun _ => true) l n A -> 
  n <= length y /\ exists p, Exec1 P Se l (firstn n y) p b y.
Proof.
  intros Hs Hc Ho. assert (Hn : n <= length y).
  { pose proof (cnt_inn P Se _ _ _ Hc) as Hi. apply (inn_mem P Se) in Hi. apply (L_len _ _ L) in Hi. rewrite firstn_length in Hi.
    assert (n <= dim (l_dom P l)) by (inversion Hs; subst; cbn; lia). lia. }
  split; [exact Hn|]. destruct (all_paths P Se False noR (fun _ => true) L l n A b y Ho Hn) as (ps & _ & Ln & I).
  destruct ps as [|p ps]; [cbn in Ln; lia|]. exists p. apply I. left. reflexivity.
Qed.

Definition resp (n : nat) (A : pset) (ls : list loop) : Prop :=
  forall x p b y p' b' y', length x = n -> A y -> A y' ->
    Exec P Se ls x p b y -> Exec P Se ls x p' b' y' -> R b y b' y' -> lex_lt p p'.
Definition resp1 (n : nat) (A : pset) (l : loop) : Prop :=
  forall x p b y p' b' y', length x = n -> A y -> A y' ->
    Exec1 P Se l x p b y -> Exec1 P Se l x p' b' y' -> R b y b' y' -> lex_lt p p'.
Lemma lex_inv a u v : lex_lt (a :: u) (a :: v) -> lex_lt u v.
Proof. inversion 1; subst; [lia|assumption]. Qed.
Lemma lex_le a u b v : lex_lt (a :: u) (b :: v) -> (a <= b)%Z.
Proof. inversion 1; subst; lia. Qed.

Lemma resp_okl_aux ls : (forall l, In l ls -> forall n A, scannable n l ->
     each_loop (fun l => l_blk P l = None -> cv (l_dom P l) = true) l -> resp1 n A l -> ok1 l n A) ->
  forall n A, Forall (scannable n) ls -> Forall (each_loop (fun l => l_blk P l = None -> cv (l_dom P l) = true)) ls -> resp n A ls -> okl n A ls.
Proof.
  intros IH n A Hs He Hr. rewrite Forall_forall in Hs, He. split.
  - rewrite Forall_forall. intros l Hl. apply IH; auto. intros x p b y p' b' y' Hx HA HA' E E' HR.
    apply In_nth_error in Hl as (i & Hi). apply lex_inv with (a := Z.of_nat i).
    eapply (Hr x _ b y _ b' y'); eauto; econstructor; eauto.
  - apply FOP_nth. intros i j a c Hij Ha Hc _ b y b' y' C C' HA HA' Hag HR.
    pose proof (Hs a (nth_error_In _ _ Ha)) as Sa. pose proof (Hs c (nth_error_In _ _ Hc)) as Sc.
    destruct (cnt_exec n T a b y Sa C) as (Hn & p & E); [apply scannable_ok1; [exact Sa|exact (each_true (fun _ => true) _ (fun _ => eq_refl))]|].
    destruct (cnt_exec n T c b' y' Sc C') as (Hn' & p' & E'); [apply scannable_ok1; [exact Sc|exact (each_true (fun _ => true) _ (fun _ => eq_refl))]|].
    unfold agree in Hag. rewrite <- Hag in E'.
    assert (Hlex : lex_lt (Z.of_nat j :: p') (Z.of_nat i :: p)).
    { apply (Hr (firstn n y) _ b' y' _ b y); auto; [rewrite firstn_length; lia|econstructor; eauto|econstructor; eauto]. }
    apply lex_le in Hlex. lia.
Qed.
Lemma resp1_ok1 l : forall n A, scannable n l ->
  each_loop (fun l => l_blk P l = None -> cv (l_dom P l) = true) l -> resp1 n A l -> ok1 l n A.
Proof.
  induction l as [d ot st blk inner IH] using loop_ind'. intros n A Hs He Hr. rewrite Forall_forall in IH.
  inversion He as [? Hq Hi]; subst; cbn in Hi. inversion Hs; subst.
  - cbn. auto.
  - apply ok1_node. split; [left; auto|]. left. split; [reflexivity|]. apply resp_okl_aux; auto.
    intros x p b y p' b' y' Hx [HA Hin] [HA' Hin'] E E' HR. apply (Hr x p b y p' b' y'); auto; apply exec1_node; auto.
  - apply ok1_node. split; [left; auto|]. right. split; [assumption|]. split.
    + intros _ b y b' y' C C' [HA Hin] [HA' Hin'] Hag Hlt HR.
      apply cnts_pos in C as (a & Ha & C). apply cnts_pos in C' as (c & Hc & C').
      match goal with H : Forall (scannable _) inner |- _ => rewrite Forall_forall in H; pose proof (H a Ha) as Sa; pose proof (H c Hc) as Sc end.
      destruct (cnt_exec (S n) T a b y Sa C) as (Hn & p & E); [apply scannable_ok1; [exact Sa|exact (each_true (fun _ => true) _ (fun _ => eq_refl))]|].
      destruct (cnt_exec (S n) T c b' y' Sc C') as (Hn' & p' & E'); [apply scannable_ok1; [exact Sc|exact (each_true (fun _ => true) _ (fun _ => eq_refl))]|].
      apply In_nth_error in Ha as (i & Ha). apply In_nth_error in Hc as (j & Hc).
      assert (Hl : length (firstn n y) = n) by (rewrite firstn_length; lia).
      assert (Hlex : lex_lt (nth n y' 0%Z :: Z.of_nat j :: p') (nth n y 0%Z :: Z.of_nat i :: p)).
      { apply (Hr (firstn n y) _ b' y' _ b y); auto.
        - apply exec1_node. split; [exact Hin'|]. right. exists (Z.of_nat j :: p'). rewrite Hl. split; [assumption|]. split; [reflexivity|].
          unfold agree in Hag. rewrite Hag, <- firstn_snoc by lia. econstructor; eauto.
        - apply exec1_node. split; [exact Hin|]. right. exists (Z.of_nat i :: p). rewrite Hl. split; [assumption|]. split; [reflexivity|].
          rewrite <- firstn_snoc by lia. econstructor; eauto. }
      apply lex_le in Hlex. lia.
    + apply resp_okl_aux; auto.
      intros x p b y p' b' y' Hx [HA Hin] [HA' Hin'] E E' HR.
      assert (Hy : firstn (S n) y = x). { destruct (exec_app1 P Se _ _ _ _ _ E) as (t & ->). rewrite <- Hx. apply firstn_app_exact. }
      assert (Hy' : firstn (S n) y' = x). { destruct (exec_app1 P Se _ _ _ _ _ E') as (t & ->). rewrite <- Hx. apply firstn_app_exact. }
      assert (Ly : n < length y) by (rewrite <- Hy, firstn_length in Hx; lia).
      assert (Ly' : n < length y') by (rewrite <- Hy', firstn_length in Hx; lia).
      assert (Hl : length (firstn n y) = n) by (rewrite firstn_length; lia).
      rewrite firstn_snoc in Hy by lia. rewrite firstn_snoc in Hy' by lia.
      assert (Hnn : firstn n y = firstn n y' /\ nth n y 0%Z = nth n y' 0%Z).
      { rewrite <- Hy' in Hy. apply app_inj_tail in Hy. exact Hy. }
      destruct Hnn as [Hf Hv].
      apply lex_inv with (a := nth n y 0%Z).
      apply (Hr (firstn n y) _ b y _ b' y'); auto.
      * apply exec1_node. split; [exact Hin|]. right. exists p. rewrite Hl, Hy. auto.
      * apply exec1_node. split; [exact Hin'|]. right. exists p'. rewrite Hl. rewrite Hf, Hy', Hv. auto.
Qed.
Lemma resp_okl ls n A : Forall (scannable n) ls -> Forall (each_loop (fun l => l_blk P l = None -> cv (l_dom P l) = true)) ls -> resp n A ls -> okl n A ls.
Proof. apply resp_okl_aux. intros l _. apply resp1_ok1. Qed.
End Converse.
End Bridge.
