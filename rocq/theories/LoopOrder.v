(** Well formed and well ordered loop structures, and what they mean for execution. *)
From Coq Require Import ZArith List Bool Arith Lia Permutation.
From Verif Require Import SortModel LoopModel LoopSpec LoopLists LoopCount LoopKeys.
Import ListNotations.
Local Arguments Nat.ltb : simpl never.
Local Arguments Nat.leb : simpl never.
Local Arguments Nat.eqb : simpl never.

Section Order.
Variable P : Poly.
Variable S : Sem P.
Notation dom := (dom P).
Notation loop := (loop P).
Notation dim := (dim P).
Notation mem := (mem S).
Notation Loop := (@Loop P).
Notation cnt := (cnt P S).
Notation cnts := (cnts P S).
Notation inn := (inn P S).

(** Is the order tracked?  [O := False] gives the statement about instances only. *)
Variable O : Prop.
Variable R : block -> list Z -> block -> list Z -> Prop.
Variable cv : dom -> bool.

Definition pset := list Z -> Prop.
Definition andp (A : pset) (d : dom) (st : option (stride P)) : pset := fun x => A x /\ inn d st x = true.

(** every instance of [l] may run before every instance of [l'] *)
Definition pairok (n : nat) (A : pset) (l l' : loop) : Prop :=
  O -> forall b x b' x', 0 < cnt l b x -> 0 < cnt l' b' x' -> A x -> A x' -> agree n x x' -> ~ R b' x' b x.
(** instances can be run in the order of iterator [n] *)
Definition valok (n : nat) (A : pset) (ls : list loop) : Prop :=
  O -> forall b x b' x', 0 < cnts ls b x -> 0 < cnts ls b' x' -> A x -> A x' -> agree n x x' ->
  (nth n x 0 < nth n x' 0)%Z -> ~ R b' x' b x.
(** no order at all between instances *)
Definition flat (n : nat) (A : pset) (ls : list loop) : Prop :=
  O -> forall b x b' x', 0 < cnts ls b x -> 0 < cnts ls b' x' -> A x -> A x' -> agree n x x' -> ~ R b' x' b x.

Definition allP : list Prop -> Prop := fold_right and True.
Fixpoint ok1 (l : loop) (n : nat) (A : pset) : Prop :=
  match l with
  | LoopModel.Loop _ d _ st blk inner =>
    match blk with
    | Some _ => dim d = n /\ st = None /\ inner = []
    | None =>
      (cv d = true \/ (st = None /\ flat n (andp A d st) inner)) /\
      ((dim d = n /\ allP (map (fun l => ok1 l n (andp A d st)) inner) /\
        ForallOrdPairs (pairok n (andp A d st)) inner) \/
       (dim d = Datatypes.S n /\ valok n (andp A d st) inner /\
        allP (map (fun l => ok1 l (Datatypes.S n) (andp A d st)) inner) /\
        ForallOrdPairs (pairok (Datatypes.S n) (andp A d st)) inner))
    end
  end.
Definition okl (n : nat) (A : pset) (ls : list loop) : Prop :=
  Forall (fun l => ok1 l n A) ls /\ ForallOrdPairs (pairok n A) ls.

Lemma allP_map {T} (f : T -> Prop) l : allP (map f l) <-> Forall f l.
Proof.
  induction l as [|a l IH]; cbn; [split; [constructor|auto]|]. rewrite IH. split; [intros []; constructor; auto|inversion 1; auto].
Qed.

Lemma ok1_node d o st inner n A :
  ok1 (Loop d o st None inner) n A <->
  (cv d = true \/ (st = None /\ flat n (andp A d st) inner)) /\
  ((dim d = n /\ okl n (andp A d st) inner) \/
   (dim d = Datatypes.S n /\ valok n (andp A d st) inner /\ okl (Datatypes.S n) (andp A d st) inner)).
Proof. cbn [ok1]. rewrite !allP_map. unfold okl. tauto. Qed.

Lemma agree_S n x x' : agree (Datatypes.S n) x x' -> agree n x x'.
Proof. apply agree_le. lia. Qed.

(** restricting the set of considered points (of executed instances) *)
Lemma pairok_mono n (A A' : pset) l l' :
  (forall b x, 0 < cnt l b x -> A' x -> A x) -> (forall b x, 0 < cnt l' b x -> A' x -> A x) ->
  pairok n A l l' -> pairok n A' l l'.
Proof. unfold pairok. intros H1 H2 H HO b x b' x' E1 E2 E3 E4. apply (H HO b x b' x'); eauto. Qed.
Lemma valok_mono n (A A' : pset) ls : (forall b x, 0 < cnts ls b x -> A' x -> A x) -> valok n A ls -> valok n A' ls.
Proof. unfold valok. intros H1 H HO b x b' x' E1 E2 E3 E4. apply (H HO b x b' x'); eauto. Qed.
Lemma flat_mono n (A A' : pset) ls : (forall b x, 0 < cnts ls b x -> A' x -> A x) -> flat n A ls -> flat n A' ls.
Proof. unfold flat. intros H1 H HO b x b' x' E1 E2 E3 E4. apply (H HO b x b' x'); eauto. Qed.

Lemma Forall_FOP_mono {T} (R1 R2 : T -> T -> Prop) l :
  (forall a b, In a l -> In b l -> R1 a b -> R2 a b) -> ForallOrdPairs R1 l -> ForallOrdPairs R2 l.
Proof. apply FOP_impl. Qed.

Lemma ok1_mono l : forall n (A A' : pset), (forall b x, 0 < cnt l b x -> A' x -> A x) -> ok1 l n A -> ok1 l n A'.
Proof.
  induction l as [d o st blk inner IH] using loop_ind'. intros n A A' HA. destruct blk as [b|]; [exact (fun H => H)|].
  rewrite !ok1_node.
  assert (Hc : forall b x, 0 < cnts inner b x -> andp A' d st x -> andp A d st x).
  { intros b x Hx [H1 H2]. split; [|exact H2]. apply (HA b x); [|exact H1]. rewrite cnt_node, H2. cbn. lia. }
  assert (Hi : forall l, In l inner -> forall b x, 0 < cnt l b x -> andp A' d st x -> andp A d st x).
  { intros l Hl b x Hx. apply (Hc b x). apply cnts_pos. eauto. }
  assert (Hok : forall n, okl n (andp A d st) inner -> okl n (andp A' d st) inner).
  { intros m [H1 H2]. split.
    - rewrite Forall_forall in *. intros l Hl. apply (IH l Hl m (andp A d st)); [apply Hi; exact Hl|auto].
    - eapply FOP_impl; [|exact H2]. intros a b Ha Hb. apply pairok_mono; apply Hi; assumption. }
  intros [H1 H2]. split.
  - destruct H1 as [H1|[H1 H1']]; [left; exact H1|right; split; [exact H1|]]. eapply flat_mono; eauto.
  - destruct H2 as [[H2 H3]|(H2 & H3 & H4)]; [left; auto|right]. split; [exact H2|]. split; [|auto]. eapply valok_mono; eauto.
Qed.
Lemma okl_mono n (A A' : pset) ls : (forall b x, 0 < cnts ls b x -> A' x -> A x) -> okl n A ls -> okl n A' ls.
Proof.
  intros HA [H1 H2].
  assert (Hi : forall l, In l ls -> forall b x, 0 < cnt l b x -> A' x -> A x).
  { intros l Hl b x Hx. apply (HA b x). apply cnts_pos. eauto. }
  split.
  - rewrite Forall_forall in *. intros l Hl. eapply ok1_mono; [apply Hi; exact Hl|auto].
  - eapply FOP_impl; [|exact H2]. intros a b Ha Hb. apply pairok_mono; apply Hi; assumption.
Qed.
Lemma okl_subl n A l1 l2 : Subl l1 l2 -> okl n A l2 -> okl n A l1.
Proof. intros H [H1 H2]. split; [eapply Subl_forall; eauto|eapply FOP_subl; eauto]. Qed.
Lemma okl_nil n A : okl n A [].
Proof. split; constructor. Qed.
Lemma okl_app n A l1 l2 : okl n A l1 -> okl n A l2 ->
  (O -> forall b x b' x', 0 < cnts l1 b x -> 0 < cnts l2 b' x' -> A x -> A x' -> agree n x x' -> ~ R b' x' b x) ->
  okl n A (l1 ++ l2).
Proof.
  intros [H1 H2] [H3 H4] H. split; [apply Forall_app; auto|]. apply FOP_app. split; [exact H2|]. split; [exact H4|].
  intros a b Ha Hb HO b1 x1 b2 x2 E1 E2. apply (H HO); apply cnts_pos; eauto.
Qed.

(** only the instances matter for pairs *)
Lemma pairok_cnt n A l l' m m' : (forall b x, cnt m b x <= cnt l b x) -> (forall b x, cnt m' b x <= cnt l' b x) ->
  pairok n A l l' -> pairok n A m m'.
Proof.
  intros H1 H2 H HO b x b' x' E1 E2. apply (H HO b x b' x'); [specialize (H1 b x); lia|specialize (H2 b' x'); lia].
Qed.
Lemma pairok_le n m A l l' : n <= m -> pairok n A l l' -> pairok m A l l'.
Proof. intros Hle H HO b x b' x' E1 E2 E3 E4 E5. apply (H HO b x b' x'); auto. eapply agree_le; eauto. Qed.

Lemma NoDup_app_intro {T} (l1 l2 : list T) : NoDup l1 -> NoDup l2 -> (forall x, In x l1 -> In x l2 -> False) -> NoDup (l1 ++ l2).
Proof.
  induction l1 as [|a l1 IH]; intros H1 H2 H; [exact H2|]. inversion H1; subst. cbn. constructor.
  - rewrite in_app_iff. intros [Hi|Hi]; [auto|]. apply (H a); [left; reflexivity|exact Hi].
  - apply IH; auto. intros x Hx. apply H. right; exact Hx.
Qed.

(** ** meaning for execution *)
Hypothesis L : Laws P S.

Lemma exec_app1 : forall ls x path b y, Exec P S ls x path b y -> exists t, y = x ++ t.
Proof.
  fix IH 6. intros ls x path b y H. destruct H as [ls i l x path b y Hn H1].
  destruct H1 as [l x b Hb Hd He|l x path b y Hb Hd He H|l x v path b y Hb Hd He H].
  - exists []. rewrite app_nil_r. reflexivity.
  - exact (IH _ _ _ _ _ H).
  - destruct (IH _ _ _ _ _ H) as (t & ->). exists (v :: t). rewrite <- app_assoc. reflexivity.
Qed.

Lemma firstn_app_exact {T} (x t : list T) : firstn (length x) (x ++ t) = x.
Proof. rewrite firstn_app, Nat.sub_diag, firstn_all, firstn_O, app_nil_r. reflexivity. Qed.

Lemma enters_inn l x : dim (l_dom P l) = length x -> enters P S l x <-> inn (l_dom P l) (l_st P l) x = true.
Proof.
  intros H. unfold enters, LoopSpec.inn. rewrite H, firstn_all. rewrite andb_true_iff. reflexivity.
Qed.
Lemma inn_prefix d st x t : dim d = length x -> inn d st (x ++ t) = inn d st x.
Proof. intros H. unfold LoopSpec.inn. rewrite H, firstn_app_exact, firstn_all. reflexivity. Qed.

Lemma exec1_leaf d o st b0 inner x p b y : Exec1 P S (Loop d o st (Some b0) inner) x p b y <->
  p = [] /\ b = b0 /\ y = x /\ dim d = length x /\ inn d st x = true.
Proof.
  split.
  - intros H. inversion H as [l x0 b1 Hb Hd He| |]; subst; cbn in *; try discriminate. injection Hb as ->.
    do 4 (split; [auto|]). apply (enters_inn (Loop d o st (Some b) inner) y Hd). exact He.
  - intros (-> & -> & -> & Hd & Hi). apply Exec_block; [reflexivity|exact Hd|]. apply enters_inn; assumption.
Qed.
Lemma exec_nth ls x v p b y : Exec P S ls (x ++ [v]) p b y -> nth (length x) y 0%Z = v.
Proof.
  intros H. destruct (exec_app1 _ _ _ _ _ H) as (t & ->). rewrite <- app_assoc, app_nth2 by lia.
  rewrite Nat.sub_diag. reflexivity.
Qed.
Lemma exec1_node d o st inner x p b y : Exec1 P S (Loop d o st None inner) x p b y <->
  inn d st y = true /\
  ((dim d = length x /\ Exec P S inner x p b y) \/
   (exists p', dim d = 1 + length x /\ p = nth (length x) y 0%Z :: p' /\ Exec P S inner (x ++ [nth (length x) y 0%Z]) p' b y)).
Proof.
  split.
  - intros H. inversion H as [|l x0 p0 b1 y0 Hb Hd He Hx|l x0 v p0 b1 y0 Hb Hd He Hx]; subst; cbn in *; try discriminate.
    + destruct (exec_app1 _ _ _ _ _ Hx) as (t & Et). split; [|left; auto].
      rewrite Et, inn_prefix by exact Hd. apply (enters_inn (Loop d o st None inner) x Hd). exact He.
    + pose proof (exec_nth _ _ _ _ _ _ Hx) as Ev. destruct (exec_app1 _ _ _ _ _ Hx) as (t & Et).
      assert (Hd' : dim d = length (x ++ [v])) by (rewrite app_length; cbn; lia). split.
      * rewrite Et, inn_prefix by exact Hd'. apply (enters_inn (Loop d o st None inner) _ Hd'). exact He.
      * right. exists p0. rewrite Ev. auto.
  - intros [Hi [[Hd Hx]|(p' & Hd & -> & Hx)]].
    + destruct (exec_app1 _ _ _ _ _ Hx) as (t & Et). apply Exec_test; [reflexivity|exact Hd| |exact Hx].
      apply enters_inn; [exact Hd|]. rewrite Et, inn_prefix in Hi; assumption.
    + destruct (exec_app1 _ _ _ _ _ Hx) as (t & Et). set (v := nth (length x) y 0%Z) in *.
      assert (Hd' : dim d = length (x ++ [v])) by (rewrite app_length; cbn; lia).
      apply Exec_iter; [reflexivity|exact Hd| |exact Hx]. apply enters_inn; [exact Hd'|].
      rewrite Et, inn_prefix in Hi; [exact Hi|exact Hd'].
Qed.

Definition dec_paths (l : loop) := forall n A b y, ok1 l n A -> n <= length y ->
  exists ps, NoDup ps /\ length ps = cnt l b y /\ forall p, In p ps <-> Exec1 P S l (firstn n y) p b y.
Lemma list_paths ls : Forall dec_paths ls -> forall n A b y, Forall (fun l => ok1 l n A) ls -> n <= length y ->
  exists ps, NoDup ps /\ length ps = cnts ls b y /\
    forall p, In p ps <-> exists i l p', nth_error ls i = Some l /\ p = Z.of_nat i :: p' /\ Exec1 P S l (firstn n y) p' b y.
Proof.
  intros HF n A b y Ho Hn.
  assert (G : forall k, exists ps, NoDup ps /\ length ps = cnts ls b y /\
    forall p, In p ps <-> exists i l p', nth_error ls i = Some l /\ p = Z.of_nat (k + i) :: p' /\ Exec1 P S l (firstn n y) p' b y).
  { induction ls as [|l ls IH]; intros k.
    - exists []. split; [constructor|]. split; [reflexivity|]. intros p. split; [intros []|intros (i & l & p' & H & _)]. destruct i; discriminate.
    - inversion HF as [|? ? HF1 HF2]; subst. inversion Ho as [|? ? Ho1 Ho2]; subst.
      destruct (HF1 n A b y Ho1 Hn) as (ps1 & N1 & L1 & I1). destruct (IH HF2 Ho2 (1 + k)) as (ps2 & N2 & L2 & I2).
      exists (map (cons (Z.of_nat k)) ps1 ++ ps2). split; [|split].
      + apply NoDup_app_intro.
        * apply FinFun.Injective_map_NoDup; [|exact N1]. intros a c E. injection E as E. exact E.
        * exact N2.
        * intros p Hp1 Hp2. apply in_map_iff in Hp1 as (p1 & <- & _). apply I2 in Hp2 as (i & l' & p' & _ & E & _). injection E as E _. lia.
      + rewrite app_length, map_length, cnts_cons. lia.
      + intros p. rewrite in_app_iff, in_map_iff, I2. split.
        * intros [(p1 & <- & Hp)|(i & l' & p' & E1 & E2 & E3)].
          -- exists 0, l, p1. rewrite Nat.add_0_r. split; [reflexivity|]. split; [reflexivity|]. apply I1; exact Hp.
          -- exists (Datatypes.S i), l', p'. split; [exact E1|]. split; [rewrite E2; do 2 f_equal; lia|exact E3].
        * intros (i & l' & p' & E1 & E2 & E3). destruct i as [|i].
          -- injection E1 as <-. left. exists p'. rewrite Nat.add_0_r in E2. split; [auto|]. apply I1; exact E3.
          -- right. exists i, l', p'. split; [exact E1|]. split; [rewrite E2; do 2 f_equal; lia|exact E3]. }
  destruct (G 0) as (ps & H1 & H2 & H3). exists ps. auto.
Qed.

Lemma exec_iff ls x p b y : Exec P S ls x p b y <-> exists i l p', nth_error ls i = Some l /\ p = Z.of_nat i :: p' /\ Exec1 P S l x p' b y.
Proof.
  split.
  - intros H. inversion H; subst. eauto 8.
  - intros (i & l & p' & H & -> & He). econstructor; eauto.
Qed.

Lemma firstn_snoc (y : list Z) n : n < length y -> firstn (Datatypes.S n) y = firstn n y ++ [nth n y 0%Z].
Proof.
  revert y. induction n; intros [|a y] H; cbn in *; try lia; [reflexivity|]. f_equal. apply IHn. lia.
Qed.

Lemma all_paths l : dec_paths l.
Proof.
  induction l as [d o st blk inner IH] using loop_ind'. intros n A b y Ho Hn.
  assert (Hf : length (firstn n y) = n) by (rewrite firstn_length; lia).
  destruct blk as [b'|].
  - destruct Ho as (Hd & -> & ->). cbn [LoopSpec.cnt].
    assert (Hiff : forall p, Exec1 P S (Loop d o None (Some b') []) (firstn n y) p b y <->
       p = [] /\ b' = b /\ length y = dim d /\ inn d None y = true).
    { intros p. rewrite exec1_leaf, Hf, Hd. split.
      - intros (-> & -> & E & _ & Hi). rewrite <- E in Hi. repeat split; auto. rewrite E. exact Hf.
      - intros (-> & -> & El & Hi). assert (Ey : firstn n y = y) by (rewrite <- El; apply firstn_all). rewrite Ey. auto. }
    destruct (inn d None y) eqn:Ei.
    + destruct (block_eq_dec b' b) as [Eb|Eb]; [destruct (Nat.eqb_spec (length y) (dim d)) as [El|El]|].
      * exists [[]]. split; [repeat constructor; intros []|]. split; [reflexivity|]. intros p. rewrite Hiff. cbn. intuition congruence.
      * exists []. split; [constructor|]. split; [reflexivity|]. intros p. rewrite Hiff. cbn. intuition congruence.
      * exists []. split; [constructor|]. split; [reflexivity|]. intros p. rewrite Hiff. cbn. intuition congruence.
    + exists []. split; [constructor|]. split; [reflexivity|]. intros p. rewrite Hiff. cbn. intuition congruence.
  - rewrite cnt_node. destruct (inn d st y) eqn:Ei.
    2: { exists []. split; [constructor|]. split; [reflexivity|]. intros p. rewrite exec1_node. rewrite Ei. cbn. intuition discriminate. }
    apply ok1_node in Ho as [_ [[Hd [Ho _]]|(Hd & _ & [Ho _])]].
    + destruct (list_paths inner IH n _ b y Ho Hn) as (ps & N & Ln & I).
      exists ps. split; [exact N|]. split; [cbn; lia|]. intros p. rewrite I, <- exec_iff, exec1_node, Hf. split; [auto|].
      intros [_ [[_ H]|(p' & H & _)]]; [exact H|lia].
    + assert (Hl : n < length y).
      { pose proof (inn_mem _ _ _ _ _ Ei) as E. apply (L_len _ _ L) in E. rewrite firstn_length in E. lia. }
      destruct (list_paths inner IH (Datatypes.S n) _ b y Ho Hl) as (ps & N & Ln & I).
      rewrite (firstn_snoc y n Hl) in I.
      exists (map (cons (nth n y 0%Z)) ps). split.
      { apply FinFun.Injective_map_NoDup; [|exact N]. intros a c E. injection E as E. exact E. }
      split; [rewrite map_length; cbn; lia|]. intros p. rewrite in_map_iff, exec1_node, Hf. split.
      * intros (p' & <- & Hp). apply I in Hp. rewrite <- exec_iff in Hp. split; [exact Ei|]. right. exists p'. auto.
      * intros [_ [[H _]|(p' & _ & -> & H)]]; [lia|]. exists p'. split; [reflexivity|]. apply I, exec_iff. exact H.
Qed.

Theorem exec_count ls b y : Forall (fun l => exists A, ok1 l 0 A) ls ->
  exists ps, NoDup ps /\ length ps = cnts ls b y /\ forall p, In p ps <-> Exec P S ls [] p b y.
Proof.
  intros H.
  destruct (list_paths ls) with (n := 0) (A := fun _ : list Z => False) (b := b) (y := y) as (ps & N & Ln & I).
  - rewrite Forall_forall. intros l _. apply all_paths.
  - eapply Forall_impl; [|exact H]. cbn. intros l (A & HA). eapply ok1_mono; [|exact HA]. cbn. tauto.
  - lia.
  - exists ps. split; [exact N|]. split; [exact Ln|]. intros p. rewrite I, exec_iff. reflexivity.
Qed.

Lemma exec_cnt_pos ls n A x p b y : Forall (fun l => ok1 l n A) ls -> length x = n -> Exec P S ls x p b y ->
  exists t, y = x ++ t /\ exists i l p', nth_error ls i = Some l /\ p = Z.of_nat i :: p' /\ Exec1 P S l x p' b y /\ 0 < cnt l b y.
Proof.
  intros HF Hx H. destruct (exec_app1 _ _ _ _ _ H) as (t & Et). exists t. split; [exact Et|].
  apply exec_iff in H as (i & l & p' & Hi & -> & He). exists i, l, p'. split; [exact Hi|]. split; [reflexivity|]. split; [exact He|].
  rewrite Forall_forall in HF. pose proof (HF l (nth_error_In _ _ Hi)) as Hl.
  destruct (all_paths l n A b y Hl) as (ps & _ & Hlen & HI); [rewrite Et, app_length; lia|].
  rewrite <- Hlen. assert (Hp : In p' ps). { apply HI. rewrite Et, <- Hx, firstn_app_exact, <- Et. exact He. }
  destruct ps; [destruct Hp|cbn; lia].
Qed.

(** order of execution *)
Hypothesis HO : O.
Hypothesis Rirr : forall b x, ~ R b x b x.

Lemma exec_order_aux ls : (forall l, In l ls -> forall n A x p b y p' b' y', ok1 l n A -> length x = n -> A y -> A y' ->
    Exec1 P S l x p b y -> Exec1 P S l x p' b' y' -> R b y b' y' -> lex_lt p p') ->
  forall n A x p b y p' b' y', okl n A ls -> length x = n -> A y -> A y' ->
  Exec P S ls x p b y -> Exec P S ls x p' b' y' -> R b y b' y' -> lex_lt p p'.
Proof.
  intros IH n A x p b y p' b' y' [H1 H2] Hx HA HA' He He' HR.
  destruct (exec_cnt_pos _ _ _ _ _ _ _ H1 Hx He) as (t & Et & i & l & q & Hi & -> & He1 & Hc).
  destruct (exec_cnt_pos _ _ _ _ _ _ _ H1 Hx He') as (t' & Et' & i' & l' & q' & Hi' & -> & He1' & Hc').
  destruct (Nat.lt_trichotomy i i') as [Hlt|[<-|Hgt]].
  - apply lex_here. lia.
  - rewrite Hi in Hi'. injection Hi' as <-. apply lex_next. rewrite Forall_forall in H1.
    apply (IH l (nth_error_In _ _ Hi) n A x q b y q' b' y'); auto. apply H1, (nth_error_In _ _ Hi).
  - exfalso. pose proof (proj1 (FOP_nth _ _) H2 i' i l' l Hgt Hi' Hi) as Hp.
    apply (Hp HO b' y' b y Hc' Hc HA' HA); [|exact HR]. unfold agree. rewrite Et, Et', <- Hx, !firstn_app_exact. reflexivity.
Qed.

Lemma exec1_order l : forall n A x p b y p' b' y', ok1 l n A -> length x = n -> A y -> A y' ->
  Exec1 P S l x p b y -> Exec1 P S l x p' b' y' -> R b y b' y' -> lex_lt p p'.
Proof.
  induction l as [d o st blk inner IH] using loop_ind'. intros n A x p b y p' b' y' Ho Hx HA HA' H H' HR.
  rewrite Forall_forall in IH.
  destruct blk as [b0|].
  - apply exec1_leaf in H as (-> & -> & -> & _). apply exec1_leaf in H' as (-> & -> & -> & _).
    exfalso. exact (Rirr _ _ HR).
  - apply ok1_node in Ho as [_ Ho]. apply exec1_node in H as [Hi H]. apply exec1_node in H' as [Hi' H'].
    destruct Ho as [[Hd Ho]|(Hd & Hv & Ho)].
    + destruct H as [[_ H]|(q & E & _)]; [|lia]. destruct H' as [[_ H']|(q' & E & _)]; [|lia].
      apply (exec_order_aux inner IH n (andp A d st) x p b y p' b' y'); auto; split; assumption.
    + destruct H as [[E _]|(q & _ & -> & H)]; [lia|]. destruct H' as [[E _]|(q' & _ & -> & H')]; [lia|].
      rewrite Hx in *.
      assert (Hl : forall v, length (x ++ [v]) = Datatypes.S n) by (intros; rewrite app_length; cbn; lia).
      destruct (Z.lt_trichotomy (nth n y 0%Z) (nth n y' 0%Z)) as [Hlt|[He|Hgt]].
      * apply lex_here. exact Hlt.
      * rewrite He in *. apply lex_next.
        apply (exec_order_aux inner IH (Datatypes.S n) (andp A d st) (x ++ [nth n y' 0%Z]) q b y q' b' y'); auto; split; assumption.
      * exfalso.
        destruct (exec_cnt_pos _ _ _ _ _ _ _ (proj1 Ho) (Hl _) H) as (t & Et & i & l & q1 & Hn & _ & _ & Hc).
        destruct (exec_cnt_pos _ _ _ _ _ _ _ (proj1 Ho) (Hl _) H') as (t' & Et' & i' & l' & q1' & Hn' & _ & _ & Hc').
        apply (Hv HO b' y' b y); [| | split; assumption | split; assumption | | lia | exact HR].
        -- apply cnts_pos. exists l'. split; [eapply nth_error_In; eauto|exact Hc'].
        -- apply cnts_pos. exists l. split; [eapply nth_error_In; eauto|exact Hc].
        -- unfold agree. rewrite Et, Et', <- Hx, <- !app_assoc, !firstn_app_exact. reflexivity.
Qed.

Theorem exec_order ls p b y p' b' y' : okl 0 (fun _ => True) ls ->
  Exec P S ls [] p b y -> Exec P S ls [] p' b' y' -> R b y b' y' -> lex_lt p p'.
Proof.
  intros H. apply exec_order_aux with (n := 0) (A := fun _ => True); auto.
  intros l _. apply exec1_order.
Qed.
End Order.
