From Coq Require Import ZArith List Bool Arith Lia Relations Permutation Sorted.
From Verif Require Import SortModel.
Import ListNotations.
Local Arguments Nat.ltb : simpl never.

Lemma NoDup_app_r {A} (l1 l2 : list A) : NoDup (l1 ++ l2) -> NoDup l2.
Proof. induction l1 as [|a l1 IH]; cbn; intros H; [exact H|]. inversion H; auto. Qed.
Lemma NoDup_app_disj {A} (l1 l2 : list A) x : NoDup (l1 ++ l2) -> In x l1 -> ~ In x l2.
Proof.
  induction l1 as [|a l1 IH]; cbn; intros H Hx H2; [destruct Hx|].
  inversion H as [|? ? H3 H4]; subst. destruct Hx as [->|Hx]; [apply H3; apply in_or_app; right; exact H2|].
  exact (IH H4 Hx H2).
Qed.

Section Tarjan.
Variable n : nat.
Variable e : nat -> nat -> bool.

(** edges of the graph on nodes [0..n-1] *)
Definition edge (x y : nat) : Prop := x < n /\ y < n /\ x <> y /\ e x y = true.
Definition reach := clos_refl_trans nat edge.

Lemma reach_refl x : reach x x. Proof. apply rt_refl. Qed.
Lemma reach_step x y : edge x y -> reach x y. Proof. apply rt_step. Qed.
Lemma reach_trans x y z : reach x y -> reach y z -> reach x z. Proof. apply rt_trans. Qed.

(** index of visited nodes *)
Definition idx (s : tstate) (x : nat) : nat := match t_index s x with Some d => d | None => 0 end.
Definition visited (s : tstate) x := t_index s x <> None.
Definition done (s : tstate) x := In x (concat (t_order s)).

Lemma visited_dec s x : {visited s x} + {~ visited s x}.
Proof. unfold visited. destruct (t_index s x); [left; discriminate|right; intros H; apply H; reflexivity]. Qed.

(** A list of nodes with strictly decreasing indices *)
Fixpoint idx_desc (s : tstate) (l : list nat) : Prop :=
  match l with
  | [] => True
  | x :: r => (forall y, In y r -> idx s y < idx s x) /\ idx_desc s r
  end.

(** components emitted so far: closed in order *)
Fixpoint closed_order (l : list (list nat)) (before : list nat) : Prop :=
  match l with
  | [] => True
  | c :: r => (forall x y, In x c -> edge x y -> In y c \/ In y before) /\ closed_order r (before ++ c)
  end.

Definition strong (c : list nat) := forall x y, In x c -> In y c -> reach x y.

Record W (gray : list nat) (s : tstate) : Prop := {
  w_on : forall x, t_on s x = true <-> In x (t_stack s);
  w_desc : idx_desc s (t_stack s);
  w_vis : forall x, visited s x <-> (In x (t_stack s) \/ done s x);
  w_rng : forall x, visited s x -> x < n;
  w_cnt : forall x, visited s x -> idx s x < t_cnt s;
  w_nd : NoDup (t_stack s ++ concat (t_order s));
  w_closed : closed_order (t_order s) [];
  w_strong : forall c, In c (t_order s) -> strong c;
  w_ne : forall c, In c (t_order s) -> c <> [];
  w_succ : forall x y, visited s x -> ~ In x gray -> edge x y -> visited s y;
  w_gray : forall x, In x gray -> In x (t_stack s);
  w_down : forall x y, In x gray -> In y (t_stack s) -> idx s x <= idx s y -> reach x y;
  w_up : forall x, In x (t_stack s) -> exists y, In y gray /\ idx s y <= idx s x /\ reach x y
}.

Lemma closed_order_app l b c :
  closed_order (l ++ [c]) b <-> closed_order l b /\ (forall x y, In x c -> edge x y -> In y c \/ In y (b ++ concat l)).
Proof.
  revert b; induction l as [|d l IH]; intros b; cbn.
  - rewrite app_nil_r. tauto.
  - rewrite IH. rewrite <- app_assoc. tauto.
Qed.

Lemma closed_order_succ l b : closed_order l b ->
  forall x y, In x (concat l) -> edge x y -> In y (b ++ concat l).
Proof.
  revert b; induction l as [|c l IH]; intros b H x y Hx He; cbn in *; [destruct Hx|].
  destruct H as [H1 H2]. apply in_app_or in Hx as [Hx|Hx].
  - destruct (H1 x y Hx He) as [Hy|Hy]; apply in_or_app; [right; apply in_or_app; left; exact Hy|left; exact Hy].
  - specialize (IH _ H2 x y Hx He). rewrite <- app_assoc in IH. exact IH.
Qed.

Lemma done_succ g s x y : W g s -> done s x -> edge x y -> done s y.
Proof. intros HW Hx He. exact (closed_order_succ _ [] (w_closed _ _ HW) x y Hx He). Qed.

Lemma idx_desc_ext s s' l : (forall x, In x l -> idx s' x = idx s x) -> idx_desc s l -> idx_desc s' l.
Proof.
  induction l as [|a l IH]; intros He H; cbn in *; [auto|]. destruct H as [H1 H2]. split.
  - intros y Hy. rewrite !He by auto. apply H1; exact Hy.
  - apply IH; auto.
Qed.

Lemma idx_desc_mid s l1 x l2 : idx_desc s (l1 ++ x :: l2) ->
  (forall y, In y l1 -> idx s x < idx s y) /\ (forall y, In y l2 -> idx s y < idx s x).
Proof.
  induction l1 as [|a l1 IH]; cbn; intros H.
  - split; [intros y []|apply H].
  - destruct H as [H1 H2]. destruct (IH H2) as [H3 H4]. split; [|exact H4].
    intros y [<-|Hy]; [|apply H3; exact Hy]. apply H1. apply in_or_app. right; left; reflexivity.
Qed.

Lemma idx_desc_app_lt s l1 l2 : idx_desc s (l1 ++ l2) -> forall x y, In x l1 -> In y l2 -> idx s y < idx s x.
Proof.
  induction l1 as [|a l1 IH]; cbn; intros H x y Hx Hy; [destruct Hx|].
  destruct H as [H1 H2]. destruct Hx as [<-|Hx]; [apply H1; apply in_or_app; right; exact Hy|].
  apply IH; auto.
Qed.

(** how a call changes the state, as seen by the caller *)
Record grows (s s' : tstate) (new : list nat) : Prop := {
  g_stack : t_stack s' = new ++ t_stack s;
  g_idx : forall x, visited s x -> t_index s' x = t_index s x;
  g_low : forall x, visited s x -> t_low s' x = t_low s x;
  g_done : forall x, done s x -> done s' x;
  g_new : forall x, In x new -> ~ visited s x
}.

Lemma grows_idx s s' new x : grows s s' new -> visited s x -> idx s' x = idx s x.
Proof. intros G Hx. unfold idx. rewrite (g_idx _ _ _ G x Hx). reflexivity. Qed.
Lemma grows_visited s s' new x : grows s s' new -> visited s x -> visited s' x.
Proof. intros G Hx. unfold visited. rewrite (g_idx _ _ _ G x Hx). exact Hx. Qed.

(** Postcondition of a call on node i *)
Record post (gray : list nat) (s : tstate) (i : nat) (s' : tstate) (new : list nat) : Prop := {
  p_W : W gray s';
  p_g : grows s s' new;
  p_vis : visited s' i;
  p_fresh : t_cnt s <= idx s' i;
  p_low : t_low s' i <= idx s' i;
  p_emit : new = [] -> t_low s' i = idx s' i;
  p_wit : new <> [] -> In i new /\ exists y, In y (t_stack s) /\ idx s' y = t_low s' i /\ reach i y;
  p_x : forall x y, In x new -> In y (t_stack s) -> edge x y -> t_low s' i <= idx s' y
}.

(** *** pushing *)
Lemma fupd_same {A} (f : nat -> A) i v : fupd f i v i = v.
Proof. unfold fupd. rewrite Nat.eqb_refl. reflexivity. Qed.
Lemma fupd_other {A} (f : nat -> A) i v x : x <> i -> fupd f i v x = f x.
Proof. intros H. unfold fupd. destruct (Nat.eqb_spec x i); [contradiction|reflexivity]. Qed.

Lemma visit_visited s i x : visited (tvisit s i) x <-> x = i \/ visited s x.
Proof.
  unfold visited. cbn. unfold fupd. destruct (Nat.eqb_spec x i) as [->|H].
  - split; [auto|discriminate].
  - split; [auto|]. intros [->|H1]; [contradiction|exact H1].
Qed.
Lemma visit_idx_same s i : idx (tvisit s i) i = t_cnt s.
Proof. unfold idx. cbn. rewrite fupd_same. reflexivity. Qed.
Lemma visit_idx_other s i x : x <> i -> idx (tvisit s i) x = idx s x.
Proof. intros H. unfold idx. cbn. rewrite fupd_other by exact H. reflexivity. Qed.

Lemma W_visit gray s i : W gray s -> i < n -> ~ visited s i ->
  (forall x, In x gray -> reach x i) -> W (i :: gray) (tvisit s i).
Proof.
  intros HW Hi Hnv Hacc.
  assert (Hst : ~ In i (t_stack s)). { intros H. apply Hnv. apply (w_vis _ _ HW). left; exact H. }
  assert (Hdn : ~ done s i). { intros H. apply Hnv. apply (w_vis _ _ HW). right; exact H. }
  constructor.
  - intros x. cbn. unfold fupd. destruct (Nat.eqb_spec x i) as [->|Hx].
    + split; auto.
    + rewrite (w_on _ _ HW). split; [auto|]. intros [->|H]; [contradiction|exact H].
  - cbn [t_stack tvisit idx_desc]. split.
    + intros y Hy. rewrite visit_idx_same. rewrite visit_idx_other by (intros ->; contradiction).
      apply (w_cnt _ _ HW). apply (w_vis _ _ HW). left; exact Hy.
    + eapply idx_desc_ext; [|exact (w_desc _ _ HW)]. intros x Hx. apply visit_idx_other. intros ->; contradiction.
  - intros x. rewrite visit_visited, (w_vis _ _ HW). unfold done. cbn. intuition.
  - intros x Hx. apply visit_visited in Hx as [->|Hx]; [exact Hi|]. apply (w_rng _ _ HW); exact Hx.
  - intros x Hx. cbn [t_cnt tvisit]. destruct (Nat.eq_dec x i) as [->|Hne].
    + rewrite visit_idx_same. lia.
    + rewrite visit_idx_other by exact Hne. apply visit_visited in Hx as [->|Hx]; [contradiction|].
      pose proof (w_cnt _ _ HW x Hx). lia.
  - cbn. constructor; [|exact (w_nd _ _ HW)]. intros H. apply in_app_or in H as [H|H]; contradiction.
  - exact (w_closed _ _ HW).
  - exact (w_strong _ _ HW).
  - exact (w_ne _ _ HW).
  - intros x y Hx Hg He. apply visit_visited in Hx as [->|Hx]; [exfalso; apply Hg; left; reflexivity|].
    apply visit_visited. right. apply (w_succ _ _ HW x y Hx); [|exact He]. intros H; apply Hg; right; exact H.
  - intros x [<-|Hx]; cbn; [auto|]. right. apply (w_gray _ _ HW); exact Hx.
  - intros x y [<-|Hx] Hy Hle.
    + destruct Hy as [<-|Hy]; [apply reach_refl|].
      exfalso. rewrite visit_idx_same in Hle. rewrite visit_idx_other in Hle by (intros ->; contradiction).
      assert (visited s y) by (apply (w_vis _ _ HW); left; exact Hy).
      pose proof (w_cnt _ _ HW y H). lia.
    + destruct Hy as [<-|Hy]; [apply Hacc; exact Hx|].
      assert (Hxs := w_gray _ _ HW x Hx).
      rewrite !visit_idx_other in Hle by (intros ->; contradiction).
      apply (w_down _ _ HW); auto.
  - intros x Hx. cbn in Hx. destruct Hx as [<-|Hx].
    + exists i. split; [left; reflexivity|]. split; [lia|apply reach_refl].
    + destruct (w_up _ _ HW x Hx) as (y & Hy & Hle & Hr). exists y. split; [right; exact Hy|].
      split; [|exact Hr]. assert (Hys := w_gray _ _ HW y Hy).
      rewrite !visit_idx_other by (intros ->; contradiction). exact Hle.
Qed.

(** setting low does not affect W *)
Lemma W_low g s i v : W g s -> W g (tset_low s i v).
Proof. 
  intros HW. destruct HW. constructor; try assumption.
  eapply idx_desc_ext; [|exact w_desc0]. reflexivity.
Qed.

(** *** the loop over successors *)

(** loop invariant: [s0] state at entry of the call on [i], [mid] nodes pushed above i,
    [seen] candidates already considered *)
Record L (gray : list nat) (s0 : tstate) (i : nat) (seen : list nat) (s : tstate) (mid : list nat) : Prop := {
  l_W : W (i :: gray) s;
  l_stack : t_stack s = mid ++ i :: t_stack s0;
  l_idx : forall x, visited s0 x -> t_index s x = t_index s0 x;
  l_lowk : forall x, visited s0 x -> t_low s x = t_low s0 x;
  l_done : forall x, done s0 x -> done s x;
  l_mid : forall x, In x mid -> ~ visited s0 x;
  l_idxi : t_index s i = Some (t_cnt s0);
  l_le : t_low s i <= idx s i;
  l_wit : exists y, In y (t_stack s) /\ idx s y = t_low s i /\ reach i y;
  l_x : forall x y, In x mid -> In y (t_stack s0) -> edge x y -> t_low s i <= idx s y;
  l_seen : forall j, In j seen -> edge i j -> visited s j /\ (In j (t_stack s0) -> t_low s i <= idx s j)
}.

Definition rec_ok (gray : list nat) (rec : tstate -> nat -> option tstate) (bound : nat) : Prop :=
  forall s j, W gray s -> j < n -> ~ visited s j ->
    (forall x, In x gray -> reach x j) ->
    (exists l, NoDup l /\ (forall x, In x l -> visited s x) /\ n <= bound + length l) ->
    exists s' new, rec s j = Some s' /\ post gray s j s' new.

Lemma L_step gray s0 i rec bound seen s mid j :
  W gray s0 -> i < n -> ~ visited s0 i ->
  (forall x, In x gray -> reach x i) ->
  rec_ok (i :: gray) rec bound ->
  (exists l, NoDup l /\ (forall x, In x l -> visited s x) /\ n <= bound + length l) ->
  j < n -> L gray s0 i seen s mid ->
  exists s' mid', tstep e rec i (Some s) j = Some s' /\ L gray s0 i (j :: seen) s' mid' /\
                  (forall x, visited s x -> visited s' x).
Proof.
  intros HW0 Hi Hnv Hacc Hrec Hbound Hj HL. cbn [tstep].
  destruct HL as [HW Hst Hidx Hlowk Hdone Hmid Hidxi Hle Hwit Hx Hseen].
  destruct (Nat.eqb_spec j i) as [->|Hji].
  { exists s, mid. split; [reflexivity|]. split; [|auto]. constructor; auto.
    intros k [<-|Hk] He; [destruct He as (_ & _ & Hne & _); contradiction|]. apply Hseen; auto. }
  assert (Hst0 : forall x, In x (t_stack s0) -> visited s0 x).
  { intros x H. apply (w_vis _ _ HW0). left; exact H. }
  destruct (t_index s j) as [dj|] eqn:Edj.
  - (* already visited *)
    assert (Hvj : visited s j) by (unfold visited; rewrite Edj; discriminate).
    assert (Hidj : idx s j = dj) by (unfold idx; rewrite Edj; reflexivity).
    destruct (negb (t_on s j) || (t_low s i <? dj)) eqn:Esk.
    + exists s, mid. split; [reflexivity|]. split; [|auto]. constructor; auto.
      intros k [<-|Hk] He; [|apply Hseen; auto]. split; [exact Hvj|]. intros Hin.
      apply orb_true_iff in Esk as [Eon|Elt].
      * exfalso. apply negb_true_iff in Eon.
        assert (t_on s j = true); [|congruence]. apply (w_on _ _ HW). rewrite Hst. apply in_or_app. right; right; exact Hin.
      * apply Nat.ltb_lt in Elt. lia.
    + apply orb_false_iff in Esk as [Eon Elt]. apply negb_false_iff in Eon. apply Nat.ltb_ge in Elt.
      destruct (e i j) eqn:Ee.
      * destruct (Nat.ltb_spec dj (t_low s i)) as [Hlt|Hge].
        -- exists (tset_low s i dj), mid. split; [reflexivity|]. split; [|auto].
           assert (Hni : forall x, visited s0 x -> x <> i) by (intros x Hv ->; contradiction).
           constructor; cbn [t_stack t_index t_low tset_low]; auto.
           ++ apply W_low; exact HW.
           ++ intros x Hv. rewrite fupd_other by (apply Hni; exact Hv). apply Hlowk; exact Hv.
           ++ rewrite fupd_same. change (idx (tset_low s i dj) i) with (idx s i). lia.
           ++ exists j. rewrite fupd_same. split; [apply (w_on _ _ HW); exact Eon|].
              split; [exact Hidj|]. apply reach_step. unfold edge. auto.
           ++ intros x y H1 H2 H3. rewrite fupd_same. change (idx (tset_low s i dj) y) with (idx s y).
              specialize (Hx x y H1 H2 H3). lia.
           ++ intros k [<-|Hk] He.
              ** split; [exact Hvj|]. intros _. rewrite fupd_same. change (idx (tset_low s i dj) j) with (idx s j). lia.
              ** destruct (Hseen k Hk He) as [H1 H2]. split; [exact H1|]. intros H3.
                 rewrite fupd_same. change (idx (tset_low s i dj) k) with (idx s k). specialize (H2 H3). lia.
        -- exists s, mid. split; [reflexivity|]. split; [|auto]. constructor; auto.
           intros k [<-|Hk] He; [|apply Hseen; auto]. split; [exact Hvj|]. intros _. lia.
      * exists s, mid. split; [reflexivity|]. split; [|auto]. constructor; auto.
        intros k [<-|Hk] He; [|apply Hseen; auto]. destruct He as (_ & _ & _ & He). congruence.
  - assert (Hnvj : ~ visited s j) by (unfold visited; rewrite Edj; auto).
    destruct (e i j) eqn:Ee.
    + assert (Heij : edge i j) by (unfold edge; auto).
      destruct (Hrec s j HW Hj Hnvj) as (s1 & new & Er & [PW PG Pvis Pfresh Plow Pemit Pwit Px]).
      { intros x [<-|Hxg]; [apply reach_step; exact Heij|]. eapply reach_trans; [apply Hacc; exact Hxg|apply reach_step; exact Heij]. }
      { exact Hbound. }
      rewrite Er.
      assert (Hvi : visited s i) by (unfold visited; rewrite Hidxi; discriminate).
      assert (Hvs : forall x, In x (t_stack s) -> visited s x) by (intros x H; apply (w_vis _ _ HW); left; exact H).
      assert (Hv0s : forall x, visited s0 x -> visited s x).
      { intros x H. unfold visited. rewrite (Hidx x H). exact H. }
      assert (Hlowi : t_low s1 i = t_low s i) by (apply (g_low _ _ _ PG); exact Hvi).
      assert (Hidxs : forall x, visited s x -> idx s1 x = idx s x) by (intros x H; eapply grows_idx; eauto).
      assert (Hvmono : forall x, visited s x -> visited s1 x) by (intros x H; eapply grows_visited; eauto).
      assert (Hst1 : t_stack s1 = (new ++ mid) ++ i :: t_stack s0).
      { rewrite (g_stack _ _ _ PG), Hst, app_assoc. reflexivity. }
      assert (Hold : forall y, In y (t_stack s0) -> In y (t_stack s)).
      { intros y Hy. rewrite Hst. apply in_or_app. right; right; exact Hy. }
      assert (Hni : forall x, visited s0 x -> x <> i) by (intros x Hv ->; contradiction).
      destruct (Nat.ltb_spec (t_low s1 j) (t_low s1 i)) as [Hlt|Hge].
      * (* new <> [] necessarily *)
        assert (Hne : new <> []).
        { intros ->. specialize (Pemit eq_refl). 
          assert (idx s i < t_cnt s) by (apply (w_cnt _ _ HW); exact Hvi). lia. }
        destruct (Pwit Hne) as (Hjn & y & Hy & Hyl & Hyr).
        exists (tset_low s1 i (t_low s1 j)), (new ++ mid). split; [reflexivity|]. split; [|exact Hvmono].
        constructor; cbn [t_stack t_index t_low tset_low]; auto.
        -- apply W_low; exact PW.
        -- intros x Hv. rewrite (g_idx _ _ _ PG x (Hv0s x Hv)). apply Hidx; exact Hv.
        -- intros x Hv. rewrite fupd_other by (apply Hni; exact Hv). rewrite (g_low _ _ _ PG x (Hv0s x Hv)). apply Hlowk; exact Hv.
        -- intros x Hd. change (done s1 x). apply (g_done _ _ _ PG). apply Hdone; exact Hd.
        -- intros x Hxn. apply in_app_or in Hxn as [Hxn|Hxn]; [|apply Hmid; exact Hxn].
           intros Hv. exact (g_new _ _ _ PG x Hxn (Hv0s x Hv)).
        -- rewrite (g_idx _ _ _ PG i Hvi). exact Hidxi.
        -- rewrite fupd_same. change (idx (tset_low s1 i (t_low s1 j)) i) with (idx s1 i). rewrite (Hidxs i Hvi). lia.
        -- exists y. rewrite fupd_same. change (idx (tset_low s1 i (t_low s1 j)) y) with (idx s1 y).
           split; [rewrite (g_stack _ _ _ PG); apply in_or_app; right; exact Hy|]. split; [exact Hyl|].
           eapply reach_trans; [apply reach_step; exact Heij|exact Hyr].
        -- intros x z Hxm Hz Hez. rewrite fupd_same. change (idx (tset_low s1 i (t_low s1 j)) z) with (idx s1 z).
           apply in_app_or in Hxm as [Hxm|Hxm].
           ++ apply (Px x z Hxm); auto.
           ++ rewrite (Hidxs z) by auto. specialize (Hx x z Hxm Hz Hez). lia.
        -- intros k [<-|Hk] He.
           ++ split; [exact Pvis|]. intros Hin. exfalso. apply Hnvj. apply Hvs, Hold, Hin.
           ++ destruct (Hseen k Hk He) as [H1 H2]. split; [apply Hvmono; exact H1|]. intros H3.
              rewrite fupd_same. change (idx (tset_low s1 i (t_low s1 j)) k) with (idx s1 k). rewrite (Hidxs k H1). specialize (H2 H3). lia.
      * exists s1, (new ++ mid). split; [reflexivity|]. split; [|exact Hvmono]. constructor; auto.
        -- intros x Hv. rewrite (g_idx _ _ _ PG x (Hv0s x Hv)). apply Hidx; exact Hv.
        -- intros x Hv. rewrite (g_low _ _ _ PG x (Hv0s x Hv)). apply Hlowk; exact Hv.
        -- intros x Hd. apply (g_done _ _ _ PG). apply Hdone; exact Hd.
        -- intros x Hxn. apply in_app_or in Hxn as [Hxn|Hxn]; [|apply Hmid; exact Hxn].
           intros Hv. exact (g_new _ _ _ PG x Hxn (Hv0s x Hv)).
        -- rewrite (g_idx _ _ _ PG i Hvi). exact Hidxi.
        -- rewrite Hlowi, (Hidxs i Hvi). exact Hle.
        -- destruct Hwit as (y & Hy & Hyl & Hyr). exists y. split; [rewrite (g_stack _ _ _ PG); apply in_or_app; right; exact Hy|].
           rewrite (Hidxs y) by auto. rewrite Hlowi. auto.
        -- intros x z Hxm Hz Hez. apply in_app_or in Hxm as [Hxm|Hxm].
           ++ specialize (Px x z Hxm (Hold z Hz) Hez). lia.
           ++ rewrite (Hidxs z) by auto. specialize (Hx x z Hxm Hz Hez). lia.
        -- intros k [<-|Hk] He.
           ++ split; [exact Pvis|]. intros Hin. exfalso. apply Hnvj. apply Hvs, Hold, Hin.
           ++ destruct (Hseen k Hk He) as [H1 H2]. split; [apply Hvmono; exact H1|]. intros H3.
              rewrite (Hidxs k H1). specialize (H2 H3). lia.
    + exists s, mid. split; [reflexivity|]. split; [|auto]. constructor; auto.
      intros k [<-|Hk] He; [|apply Hseen; auto]. destruct He as (_ & _ & _ & He). congruence.
Qed.

Lemma L_fold gray s0 i rec bound :
  W gray s0 -> i < n -> ~ visited s0 i ->
  (forall x, In x gray -> reach x i) ->
  rec_ok (i :: gray) rec bound ->
  forall js seen s mid,
  (exists l, NoDup l /\ (forall x, In x l -> visited s x) /\ n <= bound + length l) ->
  (forall j, In j js -> j < n) -> L gray s0 i seen s mid ->
  exists s' mid', fold_left (tstep e rec i) js (Some s) = Some s' /\ L gray s0 i (rev js ++ seen) s' mid'.
Proof.
  intros HW Hi Hnv Hacc Hrec. induction js as [|j js IH]; intros seen s mid Hb Hjs HL.
  - exists s, mid. split; [reflexivity|exact HL].
  - destruct (L_step gray s0 i rec bound seen s mid j) as (s1 & mid1 & E & HL1 & Hmono); auto.
    { apply Hjs; left; reflexivity. }
    cbn [fold_left]. rewrite E. destruct (IH (j :: seen) s1 mid1) as (s2 & mid2 & E2 & HL2); auto.
    { destruct Hb as (l & H1 & H2 & H3). exists l. auto. }
    { intros; apply Hjs; right; assumption. }
    exists s2, mid2. split; [exact E2|]. cbn. rewrite <- app_assoc. exact HL2.
Qed.

Lemma pop_until_app mid i old : ~ In i mid -> pop_until i (mid ++ i :: old) = (mid ++ [i], old).
Proof.
  induction mid as [|a mid IH]; intros H; cbn.
  - rewrite Nat.eqb_refl. reflexivity.
  - destruct (Nat.eqb_spec a i) as [->|Ha]; [exfalso; apply H; left; reflexivity|].
    rewrite IH by (intros Hc; apply H; right; exact Hc). reflexivity.
Qed.

(** *** the whole call *)
Lemma tarjan_spec : forall fuel gray, rec_ok gray (tarjan fuel n e) (fuel - 1) \/ fuel = 0.
Proof.
  induction fuel as [|fuel IH]; intros gray; [right; reflexivity|left].
  replace (S fuel - 1) with fuel by lia.
  intros s0 i HW0 Hi Hnv Hacc Hbound.
  cbn [tarjan].
  pose proof (W_visit gray s0 i HW0 Hi Hnv Hacc) as HWv.
  assert (Hfuel : fuel <> 0 \/ fuel = 0) by lia.
  assert (Hrec : fuel = 0 \/ rec_ok (i :: gray) (tarjan fuel n e) (fuel - 1)) by (destruct (IH (i :: gray)); auto).
  (* initial loop state *)
  assert (HL0 : L gray s0 i [] (tvisit s0 i) []).
  { constructor; cbn [app]; auto.
    - intros x Hx. cbn. rewrite fupd_other; [reflexivity|intros ->; contradiction].
    - intros x Hx. cbn. rewrite fupd_other; [reflexivity|intros ->; contradiction].
    - cbn. rewrite fupd_same. reflexivity.
    - rewrite visit_idx_same. cbn. rewrite fupd_same. lia.
    - exists i. split; [left; reflexivity|]. rewrite visit_idx_same. cbn. rewrite fupd_same. split; [reflexivity|apply reach_refl].
    - intros x y [].
    - intros j []. }
  assert (HF : exists s1 mid, fold_left (tstep e (tarjan fuel n e) i) (rev (seq 0 n)) (Some (tvisit s0 i)) = Some s1 /\
               L gray s0 i (rev (rev (seq 0 n)) ++ []) s1 mid).
  { destruct Hrec as [Hz|Hrec].
    - (* fuel = 0: all nodes visited, so no recursive call; reuse L_fold with a dummy rec is not possible, do it with rec_ok trivially *)
      subst fuel. destruct Hbound as (l & Hnd & Hl & Hlen). cbn in Hlen.
      exfalso. assert (Hin : In i l).
      { assert (incl (seq 0 n) l); [|apply H; apply in_seq; lia].
        apply NoDup_length_incl; [exact Hnd|rewrite seq_length; lia|].
        intros x Hx. apply in_seq. split; [lia|]. cbn. apply (w_rng _ _ HW0). apply Hl; exact Hx. }
      apply Hnv. apply Hl; exact Hin.
    - apply (L_fold gray s0 i (tarjan fuel n e) (fuel - 1)) with (mid := []); auto.
      + destruct Hbound as (l & Hnd & Hl & Hlen). exists (i :: l). split; [|split].
        * constructor; [|exact Hnd]. intros H. apply Hnv, Hl, H.
        * intros x [<-|Hx]; apply visit_visited; [left; reflexivity|right; apply Hl; exact Hx].
        * cbn. lia.
      + intros j Hj. apply in_rev in Hj. apply in_seq in Hj. lia. }
  destruct HF as (s1 & mid & EF & HL). rewrite EF.
  rewrite rev_involutive, app_nil_r in HL.
  destruct HL as [HW Hst Hidx Hlowk Hdone Hmid Hidxi Hle Hwit Hx Hseen].
  rewrite Hidxi.
  assert (Hidi : idx s1 i = t_cnt s0) by (unfold idx; rewrite Hidxi; reflexivity).
  assert (Hvi : visited s1 i) by (unfold visited; rewrite Hidxi; discriminate).
  assert (Hv0 : forall x, visited s0 x -> visited s1 x).
  { intros x H. unfold visited. rewrite (Hidx x H). exact H. }
  assert (Hid0 : forall x, visited s0 x -> idx s1 x = idx s0 x).
  { intros x H. unfold idx. rewrite (Hidx x H). reflexivity. }
  assert (Hst0 : forall x, In x (t_stack s0) -> visited s0 x).
  { intros x H. apply (w_vis _ _ HW0). left; exact H. }
  assert (Hdesc := w_desc _ _ HW). rewrite Hst in Hdesc.
  destruct (idx_desc_mid _ _ _ _ Hdesc) as [Hd1 Hd2].
  assert (Himid : ~ In i mid). { intros H. specialize (Hd1 i H). lia. }
  assert (Hgold : forall x, In x gray -> In x (t_stack s0)) by (apply (w_gray _ _ HW0)).
  assert (Hmg : forall x, In x mid -> ~ In x (i :: gray)).
  { intros x Hxm [<-|Hg]; [contradiction|]. apply (Hmid x Hxm), Hst0, Hgold, Hg. }
  (* all successors of mid ++ [i] are visited *)
  assert (Hsucc : forall x y, In x (mid ++ [i]) -> edge x y -> visited s1 y).
  { intros x y Hxm He. apply in_app_or in Hxm as [Hxm|[<-|[]]].
    - apply (w_succ _ _ HW x y); auto. apply (w_vis _ _ HW). left. rewrite Hst. apply in_or_app; left; exact Hxm.
    - apply (Hseen y); [apply in_seq; destruct He as (_ & H & _); lia|exact He]. }
  destruct (Nat.eqb_spec (t_cnt s0) (t_low s1 i)) as [Heq|Hne].
  - (* emit *)
    unfold temit. rewrite Hst, (pop_until_app mid i (t_stack s0) Himid).
    set (c := mid ++ [i]) in *.
    assert (Hnoold : forall x y, In x c -> edge x y -> ~ In y (t_stack s0)).
    { intros x y Hxc He Hy. apply in_app_or in Hxc as [Hxm|[<-|[]]].
      - specialize (Hx x y Hxm Hy He). specialize (Hd2 y Hy). lia.
      - destruct (Hseen y) as [_ H2]; [apply in_seq; destruct He as (_ & H & _); lia|exact He|].
        specialize (H2 Hy). specialize (Hd2 y Hy). lia. }
    assert (Hcl : forall x y, In x c -> edge x y -> In y c \/ done s1 y).
    { intros x y Hxc He. pose proof (Hsucc x y Hxc He) as Hv. apply (w_vis _ _ HW) in Hv as [Hv|Hv]; [|right; exact Hv].
      left. rewrite Hst in Hv. apply in_app_or in Hv as [Hv|[<-|Hv]]; [apply in_or_app; left; exact Hv|apply in_or_app; right; left; reflexivity|].
      exfalso. exact (Hnoold x y Hxc He Hv). }
    assert (Hclr : forall x y, reach x y -> (In x c \/ done s1 x) -> (In y c \/ done s1 y)).
    { intros x y Hr. apply clos_rt_rt1n in Hr. induction Hr as [x|x z y He Hr IHr]; intros Hc; [exact Hc|].
      apply IHr. destruct Hc as [Hc|Hc]; [apply (Hcl x z Hc He)|right; eapply done_succ; eauto]. }
    assert (Hndc : NoDup (c ++ t_stack s0 ++ concat (t_order s1))).
    { pose proof (w_nd _ _ HW) as H. rewrite Hst in H. unfold c. rewrite <- !app_assoc in *. exact H. }
    assert (Holdnc : forall x, In x (t_stack s0) -> ~ In x c /\ ~ done s1 x).
    { intros x Hxo. split.
      - intros Hxc. apply in_app_or in Hxc as [Hxm|[<-|[]]]; [apply (Hmid x Hxm), Hst0, Hxo|apply Hnv, Hst0, Hxo].
      - intros Hd. apply NoDup_app_r in Hndc. exact (NoDup_app_disj _ _ x Hndc Hxo Hd). }
    assert (Hstrong : strong c).
    { assert (Hto : forall x, In x c -> reach x i).
      { intros x Hxc. assert (Hxs : In x (t_stack s1)).
        { rewrite Hst. apply in_app_or in Hxc as [H|[<-|[]]]; apply in_or_app; [left; exact H|right; left; reflexivity]. }
        destruct (w_up _ _ HW x Hxs) as (y & Hy & Hyle & Hyr).
        destruct Hy as [<-|Hy]; [exact Hyr|]. exfalso.
        destruct (Holdnc y (Hgold y Hy)) as [H1 H2]. destruct (Hclr x y Hyr (or_introl Hxc)); contradiction. }
      assert (Hfrom : forall x, In x c -> reach i x).
      { intros x Hxc. apply (w_down _ _ HW); [left; reflexivity| |].
        - rewrite Hst. apply in_app_or in Hxc as [H|[<-|[]]]; apply in_or_app; [left; exact H|right; left; reflexivity].
        - apply in_app_or in Hxc as [H|[<-|[]]]; [specialize (Hd1 x H); lia|lia]. }
      intros x y Hxc Hyc. eapply reach_trans; [apply Hto; exact Hxc|apply Hfrom; exact Hyc]. }
    match goal with |- exists s' new, Some ?S = _ /\ _ => set (s2 := S) end.
    assert (Hdone2 : forall x, done s2 x <-> done s1 x \/ In x c).
    { intros x. unfold done, s2. cbn [t_order]. rewrite concat_app, in_app_iff. cbn. rewrite app_nil_r. tauto. }
    exists s2, []. split; [reflexivity|].
    assert (HW2 : W gray s2).
    { constructor.
      - intros x. cbn [t_on t_stack s2]. destruct (existsb (Nat.eqb x) c) eqn:Ex.
        + apply existsb_exists in Ex as (z & Hz & Ez). apply Nat.eqb_eq in Ez. subst z.
          split; [discriminate|]. intros Ho. exfalso. destruct (Holdnc x Ho); contradiction.
        + assert (Hnc : ~ In x c).
          { intros Hc. assert (existsb (Nat.eqb x) c = true); [|congruence]. apply existsb_exists. exists x. split; [exact Hc|apply Nat.eqb_refl]. }
          rewrite (w_on _ _ HW), Hst. rewrite in_app_iff. cbn. split.
          * intros [H|[H|H]]; [exfalso; apply Hnc; apply in_or_app; left; exact H|subst; exfalso; apply Hnc; apply in_or_app; right; left; reflexivity|exact H].
          * auto.
      - apply (idx_desc_ext s1); [reflexivity|]. cbn [t_stack s2]. clear - Hdesc. induction mid as [|a m IHm]; cbn in Hdesc; [apply Hdesc|apply IHm; apply Hdesc].
      - intros x. rewrite Hdone2. change (visited s2 x) with (visited s1 x). rewrite (w_vis _ _ HW), Hst. cbn [t_stack s2].
        rewrite in_app_iff. unfold c. rewrite in_app_iff. cbn. tauto.
      - exact (w_rng _ _ HW).
      - exact (w_cnt _ _ HW).
      - cbn [t_stack t_order s2]. rewrite concat_app. cbn. rewrite app_nil_r. rewrite app_assoc.
        eapply Permutation_NoDup; [|exact Hndc]. apply Permutation_app_comm.
      - cbn [t_order s2]. apply closed_order_app. split; [exact (w_closed _ _ HW)|]. cbn. intros x y Hxc He. exact (Hcl x y Hxc He).
      - cbn [t_order s2]. intros d Hd. apply in_app_or in Hd as [Hd|[<-|[]]]; [apply (w_strong _ _ HW); exact Hd|exact Hstrong].
      - cbn [t_order s2]. intros d Hd. apply in_app_or in Hd as [Hd|[<-|[]]]; [apply (w_ne _ _ HW); exact Hd|]. unfold c. destruct mid; discriminate.
      - intros x y Hxv Hng He. change (visited s1 y). destruct (Nat.eq_dec x i) as [->|Hxi].
        + apply (Hsucc i y); [apply in_or_app; right; left; reflexivity|exact He].
        + apply (w_succ _ _ HW x y); auto. intros [->|H]; contradiction.
      - exact Hgold.
      - intros x y Hxg Hyo Hlexy. apply (w_down _ _ HW); [right; exact Hxg|rewrite Hst; apply in_or_app; right; right; exact Hyo|exact Hlexy].
      - intros x Hxo. cbn [t_stack s2] in Hxo.
        destruct (w_up _ _ HW0 x Hxo) as (y & Hy & Hyle & Hyr). exists y. split; [exact Hy|]. split; [|exact Hyr].
        change (idx s1 y <= idx s1 x). rewrite (Hid0 x), (Hid0 y); auto. }
    constructor; auto.
    + constructor; auto.
      * intros x Hd. apply Hdone2. left. apply Hdone; exact Hd.
    + change (t_cnt s0 <= idx s1 i). lia.
    + intros _. change (t_low s1 i = idx s1 i). lia.
    + intros H; contradiction.
    + intros x y [].
  - (* not a root *)
    assert (Hlt : t_low s1 i < t_cnt s0) by lia.
    exists s1, (mid ++ [i]). split; [reflexivity|].
    destruct Hwit as (y0 & Hy0 & Hy0l & Hy0r).
    assert (Hy0o : In y0 (t_stack s0)).
    { rewrite Hst in Hy0. apply in_app_or in Hy0 as [H|[<-|H]]; [specialize (Hd1 y0 H); lia|lia|exact H]. }
    assert (HW2 : W gray s1).
    { destruct HW as [A1 A2 A3 A4 A5 A6 A7 A8 A9 A10 A11 A12 A13]. constructor; auto.
      - intros x y Hxv Hng He. destruct (Nat.eq_dec x i) as [->|Hxi].
        + apply (Hsucc i y); [apply in_or_app; right; left; reflexivity|exact He].
        + apply (A10 x y); auto. intros [->|H]; contradiction.
      - intros x Hg. apply A11. right; exact Hg.
      - intros x y Hg. apply A12. right; exact Hg.
      - intros x Hxs. destruct (A13 x Hxs) as (y & Hy & Hyle & Hyr).
        destruct Hy as [<-|Hy]; [|exists y; auto].
        destruct (A13 y0 Hy0) as (y1 & Hy1 & Hy1le & Hy1r).
        destruct Hy1 as [<-|Hy1]; [lia|].
        exists y1. split; [exact Hy1|]. split; [lia|].
        eapply reach_trans; [exact Hyr|]. eapply reach_trans; [exact Hy0r|exact Hy1r]. }
    constructor; auto.
    + constructor; auto.
      * rewrite Hst, <- app_assoc. reflexivity.
      * intros x Hxm. apply in_app_or in Hxm as [H|[<-|[]]]; [apply Hmid; exact H|exact Hnv].
    + lia.
    + intros H. exfalso. destruct mid; discriminate.
    + intros _. split; [apply in_or_app; right; left; reflexivity|]. exists y0. auto.
    + intros x y Hxm Hyo He. apply in_app_or in Hxm as [H|[<-|[]]]; [apply (Hx x y); auto|].
      destruct (Hseen y) as [_ H2]; [apply in_seq; destruct He as (_ & H & _); lia|exact He|]. apply H2; exact Hyo.
Qed.

Lemma W_init : W [] tinit.
Proof.
  constructor; cbn; try tauto.
  - intros x; split; [discriminate|intros []].
  - intros x. unfold visited, done. cbn. split; [intros H; exfalso; apply H; reflexivity|intros [[]|[]]].
  - intros x H. exfalso; apply H; reflexivity.
  - intros x H. exfalso; apply H; reflexivity.
  - constructor.
Qed.

Lemma W_nil_stack s : W [] s -> t_stack s = [].
Proof.
  intros HW. destruct (t_stack s) as [|x r] eqn:E; [reflexivity|].
  destruct (w_up _ _ HW x) as (y & [] & _). rewrite E. left; reflexivity.
Qed.

Lemma top_fold : forall js s, W [] s -> (forall j, In j js -> j < n) ->
  exists s', fold_left (tarjan_top n e) js (Some s) = Some s' /\ W [] s' /\
     (forall x, visited s x -> visited s' x) /\ (forall j, In j js -> visited s' j).
Proof.
  induction js as [|j js IH]; intros s HW Hjs.
  - exists s. split; [reflexivity|]. split; [exact HW|]. split; [auto|]. intros j [].
  - cbn [fold_left tarjan_top].
    assert (Hj : j < n) by (apply Hjs; left; reflexivity).
    destruct (t_index s j) as [d|] eqn:Ed.
    + destruct (IH s HW) as (s' & E & HW' & Hm & Hv); [intros; apply Hjs; right; assumption|].
      exists s'. split; [exact E|]. split; [exact HW'|]. split; [exact Hm|]. intros k [<-|Hk]; [|auto]. apply Hm. unfold visited. rewrite Ed. discriminate.
    + destruct (tarjan_spec (S n) []) as [Hrec|H]; [|discriminate].
      destruct (Hrec s j HW Hj) as (s1 & new & E1 & P).
      { unfold visited. rewrite Ed. auto. }
      { intros x []. }
      { exists []. cbn. repeat split; [constructor|intros x []|lia]. }
      rewrite E1. destruct (IH s1 (p_W _ _ _ _ _ P)) as (s' & E & HW' & Hm & Hv); [intros; apply Hjs; right; assumption|].
      exists s'. split; [exact E|]. split; [exact HW'|]. split.
      * intros x Hx. apply Hm. eapply grows_visited; [apply (p_g _ _ _ _ _ P)|exact Hx].
      * intros k [<-|Hk]; [|auto]. apply Hm. apply (p_vis _ _ _ _ _ P).
Qed.

Lemma insert_perm x l : Permutation (insert_nat x l) (x :: l).
Proof.
  induction l as [|y l IH]; cbn; [reflexivity|]. destruct (x <=? y); [reflexivity|].
  rewrite IH. apply perm_swap.
Qed.
Lemma sort_perm l : Permutation (sort_nat l) l.
Proof. induction l as [|x l IH]; cbn; [reflexivity|]. rewrite insert_perm, IH. reflexivity. Qed.

Lemma insert_sorted x l : StronglySorted le l -> StronglySorted le (insert_nat x l).
Proof.
  induction l as [|y l IH]; intros H; cbn.
  - constructor; [constructor|constructor].
  - destruct (Nat.leb_spec x y) as [Hle|Hgt].
    + constructor; [exact H|]. inversion H as [|? ? H1 H2]; subst. constructor; [exact Hle|].
      eapply Forall_impl; [|exact H2]. intros; lia.
    + inversion H as [|? ? H1 H2]; subst. constructor; [apply IH; exact H1|].
      rewrite Forall_forall in *. intros z Hz. apply (Permutation_in _ (insert_perm x l)) in Hz as [<-|Hz]; [lia|auto].
Qed.
Lemma sort_sorted l : StronglySorted le (sort_nat l).
Proof. induction l; cbn; [constructor|apply insert_sorted; assumption]. Qed.

Lemma concat_sort_perm l : Permutation (concat (map sort_nat l)) (concat l).
Proof. induction l as [|c l IH]; cbn; [reflexivity|]. rewrite sort_perm, IH. reflexivity. Qed.

Lemma closed_order_split l1 c l2 b : closed_order (l1 ++ c :: l2) b ->
  forall x y, In x c -> edge x y -> In y c \/ In y (b ++ concat l1).
Proof.
  revert b; induction l1 as [|d l1 IH]; intros b H; cbn in *.
  - rewrite app_nil_r. apply H.
  - destruct H as [_ H]. intros x y Hx He. rewrite app_assoc. apply (IH _ H x y Hx He).
Qed.

Lemma closed_order_app_l l1 l2 b : closed_order (l1 ++ l2) b -> closed_order l1 b.
Proof. revert b; induction l1 as [|c l1 IH]; intros b H; cbn in *; [auto|]. destruct H; split; auto. Qed.

(** Main result, before sorting of the components. *)
Lemma components_spec :
  exists cs, components n e = Some cs /\
    Permutation (concat cs) (seq 0 n) /\
    (forall c, In c cs -> c <> [] /\ StronglySorted le c /\ strong c) /\
    (forall l1 c l2, cs = l1 ++ c :: l2 -> forall x y, In x c -> reach x y -> In y (concat l1 ++ c)).
Proof.
  destruct (top_fold (rev (seq 0 n)) tinit W_init) as (s & E & HW & _ & Hv).
  { intros j Hj. apply in_rev in Hj. apply in_seq in Hj. lia. }
  unfold components. rewrite E. eexists. split; [reflexivity|].
  pose proof (W_nil_stack s HW) as Hst.
  assert (Hperm : Permutation (concat (t_order s)) (seq 0 n)).
  { apply NoDup_Permutation; [|apply seq_NoDup|].
    - pose proof (w_nd _ _ HW) as H. rewrite Hst in H. exact H.
    - intros x. split.
      + intros Hx. apply in_seq. split; [lia|]. cbn. apply (w_rng _ _ HW). apply (w_vis _ _ HW). right; exact Hx.
      + intros Hx. specialize (Hv x). rewrite <- in_rev in Hv. apply Hv in Hx. apply (w_vis _ _ HW) in Hx as [Hx|Hx]; [rewrite Hst in Hx; destruct Hx|exact Hx]. }
  split; [rewrite concat_sort_perm; exact Hperm|]. split.
  - intros c Hc. apply in_map_iff in Hc as (d & <- & Hd). split; [|split].
    + intros H0. apply (w_ne _ _ HW d Hd). apply Permutation_nil. rewrite <- H0. apply sort_perm.
    + apply sort_sorted.
    + intros x y Hx Hy. apply (w_strong _ _ HW d Hd); eapply Permutation_in; try (apply sort_perm); assumption.
  - intros l1 c l2 Hcs.
    apply map_eq_app in Hcs as (o1 & o2 & Ho & <- & Ho2).
    destruct o2 as [|d o2]; [discriminate|]. cbn in Ho2. injection Ho2 as <- _.
    pose proof (w_closed _ _ HW) as Hcl. rewrite Ho in Hcl.
    assert (Hstep : forall x y, In x (concat o1 ++ d) -> edge x y -> In y (concat o1 ++ d)).
    { intros x y Hx He. apply in_app_or in Hx as [Hx|Hx].
      - apply in_or_app. left. apply (closed_order_succ _ [] (closed_order_app_l _ _ _ Hcl) x y Hx He).
      - destruct (closed_order_split _ _ _ _ Hcl x y Hx He) as [H|H]; apply in_or_app; auto. }
    assert (Hreach : forall x y, reach x y -> In x (concat o1 ++ d) -> In y (concat o1 ++ d)).
    { intros x y Hr. apply clos_rt_rt1n in Hr. induction Hr as [x|x z y He Hr IHr]; intros Hin; [exact Hin|].
      apply IHr. eapply Hstep; eauto. }
    intros x y Hx Hr.
    assert (HP : Permutation (concat (map sort_nat o1) ++ sort_nat d) (concat o1 ++ d))
      by (rewrite concat_sort_perm, sort_perm; reflexivity).
    eapply Permutation_in; [symmetry; exact HP|]. apply (Hreach x y Hr).
    apply in_or_app. right. eapply Permutation_in; [apply sort_perm|exact Hx].
Qed.
End Tarjan.
