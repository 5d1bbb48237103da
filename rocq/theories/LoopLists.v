(** List lemmas used by the proofs about the loop generator. *)
From Coq Require Import ZArith List Bool Arith Lia Permutation Sorted.
From Verif Require Import SortModel LoopModel LoopSpec.
Import ListNotations.

(** ** option lists *)
Lemma obind_some {A B} (o : option A) (f : A -> option B) r :
  obind o f = Some r -> exists a, o = Some a /\ f a = Some r.
Proof. destruct o as [a|]; cbn; [|discriminate]. eauto. Qed.

Lemma omap_forall2 {A B} (f : A -> option B) l r :
  omap f l = Some r -> Forall2 (fun a b => f a = Some b) l r.
Proof.
  revert r. induction l as [|a l IH]; intros r H; cbn in H.
  - injection H as <-. constructor.
  - apply obind_some in H as (y & E & H). apply obind_some in H as (ys & E' & H). injection H as <-.
    constructor; auto.
Qed.

Lemma oconcat_forall2 {A B} (f : A -> option (list B)) l r :
  oconcat f l = Some r -> exists rs, r = concat rs /\ Forall2 (fun a b => f a = Some b) l rs.
Proof.
  intros H. apply obind_some in H as (rs & E & H). injection H as <-. exists rs. split; [reflexivity|].
  apply omap_forall2; exact E.
Qed.

Lemma oconcat_cons {A B} (f : A -> option (list B)) a l r :
  oconcat f (a :: l) = Some r -> exists r1 r2, f a = Some r1 /\ oconcat f l = Some r2 /\ r = r1 ++ r2.
Proof.
  unfold oconcat. cbn. intros H. apply obind_some in H as (rs & E & H). injection H as <-.
  apply obind_some in E as (y & E1 & E). apply obind_some in E as (ys & E2 & E). injection E as <-.
  exists y, (concat ys). rewrite E2. auto.
Qed.

(** ** sums *)
Lemma sumn_nil {A} (f : A -> nat) : sumn f [] = 0. Proof. reflexivity. Qed.
Lemma sumn_cons {A} (f : A -> nat) a l : sumn f (a :: l) = f a + sumn f l. Proof. reflexivity. Qed.
Lemma sumn_app {A} (f : A -> nat) l1 l2 : sumn f (l1 ++ l2) = sumn f l1 + sumn f l2.
Proof. unfold sumn. rewrite map_app, list_sum_app. reflexivity. Qed.
Lemma sumn_concat {A} (f : A -> nat) ls : sumn f (concat ls) = sumn (sumn f) ls.
Proof. induction ls as [|l ls IH]; [reflexivity|]. cbn [concat]. rewrite sumn_app, sumn_cons, IH. reflexivity. Qed.
Lemma sumn_flat_map {A B} (f : B -> nat) (g : A -> list B) l : sumn f (flat_map g l) = sumn (fun a => sumn f (g a)) l.
Proof. induction l as [|a l IH]; [reflexivity|]. cbn [flat_map]. rewrite sumn_app, sumn_cons, IH. reflexivity. Qed.
Lemma sumn_map {A B} (f : B -> nat) (g : A -> B) l : sumn f (map g l) = sumn (fun a => f (g a)) l.
Proof. unfold sumn. rewrite map_map. reflexivity. Qed.
Lemma sumn_ext {A} (f g : A -> nat) l : (forall a, In a l -> f a = g a) -> sumn f l = sumn g l.
Proof.
  induction l as [|a l IH]; intros H; [reflexivity|]. rewrite !sumn_cons.
  rewrite (H a), IH; [reflexivity| |]; intros; try apply H; cbn; auto.
Qed.
Lemma sumn_perm {A} (f : A -> nat) l1 l2 : Permutation l1 l2 -> sumn f l1 = sumn f l2.
Proof. induction 1; rewrite ?sumn_cons; lia. Qed.
Lemma sumn_0 {A} (f : A -> nat) l : (forall a, In a l -> f a = 0) -> sumn f l = 0.
Proof. induction l as [|a l IH]; intros H; [reflexivity|]. rewrite sumn_cons, (H a) by (left; reflexivity). apply IH. intros; apply H; right; assumption. Qed.
Lemma sumn_pos {A} (f : A -> nat) l : 0 < sumn f l <-> exists a, In a l /\ 0 < f a.
Proof.
  induction l as [|a l IH]; [split; [cbn; lia|intros (a & [] & _)]|]. rewrite sumn_cons. split.
  - intros H. destruct (f a) eqn:E.
    + destruct IH as [IH _]. destruct IH as (b & Hb & Hp); [lia|]. exists b. split; [right; exact Hb|exact Hp].
    + exists a. split; [left; reflexivity|lia].
  - intros (b & [<-|Hb] & Hp); [lia|]. destruct IH as [_ IH].
    assert (0 < sumn f l) by (apply IH; eauto). lia.
Qed.
Lemma sumn_mul {A} (c : nat) (f : A -> nat) l : sumn (fun a => c * f a) l = c * sumn f l.
Proof. induction l as [|a l IH]; [cbn; lia|]. rewrite !sumn_cons, IH. lia. Qed.
Lemma sumn_add {A} (f g : A -> nat) l : sumn (fun a => f a + g a) l = sumn f l + sumn g l.
Proof. induction l as [|a l IH]; [reflexivity|]. rewrite !sumn_cons, IH. lia. Qed.
Lemma sumn_le {A} (f : A -> nat) l a : In a l -> f a <= sumn f l.
Proof. induction l as [|b l IH]; intros H; [destruct H|]. rewrite sumn_cons. destruct H as [->|H]; [lia|]. specialize (IH H). lia. Qed.
Lemma sumn_forall2 {A B} (R : A -> B -> Prop) (f : A -> nat) (g : B -> nat) l l' :
  Forall2 R l l' -> (forall a b, In a l -> R a b -> f a = g b) -> sumn f l = sumn g l'.
Proof.
  induction 1 as [|a b l l' Hab H IH]; intros HR; [reflexivity|]. rewrite !sumn_cons.
  rewrite (HR a b) by (cbn; auto). rewrite IH; [reflexivity|]. intros; apply HR; cbn; auto.
Qed.

(** ** subsequences *)
Inductive Subl {A} : list A -> list A -> Prop :=
| Subl_nil : Subl [] []
| Subl_skip : forall a l1 l2, Subl l1 l2 -> Subl l1 (a :: l2)
| Subl_keep : forall a l1 l2, Subl l1 l2 -> Subl (a :: l1) (a :: l2).
Global Hint Constructors Subl : core.

Lemma Subl_refl {A} (l : list A) : Subl l l. Proof. induction l; auto. Qed.
Lemma Subl_nil_l {A} (l : list A) : Subl [] l. Proof. induction l; auto. Qed.
Lemma Subl_trans {A} (l1 l2 l3 : list A) : Subl l1 l2 -> Subl l2 l3 -> Subl l1 l3.
Proof.
  intros H1 H2. revert l1 H1. induction H2 as [|a l2 l3 H2 IH|a l2 l3 H2 IH]; intros l1 H1; auto.
  inversion H1; subst; auto.
Qed.
Lemma Subl_app {A} (a b c d : list A) : Subl a b -> Subl c d -> Subl (a ++ c) (b ++ d).
Proof. induction 1; cbn; auto. Qed.
Lemma Subl_in {A} (l1 l2 : list A) x : Subl l1 l2 -> In x l1 -> In x l2.
Proof. induction 1; cbn; intros H1; auto. destruct H1; auto. Qed.
Lemma Subl_forall {A} (Q : A -> Prop) l1 l2 : Subl l1 l2 -> Forall Q l2 -> Forall Q l1.
Proof. rewrite !Forall_forall. intros H F x Hx. apply F. eapply Subl_in; eauto. Qed.
Lemma Subl_app_l {A} (l l1 l2 : list A) : Subl l l1 -> Subl l (l1 ++ l2).
Proof. intros H. rewrite <- (app_nil_r l). apply Subl_app; [exact H|apply Subl_nil_l]. Qed.
Lemma Subl_app_r {A} (l l1 l2 : list A) : Subl l l2 -> Subl l (l1 ++ l2).
Proof. intros H. change l with ([] ++ l). apply Subl_app; [apply Subl_nil_l|exact H]. Qed.
Lemma Subl_filter {A} (p : A -> bool) l : Subl (filter p l) l.
Proof. induction l as [|a l IH]; cbn; auto. destruct (p a); auto. Qed.

(** ** ordered pairs *)
Lemma FOP_app {A} (R : A -> A -> Prop) l1 l2 :
  ForallOrdPairs R (l1 ++ l2) <->
  ForallOrdPairs R l1 /\ ForallOrdPairs R l2 /\ (forall a b, In a l1 -> In b l2 -> R a b).
Proof.
  induction l1 as [|a l1 IH]; cbn.
  - split; [intros H; repeat split; auto; try constructor; intros ? ? []|tauto].
  - split.
    + intros H. inversion H as [|? ? H1 H2]; subst. apply IH in H2 as (H2 & H3 & H4).
      apply Forall_app in H1 as [H1 H1']. split; [constructor; auto|]. split; [exact H3|].
      intros x y [<-|Hx] Hy; [rewrite Forall_forall in H1'; auto|auto].
    + intros (H1 & H2 & H3). inversion H1 as [|? ? H4 H5]; subst. constructor.
      * apply Forall_app. split; [exact H4|]. rewrite Forall_forall. intros; apply H3; auto.
      * apply IH. repeat split; auto.
Qed.
Lemma FOP_subl {A} (R : A -> A -> Prop) l1 l2 : Subl l1 l2 -> ForallOrdPairs R l2 -> ForallOrdPairs R l1.
Proof.
  induction 1 as [|a l1 l2 H IH|a l1 l2 H IH]; intros F; auto.
  - inversion F; subst; auto.
  - inversion F as [|? ? F1 F2]; subst. constructor; auto. eapply Subl_forall; eauto.
Qed.
Lemma FOP_impl {A} (R R' : A -> A -> Prop) l :
  (forall a b, In a l -> In b l -> R a b -> R' a b) -> ForallOrdPairs R l -> ForallOrdPairs R' l.
Proof.
  intros H F. induction F as [|a l Ha F IH]; [constructor|]. constructor.
  - rewrite Forall_forall in *. intros b Hb. apply H; cbn; auto.
  - apply IH. intros; apply H; cbn; auto.
Qed.
Lemma FOP_map {A B} (R : B -> B -> Prop) (f : A -> B) l :
  ForallOrdPairs R (map f l) <-> ForallOrdPairs (fun a b => R (f a) (f b)) l.
Proof.
  induction l as [|a l IH]; cbn; [split; constructor|].
  split; intros H; inversion H as [|? ? H1 H2]; subst; constructor; try (apply IH; exact H2).
  - rewrite Forall_map in H1. exact H1.
  - rewrite Forall_map. exact H1.
Qed.
Lemma FOP_concat {A} (R : A -> A -> Prop) ls :
  Forall (ForallOrdPairs R) ls -> ForallOrdPairs (fun l1 l2 => forall a b, In a l1 -> In b l2 -> R a b) ls ->
  ForallOrdPairs R (concat ls).
Proof.
  induction ls as [|l ls IH]; intros F1 F2; cbn; [constructor|].
  inversion F1; inversion F2 as [|? ? F3 F4]; subst. apply FOP_app. repeat split; auto.
  intros a b Ha Hb. apply in_concat in Hb as (l' & Hl' & Hb). rewrite Forall_forall in F3. eapply F3; eauto.
Qed.
Lemma FOP_nth {A} (R : A -> A -> Prop) l :
  ForallOrdPairs R l <-> forall i j a b, i < j -> nth_error l i = Some a -> nth_error l j = Some b -> R a b.
Proof.
  induction l as [|x l IH].
  - split; [intros _ [|i] j a b _ H; discriminate|constructor].
  - split.
    + intros H i j a b Hij Ha Hb. inversion H as [|? ? H1 H2]; subst.
      destruct j as [|j]; [lia|]. destruct i as [|i]; cbn in Ha, Hb.
      * injection Ha as <-. rewrite Forall_forall in H1. apply H1. eapply nth_error_In; eauto.
      * destruct IH as [IH _]. eapply (IH H2 i j); eauto; lia.
    + intros H. constructor.
      * rewrite Forall_forall. intros b Hb. apply In_nth_error in Hb as (j & Hj).
        apply (H 0 (S j)); [lia|reflexivity|exact Hj].
      * apply IH. intros i j a b Hij Ha Hb. apply (H (S i) (S j)); [lia|exact Ha|exact Hb].
Qed.
Lemma FOP_forall2 {A B} (R : A -> A -> Prop) (R' : B -> B -> Prop) (Q : A -> B -> Prop) l l' :
  Forall2 Q l l' -> (forall a a' b b', In a l -> In a' l -> Q a b -> Q a' b' -> R a a' -> R' b b') ->
  ForallOrdPairs R l -> ForallOrdPairs R' l'.
Proof.
  induction 1 as [|a b l l' Hab H IH]; intros HR F; [constructor|].
  inversion F as [|? ? F1 F2]; subst. constructor.
  - rewrite Forall_forall in *. intros b' Hb'. clear -H Hab HR F1 Hb'.
    assert (exists a', In a' l /\ Q a' b') as (a' & Ha' & Hq).
    { clear -H Hb'. induction H as [|x y l l' Hxy H IH]; [destruct Hb'|].
      destruct Hb' as [<-|Hb']; [exists x; cbn; auto|]. destruct (IH Hb') as (a' & ? & ?). exists a'. cbn; auto. }
    eapply HR; [| |exact Hab|exact Hq|]; cbn; auto.
  - apply IH; [|exact F2]. intros; eapply HR; try eassumption; cbn; auto.
Qed.

Lemma Forall2_in_r {A B} (Q : A -> B -> Prop) l l' b : Forall2 Q l l' -> In b l' -> exists a, In a l /\ Q a b.
Proof.
  induction 1 as [|x y l l' Hxy H IH]; intros Hb; [destruct Hb|].
  destruct Hb as [<-|Hb]; [exists x; cbn; auto|]. destruct (IH Hb) as (a' & ? & ?). exists a'. cbn; auto.
Qed.

(** ** pick *)
Lemma pick_app {A} (ls : list A) i j : pick ls (i ++ j) = pick ls i ++ pick ls j.
Proof. apply flat_map_app. Qed.
Lemma pick_in {A} (ls : list A) idx x : In x (pick ls idx) -> exists i, In i idx /\ nth_error ls i = Some x.
Proof.
  intros H. apply in_flat_map in H as (i & Hi & H). exists i. split; [exact Hi|].
  destruct (nth_error ls i); [|destruct H]. destruct H as [->|[]]. reflexivity.
Qed.
Lemma pick_seq {A} (ls pre : list A) : pick (pre ++ ls) (seq (length pre) (length ls)) = ls.
Proof.
  revert pre. induction ls as [|a ls IH]; intros pre; [reflexivity|].
  cbn [length seq]. unfold pick. cbn [flat_map].
  rewrite nth_error_app2, Nat.sub_diag by lia. cbn. f_equal.
  specialize (IH (pre ++ [a])). rewrite <- app_assoc in IH. cbn in IH. rewrite app_length in IH. cbn in IH.
  rewrite Nat.add_1_r in IH. exact IH.
Qed.
Lemma pick_perm_idx {A} (ls : list A) i j : Permutation i j -> Permutation (pick ls i) (pick ls j).
Proof. intros H. unfold pick. apply Permutation_flat_map. exact H. Qed.
Lemma pick_perm {A} (ls : list A) idx : Permutation idx (seq 0 (length ls)) -> Permutation (pick ls idx) ls.
Proof. intros H. rewrite (pick_perm_idx _ _ _ H). rewrite (pick_seq ls [] : pick ls (seq 0 (length ls)) = ls). reflexivity. Qed.
Lemma pick_map_S {A} (a : A) ls idx : pick (a :: ls) (map S idx) = pick ls idx.
Proof. unfold pick. rewrite !flat_map_concat_map, map_map. reflexivity. Qed.
Lemma pick_concat {A} (ls : list A) cs : concat (map (pick ls) cs) = pick ls (concat cs).
Proof. induction cs as [|c cs IH]; [reflexivity|]. cbn [concat map]. rewrite pick_app, IH. reflexivity. Qed.

(** increasing indices pick a subsequence *)
Lemma pick_subl {A} (ls : list A) idx : StronglySorted lt idx -> Subl (pick ls idx) ls.
Proof.
  revert idx. induction ls as [|a ls IH]; intros idx H.
  - replace (pick [] idx) with (@nil A); [constructor|]. clear H.
    induction idx as [|[|i] idx IHi]; [reflexivity| |]; unfold pick in *; cbn; exact IHi.
  - destruct idx as [|[|i] idx].
    + apply Subl_nil_l.
    + inversion H as [|? ? H1 H2]; subst.
      assert (exists idx', idx = map S idx' /\ StronglySorted lt idx') as (idx' & -> & Hs).
      { exists (map pred idx). split.
        - rewrite map_map. rewrite <- (map_id idx) at 1. apply map_ext_in. intros k Hk.
          rewrite Forall_forall in H2. specialize (H2 k Hk). lia.
        - clear IH H. induction H1 as [|k idx H1 IH1 H3]; [constructor|]. cbn. inversion H2; subst. constructor; auto.
          rewrite Forall_map. rewrite Forall_forall in *. intros m Hm. specialize (H3 m Hm). lia. }
      change (pick (a :: ls) (0 :: map S idx')) with (a :: pick (a :: ls) (map S idx')).
      rewrite pick_map_S. apply Subl_keep. apply IH. exact Hs.
    + assert (exists idx', S i :: idx = map S idx' /\ StronglySorted lt idx') as (idx' & -> & Hs).
      { exists (map pred (S i :: idx)). split.
        - rewrite map_map. rewrite <- (map_id (S i :: idx)) at 1. apply map_ext_in. intros k Hk.
          inversion H as [|? ? H1 H2]; subst. rewrite Forall_forall in H2.
          destruct Hk as [<-|Hk]; [reflexivity|]. specialize (H2 k Hk). lia.
        - inversion H as [|? ? H1 H2]; subst. clear IH H.
          assert (Hpos : Forall (fun k => 0 < k) (S i :: idx)).
          { constructor; [lia|]. eapply Forall_impl; [|exact H2]. cbn; intros; lia. }
          assert (Hss : StronglySorted lt (S i :: idx)) by (constructor; auto).
          revert Hpos Hss. generalize (S i :: idx). clear. intros l Hpos Hss.
          induction Hss as [|k l H1 IH H2]; [constructor|]. inversion Hpos as [|? ? Hk Hl]; subst.
          cbn. constructor; auto. rewrite Forall_map. rewrite Forall_forall in *. intros m Hm.
          specialize (H2 m Hm). lia. }
      rewrite pick_map_S. constructor. apply IH. exact Hs.
Qed.

Lemma sorted_lt_of_le l : StronglySorted le l -> NoDup l -> StronglySorted lt l.
Proof.
  induction 1 as [|k l H IH H2]; intros Hnd; [constructor|]. inversion Hnd as [|? ? H3 H4]; subst.
  constructor; auto. rewrite Forall_forall in *. intros m Hm. specialize (H2 m Hm).
  assert (m <> k) by (intros ->; contradiction). lia.
Qed.

(** ** bubble sort *)
Section Bubble.
Context {A : Type} (gt : A -> A -> bool).

Lemma bubble_perm cur rest : Permutation (fst (bubble gt cur rest)) (cur :: rest).
Proof.
  revert cur. induction rest as [|x r IH]; intros cur; cbn; [reflexivity|].
  destruct (gt cur x).
  - specialize (IH cur). destruct (bubble gt cur r) as [l b]. cbn in *. rewrite IH. apply perm_swap.
  - specialize (IH x). destruct (bubble gt x r) as [l b]. cbn in *. rewrite IH. reflexivity.
Qed.
Lemma bubble_sort_perm fuel ls r : bubble_sort fuel gt ls = Some r -> Permutation r ls.
Proof.
  revert ls. induction fuel as [|f IH]; intros ls H; cbn in H; [discriminate|].
  destruct ls as [|a l]; [discriminate|].
  pose proof (bubble_perm a l) as Hp. destruct (bubble gt a l) as [l' b] eqn:E. cbn in Hp.
  destruct b.
  - apply IH in H. rewrite H. exact Hp.
  - injection H as <-. exact Hp.
Qed.

(** no swap: consecutive elements are in order *)
Inductive chain : list A -> Prop :=
| chain1 : forall a, chain [a]
| chain_cons : forall a b l, gt a b = false -> chain (b :: l) -> chain (a :: b :: l).
Lemma bubble_false cur rest : snd (bubble gt cur rest) = false ->
  fst (bubble gt cur rest) = cur :: rest /\ chain (cur :: rest).
Proof.
  revert cur. induction rest as [|x r IH]; intros cur H; cbn in *.
  - split; [reflexivity|constructor].
  - destruct (gt cur x) eqn:E.
    + destruct (bubble gt cur r); cbn in H. discriminate.
    + specialize (IH x). destruct (bubble gt x r) as [l b]. cbn in *. destruct (IH H) as [-> Hc].
      split; [reflexivity|]. constructor; auto.
Qed.
Lemma bubble_sort_chain fuel ls r : bubble_sort fuel gt ls = Some r -> chain r.
Proof.
  revert ls. induction fuel as [|f IH]; intros ls H; cbn in H; [discriminate|].
  destruct ls as [|a l]; [discriminate|].
  pose proof (bubble_false a l) as Hp. destruct (bubble gt a l) as [l' b] eqn:E. cbn in Hp.
  destruct b.
  - eapply IH; exact H.
  - injection H as <-. destruct (Hp eq_refl) as [-> Hc]. exact Hc.
Qed.

(** stability: a relation on ordered pairs that swaps never destroy *)
Variable R : A -> A -> Prop.
Hypothesis Rswap : forall a b, gt a b = true -> R b a.
Lemma bubble_fop cur rest : ForallOrdPairs R (cur :: rest) -> ForallOrdPairs R (fst (bubble gt cur rest)).
Proof.
  revert cur. induction rest as [|x r IH]; intros cur H; cbn; [exact H|].
  inversion H as [|? ? H1 H2]; subst. inversion H1 as [|? ? H3 H4]; subst. inversion H2 as [|? ? H5 H6]; subst.
  destruct (gt cur x) eqn:E.
  - assert (Hc : ForallOrdPairs R (cur :: r)) by (constructor; auto).
    pose proof (bubble_perm cur r) as Hp. specialize (IH cur Hc).
    destruct (bubble gt cur r) as [l b]. cbn in *. constructor; [|exact IH].
    rewrite Forall_forall in *. intros y Hy. eapply Permutation_in in Hy; [|exact Hp].
    destruct Hy as [<-|Hy]; [apply Rswap; exact E|]. auto.
  - pose proof (bubble_perm x r) as Hp. specialize (IH x H2).
    destruct (bubble gt x r) as [l b]. cbn in *. constructor; [|exact IH].
    rewrite Forall_forall in *. intros y Hy. eapply Permutation_in in Hy; [|exact Hp].
    destruct Hy as [<-|Hy]; auto.
Qed.
Lemma bubble_sort_fop fuel ls r : bubble_sort fuel gt ls = Some r -> ForallOrdPairs R ls -> ForallOrdPairs R r.
Proof.
  revert ls. induction fuel as [|f IH]; intros ls H F; cbn in H; [discriminate|].
  destruct ls as [|a l]; [discriminate|].
  pose proof (bubble_fop a l F) as Hp. destruct (bubble gt a l) as [l' b] eqn:E. cbn in Hp.
  destruct b.
  - eapply IH; [exact H|exact Hp].
  - injection H as <-. exact Hp.
Qed.
End Bubble.

(** termination of the bubble sort within [length + 1] passes: after k passes the last
    k elements are in their final place *)
Section BubbleTerm.
Context {A : Type} (gt : A -> A -> bool).
Hypothesis gt_asym : forall a b, gt a b = true -> gt b a = false.
Hypothesis gt_ntrans : forall a b c, gt a b = false -> gt b c = false -> gt a c = false.

(** [settled k l]: no element is greater than a later one among the last [k], and the rest
    is not greater than them *)
Definition settled (l1 l2 : list A) : Prop :=
  ForallOrdPairs (fun a b => gt a b = false) l2 /\ forall a b, In a l1 -> In b l2 -> gt a b = false.

Lemma bubble_app cur l1 l2 :
  settled (cur :: l1) l2 ->
  exists b, bubble gt cur (l1 ++ l2) = (fst (bubble gt cur l1) ++ l2, b) /\ (b = true -> snd (bubble gt cur l1) = true).
Proof.
  revert cur. induction l1 as [|x l1 IH]; intros cur [H1 H2]; cbn.
  - clear -H1 H2. exists false. split; [|discriminate].
    revert cur H2. induction l2 as [|y l2 IH]; intros cur H2; cbn; [reflexivity|].
    rewrite (H2 cur y) by (cbn; auto).
    inversion H1 as [|? ? H3 H4]; subst. rewrite IH; [reflexivity|exact H4|].
    intros a b [<-|[]] Hb. rewrite Forall_forall in H3. apply H3; exact Hb.
  - destruct (gt cur x) eqn:E.
    + destruct (IH cur) as (b & -> & Hb). { split; [exact H1|]. intros a c [<-|Ha] Hc; apply H2; cbn; auto. }
      destruct (bubble gt cur l1) as [l bb]. cbn in *. exists true. auto.
    + destruct (IH x) as (b & -> & Hb). { split; [exact H1|]. intros a c Ha Hc; apply H2; cbn; auto. }
      destruct (bubble gt x l1) as [l bb]. cbn in *. exists b. auto.
Qed.

(** one pass moves a maximum to the end *)
Lemma bubble_max cur l1 : exists l m, fst (bubble gt cur l1) = l ++ [m] /\ forall a, In a l -> gt a m = false.
Proof.
  revert cur. induction l1 as [|x l1 IH]; intros cur; cbn.
  - exists [], cur. split; [reflexivity|]. intros a [].
  - destruct (gt cur x) eqn:E.
    + destruct (IH cur) as (l & m & Hl & Hm). pose proof (bubble_perm gt cur l1) as Hp.
      destruct (bubble gt cur l1) as [l' b]. cbn in *. subst l'. exists (x :: l), m. split; [reflexivity|].
      intros a [<-|Ha]; [|auto].
      assert (Hin : In cur (l ++ [m])) by (eapply Permutation_in; [symmetry; exact Hp|left; reflexivity]).
      apply in_app_or in Hin as [Hin|[->|[]]].
      * eapply gt_ntrans; [apply gt_asym; exact E|]. auto.
      * apply gt_asym; exact E.
    + destruct (IH x) as (l & m & Hl & Hm). pose proof (bubble_perm gt x l1) as Hp.
      destruct (bubble gt x l1) as [l' b]. cbn in *. subst l'. exists (cur :: l), m. split; [reflexivity|].
      intros a [<-|Ha]; [|auto].
      assert (Hin : In x (l ++ [m])) by (eapply Permutation_in; [symmetry; exact Hp|left; reflexivity]).
      apply in_app_or in Hin as [Hin|[->|[]]].
      * eapply gt_ntrans; [exact E|]. auto.
      * exact E.
Qed.

Lemma bubble_sort_term : forall fuel l1 l2, settled l1 l2 -> l1 ++ l2 <> [] -> length l1 <= fuel ->
  exists r, bubble_sort (S fuel) gt (l1 ++ l2) = Some r.
Proof.
  induction fuel as [|f IH]; intros l1 l2 Hs Hne Hlen.
  - destruct l1 as [|a l1]; [|cbn in Hlen; lia]. destruct l2 as [|a l2]; [contradiction|]. cbn.
    destruct Hs as [H1 _]. inversion H1 as [|? ? H3 H4]; subst.
    destruct (bubble_app a [] l2) as (b & E & Hb).
    { split; [exact H4|]. intros x y [<-|[]] Hy. rewrite Forall_forall in H3. auto. }
    cbn in E, Hb. rewrite E. destruct b; [discriminate (Hb eq_refl)|]. eauto.
  - destruct l1 as [|a l1].
    + destruct l2 as [|a l2]; [contradiction|]. cbn [bubble_sort app].
      destruct Hs as [H1 _]. inversion H1 as [|? ? H3 H4]; subst.
      destruct (bubble_app a [] l2) as (b & E & Hb).
      { split; [exact H4|]. intros x y [<-|[]] Hy. rewrite Forall_forall in H3. auto. }
      cbn in E, Hb. rewrite E. destruct b; [discriminate (Hb eq_refl)|]. eauto.
    + cbn [bubble_sort app]. destruct (bubble_app a l1 l2 Hs) as (b & E & Hb). rewrite E.
      destruct b; [|eauto].
      destruct (bubble_max a l1) as (l & m & Hl & Hm). rewrite Hl, <- app_assoc.
      pose proof (bubble_perm gt a l1) as Hp. rewrite Hl in Hp.
      apply IH.
      * destruct Hs as [H1 H2]. split.
        -- apply (FOP_app _ [m] l2). split; [repeat constructor|]. split; [exact H1|].
           intros x y [<-|[]] Hy. apply H2; [|exact Hy]. eapply Permutation_in; [exact Hp|]. apply in_or_app; cbn; auto.
        -- intros x y Hx [<-|Hy]; [auto|]. apply H2; [|exact Hy]. eapply Permutation_in; [exact Hp|]. apply in_or_app; auto.
      * destruct l; discriminate.
      * apply Permutation_length in Hp. rewrite app_length in Hp. cbn in Hp, Hlen. lia.
Qed.

Lemma bubble_sort_total ls : ls <> [] -> exists r, bubble_sort (S (length ls)) gt ls = Some r.
Proof.
  intros H. destruct (bubble_sort_term (length ls) ls []) as (r & E).
  - split; [constructor|]. intros a b _ [].
  - rewrite app_nil_r. exact H.
  - lia.
  - rewrite app_nil_r in E. eauto.
Qed.
End BubbleTerm.
