(** Computations that return, and the loops of separation and merging. *)
From Coq Require Import ZArith List Bool Arith Lia Permutation Relations.
From Verif Require Import SortModel DomainSortProofs LoopModel LoopSpec LoopLists LoopCount LoopGen TerminateSpec.
Import ListNotations.
Local Arguments Nat.ltb : simpl never.
Local Arguments Nat.leb : simpl never.
Local Arguments Nat.eqb : simpl never.
Local Arguments Nat.sub : simpl never.

(** ** computations that return *)
Lemma ret_some {A} (r : A) : returns (fun _ => Some r) r.
Proof. exists 0. reflexivity. Qed.
Lemma ret_bind {A B} (f : nat -> option A) (g : nat -> A -> option B) r s :
  returns f r -> returns (fun n => g n r) s -> returns (fun n => obind (f n) (g n)) s.
Proof.
  intros [n1 H1] [n2 H2]. exists (Nat.max n1 n2). intros m Hm. rewrite H1 by lia. cbn. apply H2. lia.
Qed.
Lemma ret_shift {A} (f : nat -> option A) r : returns (fun n => f (S n)) r -> returns f r.
Proof. intros [n H]. exists (S n). intros [|m] Hm; [lia|]. apply H. lia. Qed.
Lemma ret_unshift {A} (f : nat -> option A) r : returns f r -> returns (fun n => f (S n)) r.
Proof. intros [n H]. exists n. intros m Hm. apply H. lia. Qed.
Lemma ret_ext {A} (f g : nat -> option A) r : (forall n, g n = f n) -> returns f r -> returns g r.
Proof. intros E [n H]. exists n. intros m Hm. rewrite E. auto. Qed.
Lemma ret_at {A} (f : nat -> option A) r : returns f r -> exists n, f n = Some r.
Proof. intros [n H]. exists n. apply H. lia. Qed.
Lemma ret_omap {A B} (f : nat -> A -> option B) l :
  (forall a, In a l -> exists r, returns (fun n => f n a) r) -> exists rs, returns (fun n => omap (f n) l) rs.
Proof.
  induction l as [|a l IH]; intros H; [exists []; apply ret_some|].
  destruct (H a (or_introl eq_refl)) as [r Hr]. destruct IH as [rs Hrs]; [intros b Hb; apply H; right; exact Hb|].
  exists (r :: rs). cbn [omap]. apply ret_bind with r; [exact Hr|]. apply ret_bind with rs; [exact Hrs|]. apply ret_some.
Qed.
Lemma ret_oconcat {A B} (f : nat -> A -> option (list B)) l :
  (forall a, In a l -> exists r, returns (fun n => f n a) r) -> exists rs, returns (fun n => oconcat (f n) l) rs.
Proof.
  intros H. destruct (ret_omap f l H) as [rs Hrs]. exists (concat rs). unfold oconcat. apply ret_bind with rs; [exact Hrs|]. apply ret_some.
Qed.

Section Pieces.
Variable P : Poly.
Variable V : Type.
Variable v0 : V.
Variable Sp : V -> Sem P.
Variable nparts : dom P -> nat.
Hypothesis L : forall v, Laws P (Sp v).
Hypothesis TL : TotalLaws P V Sp nparts.
Notation dom := (dom P).
Notation loop := (loop P).
Notation dim := (dim P).
Notation Loop := (@Loop P).
Notation apart := (apart P V Sp).
Notation parts_apart := (parts_apart P V Sp).

Lemma cut_dims d f r : cut_first P d = Some (f, r) -> dim f = dim d /\ dim r = dim d.
Proof. apply (L_cut_dim _ _ (L v0)). Qed.
Lemma cut_convex d f r : cut_first P d = Some (f, r) -> isconvex P f = true.
Proof. apply (L_cut_convex _ _ (L v0)). Qed.
Lemma diff_dim a b : dim a = dim b -> dim (difference P a b) = dim a.
Proof. apply (L_diff_dim _ _ (L v0)). Qed.
Lemma union_dim a b : dim a = dim b -> dim (union P a b) = dim a.
Proof. apply (L_union_dim _ _ (L v0)). Qed.
Lemma cut_apart d f r s : cut_first P d = Some (f, r) -> apart d s -> apart f s /\ apart r s.
Proof.
  intros H Ha. split; intros v x H1 H2; apply (Ha v x); try exact H2; rewrite (L_cut _ _ (L v) _ _ _ x H), H1; [reflexivity|apply orb_true_r].
Qed.
Lemma cut_parts_apart d f r : cut_first P d = Some (f, r) -> parts_apart d -> parts_apart r /\ apart r f.
Proof.
  intros H Ha. split.
  - intros v. apply (L_cut_disj _ _ (L v) _ _ _ (Ha v) H).
  - intros v x H1 H2. destruct (L_cut_disj _ _ (L v) _ _ _ (Ha v) H) as [_ Hd]. rewrite (Hd x H2) in H1. discriminate.
Qed.
Lemma union_apart d s a : dim s = dim a -> apart d s -> apart d a -> apart d (union P s a).
Proof.
  intros Hd H1 H2 v x Hx Hu. rewrite (L_union _ _ (L v)) in Hu by exact Hd. apply orb_prop in Hu as [Hu|Hu]; [apply (H1 v x)|apply (H2 v x)]; assumption.
Qed.
Lemma diff_apart d a s : dim a = dim s -> apart d a -> apart d (difference P a s).
Proof. intros Hd H v x Hx Hu. rewrite (L_diff _ _ (L v)) in Hu by exact Hd. apply andb_prop in Hu as [Hu _]. apply (H v x); assumption. Qed.

(** pieces of a set whose parts are disjoint: every part is convex after subtracting *)
Lemma rest_apart : forall k d seen, nparts d <= k -> dim seen = dim d -> parts_apart d -> apart d seen ->
  exists r, returns (fun n => pieces_rest P n d seen) r.
Proof.
  induction k as [|k IH]; intros d seen Hk Hd Hp Ha.
  - destruct (isempty P d) eqn:Ee; [exists []; apply ret_shift; cbn [pieces_rest]; rewrite Ee; apply ret_some|].
    destruct (cut_first P d) as [[f r]|] eqn:Ec; [|exfalso; apply (TL_cut _ _ _ _ TL d (or_introl Ee) Ec)]. pose proof (TL_cut_parts _ _ _ _ TL _ _ _ Ec). lia.
  - destruct (isempty P d) eqn:Ee; [exists []; apply ret_shift; cbn [pieces_rest]; rewrite Ee; apply ret_some|].
    destruct (cut_first P d) as [[f r]|] eqn:Ec; [|exfalso; apply (TL_cut _ _ _ _ TL d (or_introl Ee) Ec)]. pose proof (TL_cut_parts _ _ _ _ TL _ _ _ Ec) as Hn.
    destruct (cut_dims _ _ _ Ec) as [D1 D2]. destruct (cut_apart _ _ _ _ Ec Ha) as [A1 A2]. destruct (cut_parts_apart _ _ _ Ec Hp) as [P1 P2].
    assert (Hcv : isconvex P (difference P f seen) = true).
    { apply (TL_diff_convex _ _ _ _ TL); [congruence|eapply cut_convex; exact Ec|exact A1]. }
    destruct (isempty P (difference P f seen)) eqn:Ed.
    { destruct (IH r seen ltac:(lia) ltac:(congruence) P1 A2) as [s Hs]. exists s. apply ret_shift. cbn [pieces_rest]. rewrite Ee, Ec, Ed. exact Hs. }
    destruct (isempty P r) eqn:Er.
    { exists [difference P f seen]. apply ret_shift. cbn [pieces_rest]. rewrite Ee, Ec, Ed, Hcv, Er. cbn [obind]. apply ret_some. }
    destruct (IH r (union P seen (difference P f seen)) ltac:(lia)) as [s Hs].
    + rewrite union_dim; [congruence|]. rewrite diff_dim; congruence.
    + exact P1.
    + apply union_apart; [rewrite diff_dim; congruence|exact A2|]. apply diff_apart; [congruence|exact P2].
    + exists ([difference P f seen] ++ s). apply ret_shift. cbn [pieces_rest]. rewrite Ee, Ec, Ed, Hcv, Er. cbn [obind].
      apply ret_bind with s; [exact Hs|]. apply ret_some.
Qed.
Lemma su_dim d : dim (simplify_union P d) = dim d.
Proof. apply (L_su_dim _ _ (L v0)). Qed.
Lemma pieces_apart d : isconvex P d = false -> parts_apart d -> exists r, returns (fun n => pieces P n d) r.
Proof.
  intros Hc Hp. pose proof (TL_cut_coalesced _ _ _ _ TL d Hc) as Hn. destruct (cut_first P (simplify_union P d)) as [[f r]|] eqn:Ec; [|congruence].
  destruct (cut_parts_apart _ _ _ Ec (TL_coalesce_apart _ _ _ _ TL d Hp)) as [P1 P2]. destruct (cut_dims _ _ _ Ec) as [D1 D2].
  destruct (rest_apart _ r f (le_n _) ltac:(congruence) P1 P2) as [s Hs]. exists (f :: s). apply ret_shift. cbn [pieces]. rewrite Ec.
  apply ret_bind with s; [exact Hs|]. apply ret_some.
Qed.
Lemma rest_total : forall k d seen, nparts d <= k -> dim seen = dim d -> exists r, returns (fun n => pieces_rest P n d seen) r.
Proof.
  induction k as [|k IH]; intros d seen Hk Hd.
  - destruct (isempty P d) eqn:Ee; [exists []; apply ret_shift; cbn [pieces_rest]; rewrite Ee; apply ret_some|].
    destruct (cut_first P d) as [[f r]|] eqn:Ec; [|exfalso; apply (TL_cut _ _ _ _ TL d (or_introl Ee) Ec)]. pose proof (TL_cut_parts _ _ _ _ TL _ _ _ Ec). lia.
  - destruct (isempty P d) eqn:Ee; [exists []; apply ret_shift; cbn [pieces_rest]; rewrite Ee; apply ret_some|].
    destruct (cut_first P d) as [[f r]|] eqn:Ec; [|exfalso; apply (TL_cut _ _ _ _ TL d (or_introl Ee) Ec)]. pose proof (TL_cut_parts _ _ _ _ TL _ _ _ Ec) as Hn.
    destruct (cut_dims _ _ _ Ec) as [D1 D2].
    destruct (isempty P (difference P f seen)) eqn:Ed.
    { destruct (IH r seen ltac:(lia) ltac:(congruence)) as [s Hs]. exists s. apply ret_shift. cbn [pieces_rest]. rewrite Ee, Ec, Ed. exact Hs. }
    assert (Hh : exists h, returns (fun n => if isconvex P (difference P f seen) then Some [difference P f seen] else pieces P n (difference P f seen)) h).
    { destruct (isconvex P (difference P f seen)) eqn:Ecv; [eexists; apply ret_some|]. apply pieces_apart; [exact Ecv|].
      apply (TL_diff_apart _ _ _ _ TL); [congruence|eapply cut_convex; exact Ec]. }
    destruct Hh as [h Hh]. destruct (isempty P r) eqn:Er.
    { exists h. apply ret_shift. cbn [pieces_rest]. rewrite Ee, Ec, Ed, Er. apply ret_bind with h; [exact Hh|]. apply ret_some. }
    destruct (IH r (union P seen (difference P f seen)) ltac:(lia)) as [s Hs].
    + rewrite union_dim; [congruence|]. rewrite diff_dim; congruence.
    + exists (h ++ s). apply ret_shift. cbn [pieces_rest]. rewrite Ee, Ec, Ed, Er. apply ret_bind with h; [exact Hh|].
      apply ret_bind with s; [exact Hs|]. apply ret_some.
Qed.
Lemma pieces_total d : isconvex P d = false -> exists r, returns (fun n => pieces P n d) r.
Proof.
  intros Hc. pose proof (TL_cut_coalesced _ _ _ _ TL d Hc) as Hn. destruct (cut_first P (simplify_union P d)) as [[f r]|] eqn:Ec; [|congruence].
  destruct (cut_dims _ _ _ Ec) as [D1 D2]. destruct (rest_total _ r f (le_n _) ltac:(congruence)) as [s Hs]. exists (f :: s).
  apply ret_shift. cbn [pieces]. rewrite Ec. apply ret_bind with s; [exact Hs|]. apply ret_some.
Qed.
Lemma add_disjoint_total l : exists r, returns (fun n => add_disjoint P n l) r.
Proof.
  unfold add_disjoint. destruct (isconvex P (l_dom P l)) eqn:Ec; [eexists; apply ret_some|].
  destruct (pieces_total _ Ec) as [r Hr]. eexists. apply ret_bind with r; [exact Hr|]. apply ret_some.
Qed.
Lemma disjoint_total ls : exists r, returns (fun n => disjoint P n ls) r.
Proof. unfold disjoint. apply ret_oconcat. intros l _. apply add_disjoint_total. Qed.

(** the pieces have one part each *)
Definition one (d : dom) : Prop := single P d = true.
Lemma pieces_single : forall n, (forall d r, pieces P n d = Some r -> Forall one r) /\ (forall d s r, pieces_rest P n d s = Some r -> Forall one r).
Proof.
  induction n as [|n [IH1 IH2]]; split; intros.
  - discriminate.
  - discriminate.
  - cbn [pieces] in H. destruct (cut_first P (simplify_union P d)) as [[f rest]|] eqn:Ec; [|discriminate].
    apply obind_some in H as (q & E & H). injection H as <-. constructor; [exact (TL_single_cut _ _ _ _ TL _ _ _ Ec)|]. eapply IH2; exact E.
  - cbn [pieces_rest] in H. destruct (isempty P d); [injection H as <-; constructor|].
    destruct (cut_first P d) as [[f rest]|] eqn:Ec; [|discriminate].
    destruct (isempty P (difference P f s)) eqn:Ed; [eapply IH2; exact H|].
    apply obind_some in H as (h & Eh & H).
    assert (Fh : Forall one h).
    { destruct (isconvex P (difference P f s)) eqn:Ecv; [|eapply IH1; exact Eh]. injection Eh as <-. constructor; [|constructor]. apply (TL_single _ _ _ _ TL); assumption. }
    destruct (isempty P rest); [injection H as <-; exact Fh|]. apply obind_some in H as (m & Em & H). injection H as <-.
    apply Forall_app. split; [exact Fh|]. eapply IH2; exact Em.
Qed.
Lemma add_disjoint_single n l r : add_disjoint P n l = Some r -> isempty P (l_dom P l) = false \/ isconvex P (l_dom P l) = false ->
  Forall (fun l => one (l_dom P l)) r.
Proof.
  unfold add_disjoint. intros H He. destruct (isconvex P (l_dom P l)) eqn:Ec.
  - injection H as <-. constructor; [|constructor]. apply (TL_single _ _ _ _ TL); [exact Ec|]. destruct He as [He|He]; [exact He|discriminate].
  - apply obind_some in H as (ds & E & H). injection H as <-. rewrite Forall_map. cbn [l_dom]. eapply (proj1 (pieces_single n)); exact E.
Qed.

(** ** separation *)
Lemma sep_Q_total l Q : exists r, returns (fun n => sep_Q P n l Q) r.
Proof.
  unfold sep_Q. set (inter := if lazy_equal P (l_dom P Q) (l_dom P l) then l_dom P Q else intersection P (l_dom P Q) (l_dom P l)).
  set (disj := lazy_disjoint P (l_dom P Q) (l_dom P l) || isempty P inter).
  assert (H1 : exists r, returns (fun n => if disj then Some [] else add_disjoint P n (Loop inter false None None (l_inner P Q ++ l_inner P l))) r).
  { destruct disj; [eexists; apply ret_some|apply add_disjoint_total]. }
  destruct H1 as [r1 H1].
  set (d := if disj then l_dom P Q else if lazy_equal P (l_dom P Q) (l_dom P l) then empty_like P (l_dom P Q) else difference P (l_dom P Q) (l_dom P l)).
  assert (H2 : exists r, returns (fun n => if isempty P d then Some [] else add_disjoint P n (Loop d false None None (l_inner P Q))) r).
  { destruct (isempty P d); [eexists; apply ret_some|apply add_disjoint_total]. }
  destruct H2 as [r2 H2]. exists (r1 ++ r2). apply ret_bind with r1; [exact H1|]. apply ret_bind with r2; [exact H2|]. apply ret_some.
Qed.
Lemma sep_step_total acc l : exists r, returns (fun n => sep_step P n acc l) r.
Proof.
  destruct acc as [res UQ]. unfold sep_step. destruct (ret_oconcat (fun n => sep_Q P n l) res) as [r1 H1]; [intros Q _; apply sep_Q_total|].
  set (d := if lazy_disjoint P (l_dom P l) UQ then l_dom P l else if lazy_equal P (l_dom P l) UQ then empty_like P UQ else difference P (l_dom P l) UQ).
  assert (H2 : exists r, returns (fun n => if isempty P d then Some [] else add_disjoint P n (Loop d false None None (l_inner P l))) r).
  { destruct (isempty P d); [eexists; apply ret_some|apply add_disjoint_total]. }
  destruct H2 as [r2 H2]. exists (r1 ++ r2, union P UQ (l_dom P l)). apply ret_bind with r1; [exact H1|]. apply ret_bind with r2; [exact H2|]. apply ret_some.
Qed.
Lemma sep_all_total ls : forall acc, exists r, returns (fun n => sep_all P n acc ls) r.
Proof.
  induction ls as [|l ls IH]; intros acc; cbn [sep_all]; [eexists; apply ret_some|].
  destruct (sep_step_total acc l) as [a Ha]. destruct (IH a) as [r Hr]. exists r. apply ret_bind with a; assumption.
Qed.
Lemma separate_total ls : exists r, returns (fun n => separate P n ls) r.
Proof.
  unfold separate. destruct (combine P ls) as [|l [|l' r]]; [eexists; apply ret_some|apply disjoint_total|apply sep_all_total].
Qed.

Notation singles := (Forall (fun l : loop => one (l_dom P l))).
Lemma sep_Q_single n l Q r : sep_Q P n l Q = Some r -> singles r.
Proof.
  unfold sep_Q. intros H. apply obind_some in H as (a & Ea & H). apply obind_some in H as (b & Eb & H). injection H as <-.
  set (inter := if lazy_equal P (l_dom P Q) (l_dom P l) then l_dom P Q else intersection P (l_dom P Q) (l_dom P l)) in *.
  set (disj := lazy_disjoint P (l_dom P Q) (l_dom P l) || isempty P inter) in *. apply Forall_app. split.
  - destruct disj eqn:Ed; [injection Ea as <-; constructor|]. eapply add_disjoint_single; [exact Ea|]. left. cbn [l_dom]. apply orb_false_iff in Ed. apply Ed.
  - match type of Eb with (if isempty P ?d then _ else _) = _ => destruct (isempty P d) eqn:Ee end; [injection Eb as <-; constructor|].
    eapply add_disjoint_single; [exact Eb|]. left. exact Ee.
Qed.
Lemma sep_step_single n acc l r : sep_step P n acc l = Some r -> singles (fst r).
Proof.
  destruct acc as [res UQ]. unfold sep_step. intros H. apply obind_some in H as (a & Ea & H). apply obind_some in H as (b & Eb & H). injection H as <-.
  cbn [fst]. apply Forall_app. split.
  - apply oconcat_forall2 in Ea as (rss & -> & HF). clear - HF TL. induction HF as [|x y l1 l2 H _ IH]; [constructor|]. cbn [concat]. apply Forall_app. split; [eapply sep_Q_single; exact H|exact IH].
  - match type of Eb with (if isempty P ?d then _ else _) = _ => destruct (isempty P d) eqn:Ee end; [injection Eb as <-; constructor|].
    eapply add_disjoint_single; [exact Eb|]. left. exact Ee.
Qed.
Lemma sep_all_single n ls : forall acc r, sep_all P n acc ls = Some r -> singles (fst acc) -> singles r.
Proof.
  induction ls as [|l ls IH]; intros acc r H Ha; cbn [sep_all] in H; [injection H as <-; exact Ha|].
  apply obind_some in H as (a & Ea & H). eapply IH; [exact H|]. eapply sep_step_single; exact Ea.
Qed.
Lemma separate_single n ls r : separate P n ls = Some r -> length r = 1 \/ singles r.
Proof.
  unfold separate. destruct (combine P ls) as [|l [|l' t]]; intros H.
  - injection H as <-. right. constructor.
  - unfold disjoint, oconcat in H. cbn [omap obind] in H. apply obind_some in H as (a & Ea & H). apply obind_some in Ea as (b & Eb & Ea). injection Ea as <-.
    injection H as <-. cbn [concat]. rewrite app_nil_r. destruct (isconvex P (l_dom P l)) eqn:Ec.
    + left. unfold add_disjoint in Eb. rewrite Ec in Eb. injection Eb as <-. reflexivity.
    + right. eapply add_disjoint_single; [exact Eb|right; exact Ec].
  - right. cbn [sep_all] in H. apply obind_some in H as (a & Ea & H). eapply sep_all_single; [exact H|]. eapply sep_step_single; exact Ea.
Qed.

(** ** merging *)
Lemma merge_split_total o temp inner : forall k splitter res, nparts splitter <= k ->
  exists r, returns (fun n => merge_split P n o temp inner splitter res) r.
Proof.
  induction k as [|k IH]; intros splitter res Hk.
  - destruct (isconvex P splitter) eqn:Ec; [eexists; apply ret_shift; cbn [merge_split]; rewrite Ec; apply ret_some|].
    destruct (cut_first P splitter) as [[f r]|] eqn:Ef; [|exfalso; apply (TL_cut _ _ _ _ TL splitter (or_intror Ec) Ef)]. pose proof (TL_cut_parts _ _ _ _ TL _ _ _ Ef). lia.
  - destruct (isconvex P splitter) eqn:Ec; [eexists; apply ret_shift; cbn [merge_split]; rewrite Ec; apply ret_some|].
    destruct (cut_first P splitter) as [[f r]|] eqn:Ef; [|exfalso; apply (TL_cut _ _ _ _ TL splitter (or_intror Ec) Ef)]. pose proof (TL_cut_parts _ _ _ _ TL _ _ _ Ef).
    destruct (IH r (if isempty P (bounding_domain P o (intersection P f temp)) then res
                    else Loop (bounding_domain P o (intersection P f temp)) false None None inner :: res) ltac:(lia)) as [s Hs].
    exists s. apply ret_shift. cbn [merge_split]. rewrite Ec, Ef. exact Hs.
Qed.
Lemma merge_total o level ls : exists r, returns (fun n => merge P n o level ls) r.
Proof.
  unfold merge. destruct ls as [|l r]; [eexists; apply ret_some|].
  destruct (match r with [] => isconvex P (l_dom P l) | _ => false end); [eexists; apply ret_some|]. cbv zeta.
  destruct ((0 <? level) && _ && _); [|eexists; apply ret_some]. eapply merge_split_total. apply le_n.
Qed.
Lemma bounding_convex o d : isconvex P (bounding_domain P o d) = true.
Proof. unfold bounding_domain. destruct (o_sh o); [apply (L_simple_convex _ _ (L v0))|apply (L_convex_convex _ _ (L v0))]. Qed.
Lemma merge_split_single n o temp inner : forall splitter res r, merge_split P n o temp inner splitter res = Some r -> singles res -> singles r.
Proof.
  assert (A : forall s res, singles res -> singles (if isempty P (bounding_domain P o (intersection P s temp)) then res
                    else Loop (bounding_domain P o (intersection P s temp)) false None None inner :: res)).
  { intros s res Hr. destruct (isempty P (bounding_domain P o (intersection P s temp))) eqn:Ee; [exact Hr|]. constructor; [|exact Hr].
    apply (TL_single _ _ _ _ TL); [apply bounding_convex|exact Ee]. }
  induction n as [|n IH]; intros splitter res r H Hr; cbn [merge_split] in H; [discriminate|].
  destruct (isconvex P splitter); [injection H as <-; apply A; exact Hr|].
  destruct (cut_first P splitter) as [[f rest]|]; [|discriminate]. eapply IH; [exact H|]. apply A. exact Hr.
Qed.
Lemma merge_single n o level ls r : merge P n o level ls = Some r -> length r = 1 \/ singles r.
Proof.
  unfold merge. destruct ls as [|l t]; [intros H; injection H as <-; right; constructor|].
  destruct (match t with [] => isconvex P (l_dom P l) | _ => false end); [intros H; injection H as <-; left; reflexivity|]. cbv zeta.
  destruct ((0 <? level) && _ && _); intros H; [|injection H as <-; left; reflexivity]. right. eapply merge_split_single; [exact H|constructor].
Qed.

(** ** sorting *)
Lemma sort_total level ls : Forall (nd P level) ls -> Forall (cvx P) ls -> (forall v y, cov P (Sp v) ls y <= 1) ->
  length ls = 1 \/ singles ls -> exists r, sort P level ls = Some r.
Proof.
  intros Hnd Hcv Hcov Hs. unfold sort. destruct ((level =? 0) || (length ls =? 1)) eqn:E1; [eauto|].
  apply orb_false_iff in E1 as [E1 E2]. apply Nat.eqb_neq in E1, E2. destruct Hs as [Hs|Hs]; [lia|].
  assert (Hf : forallb (fun l => single P (l_dom P l)) ls = true).
  { apply forallb_forall. rewrite Forall_forall in Hs. exact Hs. }
  rewrite Hf. cbv zeta. set (cmp := fun i j => match nth_error ls i with Some a => match nth_error ls j with Some b => compare_at P (l_dom P a) (l_dom P b) level | None => 0%Z end | None => 0%Z end).
  assert (Hds : Forall (fun d => dim d = level /\ isconvex P d = true) (map (l_dom P) ls)).
  { rewrite Forall_map, Forall_forall. rewrite Forall_forall in Hnd, Hcv. intros l Hl. split; [apply (Hnd l Hl)|apply (Hcv l Hl)]. }
  assert (Hdd : ForallOrdPairs apart (map (l_dom P) ls)).
  { apply FOP_nth. intros i j a b Hij Ha Hb v. apply (proj1 (FOP_nth _ _) (proj2 (FOP_map _ _ _) (cov_le1_disj P (Sp v) ls (Hcov v))) i j a b Hij Ha Hb). }
  destruct (domain_sort_total cmp (length ls) (length ls * length ls)) as [r Hr].
  - intros c Hcyc. apply (TL_acyclic _ _ _ _ TL (map (l_dom P) ls) level ltac:(lia) Hds Hdd c).
    eapply clos_trans_mono; [|exact Hcyc]. clear. intros u w (H1 & H2 & H3).
    unfold must, cmp in H3. destruct (nth_error ls u) eqn:Eu; [|apply nth_error_None in Eu; lia].
    destruct (nth_error ls w) eqn:Ev; [|apply nth_error_None in Ev; lia].
    exists (l_dom P l), (l_dom P l0). rewrite !nth_error_map', Eu, Ev. split; [reflexivity|]. split; [reflexivity|]. lia.
  - apply le_n.
  - exists (pick ls (map Nat.pred r)). rewrite Hr. reflexivity.
Qed.
End Pieces.
