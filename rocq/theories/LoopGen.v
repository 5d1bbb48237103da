(** Correctness of the stages of cloog_loop_generate_general and of the components. *)
From Coq Require Import ZArith List Bool Arith Lia Permutation Sorted Relations.
From Verif Require Import SortModel DomainSortProofs TarjanProofs LoopModel LoopSpec LoopLists LoopCount LoopKeys LoopOrder.
Import ListNotations.
Local Arguments Nat.ltb : simpl never.
Local Arguments Nat.leb : simpl never.
Local Arguments Nat.eqb : simpl never.
Local Arguments Nat.sub : simpl never.

Section Gen.
Variable P : Poly.
Variable Se : Sem P.
Hypothesis L : Laws P Se.
Notation dom := (dom P).
Notation loop := (loop P).
Notation dim := (dim P).
Notation mem := (mem Se).
Notation Loop := (@Loop P).
Notation cnt := (cnt P Se).
Notation cnts := (cnts P Se).
Notation inn := (inn P Se).
Notation nd := (nd P).
Notation cov := (cov P Se).
Notation tight := (tight P Se).
Notation cvx := (cvx P).

Variable kinds : list bool.
Variable M : nat.
Variable tie : bool.
Variable O : Prop.
Variable o : options.
Hypothesis HSM : cf kinds <= M.
Hypothesis HOL : O -> OrderLaws P Se.
Notation scaldims := (run_lengths kinds).
Notation nb := (length kinds).
Notation R := (prec kinds M tie).
Notation pairok := (pairok P Se O R).
Notation valok := (valok P Se O R).
Notation flat := (flat P Se O R).
Notation ok1 := (ok1 P Se O R (isconvex P)).
Notation okl := (okl P Se O R (isconvex P)).
Notation at_pos := (at_pos kinds).
Notation T := (fun _ : list Z => True).

(** ** leaves *)
Definition leaf (l : loop) : Prop := l_st P l = None /\ l_inner P l = [] /\ exists b, l_blk P l = Some b.
Definition key (l : loop) : nat * option block := (dim (l_dom P l), l_blk P l).
Definition kscal (k : nat * option block) (i : nat) : Z := match snd k with Some b => nth i (b_scal b) 0%Z | None => 0%Z end.
Definition kpos (k : nat * option block) : nat := match snd k with Some b => b_pos b | None => 0 end.

Lemma blk_scal_key l i : blk_scal P l i = kscal (key l) i.
Proof. reflexivity. Qed.

(** input order: ties are broken by position; and of two loops with the same scalars, the
    one with no dimension left does not come first (see C03) *)
Definition Rin (k k' : nat * option block) : Prop :=
  (O -> tie = true -> kpos k <= kpos k') /\
  (last kinds false = true -> (forall i, i < ct kinds -> kscal k i = kscal k' i) -> cf kinds < fst k' -> cf kinds < fst k).

Record InvK (scalar : nat) (K : list (nat * option block)) : Prop := {
  iv_dim : Forall (fun k => cf kinds <= fst k) K;
  iv_M : O -> Forall (fun k => M <= fst k /\ (tie = true -> fst k = M)) K;
  iv_scal : forall k k', In k K -> In k' K -> forall i, i < scalar -> kscal k i = kscal k' i;
  iv_ord : ForallOrdPairs Rin K
}.
Definition Inv (scalar : nat) (ls : list loop) : Prop := Forall leaf ls /\ InvK scalar (map key ls).

Lemma InvK_subl scalar K K' : Subl K' K -> InvK scalar K -> InvK scalar K'.
Proof.
  intros H [H1 H2 H3 H4]. constructor.
  - eapply Subl_forall; eauto.
  - intros HO. eapply Subl_forall; eauto.
  - intros k k' Hk Hk'. apply H3; eapply Subl_in; eauto.
  - eapply FOP_subl; eauto.
Qed.
Lemma Subl_map {A B} (f : A -> B) l1 l2 : Subl l1 l2 -> Subl (map f l1) (map f l2).
Proof. induction 1; cbn; [apply Subl_nil|apply Subl_skip; assumption|apply Subl_keep; assumption]. Qed.
Lemma Inv_subl scalar l l' : Subl l' l -> Inv scalar l -> Inv scalar l'.
Proof. intros H [H1 H2]. split; [eapply Subl_forall; eauto|]. eapply InvK_subl; [apply Subl_map; exact H|exact H2]. Qed.

Lemma leaf_event l b x : leaf l -> 0 < cnt l b x ->
  l_blk P l = Some b /\ length x = dim (l_dom P l) /\ mem (l_dom P l) x = true.
Proof.
  destruct l as [d ot st blk inner]. unfold leaf. cbn. intros (-> & -> & b0 & ->) H.
  destruct (inn d None x) eqn:E; [|lia]. destruct (block_eq_dec b0 b) as [->|]; [|lia].
  destruct (Nat.eqb_spec (length x) (dim d)) as [E2|]; [|lia]. split; [reflexivity|]. split; [exact E2|].
  rewrite inn_none, <- E2, firstn_all in E. exact E.
Qed.

(** an instance of a list of leaves *)
Lemma inv_event scalar ls b x : Inv scalar ls -> 0 < cnts ls b x ->
  exists l, In l ls /\ leaf l /\ key l = (length x, Some b) /\ mem (l_dom P l) x = true.
Proof.
  intros [H1 H2] H. apply cnts_pos in H as (l & Hl & Hc). rewrite Forall_forall in H1.
  destruct (leaf_event l b x (H1 l Hl) Hc) as (E1 & E2 & E3). exists l. split; [exact Hl|]. split; [auto|]. unfold key. rewrite E1, E2. auto.
Qed.
Lemma inv_same_scal scalar ls b x b' x' : Inv scalar ls -> 0 < cnts ls b x -> 0 < cnts ls b' x' -> same_scal scalar (b_scal b) (b_scal b').
Proof.
  intros HI H H' i Hi. destruct (inv_event _ _ _ _ HI H) as (l & Hl & _ & Ek & _). destruct (inv_event _ _ _ _ HI H') as (l' & Hl' & _ & Ek' & _).
  pose proof (iv_scal _ _ (proj2 HI) (key l) (key l') (in_map _ _ _ Hl) (in_map _ _ _ Hl') i Hi) as E.
  rewrite Ek, Ek' in E. exact E.
Qed.
Lemma inv_len scalar ls b x : O -> Inv scalar ls -> 0 < cnts ls b x -> M <= length x /\ (tie = true -> length x = M).
Proof.
  intros HO HI H. destruct (inv_event _ _ _ _ HI H) as (l & Hl & _ & Ek & _).
  pose proof (iv_M _ _ (proj2 HI) HO) as HF. rewrite Forall_forall in HF. specialize (HF (key l) (in_map _ _ _ Hl)). rewrite Ek in HF. exact HF.
Qed.

Lemma inv_valok scalar n A ls :
  Inv scalar ls -> at_pos n scalar -> nth (n + scalar) kinds false = false -> Forall (fun l => n < dim (l_dom P l)) ls ->
  valok n A ls.
Proof.
  intros HI Hp Hk Hd HO b x b' x' H H' _ _ Hx Hlt.
  destruct (inv_len _ _ _ _ HO HI H) as [Hl1 Ht1]. destruct (inv_len _ _ _ _ HO HI H') as [Hl2 _].
  apply (prec_value kinds M tie HSM n scalar); auto; [|eapply inv_same_scal; eauto].
  intros Ht. rewrite <- (Ht1 Ht). destruct (inv_event _ _ _ _ HI H) as (l & Hl & _ & Ek & _).
  rewrite Forall_forall in Hd. specialize (Hd l Hl). injection Ek as E _. lia.
Qed.

Lemma inv_end scalar n A ls l l' :
  Inv scalar ls -> at_pos n scalar -> (O -> nb <= n + scalar /\ M <= n) -> In l ls -> In l' ls ->
  (O -> tie = true -> kpos (key l) <= kpos (key l')) -> pairok n A l l'.
Proof.
  intros HI Hp Hend Hl Hl' Ht HO b x b' x' H H' _ _ Hx. destruct (Hend HO) as [Hend1 HM].
  assert (C : 0 < cnts ls b x) by (apply cnts_pos; eauto). assert (C' : 0 < cnts ls b' x') by (apply cnts_pos; eauto).
  destruct (inv_len _ _ _ _ HO HI C) as [Hl1 _]. destruct (inv_len _ _ _ _ HO HI C') as [Hl2 _].
  apply (prec_end kinds M tie HSM n scalar); auto; [eapply inv_same_scal; eauto|].
  intros Htie. destruct HI as [HF _]. rewrite Forall_forall in HF.
  destruct (leaf_event _ _ _ (HF l Hl) H) as (E & _). destruct (leaf_event _ _ _ (HF l' Hl') H') as (E' & _).
  specialize (Ht HO Htie). unfold key, kpos in Ht. cbn in Ht. rewrite E, E' in Ht. exact Ht.
Qed.

(** ** scalar dimensions *)
Lemma nbs : nb_scattdims scaldims = nb.
Proof. apply run_lengths_length. Qed.
Lemma scaldim_eq i : scaldim scaldims i = if nth i kinds false then S (scaldim scaldims (S i)) else 0.
Proof. apply run_lengths_nth. Qed.
Lemma level_const n scalar : level_is_constant scaldims (S n) scalar = nth (n + scalar) kinds false.
Proof.
  unfold level_is_constant. rewrite nbs. replace (S n + scalar - 1) with (n + scalar) by lia. rewrite scaldim_eq.
  replace (negb (S n =? 0)) with true by reflexivity. cbn [andb].
  destruct (Nat.leb_spec (S n + scalar) nb) as [H|H].
  - destruct (nth (n + scalar) kinds false); reflexivity.
  - rewrite nth_overflow by lia. reflexivity.
Qed.
Lemma run_pos n r : forall scalar, at_pos n scalar -> scaldim scaldims (n + scalar) = r -> at_pos n (scalar + r).
Proof.
  induction r as [|r IH]; intros scalar Hp Hr; [rewrite Nat.add_0_r; exact Hp|].
  rewrite scaldim_eq in Hr. destruct (nth (n + scalar) kinds false) eqn:E; [|discriminate]. injection Hr as Hr.
  replace (scalar + S r) with (S scalar + r) by lia. apply IH; [apply at_pos_scal; assumption|].
  rewrite <- Hr. f_equal. lia.
Qed.
Lemma run_end n r : forall scalar, scaldim scaldims (n + scalar) = r -> nth (n + (scalar + r)) kinds false = false.
Proof.
  induction r as [|r IH]; intros scalar Hr.
  - rewrite Nat.add_0_r. rewrite scaldim_eq in Hr. destruct (nth (n + scalar) kinds false); [discriminate|reflexivity].
  - rewrite scaldim_eq in Hr. destruct (nth (n + scalar) kinds false) eqn:E; [|discriminate]. injection Hr as Hr.
    replace (scalar + S r) with (S scalar + r) by lia. apply IH. rewrite <- Hr. f_equal. lia.
Qed.
Lemma run_bound n r : forall scalar, scaldim scaldims (n + scalar) = r -> r = 0 \/ n + scalar + r <= nb.
Proof.
  induction r as [|r IH]; intros scalar Hr; [left; reflexivity|right].
  rewrite scaldim_eq in Hr. destruct (nth (n + scalar) kinds false) eqn:E; [|discriminate]. injection Hr as Hr.
  assert (n + scalar < nb). { destruct (Nat.lt_ge_cases (n + scalar) nb); [assumption|]. rewrite nth_overflow in E by lia. discriminate. }
  destruct (IH (S scalar)) as [->|IH']; [rewrite <- Hr; f_equal; lia|lia|lia].
Qed.

Lemma ccmp n l1 l2 : forall fuel scalar r, scaldim scaldims (n + scalar) = r -> r < fuel ->
  match constant_cmp_from P scaldims fuel l1 l2 (S n) scalar with
  | Eq => forall i, i < r -> blk_scal P l1 (scalar + i) = blk_scal P l2 (scalar + i)
  | Lt => exists i, i < r /\ (forall j, j < i -> blk_scal P l1 (scalar + j) = blk_scal P l2 (scalar + j)) /\
                    (blk_scal P l1 (scalar + i) < blk_scal P l2 (scalar + i))%Z
  | Gt => exists i, i < r /\ (forall j, j < i -> blk_scal P l1 (scalar + j) = blk_scal P l2 (scalar + j)) /\
                    (blk_scal P l1 (scalar + i) > blk_scal P l2 (scalar + i))%Z
  end.
Proof.
  induction fuel as [|f IH]; intros scalar r Hr Hf; [lia|]. cbn [constant_cmp_from]. rewrite level_const.
  rewrite scaldim_eq in Hr. destruct (nth (n + scalar) kinds false).
  - destruct r as [|r]; [discriminate|]. injection Hr as Hr.
    destruct (Z.compare_spec (blk_scal P l1 scalar) (blk_scal P l2 scalar)) as [E|E|E].
    + specialize (IH (S scalar) r). replace (S (n + scalar)) with (n + S scalar) in Hr by lia. specialize (IH Hr ltac:(lia)).
      assert (G : forall i, (forall j, j < i -> blk_scal P l1 (S scalar + j) = blk_scal P l2 (S scalar + j)) ->
                  forall j, j < S i -> blk_scal P l1 (scalar + j) = blk_scal P l2 (scalar + j)).
      { intros i H [|j] Hj; [rewrite Nat.add_0_r; exact E|]. specialize (H j ltac:(lia)). rewrite <- Nat.add_succ_comm. exact H. }
      destruct (constant_cmp_from P scaldims f l1 l2 (S n) (S scalar)).
      * apply G. exact IH.
      * destruct IH as (i & H1 & H2 & H3). exists (S i). split; [lia|]. split; [apply G; exact H2|]. rewrite <- Nat.add_succ_comm. exact H3.
      * destruct IH as (i & H1 & H2 & H3). exists (S i). split; [lia|]. split; [apply G; exact H2|]. rewrite <- Nat.add_succ_comm. exact H3.
    + exists 0. rewrite Nat.add_0_r. split; [lia|]. split; [intros j Hj; lia|exact E].
    + exists 0. rewrite Nat.add_0_r. split; [lia|]. split; [intros j Hj; lia|lia].
  - subst r. intros i Hi. lia.
Qed.
Lemma ccmp_full n l1 l2 scalar : let r := scaldim scaldims (n + scalar) in
  match constant_cmp P scaldims l1 l2 (S n) scalar with
  | Eq => forall i, i < r -> blk_scal P l1 (scalar + i) = blk_scal P l2 (scalar + i)
  | Lt => exists i, i < r /\ (forall j, j < i -> blk_scal P l1 (scalar + j) = blk_scal P l2 (scalar + j)) /\
                    (blk_scal P l1 (scalar + i) < blk_scal P l2 (scalar + i))%Z
  | Gt => exists i, i < r /\ (forall j, j < i -> blk_scal P l1 (scalar + j) = blk_scal P l2 (scalar + j)) /\
                    (blk_scal P l1 (scalar + i) > blk_scal P l2 (scalar + i))%Z
  end.
Proof.
  apply ccmp; [reflexivity|]. rewrite nbs. destruct (run_bound n _ scalar eq_refl) as [->|H]; [lia|].
  assert (scaldim scaldims (n + scalar) <= nb) by lia. lia.
Qed.

(** smaller scalars: must come first *)
Lemma scal_pair scalar0 n l1 l2 r i A :
  at_pos n scalar0 -> scaldim scaldims (n + scalar0) = r -> i < r ->
  leaf l1 -> leaf l2 -> (O -> M <= dim (l_dom P l1)) -> (O -> M <= dim (l_dom P l2)) ->
  (forall j, j < scalar0 -> blk_scal P l1 j = blk_scal P l2 j) ->
  (forall j, j < i -> blk_scal P l1 (scalar0 + j) = blk_scal P l2 (scalar0 + j)) ->
  (blk_scal P l1 (scalar0 + i) < blk_scal P l2 (scalar0 + i))%Z -> pairok n A l1 l2.
Proof.
  intros Hp Hr Hi Hf1 Hf2 HM1 HM2 Hs Hj Hlt HO b x b' x' H H' _ _ Hx.
  destruct (leaf_event _ _ _ Hf1 H) as (E & El & _). destruct (leaf_event _ _ _ Hf2 H') as (E' & El' & _).
  assert (G : forall k, k <= i -> at_pos n (scalar0 + k) /\ scaldim scaldims (n + (scalar0 + k)) = r - k).
  { induction k as [|k IH]; intros Hk; [rewrite Nat.add_0_r, Nat.sub_0_r; auto|]. destruct IH as [I1 I2]; [lia|].
    rewrite scaldim_eq in I2. destruct (nth (n + (scalar0 + k)) kinds false) eqn:Ek; [|lia].
    replace (scalar0 + S k) with (S (scalar0 + k)) by lia. split; [apply at_pos_scal; assumption|].
    replace (n + S (scalar0 + k)) with (S (n + (scalar0 + k))) by lia. lia. }
  destruct (G i (le_n i)) as [G1 G2]. unfold blk_scal in *. rewrite E, E' in *.
  rewrite scaldim_eq in G2. destruct (nth (n + (scalar0 + i)) kinds false) eqn:Ek; [|lia].
  pose proof (at_pos_scalar_le kinds n (scalar0 + i) G1 Ek) as Hn.
  apply (prec_scalar kinds M tie HSM n (scalar0 + i)); auto; try lia.
  - intros j Hj'. destruct (Nat.lt_ge_cases j scalar0) as [Hlj|Hge]; [auto|].
    replace j with (scalar0 + (j - scalar0)) by lia. apply Hj. lia.
  - specialize (HM1 HO). lia.
  - specialize (HM2 HO). lia.
Qed.

Lemma follows_from_spec l1 l2 def : leaf l1 -> leaf l2 ->
  (O -> M <= dim (l_dom P l1) /\ (tie = true -> dim (l_dom P l1) = M)) -> (O -> M <= dim (l_dom P l2)) ->
  (O -> tie = true -> def = false -> kpos (key l1) <= kpos (key l2)) ->
  forall fuel n scalar A, at_pos n scalar -> (forall j, j < scalar -> blk_scal P l1 j = blk_scal P l2 j) ->
  follows_from P scaldims fuel l1 l2 (S n) scalar def = Some false -> pairok n A l1 l2.
Proof.
  intros Hf1 Hf2 HM1 HM2 Hdef.
  assert (HM1' : O -> M <= dim (l_dom P l1)) by (intros HO; apply HM1; exact HO).
  induction fuel as [|f IH]; intros n scalar A Hp Hs H; [discriminate|]. cbn [follows_from] in H. rewrite level_const in H.
  destruct (nth (n + scalar) kinds false) eqn:Ek.
  - pose proof (ccmp_full n l1 l2 scalar) as Hc. cbv zeta in Hc. destruct (constant_cmp P scaldims l1 l2 (S n) scalar).
    + replace (S n + scalar - 1) with (n + scalar) in H by lia.
      refine (IH n _ A _ _ H).
      * apply run_pos; [exact Hp|reflexivity].
      * intros j Hj. destruct (Nat.lt_ge_cases j scalar); [auto|]. replace j with (scalar + (j - scalar)) by lia. apply Hc. lia.
    + destruct Hc as (i & H1 & H2 & H3). exact (scal_pair scalar n l1 l2 _ i A Hp eq_refl H1 Hf1 Hf2 HM1' HM2 Hs H2 H3).
    + discriminate.
  - intros HO b x b' x' Hc Hc' Ha Ha' Hx.
    destruct (leaf_event _ _ _ Hf1 Hc) as (E & El & Em). destruct (leaf_event _ _ _ Hf2 Hc') as (E' & El' & Em').
    assert (Hss : same_scal scalar (b_scal b) (b_scal b')).
    { intros j Hj. specialize (Hs j Hj). unfold blk_scal in Hs. rewrite E, E' in Hs. exact Hs. }
    specialize (HM1 HO). specialize (HM2 HO). destruct HM1 as [HMd1 Ht1].
    destruct ((S n <=? dim (l_dom P l1)) && (S n <=? dim (l_dom P l2))) eqn:Ed.
    + apply andb_prop in Ed as [Ed1 Ed2]. apply Nat.leb_le in Ed1, Ed2.
      assert (Hval : (nth n x 0 < nth n x' 0)%Z -> ~ R b' x' b x).
      { intros Hlt. apply (prec_value kinds M tie HSM n scalar); auto; try lia. intros Ht. specialize (Ht1 Ht). lia. }
      destruct (Z.ltb_spec 0 (follows_at P (l_dom P l1) (l_dom P l2) (S n))) as [Hg|Hg]; [discriminate|].
      destruct (Z.ltb_spec (follows_at P (l_dom P l1) (l_dom P l2) (S n)) 0) as [Hlt|Hge].
      * apply Hval. pose proof (OL_follows_lt _ _ (HOL HO) (l_dom P l1) (l_dom P l2) (S n) x x' ltac:(lia) Ed1 Ed2 Hlt Em Em') as Hv.
        replace (S n - 1) with n in Hv by lia. apply Hv. exact Hx.
      * pose proof (OL_follows_le _ _ (HOL HO) (l_dom P l1) (l_dom P l2) (S n) x x' ltac:(lia) Ed1 Ed2 Hg Em Em') as Hv.
        replace (S n - 1) with n in Hv by lia. specialize (Hv Hx).
        destruct (Z.eq_dec (nth n x 0%Z) (nth n x' 0%Z)) as [He|Hne]; [|apply Hval; lia].
        apply (IH (S n) scalar A (at_pos_next kinds n scalar Hp Ek) Hs H HO b x b' x'); auto.
        unfold agree in *. rewrite !firstn_snoc by lia. rewrite Hx, He. reflexivity.
    + injection H as ->.
      assert (HMn : M <= n). { apply andb_false_iff in Ed as [Ed|Ed]; apply Nat.leb_gt in Ed; lia. }
      apply (prec_end kinds M tie HSM n scalar); auto; try lia.
      * apply at_pos_no_false; auto. lia.
      * intros Ht. specialize (Hdef HO Ht eq_refl). unfold key, kpos in Hdef. cbn in Hdef. rewrite E, E' in Hdef. exact Hdef.
Qed.

Lemma follows_from_fuel l1 l2 def : forall fuel n scalar, at_pos n scalar ->
  n + scalar <= nb + dim (l_dom P l1) + 1 -> nb + dim (l_dom P l1) + 1 < fuel + (n + scalar) ->
  follows_from P scaldims fuel l1 l2 (S n) scalar def <> None.
Proof.
  induction fuel as [|f IH]; intros n scalar Hp Hn Hf; cbn [follows_from]; [lia|]. rewrite level_const.
  pose proof (ct_cf kinds) as Hct.
  destruct (nth (n + scalar) kinds false) eqn:Ek.
  - destruct (constant_cmp P scaldims l1 l2 (S n) scalar); try discriminate.
    replace (S n + scalar - 1) with (n + scalar) by lia.
    pose proof (run_pos n _ scalar Hp eq_refl) as Hp'. pose proof (run_bound n _ scalar eq_refl) as Hb.
    assert (scaldim scaldims (n + scalar) <> 0) by (rewrite scaldim_eq, Ek; discriminate).
    apply IH; [exact Hp'|lia|lia].
  - destruct ((S n <=? dim (l_dom P l1)) && (S n <=? dim (l_dom P l2))) eqn:Ed; [|discriminate].
    apply andb_prop in Ed as [Ed1 Ed2]. apply Nat.leb_le in Ed1, Ed2.
    destruct (0 <? follows_at P (l_dom P l1) (l_dom P l2) (S n))%Z; [discriminate|].
    destruct (follows_at P (l_dom P l1) (l_dom P l2) (S n) <? 0)%Z; [discriminate|].
    pose proof (at_pos_le kinds n scalar Hp). apply IH; [apply at_pos_next; assumption|lia|lia].
Qed.

Lemma follows_spec scalar ls l1 l2 def n A :
  Inv scalar ls -> In l1 ls -> In l2 ls -> at_pos n scalar -> n <= dim (l_dom P l1) ->
  (O -> tie = true -> def = false -> kpos (key l1) <= kpos (key l2)) ->
  follows P scaldims l1 l2 (S n) scalar def = false -> pairok n A l1 l2.
Proof.
  intros HI H1 H2 Hp Hn Hdef H. unfold follows in H.
  pose proof (at_pos_le kinds n scalar Hp) as Hs. pose proof (ct_cf kinds) as Hct.
  pose proof (follows_from_fuel l1 l2 def (S (S (nb_scattdims scaldims + dim (l_dom P l1) + dim (l_dom P l2)))) n scalar Hp) as Hfuel.
  rewrite nbs in Hfuel. specialize (Hfuel ltac:(lia) ltac:(lia)). rewrite nbs in H.
  destruct (follows_from P scaldims (S (S (nb + dim (l_dom P l1) + dim (l_dom P l2)))) l1 l2 (S n) scalar def) as [r|] eqn:E; [|contradiction].
  subst r. destruct HI as [HF HK]. rewrite Forall_forall in HF.
  assert (HM : forall l, In l ls -> O -> M <= dim (l_dom P l) /\ (tie = true -> dim (l_dom P l) = M)).
  { intros l Hl HO. pose proof (iv_M _ _ HK HO) as HFM. rewrite Forall_forall in HFM. exact (HFM (key l) (in_map _ _ _ Hl)). }
  eapply follows_from_spec; try exact E; auto.
  - intros HO. apply HM; assumption.
  - intros j Hj. exact (iv_scal _ _ HK (key l1) (key l2) (in_map _ _ _ H1) (in_map _ _ _ H2) j Hj).
Qed.

(** ** lists of stages *)
Lemma stage_fop n A Ns rss :
  Forall2 (fun N rs => (forall b x, cnts rs b x = cnt N b x) /\ ForallOrdPairs (pairok n A) rs) Ns rss ->
  ForallOrdPairs (pairok n A) Ns -> ForallOrdPairs (pairok n A) (concat rss).
Proof.
  intros HF. induction HF as [|N rs Ns rss [H1 H2] HF IH]; intros H; [constructor|].
  inversion H as [|? ? HN HNs]; subst. cbn. apply FOP_app. split; [exact H2|]. split; [apply IH; exact HNs|].
  intros a b Ha Hb. apply in_concat in Hb as (rs' & Hrs' & Hb).
  destruct (Forall2_in_r _ _ _ _ HF Hrs') as (N' & HN' & H1' & _).
  rewrite Forall_forall in HN. eapply pairok_cnt; [| |apply HN; exact HN'].
  - intros b0 x. rewrite <- H1. apply cnts_in. exact Ha.
  - intros b0 x. rewrite <- H1'. apply cnts_in. exact Hb.
Qed.
Lemma stage_cnts Ns rss b x : Forall2 (fun N rs => cnts rs b x = cnt N b x) Ns rss -> cnts (concat rss) b x = cnts Ns b x.
Proof.
  intros HF. unfold LoopSpec.cnts at 1. rewrite sumn_concat. unfold LoopSpec.cnts. symmetry.
  apply (sumn_forall2 _ _ _ _ _ HF). intros N rs _ H. symmetry. exact H.
Qed.
Lemma FOP_singletons n A Ns rss :
  Forall2 (fun N rs => forall b x, cnt rs b x = cnt N b x) Ns rss -> ForallOrdPairs (pairok n A) Ns -> ForallOrdPairs (pairok n A) rss.
Proof.
  intros HF H. eapply FOP_forall2; [exact HF| |exact H]. cbn. intros a a' b b' _ _ Ha Hb Hp.
  eapply pairok_cnt; [| |exact Hp]; intros c x; [rewrite Ha|rewrite Hb]; apply le_n.
Qed.

(** ** projection *)
Lemma project_loop_spec level l : level <= dim (l_dom P l) ->
  nd level (project_loop P level l) /\ l_inner P (project_loop P level l) = [l] /\ tight (project_loop P level l).
Proof.
  intros Hd. unfold project_loop. split; [|split; [reflexivity|]].
  - split; [|split; reflexivity]. cbn. destruct (Nat.eqb_spec (dim (l_dom P l)) level) as [E|E]; [exact E|].
    apply (L_project_dim _ _ L). exact Hd.
  - intros b x H. cbn [l_inner l_dom l_st] in *. rewrite inn_none.
    unfold LoopSpec.cnts in H. rewrite sumn_cons, sumn_nil, Nat.add_0_r in H.
    pose proof (inn_mem _ _ _ _ _ (cnt_inn _ _ _ _ _ H)) as E.
    destruct (Nat.eqb_spec (dim (l_dom P l)) level) as [Ed|Ed]; [exact E|].
    rewrite (L_project_dim _ _ L) by exact Hd.
    replace (firstn level x) with (firstn level (firstn (dim (l_dom P l)) x)); [|rewrite firstn_firstn, Nat.min_l by exact Hd; reflexivity].
    apply (L_project _ _ L); assumption.
Qed.
Lemma project_loop_cnt level l b x : level <= dim (l_dom P l) -> cnt (project_loop P level l) b x = cnt l b x.
Proof.
  intros Hd. destruct (project_loop_spec level l Hd) as ((H1 & H2 & H3) & H4 & H5).
  rewrite (tight_cnt P Se _ b x H3 H5), H4. unfold LoopSpec.cnts. rewrite sumn_cons, sumn_nil. lia.
Qed.
Lemma project_all_spec level ls : Forall (fun l => level <= dim (l_dom P l)) ls ->
  Forall (nd level) (project_all P level ls) /\ Forall tight (project_all P level ls) /\
  concat_inner P (project_all P level ls) = ls /\ (forall b x, cnts (project_all P level ls) b x = cnts ls b x).
Proof.
  intros H. unfold project_all. rewrite !Forall_map.
  split; [eapply Forall_impl; [|exact H]; cbn; intros l Hl; apply (project_loop_spec level l Hl)|].
  split; [eapply Forall_impl; [|exact H]; cbn; intros l Hl; apply (project_loop_spec level l Hl)|].
  split.
  - unfold concat_inner. clear H. induction ls as [|l ls IH]; [reflexivity|]. cbn. f_equal. exact IH.
  - intros b x. unfold LoopSpec.cnts. rewrite sumn_map. apply sumn_ext. intros l Hl. rewrite Forall_forall in H. apply project_loop_cnt. auto.
Qed.

(** ** sort *)
Lemma before_asym {A} (r : list A) a b : NoDup r -> before r a b -> before r b a -> False.
Proof.
  intros Hnd (l1 & l2 & l3 & E1) (m1 & m2 & m3 & E2).
  rewrite E1 in Hnd.
  assert (Hb1 : In b (l2 ++ b :: l3)) by (apply in_or_app; right; left; reflexivity).
  assert (Ha : forall u v, l1 ++ a :: l2 ++ b :: l3 = u ++ a :: v -> u = l1 /\ v = l2 ++ b :: l3).
  { intros u v E. clear E1 E2 Hb1. revert u E. induction l1 as [|c l1 IH]; intros [|d u] E; cbn in *.
    - injection E as <-. auto.
    - injection E as -> E. exfalso. inversion Hnd; subst. apply H1. rewrite E. apply in_or_app. right. left. reflexivity.
    - injection E as -> E. exfalso. inversion Hnd; subst. apply H1. rewrite in_app_iff. right. left. reflexivity.
    - injection E as -> E. inversion Hnd; subst. destruct (IH H2 u E) as [-> ->]. auto. }
  destruct (Ha (m1 ++ b :: m2) m3) as [E3 E4]; [rewrite <- E1, E2, <- app_assoc; reflexivity|].
  rewrite <- E3 in Hnd. rewrite <- app_assoc in Hnd. cbn in Hnd.
  apply NoDup_app_r in Hnd. inversion Hnd; subst. apply H1. apply in_or_app. right. right.
  apply in_or_app. right. left. reflexivity.
Qed.
Lemma FOP_before {A} (Q : A -> A -> Prop) (r : list A) : (forall a b, before r a b -> Q a b) -> ForallOrdPairs Q r.
Proof.
  induction r as [|a r IH]; intros H; constructor.
  - rewrite Forall_forall. intros b Hb. apply H. apply in_split in Hb as (l1 & l2 & ->). exists [], l1, l2. reflexivity.
  - apply IH. intros x y (l1 & l2 & l3 & ->). apply H. exists (a :: l1), l2, l3. reflexivity.
Qed.
Lemma FOP_pick {A} (Q : A -> A -> Prop) (ls : list A) idx :
  ForallOrdPairs (fun i j => forall a b, nth_error ls i = Some a -> nth_error ls j = Some b -> Q a b) idx ->
  ForallOrdPairs Q (pick ls idx).
Proof.
  induction 1 as [|i idx Hi HF IH]; [constructor|]. unfold pick. cbn [flat_map]. fold (pick ls idx). apply FOP_app. split; [|split; [exact IH|]].
  - destruct (nth_error ls i); cbn; repeat constructor.
  - intros a b Ha Hb. destruct (nth_error ls i) eqn:E; [|destruct Ha]. destruct Ha as [<-|[]].
    apply pick_in in Hb as (j & Hj & Eb). rewrite Forall_forall in Hi. exact (Hi j Hj _ _ eq_refl Eb).
Qed.

Lemma sort_perm level ls res : sort P level ls = Some res -> Permutation res ls.
Proof.
  unfold sort. intros H. destruct ((level =? 0) || (length ls =? 1)); [injection H as <-; reflexivity|].
  destruct (forallb (fun l => single P (l_dom P l)) ls); [|discriminate].
  apply obind_some in H as (permut & E & H). injection H as <-.
  apply domain_sort_perm in E. apply pick_perm.
  apply (Permutation_map Nat.pred) in E. rewrite E. rewrite <- seq_shift, map_map. cbn. rewrite map_id. reflexivity.
Qed.

Lemma nth_error_map' {A B} (f : A -> B) l i : nth_error (map f l) i = option_map f (nth_error l i).
Proof. revert i. induction l; intros [|i]; cbn; auto. Qed.

Lemma clos_trans_mono (R1 R2 : nat -> nat -> Prop) : (forall u v, R1 u v -> R2 u v) ->
  forall u v, clos_trans nat R1 u v -> clos_trans nat R2 u v.
Proof. intros H u v Hc. induction Hc as [u v Hc|u v w _ IH1 _ IH2]; [apply t_step; auto|eapply t_trans; eauto]. Qed.

Lemma sort_order n ls res : sort P (S n) ls = Some res ->
  Forall (nd (S n)) ls -> Forall cvx ls -> (forall y, cov ls y <= 1) ->
  valok n T ls -> ForallOrdPairs (pairok n T) res.
Proof.
  intros H Hnd Hcv Hcov Hval. unfold sort in H. destruct ((S n =? 0) || (length ls =? 1)) eqn:E1.
  { injection H as <-. cbn in E1. destruct ls as [|l [|l' r]]; [constructor|repeat constructor|discriminate]. }
  destruct (forallb (fun l => single P (l_dom P l)) ls); [|discriminate].
  apply obind_some in H as (permut & E & H). injection H as <-.
  set (cmp := fun i j => match nth_error ls i with Some a => match nth_error ls j with Some b => compare_at P (l_dom P a) (l_dom P b) (S n) | None => 0%Z end | None => 0%Z end) in *.
  pose proof (cov_le1_disj P Se ls Hcov) as Hdis.
  assert (Hds : Forall (fun d => dim d = S n /\ isconvex P d = true) (map (l_dom P) ls)).
  { rewrite Forall_map, Forall_forall. rewrite Forall_forall in Hnd, Hcv. intros l Hl. split; [apply (Hnd l Hl)|apply (Hcv l Hl)]. }
  assert (Hdd : ForallOrdPairs (disjoint_sets Se) (map (l_dom P) ls)) by (apply FOP_map; exact Hdis).
  pose proof (domain_sort_perm _ _ _ _ E) as Hperm.
  assert (Hnodup : NoDup permut) by (eapply Permutation_NoDup; [symmetry; exact Hperm|apply seq_NoDup]).
  (* everything below needs the order laws, so do it per pair *)
  apply FOP_pick, FOP_map, FOP_before. intros i j Hij a b Ha Hb HO bb x b' x' Hc Hc' _ _ Hag.
  assert (Hac : acyclic cmp (length ls)).
  { intros c Hcyc. apply (OL_acyclic _ _ (HOL HO) (map (l_dom P) ls) (S n) ltac:(lia) Hds Hdd c).
    eapply clos_trans_mono; [|exact Hcyc]. clear. intros u v (H1 & H2 & H3).
    unfold must, cmp in H3. destruct (nth_error ls u) eqn:Eu; [|apply nth_error_None in Eu; lia].
    destruct (nth_error ls v) eqn:Ev; [|apply nth_error_None in Ev; lia].
    exists (l_dom P l), (l_dom P l0). rewrite !nth_error_map', Eu, Ev. split; [reflexivity|]. split; [reflexivity|]. lia. }
  destruct (domain_sort_partial _ _ _ _ Hac E) as [_ Hmust].
  assert (Hin : forall k, In k permut -> 0 < k <= length ls).
  { intros k Hk. apply (Permutation_in _ Hperm) in Hk. apply in_seq in Hk. lia. }
  assert (Hi : In i permut /\ In j permut).
  { destruct Hij as (u & v & w & ->). split; apply in_or_app; right; [left; reflexivity|right; apply in_or_app; right; left; reflexivity]. }
  destruct Hi as [Hi Hj]. apply Hin in Hi, Hj.
  assert (Hnm : ~ must cmp (Nat.pred i) (Nat.pred j)).
  { intros Hm. specialize (Hmust (Nat.pred i) (Nat.pred j) ltac:(lia) ltac:(lia) Hm).
    replace (S (Nat.pred i)) with i in Hmust by lia. replace (S (Nat.pred j)) with j in Hmust by lia.
    exact (before_asym _ _ _ Hnodup Hij Hmust). }
  assert (Hne : Nat.pred i <> Nat.pred j).
  { intros Heq. destruct Hij as (u & v & w & Ep). rewrite Ep in Hnodup.
    assert (i = j) by lia. subst j. apply NoDup_app_r in Hnodup. inversion Hnodup; subst. apply H1. apply in_or_app. right; left; reflexivity. }
  assert (Hia : In a ls) by (eapply nth_error_In; eauto). assert (Hib : In b ls) by (eapply nth_error_In; eauto).
  rewrite Forall_forall in Hnd, Hcv.
  destruct (Hnd a Hia) as (Da & _ & _). destruct (Hnd b Hib) as (Db & _ & _).
  pose proof (inn_mem _ _ _ _ _ (cnt_inn _ _ _ _ _ Hc)) as Ma. pose proof (inn_mem _ _ _ _ _ (cnt_inn _ _ _ _ _ Hc')) as Mb.
  rewrite Da in Ma. rewrite Db in Mb.
  pose proof (L_len _ _ L _ _ Ma) as La. pose proof (L_len _ _ L _ _ Mb) as Lb. rewrite Da in La. rewrite Db in Lb.
  assert (Hx1 : nth n (firstn (S n) x) 0%Z = nth n x 0%Z) by (apply nth_firstn_lt; lia).
  assert (Hx2 : nth n (firstn (S n) x') 0%Z = nth n x' 0%Z) by (apply nth_firstn_lt; lia).
  assert (Hag' : agree n (firstn (S n) x) (firstn (S n) x')).
  { unfold agree in *. rewrite !firstn_firstn, Nat.min_l by lia. exact Hag. }
  assert (Hlt : (nth n x 0 < nth n x' 0)%Z).
  { pose proof (proj1 (FOP_nth _ _) Hdis) as Hdn. unfold must, cmp in Hnm. rewrite Ha, Hb in Hnm.
    destruct (Nat.lt_ge_cases (Nat.pred i) (Nat.pred j)) as [Hl|Hl].
    - pose proof (Hdn _ _ _ _ Hl Ha Hb) as Hd0.
      assert (Hd : disjoint_sets Se (l_dom P b) (l_dom P a)) by (intros y Hy1 Hy2; exact (Hd0 y Hy2 Hy1)).
      pose proof (OL_compare _ _ (HOL HO) (l_dom P b) (l_dom P a) (S n) _ _ ltac:(lia) Db Da (Hcv b Hib) (Hcv a Hia) Hd Mb Ma) as Hcm.
      replace (S n - 1) with n in Hcm by lia. specialize (Hcm (eq_sym Hag')). rewrite Hx1, Hx2 in Hcm. lia.
    - pose proof (Hdn _ _ _ _ (ltac:(lia) : Nat.pred j < Nat.pred i) Hb Ha) as Hd0.
      assert (Hd : disjoint_sets Se (l_dom P a) (l_dom P b)) by (intros y Hy1 Hy2; exact (Hd0 y Hy2 Hy1)).
      pose proof (OL_compare _ _ (HOL HO) (l_dom P a) (l_dom P b) (S n) _ _ ltac:(lia) Da Db (Hcv a Hia) (Hcv b Hib) Hd Ma Mb) as Hcm.
      replace (S n - 1) with n in Hcm by lia. specialize (Hcm Hag'). rewrite Hx1, Hx2 in Hcm. lia. }
  apply (Hval HO bb x b' x'); auto; apply cnts_pos; eauto.
Qed.

(** ** components *)
Lemma loop_components_spec (fol : loop -> loop -> bool -> bool) (Q : loop -> loop -> Prop) ls cs :
  (forall ia ib a b, nth_error ls ia = Some a -> nth_error ls ib = Some b -> fol a b (ib <? ia) = false -> ia <> ib -> Q a b) ->
  loop_components P fol ls = Some cs ->
  Permutation (concat cs) ls /\ Forall (fun c => Subl c ls /\ c <> []) cs /\
  ForallOrdPairs (fun c c' => forall a b, In a c -> In b c' -> Q a b) cs.
Proof.
  intros HQ H. unfold loop_components in H. set (e := fun i j => match nth_error ls i with Some a => match nth_error ls j with Some b => fol a b (j <? i) | None => false end | None => false end) in *.
  apply obind_some in H as (ids & E & H). injection H as <-.
  destruct (components_spec (length ls) e) as (cs0 & E0 & Hp & Hc & Hcl). rewrite E in E0. injection E0 as <-.
  assert (Hnd : NoDup (concat ids)) by (eapply Permutation_NoDup; [symmetry; exact Hp|apply seq_NoDup]).
  split; [rewrite pick_concat; apply pick_perm; exact Hp|]. split.
  - rewrite Forall_map, Forall_forall. intros c Hin. destruct (Hc c Hin) as (Hne & Hs & _). split.
    + apply pick_subl, sorted_lt_of_le; [exact Hs|]. apply in_split in Hin as (u & v & ->). rewrite concat_app in Hnd. cbn in Hnd.
      apply NoDup_app_r in Hnd. clear - Hnd. induction c; [constructor|]. cbn in Hnd. inversion Hnd; subst. constructor; [|apply IHc; exact H2].
      intros Hin. apply H1. apply in_or_app. left; exact Hin.
    + destruct c as [|i c]; [contradiction|]. intros Epick.
      assert (Hi : In i (concat ids)) by (apply in_concat; exists (i :: c); split; [exact Hin|left; reflexivity]).
      apply (Permutation_in _ Hp) in Hi. apply in_seq in Hi.
      destruct (nth_error ls i) eqn:En; [|apply nth_error_None in En; lia].
      unfold pick in Epick. cbn in Epick. rewrite En in Epick. discriminate.
  - apply FOP_map. apply FOP_before. intros c c' (u & v & w & Ecs) a b Ha Hb.
    apply pick_in in Ha as (ia & Hia & Ea). apply pick_in in Hb as (ib & Hib & Eb).
    assert (Hnot : ~ In ib (concat u ++ c)).
    { intros Hin. rewrite Ecs in Hnd. rewrite concat_app in Hnd. cbn in Hnd. rewrite concat_app in Hnd. cbn in Hnd.
      rewrite app_assoc in Hnd. apply (NoDup_app_disj _ _ ib Hnd Hin). apply in_or_app. right. apply in_or_app. left. exact Hib. }
    assert (Hiab : ia <> ib) by (intros ->; apply Hnot; apply in_or_app; right; exact Hia).
    apply (HQ ia ib a b Ea Eb); [|exact Hiab].
    destruct (fol a b (ib <? ia)) eqn:Ef; [|reflexivity]. exfalso. apply Hnot.
    apply (Hcl u c (v ++ c' :: w) Ecs ia ib Hia). apply reach_step. unfold edge.
    assert (ia < length ls) by (apply nth_error_Some; congruence). assert (ib < length ls) by (apply nth_error_Some; congruence).
    split; [assumption|]. split; [assumption|]. split; [exact Hiab|]. unfold e. rewrite Ea, Eb. exact Ef.
Qed.

Lemma Forall2_impl {A B} (Q Q' : A -> B -> Prop) l l' : (forall a b, Q a b -> Q' a b) -> Forall2 Q l l' -> Forall2 Q' l l'.
Proof. intros H HF. induction HF; constructor; auto. Qed.
Lemma stage_flat_map (f : loop -> list loop) n A Ns :
  (forall N, In N Ns -> (forall b x, cnts (f N) b x = cnt N b x) /\ ForallOrdPairs (pairok n A) (f N)) ->
  (forall b x, cnts (flat_map f Ns) b x = cnts Ns b x) /\
  (ForallOrdPairs (pairok n A) Ns -> ForallOrdPairs (pairok n A) (flat_map f Ns)).
Proof.
  intros H. rewrite flat_map_concat_map.
  assert (HF : Forall2 (fun N rs => (forall b x, cnts rs b x = cnt N b x) /\ ForallOrdPairs (pairok n A) rs) Ns (map f Ns)).
  { induction Ns as [|N Ns IH]; [constructor|]. cbn. constructor; [apply H; left; reflexivity|]. apply IH. intros N' HN'. apply H. right; exact HN'. }
  split; [|apply stage_fop; exact HF]. intros b x. apply stage_cnts. eapply Forall2_impl; [|exact HF]. cbn. intros N rs [H1 _]. apply H1.
Qed.
Lemma stage_oconcat (f : loop -> option (list loop)) n A Ns res :
  oconcat f Ns = Some res ->
  (forall N rs, In N Ns -> f N = Some rs -> (forall b x, cnts rs b x = cnt N b x) /\ ForallOrdPairs (pairok n A) rs) ->
  (forall b x, cnts res b x = cnts Ns b x) /\
  (ForallOrdPairs (pairok n A) Ns -> ForallOrdPairs (pairok n A) res) /\
  (forall N', In N' res -> exists N rs, In N Ns /\ f N = Some rs /\ In N' rs).
Proof.
  intros H Hf. apply oconcat_forall2 in H as (rss & -> & HF0).
  assert (HF : Forall2 (fun N rs => (forall b x, cnts rs b x = cnt N b x) /\ ForallOrdPairs (pairok n A) rs) Ns rss).
  { clear - HF0 Hf. induction HF0 as [|N rs Ns rss H HF IH]; constructor; [apply Hf; [left; reflexivity|exact H]|].
    apply IH. intros N' rs' HN'. apply Hf. right; exact HN'. }
  split; [|split].
  - intros b x. apply stage_cnts. eapply Forall2_impl; [|exact HF]. cbn. intros N rs [H1 _]. apply H1.
  - apply stage_fop; exact HF.
  - intros N' HN'. apply in_concat in HN' as (rs & Hrs & HN'). destruct (Forall2_in_r _ _ _ _ HF0 Hrs) as (N & HN & E). eauto.
Qed.
Lemma stage_omap (f : loop -> option loop) n A Ns res :
  omap f Ns = Some res ->
  (forall N N', In N Ns -> f N = Some N' -> forall b x, cnt N' b x = cnt N b x) ->
  (forall b x, cnts res b x = cnts Ns b x) /\
  (ForallOrdPairs (pairok n A) Ns -> ForallOrdPairs (pairok n A) res) /\
  (forall N', In N' res -> exists N, In N Ns /\ f N = Some N').
Proof.
  intros H Hf. apply omap_forall2 in H.
  assert (HF : Forall2 (fun N N' => forall b x, cnt N' b x = cnt N b x) Ns res).
  { clear - H Hf. induction H as [|N rs Ns rss H HF IH]; constructor; [apply Hf; [left; reflexivity|exact H]|].
    apply IH. intros N' rs' HN'. apply Hf. right; exact HN'. }
  split; [|split].
  - intros b x. unfold LoopSpec.cnts. symmetry. apply (sumn_forall2 _ _ _ _ _ HF). intros N N' _ E. symmetry. apply E.
  - apply FOP_singletons. exact HF.
  - intros N' HN'. destruct (Forall2_in_r _ _ _ _ H HN') as (N & HN & E). eauto.
Qed.

(** ** restriction of leaves *)
Lemma restrict_all_leaf D ls : Forall leaf ls -> Forall (fun l => dim D <= dim (l_dom P l)) ls ->
  Forall leaf (restrict_all P D ls) /\ Subl (map key (restrict_all P D ls)) (map key ls) /\
  (forall b x, cnts (restrict_all P D ls) b x = Nat.b2n (inn D None x) * cnts ls b x).
Proof.
  intros Hf Hd. split; [|split].
  - unfold restrict_all. rewrite Forall_forall. intros l' Hl'. apply in_flat_map in Hl' as (l & Hl & Hin).
    rewrite Forall_forall in Hf, Hd. destruct (Hf l Hl) as (H1 & H2 & H3).
    pose proof (restrict_spec P Se L D l (Hd l Hl) H1) as Hr. destruct (restrict P D l) as [l2|]; [|destruct Hin].
    destruct Hin as [<-|[]]. destruct Hr as (_ & R2 & R3 & R4 & _). unfold leaf. rewrite R2, R3, R4. auto.
  - unfold restrict_all. induction ls as [|l ls IH]; [constructor|]. inversion Hf as [|? ? Hf1 Hf2]; subst. inversion Hd as [|? ? Hd1 Hd2]; subst.
    cbn [flat_map map]. rewrite map_app. pose proof (restrict_spec P Se L D l Hd1 (proj1 Hf1)) as Hr.
    destruct (restrict P D l) as [l2|]; cbn [list_of map app].
    + destruct Hr as (R1 & R2 & R3 & R4 & _). assert (E : key l2 = key l) by (unfold key; rewrite R1, R3; reflexivity). rewrite E.
      apply Subl_keep. apply IH; assumption.
    + apply Subl_skip. apply IH; assumption.
  - intros b x. apply (restrict_all_cnts P Se L). rewrite Forall_forall in *. intros l Hl. split; [auto|apply (Hf l Hl)].
Qed.

(** ** nodes with leaves below *)
Record NP (level : nat) (K : list (nat * option block)) (N : loop) : Prop := {
  np_dim : dim (l_dom P N) = level;
  np_blk : l_blk P N = None;
  np_tight : tight N;
  np_leaf : Forall leaf (l_inner P N);
  np_key : Subl (map key (l_inner P N)) K;
  np_ne : l_inner P N <> []
}.
Lemma np_inv level scalar K N : InvK scalar K -> NP level K N -> Inv scalar (l_inner P N).
Proof. intros HK HN. split; [apply (np_leaf _ _ _ HN)|]. eapply InvK_subl; [apply (np_key _ _ _ HN)|exact HK]. Qed.
Lemma np_dims level K N (Q : nat -> Prop) : Forall (fun k => Q (fst k)) K -> NP level K N -> Forall (fun l => Q (dim (l_dom P l))) (l_inner P N).
Proof.
  intros HK HN. pose proof (Subl_forall _ _ _ (np_key _ _ _ HN) HK) as H. rewrite Forall_map in H. exact H.
Qed.
Lemma key_dims K (ls : list loop) (Q : nat -> Prop) : Forall (fun k => Q (fst k)) K -> Subl (map key ls) K -> Forall (fun l => Q (dim (l_dom P l))) ls.
Proof. intros HK HN. pose proof (Subl_forall _ _ _ HN HK) as H. rewrite Forall_map in H. exact H. Qed.

Lemma cnts_nil b x : cnts [] b x = 0.
Proof. reflexivity. Qed.
Lemma cnts1 l b x : cnts [l] b x = cnt l b x.
Proof. unfold LoopSpec.cnts. rewrite sumn_cons, sumn_nil. lia. Qed.
Lemma FOP1 {X} (Q : X -> X -> Prop) a : ForallOrdPairs Q [a].
Proof. repeat constructor. Qed.

Lemma restrict_inner_spec level K n A res : Forall (fun k => level <= fst k) K ->
  Forall (fun N => nd level N /\ cvx N /\ Forall leaf (l_inner P N) /\ Subl (map key (l_inner P N)) K) res ->
  (forall b x, cnts (restrict_inner P res) b x = cnts res b x) /\
  (ForallOrdPairs (pairok n A) res -> ForallOrdPairs (pairok n A) (restrict_inner P res)) /\
  Forall (fun N => NP level K N /\ cvx N /\ l_st P N = None) (restrict_inner P res).
Proof.
  intros HK HF. unfold restrict_inner. rewrite Forall_forall in HF.
  assert (G : forall N, In N res ->
     let rs := match restrict_all P (l_dom P N) (l_inner P N) with [] => [] | inner => [set_inner P N inner] end in
     (forall b x, cnts rs b x = cnt N b x) /\ ForallOrdPairs (pairok n A) rs /\ Forall (fun N => NP level K N /\ cvx N /\ l_st P N = None) rs).
  { intros N HN. destruct (HF N HN) as ((D & St & Bk) & Hcv & Hlf & Hky).
    destruct (restrict_all_leaf (l_dom P N) (l_inner P N) Hlf) as (R1 & R2 & R3).
    { rewrite D. apply (key_dims K _ (fun d => level <= d)); assumption. }
    cbv zeta. assert (Hc : forall b x, cnt N b x = cnts (restrict_all P (l_dom P N) (l_inner P N)) b x).
    { intros b x. rewrite R3. rewrite (cnt_nd P Se level N b x) by (repeat split; assumption). rewrite inn_none, D. reflexivity. }
    destruct (restrict_all P (l_dom P N) (l_inner P N)) as [|i r] eqn:E.
    - split; [intros b x; rewrite Hc; reflexivity|]. split; constructor.
    - assert (Ht : tight (set_inner P N (i :: r))).
      { intros b x Hx. unfold set_inner in *. cbn [l_inner l_dom l_st] in *. rewrite R3 in Hx. rewrite St.
        destruct (inn (l_dom P N) None x); [reflexivity|cbn in Hx; lia]. }
      split; [intros b x; rewrite cnts1, Hc; apply tight_cnt; [exact Bk|exact Ht]|]. split; [apply FOP1|].
      constructor; [|constructor]. split; [|split; [exact Hcv|exact St]].
      constructor; cbn; auto; [eapply Subl_trans; eauto|discriminate]. }
  destruct (stage_flat_map _ n A res (fun N HN => conj (proj1 (G N HN)) (proj1 (proj2 (G N HN))))) as [S1 S2].
  split; [exact S1|]. split; [exact S2|]. rewrite Forall_forall. intros N' HN'. apply in_flat_map in HN' as (N & HN & Hin).
  destruct (G N HN) as (_ & _ & HFn). rewrite Forall_forall in HFn. apply HFn. exact Hin.
Qed.

(** ** specialize *)
Lemma set_inner_cnts N cs b x : l_blk P N = None -> cnts (map (set_inner P N) cs) b x = Nat.b2n (inn (l_dom P N) (l_st P N) x) * cnts (concat cs) b x.
Proof.
  intros Hb. unfold LoopSpec.cnts. rewrite sumn_map, sumn_concat, <- sumn_mul. apply sumn_ext. intros c _.
  unfold set_inner. rewrite Hb. apply cnt_node.
Qed.

Definition NPc level K N := NP level K N /\ cvx N /\ l_st P N = None.

Lemma decompose_spec level scalar K res res' : InvK scalar K ->
  (level = 0 -> ~ O) -> (0 < level -> at_pos (level - 1) scalar) -> Forall (fun k => level <= fst k) K ->
  Forall (NPc level K) res -> decompose_inner P scaldims level scalar res = Some res' ->
  (forall b x, cnts res' b x = cnts res b x) /\
  (ForallOrdPairs (pairok (level - 1) T) res -> ForallOrdPairs (pairok (level - 1) T) res') /\
  Forall (NPc level K) res'.
Proof.
  intros HK H0 Hp HdK HF H. unfold decompose_inner in H. rewrite Forall_forall in HF.
  assert (G : forall N rs, In N res -> (if length (l_inner P N) <=? 1 then Some [N] else
      obind (loop_components P (fun a b def => follows P scaldims a b level scalar def) (l_inner P N)) (fun cs => Some (map (set_inner P N) cs))) = Some rs ->
     (forall b x, cnts rs b x = cnt N b x) /\ ForallOrdPairs (pairok (level - 1) T) rs /\ Forall (NPc level K) rs).
  { intros N rs HN HE. pose proof (HF N HN) as HNP. destruct HNP as (HNP & Hcv & Hst). destruct (length (l_inner P N) <=? 1).
    - injection HE as <-. split; [intros; apply cnts1|]. split; [apply FOP1|]. constructor; [exact (HF N HN)|constructor].
    - apply obind_some in HE as (cs & Ecs & HE). injection HE as <-.
      pose proof (np_inv _ _ _ _ HK HNP) as HI. pose proof (np_dims _ _ _ (fun d => level <= d) HdK HNP) as Hdims.
      destruct (loop_components_spec (fun a b def => follows P scaldims a b level scalar def) (pairok (level - 1) T) (l_inner P N) cs) as (C1 & C2 & C3); [|exact Ecs|].
      { intros ia ib a b Ea Eb Hfol Hne. destruct level as [|n]; [intros HO; exfalso; exact (H0 eq_refl HO)|].
        replace (S n - 1) with n in * by lia.
        eapply (follows_spec scalar (l_inner P N) a b); try exact Hfol; try (eapply nth_error_In; eassumption); [exact HI|apply Hp; lia| |].
        - rewrite Forall_forall in Hdims. specialize (Hdims a (nth_error_In _ _ Ea)). cbn in Hdims. lia.
        - intros HO Ht Hlt. apply Nat.ltb_ge in Hlt. assert (Hab : ia < ib) by lia.
          pose proof (iv_ord _ _ (proj2 HI)) as Hor.
          pose proof (proj1 (FOP_nth _ _) Hor ia ib (key a) (key b) Hab) as Hr. rewrite !nth_error_map', Ea, Eb in Hr.
          apply (Hr eq_refl eq_refl); assumption. }
      split; [|split].
      + intros b x. rewrite set_inner_cnts by apply (np_blk _ _ _ HNP). rewrite (cnts_perm _ _ _ _ _ _ C1).
        destruct N as [d ot st blk inner]. pose proof (np_blk _ _ _ HNP) as Hb. cbn [l_blk l_dom l_st l_inner] in *. subst blk. rewrite cnt_node. reflexivity.
      + apply FOP_map. eapply FOP_impl; [|exact C3]. intros c c' Hc Hc' Hcc HO b x b' x' E1 E2.
        unfold set_inner in E1, E2. rewrite (np_blk _ _ _ HNP), cnt_node in E1, E2.
        assert (F1 : 0 < cnts c b x) by (destruct (cnts c b x); lia). assert (F2 : 0 < cnts c' b' x') by (destruct (cnts c' b' x'); lia).
        apply cnts_pos in F1 as (a & Ha & Fa). apply cnts_pos in F2 as (a' & Ha' & Fa').
        apply (Hcc a a' Ha Ha' HO b x b' x' Fa Fa').
      + rewrite Forall_map, Forall_forall. intros c Hc. rewrite Forall_forall in C2. destruct (C2 c Hc) as [Hsub Hne].
        split; [|split; [exact Hcv|exact Hst]]. constructor; cbn; try apply HNP; auto.
        * intros b x Hx. cbn in *. apply (np_tight _ _ _ HNP b x). apply cnts_pos in Hx as (l & Hl & Hx). apply cnts_pos. exists l. split; [eapply Subl_in; eauto|exact Hx].
        * eapply Subl_forall; [exact Hsub|apply (np_leaf _ _ _ HNP)].
        * eapply Subl_trans; [apply Subl_map; exact Hsub|apply (np_key _ _ _ HNP)]. }
  destruct (stage_oconcat _ (level - 1) T _ _ H) as (S1 & S2 & S3).
  { intros N rs HN HE. destruct (G N rs HN HE) as (G1 & G2 & _). auto. }
  split; [exact S1|]. split; [exact S2|]. rewrite Forall_forall. intros N' HN'. destruct (S3 N' HN') as (N & rs & HN & HE & Hin).
  destruct (G N rs HN HE) as (_ & _ & G3). rewrite Forall_forall in G3. apply G3; exact Hin.
Qed.

Lemma proj_event i level b x : level <= dim (l_dom P i) -> 0 < cnt i b x -> mem (project P (l_dom P i) level) (firstn level x) = true.
Proof.
  intros Hd H. pose proof (inn_mem _ _ _ _ _ (cnt_inn _ _ _ _ _ H)) as E.
  replace (firstn level x) with (firstn level (firstn (dim (l_dom P i)) x)); [|rewrite firstn_firstn, Nat.min_l by exact Hd; reflexivity].
  apply (L_project _ _ L); assumption.
Qed.

Lemma specialize1_spec level K N N' : Forall (fun k => level <= fst k) K -> NPc level K N -> specialize1 P N = Some N' ->
  (forall b x, cnt N' b x = cnt N b x) /\ NPc level K N'.
Proof.
  intros HdK (HNP & Hcv & Hst) H. unfold specialize1 in H.
  assert (Hsame : N' = N -> (forall b x, cnt N' b x = cnt N b x) /\ NPc level K N').
  { intros ->. split; [reflexivity|]. repeat (split; try assumption). }
  destruct (l_inner P N) as [|i [|i2 r]] eqn:Ei; [discriminate| |injection H as <-; auto].
  destruct (isconvex P (l_dom P i)); [|injection H as <-; auto].
  rewrite (np_dim _ _ _ HNP) in H.
  destruct (isconvex P (project P (l_dom P i) level)) eqn:Ec; [|injection H as <-; auto]. injection H as <-.
  pose proof (np_dims _ _ _ (fun d => level <= d) HdK HNP) as Hdims. rewrite Ei in Hdims. inversion Hdims as [|? ? Hdi _]; subst. cbn in Hdi.
  assert (Ht : tight (set_dom P N (project P (l_dom P i) level))).
  { intros b x Hx. unfold set_dom in *. cbn [l_inner l_dom l_st] in *. rewrite Hst, inn_none, (L_project_dim _ _ L) by exact Hdi.
    rewrite Ei, cnts1 in Hx. eapply proj_event; eauto. }
  split.
  - intros b x. rewrite (tight_cnt P Se _ b x (np_blk _ _ _ HNP : l_blk P (set_dom P N _) = None) Ht).
    rewrite (tight_cnt P Se _ b x (np_blk _ _ _ HNP) (np_tight _ _ _ HNP)). reflexivity.
  - split; [|split; [exact Ec|exact Hst]]. constructor; cbn; try apply HNP; auto. apply (L_project_dim _ _ L); exact Hdi.
Qed.

Lemma specialize_spec level scalar K res res' : InvK scalar K ->
  (level = 0 -> ~ O) -> (0 < level -> at_pos (level - 1) scalar) -> Forall (fun k => level <= fst k) K ->
  Forall (NPc level K) res -> specialize P scaldims level scalar res = Some res' ->
  (forall b x, cnts res' b x = cnts res b x) /\
  (ForallOrdPairs (pairok (level - 1) T) res -> ForallOrdPairs (pairok (level - 1) T) res') /\
  Forall (NPc level K) res'.
Proof.
  intros HK H0 Hp HdK HF H. unfold specialize in H. apply obind_some in H as (r1 & E1 & H). apply obind_some in H as (r2 & E2 & H). injection H as <-.
  destruct (decompose_spec _ _ _ _ _ HK H0 Hp HdK HF E1) as (A1 & A2 & A3).
  assert (G : forall N N', In N r1 -> specialize1 P N = Some N' -> (forall b x, cnt N' b x = cnt N b x) /\ NPc level K N').
  { intros N N' HN HE. rewrite Forall_forall in A3. eapply specialize1_spec; eauto. }
  destruct (stage_omap _ (level - 1) T _ _ E2 (fun N N' HN HE => proj1 (G N N' HN HE))) as (B1 & B2 & B3).
  assert (B4 : Forall (NPc level K) r2).
  { rewrite Forall_forall. intros N' HN'. destruct (B3 N' HN') as (N & HN & HE). apply (G N N' HN HE). }
  unfold remove_empty. split; [|split].
  - intros b x. rewrite <- A1, <- B1. clear - L. induction r2 as [|l r IH]; [reflexivity|]. cbn [filter].
    destruct (isempty P (l_dom P l)) eqn:E; cbn [negb]; rewrite ?cnts_cons, IH; [|reflexivity].
    destruct (cnt l b x) eqn:Ec; [reflexivity|]. pose proof (cnt_inn P Se l b x ltac:(lia)) as Hi. apply inn_mem in Hi.
    rewrite (L_isempty _ _ L _ _ E) in Hi. discriminate.
  - intros HP0. eapply FOP_subl; [apply Subl_filter|auto].
  - eapply Subl_forall; [apply Subl_filter|exact B4].
Qed.

(** ** the body of a loop *)
Definition cvO (N : loop) : Prop := (O -> cvx N) /\ (cvx N \/ l_st P N = None).
Definition sub_st (N : loop) : Prop := o_strides o = false -> l_st P N = None.
Record Post (level : nat) (N : loop) : Prop := {
  po_blk : l_blk P N = None;
  po_dim : dim (l_dom P N) = level;
  po_cv : cvO N;
  po_tight : tight N;
  po_okl : okl level T (l_inner P N);
  po_val : 0 < level -> valok (level - 1) T (l_inner P N);
  po_st : sub_st N
}.
Record GG (level : nat) (N : loop) : Prop := {
  gg_blk : l_blk P N = None;
  gg_dim : dim (l_dom P N) = level;
  gg_cv : cvO N;
  gg_ok : ok1 N (level - 1) T;
  gg_st : sub_st N
}.

Lemma cv_ok N n A : cvO N -> isconvex P (l_dom P N) = true \/ (l_st P N = None /\ flat n A (l_inner P N)).
Proof.
  intros [H1 H2]. destruct (isconvex P (l_dom P N)) eqn:E; [left; reflexivity|right].
  split; [destruct H2 as [H2|H2]; [unfold LoopCount.cvx in H2; congruence|exact H2]|].
  intros HO. specialize (H1 HO). unfold LoopCount.cvx in H1. congruence.
Qed.

Lemma mk_node level N : l_blk P N = None -> dim (l_dom P N) = level -> cvO N ->
  okl level T (l_inner P N) -> (0 < level -> valok (level - 1) T (l_inner P N)) -> ok1 N (level - 1) T.
Proof.
  intros Hb Hd Hc Ho Hv. destruct N as [d ot st blk inner]. cbn [l_blk l_dom l_inner] in *. subst blk. apply ok1_node.
  split; [apply (cv_ok (Loop d ot st None inner)); exact Hc|].
  assert (G : okl level (andp P Se T d st) inner) by (eapply okl_mono; [|exact Ho]; intros; exact I).
  destruct level as [|n].
  - left. change (0 - 1) with 0. auto.
  - right. replace (S n - 1) with n in * by lia. split; [exact Hd|]. split; [|exact G].
    eapply valok_mono; [|apply Hv; lia]. intros; exact I.
Qed.
Lemma post_gg level N : Post level N -> GG level N.
Proof. intros [H1 H2 H3 H4 H5 H6 H7]. constructor; auto. apply mk_node; auto. Qed.

(** ** recursion on the inner loops *)
Definition RecSpec (rec : list loop -> option (list loop)) (level scalar : nat) : Prop :=
  forall g res, Inv scalar g -> Forall (fun l => more P scaldims (S level) scalar l = true) g -> g <> [] -> rec g = Some res ->
  (forall b x, cnts res b x = cnts g b x) /\ okl level T res.

Definition EndC (level scalar : nat) : Prop := O -> nb <= level + scalar /\ M <= level.

Lemma inv_cross scalar level ls1 ls2 : Inv scalar (ls1 ++ ls2) -> at_pos level scalar -> EndC level scalar ->
  O -> forall b x b' x', 0 < cnts ls1 b x -> 0 < cnts ls2 b' x' -> T x -> T x' -> agree level x x' -> ~ R b' x' b x.
Proof.
  intros HI Hp HE HO b x b' x' H H' Hx Hx' Ha. apply cnts_pos in H as (l & Hl & H). apply cnts_pos in H' as (l' & Hl' & H').
  assert (Hord : kpos (key l) <= kpos (key l') \/ tie = false).
  { destruct tie eqn:Et; [|right; reflexivity]. left. pose proof (iv_ord _ _ (proj2 HI)) as Hor. rewrite map_app in Hor.
    apply FOP_app in Hor as (_ & _ & Hor). apply (Hor (key l) (key l')); auto; apply in_map; assumption. }
  refine (inv_end scalar level T (ls1 ++ ls2) l l' HI Hp HE _ _ _ HO b x b' x' H H' Hx Hx' Ha).
  - apply in_or_app; left; exact Hl.
  - apply in_or_app; right; exact Hl'.
  - intros _ Ht. destruct Hord as [?|Hf]; [assumption|congruence].
Qed.

Lemma leaf_okl level l : leaf l -> dim (l_dom P l) = level -> okl level T [l].
Proof.
  intros (H1 & H2 & b & H3) Hd. split; [|apply FOP1]. constructor; [|constructor].
  destruct l as [d ot st blk inner]. cbn in *. subst. auto.
Qed.

Lemma rr_spec rec level scalar : RecSpec rec level scalar -> at_pos level scalar ->
  forall ls pre grp into term stale res,
  Inv scalar (pre ++ grp ++ ls) -> Forall (fun l => level <= dim (l_dom P l)) (grp ++ ls) ->
  (forall b x, cnts into b x = cnts pre b x) -> okl level T into ->
  Forall (fun l => more P scaldims (S level) scalar l = true) grp ->
  EndC level scalar \/ (pre = [] /\ Forall (fun l => more P scaldims (S level) scalar l = true) ls) ->
  recurse_runs P rec (runs P (more P scaldims (S level) scalar) grp ls) into term stale = Some res ->
  (forall b x, cnts res b x = cnts (pre ++ grp ++ ls) b x) /\ okl level T res.
Proof.
  intros HR Hp ls.
  assert (Flush : forall grp rest pre ls' into term stale res,
     Inv scalar (pre ++ grp ++ ls') -> (forall b x, cnts into b x = cnts pre b x) -> okl level T into ->
     Forall (fun l => more P scaldims (S level) scalar l = true) grp -> EndC level scalar \/ pre = [] ->
     recurse_runs P rec (match grp with [] => [] | _ => [(true, grp)] end ++ rest) into term stale = Some res ->
     exists into' term' stale', recurse_runs P rec rest into' term' stale' = Some res /\
        (forall b x, cnts into' b x = cnts (pre ++ grp) b x) /\ okl level T into').
  { intros grp rest pre ls' into term stale res HI Hc Hok Hg HE H. destruct grp as [|g grp].
    - cbn in H. exists into, term, stale. rewrite app_nil_r. auto.
    - set (G := g :: grp) in *. cbn [app recurse_runs] in H. apply obind_some in H as (l & El & H).
      assert (HIG : Inv scalar G) by (eapply Inv_subl; [|exact HI]; apply Subl_app_r, Subl_app_l, Subl_refl).
      destruct (HR G l HIG Hg ltac:(discriminate) El) as [R1 R2].
      assert (Hok2 : okl level T (into ++ l)).
      { apply okl_app; [exact Hok|exact R2|]. intros HO b x b' x' H1 H2. rewrite Hc in H1. rewrite R1 in H2.
        destruct HE as [HE| ->]; [|unfold LoopSpec.cnts in H1; rewrite sumn_nil in H1; lia].
        apply (inv_cross scalar level pre G); auto. eapply Inv_subl; [|exact HI]. apply Subl_app; [apply Subl_refl|apply Subl_app_l, Subl_refl]. }
      assert (Hc2 : forall b x, cnts (into ++ l) b x = cnts (pre ++ G) b x) by (intros b x; rewrite !cnts_app, Hc, R1; reflexivity).
      destruct l as [|l1 lr].
      + exists into, term, term. rewrite app_nil_r in Hc2, Hok2. auto.
      + exists (into ++ l1 :: lr), false, false. auto. }
  induction ls as [|l ls IH]; intros pre grp into term stale res HI Hd Hc Hok Hg HE H; cbn [runs] in H.
  - destruct (Flush grp [] pre [] into term stale res) as (i' & t' & s' & H' & C' & O'); auto; [destruct HE as [?|[? _]]; auto|rewrite app_nil_r; exact H|].
    cbn in H'. destruct s'; [discriminate|]. injection H' as <-. rewrite app_nil_r. auto.
  - destruct (more P scaldims (S level) scalar l) eqn:Em.
    + assert (E : pre ++ grp ++ l :: ls = pre ++ (grp ++ [l]) ++ ls) by (rewrite <- !app_assoc; reflexivity).
      rewrite E in *. eapply IH; try exact H; auto.
      * rewrite <- app_assoc. exact Hd.
      * apply Forall_app. split; [exact Hg|]. constructor; [exact Em|constructor].
      * destruct HE as [?|[? HF]]; [left; assumption|right; split; [assumption|]]. inversion HF; assumption.
    + assert (HE' : EndC level scalar).
      { destruct HE as [?|[_ HF]]; [assumption|]. inversion HF; congruence. }
      assert (Hdl : dim (l_dom P l) = level).
      { rewrite Forall_app in Hd. destruct Hd as [_ Hd]. inversion Hd as [|? ? Hd1 _]; subst. unfold more in Em. apply orb_false_iff in Em as [_ Em]. apply Nat.leb_gt in Em. lia. }
      assert (Hlf : leaf l).
      { destruct HI as [HI _]. rewrite !Forall_app in HI. destruct HI as (_ & _ & HI). inversion HI; assumption. }
      destruct (Flush grp ((false, [l]) :: runs P (more P scaldims (S level) scalar) [] ls) pre (l :: ls) into term stale res) as (i' & t' & s' & H' & C' & O'); auto.
      cbn [recurse_runs] in H'.
      assert (E : pre ++ grp ++ l :: ls = (pre ++ grp ++ [l]) ++ [] ++ ls) by (rewrite <- !app_assoc; reflexivity).
      rewrite E in *. eapply IH; try exact H'; auto.
      * rewrite Forall_app in Hd. destruct Hd as [_ Hd]. inversion Hd; assumption.
      * intros b x. rewrite !cnts_app, C', cnts_app. lia.
      * apply okl_app; [exact O'|apply leaf_okl; assumption|]. intros HO b x b' x' H1 H2. rewrite C' in H1.
        apply (inv_cross scalar level (pre ++ grp) [l]); auto. eapply Inv_subl; [|exact HI]. replace ((pre ++ grp) ++ [l]) with (pre ++ grp ++ [l]) by (rewrite app_assoc; reflexivity). apply Subl_app_l, Subl_refl.
Qed.

Lemma runs_spec rec level scalar I res : RecSpec rec level scalar -> at_pos level scalar -> Inv scalar I ->
  Forall (fun l => level <= dim (l_dom P l)) I ->
  recurse_runs P rec (runs P (more P scaldims (S level) scalar) [] I) [] false false = Some res ->
  (forall b x, cnts res b x = cnts I b x) /\ okl level T res.
Proof.
  intros HR Hp HI Hd H. eapply (rr_spec rec level scalar HR Hp I [] []); try exact H; cbn [app]; auto.
  - apply okl_nil.
  - destruct (forallb (more P scaldims (S level) scalar) I) eqn:E.
    + right. split; [reflexivity|]. rewrite Forall_forall. apply forallb_forall. exact E.
    + left. intros HO. assert (Hex : exists l, In l I /\ more P scaldims (S level) scalar l = false).
      { clear - E. induction I as [|l I IH]; [discriminate|]. cbn in E. destruct (more P scaldims (S level) scalar l) eqn:Em.
        - destruct (IH E) as (l' & Hl' & E'). exists l'. split; [right; exact Hl'|exact E'].
        - exists l. split; [left; reflexivity|exact Em]. }
      destruct Hex as (l & Hl & Em). unfold more in Em. rewrite nbs in Em. apply orb_false_iff in Em as [E1 E2]. apply Nat.leb_gt in E1, E2.
      pose proof (iv_M _ _ (proj2 HI) HO) as HFM. rewrite Forall_forall in HFM. specialize (HFM (key l) (in_map _ _ _ Hl)). cbn in HFM. lia.
Qed.

Definition NPo level K N := NP level K N /\ cvO N /\ sub_st N.
Lemma npc_npo level K N : NPc level K N -> NPo level K N.
Proof. intros (H1 & H2 & H3). split; [exact H1|]. split; [split; [intros _; exact H2|left; exact H2]|intros _; exact H3]. Qed.

(** where the generator is *)
Record Pos (level scalar : nat) : Prop := {
  ps_at : at_pos level scalar;
  ps_prev : 0 < level -> at_pos (level - 1) scalar /\ nth (level - 1 + scalar) kinds false = false
}.
Lemma np_valok level scalar K N : Pos level scalar -> InvK scalar K -> Forall (fun k => level <= fst k) K -> NP level K N ->
  0 < level -> valok (level - 1) T (l_inner P N).
Proof.
  intros HP HK HdK HN Hl. destruct (ps_prev _ _ HP Hl) as [H1 H2]. eapply inv_valok; eauto.
  - eapply np_inv; eauto.
  - pose proof (np_dims _ _ _ (fun d => level <= d) HdK HN) as H. eapply Forall_impl; [|exact H]. cbn. intros l Hd. lia.
Qed.

Lemma recurse_inner_spec rec level scalar K N N' : Pos level scalar -> InvK scalar K -> Forall (fun k => level <= fst k) K ->
  (forall ctx, RecSpec (rec ctx (S level) scalar) level scalar) -> NPo level K N ->
  recurse_inner P scaldims o rec level scalar N = Some N' ->
  (forall b x, cnt N' b x = cnt N b x) /\ Post level N'.
Proof.
  intros HP HK HdK HR (HN & Hcv & Hst) H. unfold recurse_inner in H.
  set (N1 := if negb (level =? 0) && o_otl o then loop_otl P level N else N) in *.
  assert (E1 : l_dom P N1 = l_dom P N /\ l_st P N1 = l_st P N /\ l_blk P N1 = l_blk P N /\ l_inner P N1 = l_inner P N).
  { unfold N1, loop_otl. destruct (negb (level =? 0) && o_otl o); [|auto]. destruct (is_otl P (l_dom P N) level); auto. }
  destruct E1 as (Ed & Es & Eb & Ei). apply obind_some in H as (into & Hin & H). injection H as <-.
  rewrite Ei in Hin.
  destruct (runs_spec _ level scalar _ _ (HR _) (ps_at _ _ HP) (np_inv _ _ _ _ HK HN) (np_dims _ _ _ (fun d => level <= d) HdK HN) Hin) as [R1 R2].
  assert (Ht : tight (set_inner P N1 into)).
  { intros b x Hx. unfold set_inner in *. cbn [l_inner l_dom l_st] in *. rewrite Ed, Es. rewrite R1 in Hx. apply (np_tight _ _ _ HN b x Hx). }
  assert (Hb1 : l_blk P (set_inner P N1 into) = None) by (cbn; rewrite Eb; apply (np_blk _ _ _ HN)).
  split.
  - intros b x. rewrite (tight_cnt P Se _ b x Hb1 Ht), (tight_cnt P Se _ b x (np_blk _ _ _ HN) (np_tight _ _ _ HN)). cbn [set_inner l_inner]. apply R1.
  - constructor; auto.
    + cbn. rewrite Ed. apply (np_dim _ _ _ HN).
    + unfold cvO, LoopCount.cvx in *. cbn. rewrite Ed, Es. exact Hcv.
    + intros Hl HO b x b' x' H1 H2. cbn [set_inner l_inner] in H1, H2. rewrite R1 in H1, H2.
      apply (np_valok level scalar K N HP HK HdK HN Hl HO b x b' x' H1 H2).
    + intros Ho. cbn. rewrite Es. apply Hst; exact Ho.
Qed.

(** ** strides *)
Hypothesis HSL : o_strides o = true -> StrideLaws P Se.

Lemma last_firstn (x : list Z) n : n < length x -> last (firstn (S n) x) 0%Z = nth n x 0%Z.
Proof. intros H. rewrite firstn_snoc by exact H. apply last_last. Qed.

Definition scan_ok (level : nat) (done : list loop) (acc : bool * Z * Z * Z) : Prop :=
  let '(fs, s, ref, off) := acc in
  (fs = true -> done = []) /\
  (fs = false -> (0 <= s)%Z /\ (s <> 1%Z -> off = ref) /\
     forall l b x, In l done -> 0 < cnt l b x -> (s | nth (level - 1) x 0 + ref)%Z).
Lemma scan_step level done l acc : StrideLaws P Se -> 1 <= level -> leaf l -> level <= dim (l_dom P l) ->
  scan_ok level done acc -> scan_ok level (done ++ [l]) (stride_scan1 P level acc l).
Proof.
  intros SL Hl Hlf Hd. destruct acc as [[[fs s] ref] off]. unfold scan_ok. intros [H1 H2]. unfold stride_scan1.
  pose proof (SL_dom_pos _ _ SL (l_dom P l) level) as Hpos.
  assert (HL : forall b x, 0 < cnt l b x -> (fst (domain_stride P (l_dom P l) level) | nth (level - 1) x 0 + snd (domain_stride P (l_dom P l) level))%Z).
  { intros b x Hx. destruct (leaf_event _ _ _ Hlf Hx) as (_ & _ & Em). apply (SL_dom _ _ SL); assumption. }
  destruct (domain_stride P (l_dom P l) level) as [pot off1]. cbn [fst snd] in *.
  destruct fs.
  - cbn [orb]. rewrite andb_false_r. rewrite (H1 eq_refl). split; [discriminate|]. intros _. split; [exact Hpos|]. split; [reflexivity|].
    intros l' b x [<-|[]] Hx. eapply HL; eauto.
  - destruct (H2 eq_refl) as (S1 & S2 & S3). cbn [orb negb]. destruct (Z.eqb_spec s 1) as [->|Hs]; cbn [negb].
    { split; [discriminate|]. intros _. split; [lia|]. split; [intros Hc; contradiction|]. intros. apply Z.divide_1_l. }
    destruct (Z.eqb_spec pot 1) as [->|Hpot]; cbn [negb andb].
    { split; [discriminate|]. intros _. split; [lia|]. split; [intros Hc; contradiction|]. intros. apply Z.divide_1_l. }
    split; [discriminate|]. intros _. pose proof (Z.gcd_nonneg pot s) as Hg.
    set (g := Z.gcd pot s) in *.
    assert (Hgp : (g | pot)%Z) by apply Z.gcd_divide_l. assert (Hgs : (g | s)%Z) by apply Z.gcd_divide_r.
    assert (Hmod : forall a, exists q, ((if (g =? 0)%Z then a else a mod g) = a + g * q)%Z).
    { intros a. destruct (Z.eqb_spec g 0) as [E|E]; [exists 0%Z; lia|]. exists (- (a / g))%Z. rewrite Z.mod_eq by exact E. lia. }
    destruct (Hmod off1) as (q1 & E1). destruct (Hmod ref) as (q2 & E2). rewrite E1, E2.
    destruct (Z.eqb_spec (off1 + g * q1) (ref + g * q2)) as [E|E].
    + split; [exact Hg|]. split; [intros _; lia|]. intros l' b x Hin Hx. apply in_app_iff in Hin as [Hin|[<-|[]]].
      * specialize (S3 l' b x Hin Hx). rewrite Z.add_assoc. apply Z.divide_add_r; [eapply Z.divide_trans; eauto|]. apply Z.divide_factor_l.
      * rewrite <- E, Z.add_assoc. apply Z.divide_add_r; [eapply Z.divide_trans; [exact Hgp|eapply HL; eauto]|apply Z.divide_factor_l].
    + split; [lia|]. split; [intros Hc; contradiction|]. intros. apply Z.divide_1_l.
Qed.
Lemma scan_all level : StrideLaws P Se -> 1 <= level -> forall ls done acc, Forall leaf ls -> Forall (fun l => level <= dim (l_dom P l)) ls ->
  scan_ok level done acc -> scan_ok level (done ++ ls) (fold_left (stride_scan1 P level) ls acc).
Proof.
  intros SL Hl ls. induction ls as [|l ls IH]; intros done acc H1 H2 H; [rewrite app_nil_r; exact H|].
  inversion H1; subst. inversion H2; subst. cbn [fold_left]. replace (done ++ l :: ls) with ((done ++ [l]) ++ ls) by (rewrite <- app_assoc; reflexivity).
  apply IH; auto. apply scan_step; auto.
Qed.

Lemma stride_spec level K N : 1 <= level -> o_strides o = true -> Forall (fun k => level <= fst k) K -> NPc level K N ->
  (forall b x, cnt (loop_stride P level N) b x = cnt N b x) /\ NPo level K (loop_stride P level N) /\ cvx (loop_stride P level N).
Proof.
  intros Hl Hso HdK HNc. pose proof (npc_npo _ _ _ HNc) as HNo. destruct HNc as (HN & Hcv & Hst). pose proof (HSL Hso) as SL.
  pose proof (np_dims _ _ _ (fun d => level <= d) HdK HN) as Hdims.
  assert (G : forall st, (forall b x, 0 < cnts (l_inner P N) b x -> mem (l_dom P N) (firstn level x) = true -> st_ok P Se (Some st) (firstn level x) = true) ->
    let N' := Loop (stride_lower_bound P (l_dom P N) level st) (l_otl P N) (Some st) (l_blk P N) (l_inner P N) in
    (forall b x, cnt N' b x = cnt N b x) /\ NPo level K N' /\ cvx N').
  { intros st Hs N'. assert (Hc' : cvx N') by (apply (SL_lb_convex _ _ SL); exact Hcv).
    assert (Ht : tight N').
    { intros b x Hx. unfold N' in *. cbn [l_inner l_dom l_st] in *. unfold LoopSpec.inn. rewrite (SL_lb_dim _ _ SL), (np_dim _ _ _ HN).
      pose proof (inn_mem _ _ _ _ _ (np_tight _ _ _ HN b x Hx)) as Em. rewrite (np_dim _ _ _ HN) in Em.
      pose proof (Hs b x Hx Em) as Es. rewrite Es. rewrite (SL_lb _ _ SL) by assumption. reflexivity. }
    split.
    - intros b x. rewrite (tight_cnt P Se N' b x (np_blk _ _ _ HN) Ht). rewrite (tight_cnt P Se N b x (np_blk _ _ _ HN) (np_tight _ _ _ HN)). reflexivity.
    - split; [|exact Hc']. split; [|split].
      + constructor; cbn; try apply HN. { rewrite (SL_lb_dim _ _ SL). apply (np_dim _ _ _ HN). } exact Ht.
      + split; [intros _; exact Hc'|left; exact Hc'].
      + intros Hf. congruence. }
  unfold loop_stride. destruct (can_stride P (l_dom P N) level) eqn:Ecs; cbn [negb]; [|split; [reflexivity|split; [exact HNo|exact Hcv]]].
  destruct (list_stride P (rev (map (l_dom P) (l_inner P N))) level) as [[[s ofs] c]|] eqn:Els.
  - apply G. intros b x Hx _. apply cnts_pos in Hx as (l & Hin & Hx).
    pose proof (np_leaf _ _ _ HN) as Hlf. rewrite Forall_forall in Hlf, Hdims. destruct (leaf_event _ _ _ (Hlf l Hin) Hx) as (_ & _ & Em).
    cbn [st_ok]. eapply (SL_list _ _ SL); try exact Els; eauto. rewrite <- in_rev. apply in_map; exact Hin.
  - assert (Hs : scan_ok level (l_inner P N) (fold_left (stride_scan1 P level) (l_inner P N) (true, 1%Z, 0%Z, 0%Z))).
    { apply (scan_all level SL Hl (l_inner P N) []); [apply (np_leaf _ _ _ HN)|exact Hdims|]. split; [reflexivity|discriminate]. }
    destruct (fold_left (stride_scan1 P level) (l_inner P N) (true, 1%Z, 0%Z, 0%Z)) as [[[fs s] ref] off].
    destruct Hs as [Hs1 Hs2].
    destruct fs; [exfalso; apply (np_ne _ _ _ HN); apply Hs1; reflexivity|]. destruct (Hs2 eq_refl) as (Hs & Hoff & Hdiv).
    destruct (Z.eqb_spec (if (s =? 0)%Z then 1%Z else s) 1) as [E1|E1]; [split; [reflexivity|split; [exact HNo|exact Hcv]]|].
    destruct (Z.eqb_spec s 0) as [->|Hs0]; [contradiction|].
    apply G. intros b x Hx Em. apply cnts_pos in Hx as (l & Hin & Hx). specialize (Hdiv l b x Hin Hx). rewrite <- (Hoff E1) in Hdiv.
    pose proof (L_len _ _ L _ _ Em) as Hlen. rewrite (np_dim _ _ _ HN), firstn_length in Hlen.
    cbn [st_ok]. destruct level as [|n]; [lia|]. replace (S n - 1) with n in Hdiv by lia. rewrite last_firstn by lia. apply Z.eqb_eq.
    apply Z.mod_divide; [exact Hs0|]. destruct Hdiv as (q & Hq). destruct (Z.eqb_spec off 0) as [->|_]; [exists q|exists (q - 1)%Z]; lia.
Qed.

(** ** unrolling *)
Lemma unroll_spec level scalar K N : 1 <= level -> Pos level scalar -> InvK scalar K -> Forall (fun k => level <= fst k) K -> cvx N -> NPo level K N ->
  (forall b x, cnts (loop_unroll P level N) b x = cnt N b x) /\ Forall (NPo level K) (loop_unroll P level N) /\
  ForallOrdPairs (pairok (level - 1) T) (loop_unroll P level N).
Proof.
  intros Hl HP HK HdK Hcx HNo. pose proof HNo as (HN & Hcv & Hst). unfold loop_unroll.
  destruct (can_unroll P (l_dom P N) level) as [[nn lb]|] eqn:Eu; [|split; [intros; apply cnts1|split; [constructor; [exact HNo|constructor]|apply FOP1]]].
  pose proof (np_dims _ _ _ (fun d => level <= d) HdK HN) as Hdims.
  set (d := fun i => fixed_offset P (l_dom P N) level lb (Z.of_nat i)).
  set (copy := fun i => match restrict_all P (d i) (l_inner P N) with [] => [] | inner => [Loop (d i) true None None inner] end).
  assert (Hra : forall i, Forall leaf (restrict_all P (d i) (l_inner P N)) /\ Subl (map key (restrict_all P (d i) (l_inner P N))) (map key (l_inner P N)) /\
     (forall b x, cnts (restrict_all P (d i) (l_inner P N)) b x = Nat.b2n (inn (d i) None x) * cnts (l_inner P N) b x)).
  { intros i. apply restrict_all_leaf; [apply (np_leaf _ _ _ HN)|]. unfold d. rewrite (L_fixed_dim _ _ L), (np_dim _ _ _ HN). exact Hdims. }
  assert (Hdd : forall i, dim (d i) = level) by (intros i; unfold d; rewrite (L_fixed_dim _ _ L); apply (np_dim _ _ _ HN)).
  assert (Hcopy : forall i b x, cnts (copy i) b x = Nat.b2n (inn (d i) None x) * cnts (l_inner P N) b x).
  { intros i b x. unfold copy. destruct (Hra i) as (_ & _ & Hc). specialize (Hc b x).
    destruct (restrict_all P (d i) (l_inner P N)) as [|y r]; [exact Hc|]. rewrite cnts1, cnt_node, Hc.
    destruct (inn (d i) None x); cbn [Nat.b2n]; lia. }
  assert (Hval : forall i b x, 0 < cnts (l_inner P N) b x -> inn (d i) None x = (nth (level - 1) x 0 =? lbv Se lb (firstn (level - 1) x) + Z.of_nat i)%Z).
  { intros i b x Hx. rewrite inn_none, Hdd. unfold d. rewrite (L_fixed _ _ L _ _ nn lb) by (exact Hl || exact Eu || apply (np_dim _ _ _ HN)).
    pose proof (inn_mem _ _ _ _ _ (np_tight _ _ _ HN b x Hx)) as Em. rewrite (np_dim _ _ _ HN) in Em. rewrite Em. cbn [andb].
    rewrite nth_firstn_lt by lia. rewrite firstn_firstn, Nat.min_l by lia. reflexivity. }
  assert (Hrange : forall b x, 0 < cnts (l_inner P N) b x -> (lbv Se lb (firstn (level - 1) x) <= nth (level - 1) x 0 < lbv Se lb (firstn (level - 1) x) + nn)%Z).
  { intros b x Hx. pose proof (inn_mem _ _ _ _ _ (np_tight _ _ _ HN b x Hx)) as Em. rewrite (np_dim _ _ _ HN) in Em.
    pose proof (L_unroll_range _ _ L _ _ _ _ _ Hl (np_dim _ _ _ HN) Hcx Eu Em) as Hr. rewrite nth_firstn_lt in Hr by lia. rewrite firstn_firstn, Nat.min_l in Hr by lia. exact Hr. }
  split; [|split].
  - intros b x. rewrite (tight_cnt P Se N b x (np_blk _ _ _ HN) (np_tight _ _ _ HN)).
    change (cnts (flat_map copy (seq 0 (Z.to_nat nn))) b x = cnts (l_inner P N) b x).
    unfold LoopSpec.cnts at 1. rewrite sumn_flat_map. rewrite (sumn_ext _ (fun i => cnts (l_inner P N) b x * Nat.b2n (inn (d i) None x))).
    2:{ intros i _. fold (cnts (copy i) b x). rewrite Hcopy. lia. }
    rewrite sumn_mul. destruct (Nat.eq_dec (cnts (l_inner P N) b x) 0) as [E0|E0]; [rewrite E0; reflexivity|].
    assert (Hx : 0 < cnts (l_inner P N) b x) by lia. specialize (Hrange b x Hx).
    rewrite (sumn_ext _ (fun i => Nat.b2n (i =? Z.to_nat (nth (level - 1) x 0 - lbv Se lb (firstn (level - 1) x))%Z))).
    2:{ intros i _. rewrite (Hval i b x Hx). f_equal. apply eq_true_iff_eq. rewrite Z.eqb_eq, Nat.eqb_eq. lia. }
    set (v := Z.to_nat (nth (level - 1) x 0 - lbv Se lb (firstn (level - 1) x))%Z) in *.
    assert (Hv : v < Z.to_nat nn) by (unfold v; lia).
    assert (Hone : forall k a, sumn (fun i => Nat.b2n (i =? v)) (seq a k) = Nat.b2n ((a <=? v) && (v <? a + k))).
    { induction k as [|k IH]; intros a; cbn [seq].
      - rewrite sumn_nil. destruct (Nat.leb_spec a v); destruct (Nat.ltb_spec v (a + 0)); cbn; lia.
      - rewrite sumn_cons, IH. destruct (Nat.eqb_spec a v); destruct (Nat.leb_spec (S a) v); destruct (Nat.ltb_spec v (S a + k));
        destruct (Nat.leb_spec a v); destruct (Nat.ltb_spec v (a + S k)); cbn; lia. }
    rewrite Hone. destruct (Nat.leb_spec 0 v); [|lia]. destruct (Nat.ltb_spec v (0 + Z.to_nat nn)); [|lia]. cbn. lia.
  - rewrite Forall_forall. intros C HC. apply in_flat_map in HC as (i & _ & HC). fold (d i) in HC.
    destruct (Hra i) as (H1 & H2 & H3). destruct (restrict_all P (d i) (l_inner P N)) as [|y r] eqn:Er; [destruct HC|].
    destruct HC as [<-|[]]. split; [|split].
    + constructor; cbn; auto; [|eapply Subl_trans; [exact H2|apply (np_key _ _ _ HN)]|discriminate].
      intros b x Hx. cbn [l_inner l_dom l_st] in *. rewrite H3 in Hx. destruct (inn (d i) None x); [reflexivity|cbn in Hx; lia].
    + split; [|right; reflexivity]. intros HO. unfold LoopCount.cvx, d. cbn. apply (OL_fixed_convex _ _ (HOL HO)). apply Hcv; exact HO.
    + intros _. reflexivity.
  - change (ForallOrdPairs (pairok (level - 1) T) (flat_map copy (seq 0 (Z.to_nat nn)))). rewrite flat_map_concat_map. apply FOP_concat.
    + rewrite Forall_map, Forall_forall. intros i _. unfold copy. destruct (restrict_all P (d i) (l_inner P N)); [constructor|apply FOP1].
    + apply FOP_map. apply FOP_nth. intros i j a b Hij Ha Hb C C' HC HC' HO b0 x b' x' Hx Hx' _ _ Hag.
      assert (Hsq : forall i a, nth_error (seq 0 (Z.to_nat nn)) i = Some a -> a = i).
      { clear. intros i a H. assert (Hi : i < length (seq 0 (Z.to_nat nn))) by (apply nth_error_Some; congruence). rewrite seq_length in Hi.
        apply (nth_error_nth _ _ 0) in H. rewrite seq_nth in H by exact Hi. lia. }
      apply Hsq in Ha, Hb. subst a b.
      assert (E1 : 0 < cnts (copy i) b0 x) by (apply cnts_pos; eauto). assert (E2 : 0 < cnts (copy j) b' x') by (apply cnts_pos; eauto).
      rewrite Hcopy in E1, E2. destruct (inn (d i) None x) eqn:I1; [|cbn in E1; lia]. destruct (inn (d j) None x') eqn:I2; [|cbn in E2; lia].
      cbn [Nat.b2n] in E1, E2. rewrite Nat.mul_1_l in E1, E2. rewrite (Hval i _ _ E1) in I1. rewrite (Hval j _ _ E2) in I2.
      apply Z.eqb_eq in I1, I2. unfold agree in Hag. rewrite Hag in I1.
      apply (np_valok level scalar K N HP HK HdK HN ltac:(lia) HO b0 x b' x' E1 E2 I I Hag). lia.
Qed.

Hypothesis HU : o_first_unroll o <> 0%Z.
Lemma loop_recurse_spec rec level scalar K const N rs : (level = 0 -> scalar = 0) -> Pos level scalar -> InvK scalar K -> Forall (fun k => level <= fst k) K ->
  (forall ctx, RecSpec (rec ctx (S level) scalar) level scalar) -> NPc level K N ->
  loop_recurse P scaldims o rec level scalar const N = Some rs ->
  (forall b x, cnts rs b x = cnt N b x) /\ ForallOrdPairs (pairok (level - 1) T) rs /\ Forall (Post level) rs.
Proof.
  intros H0 HP HK HdK HR HN H. unfold loop_recurse in H.
  set (N1 := if negb (level =? 0) && o_strides o && negb const then loop_stride P level N else N) in *.
  assert (HN1 : (forall b x, cnt N1 b x = cnt N b x) /\ NPo level K N1 /\ cvx N1).
  { unfold N1. pose proof (stride_spec level K N) as Hss. destruct (Nat.eqb_spec level 0) as [E|E]; cbn [negb andb]; [split; [reflexivity|split; [apply npc_npo; exact HN|apply HN]]|].
    destruct (o_strides o) eqn:Es; cbn [andb]; [|split; [reflexivity|split; [apply npc_npo; exact HN|apply HN]]].
    destruct (negb const); [|split; [reflexivity|split; [apply npc_npo; exact HN|apply HN]]]. apply Hss; auto; lia. }
  destruct HN1 as (C1 & HN1 & CX1).
  destruct (negb const && (0 <=? o_first_unroll o)%Z && (o_first_unroll o <=? Z.of_nat (level + scalar))%Z) eqn:Eu.
  - apply andb_prop in Eu as [Eu E2]. apply andb_prop in Eu as [_ E1]. apply Z.leb_le in E1, E2.
    assert (Hl : 1 <= level) by (destruct level; [rewrite H0 in E2 by reflexivity; cbn in E2; lia|lia]).
    destruct (unroll_spec level scalar K N1 Hl HP HK HdK CX1 HN1) as (U1 & U2 & U3).
    destruct (loop_unroll P level N1) as [|u us] eqn:El; [discriminate|].
    destruct (stage_omap _ (level - 1) T _ _ H) as (S1 & S2 & S3).
    { intros X X' HX HE. rewrite Forall_forall in U2. destruct (recurse_inner_spec rec level scalar K X X' HP HK HdK HR (U2 X HX) HE) as [Hcx _]. exact Hcx. }
    split; [intros b x; rewrite S1, U1; apply C1|]. split; [auto|]. rewrite Forall_forall. intros X' HX'. destruct (S3 X' HX') as (X & HX & HE).
    rewrite Forall_forall in U2. destruct (recurse_inner_spec rec level scalar K X X' HP HK HdK HR (U2 X HX) HE) as [_ Hpo]. exact Hpo.
  - apply obind_some in H as (N' & HE & H). injection H as <-.
    destruct (recurse_inner_spec rec level scalar K N1 N' HP HK HdK HR HN1 HE) as [R1 R2].
    split; [intros b x; rewrite cnts1, R1; apply C1|]. split; [apply FOP1|]. constructor; [exact R2|constructor].
Qed.

(** ** nesting below -l *)
Lemma at_pos_late n m scalar : at_pos n scalar -> nb <= n + scalar -> n <= m -> at_pos m scalar.
Proof. unfold LoopKeys.at_pos. intros H Hn Hm. rewrite firstn_all2 in * by lia. exact H. Qed.

Lemma wrap_spec d p : (forall b x, 0 < cnt p b x -> mem d (firstn (dim d) x) = true) ->
  forall lev k, 1 <= lev -> (forall n, lev <= n -> flat (n - 1) T [p]) ->
  lev + k <= S (dim d) -> forall l, (forall b x, cnt l b x = cnt p b x) -> ok1 l (lev + k - 1) T ->
  (forall b x, cnt (wrap P d lev k l) b x = cnt p b x) /\ ok1 (wrap P d lev k l) (lev - 1) T.
Proof.
  intros Hm lev k Hlev Hfl. induction k as [|k IH]; intros Hk l Hc Hok; cbn [wrap].
  - rewrite Nat.add_0_r in Hok. auto.
  - assert (Hpd : dim (project P d (lev + k)) = lev + k) by (apply (L_project_dim _ _ L); lia).
    assert (Hc' : forall b x, cnts [l] b x = cnt p b x) by (intros b x; rewrite cnts1; apply Hc).
    apply IH; [lia| |].
    + intros b x. rewrite cnt_node, Hc', inn_none, Hpd. destruct (cnt p b x) eqn:E; [lia|].
      rewrite <- E. specialize (Hm b x ltac:(lia)).
      replace (firstn (lev + k) x) with (firstn (lev + k) (firstn (dim d) x)) by (rewrite firstn_firstn, Nat.min_l by lia; reflexivity).
      rewrite (L_project _ _ L) by (try lia; exact Hm). cbn. lia.
    + apply ok1_node. assert (Hf : forall A, flat (lev + k - 1) A [l]).
      { intros A HO b x b' x' H1 H2 _ _ Hag. rewrite Hc' in H1, H2. rewrite <- cnts1 in H1, H2.
        exact (Hfl (lev + k) ltac:(lia) HO b x b' x' H1 H2 I I Hag). }
      split; [right; split; [reflexivity|apply Hf]|]. right. split; [rewrite Hpd; lia|]. split.
      * intros HO b x b' x' H1 H2 A1 A2 Hag _. exact (Hf _ HO b x b' x' H1 H2 A1 A2 Hag).
      * split; [|apply FOP1]. constructor; [|constructor]. replace (S (lev + k - 1)) with (lev + S k - 1) by lia.
        eapply ok1_mono; [|exact Hok]. intros; exact I.
Qed.

Lemma leaf_pieces fuel l ls : leaf l -> add_disjoint P fuel l = Some ls ->
  Forall (fun l' => leaf l' /\ key l' = key l) ls /\ forall b x, cnts ls b x = cnt l b x.
Proof.
  intros Hlf H. destruct Hlf as (H1 & H2 & b0 & H3). destruct (add_disjoint_spec P Se L fuel l ls H H1) as [S1 S2]. split.
  - eapply Forall_impl; [|exact S1]. intros l' (E1 & _ & E3 & E4 & E5). unfold leaf, key. rewrite E1, E3, E4, E5, H2, H3. split; [|reflexivity].
    repeat split; auto. exists b0; reflexivity.
  - intros b x.
    assert (Hone : forall l', l_st P l' = None -> l_blk P l' = Some b0 -> dim (l_dom P l') = dim (l_dom P l) ->
       cnt l' b x = Nat.b2n (mem (l_dom P l') (firstn (dim (l_dom P l)) x)) * (if block_eq_dec b0 b then if length x =? dim (l_dom P l) then 1 else 0 else 0)).
    { intros [d' o' st' blk' inner'] E1 E2 E3. cbn [l_st l_blk l_dom] in *. subst st' blk'. cbn [LoopSpec.cnt]. rewrite inn_none, E3.
      destruct (mem d' (firstn (dim (l_dom P l)) x)); cbn [Nat.b2n]; lia. }
    rewrite (Hone l H1 H3 eq_refl). unfold LoopSpec.cnts.
    rewrite (sumn_ext _ (fun l' => (if block_eq_dec b0 b then if length x =? dim (l_dom P l) then 1 else 0 else 0) * Nat.b2n (mem (l_dom P l') (firstn (dim (l_dom P l)) x)))).
    2:{ intros l' Hl'. rewrite Forall_forall in S1. destruct (S1 l' Hl') as (E1 & _ & E3 & E4 & _). rewrite Hone; [lia|exact E3|rewrite E4; exact H3|exact E1]. }
    rewrite sumn_mul. fold (cov ls (firstn (dim (l_dom P l)) x)). rewrite S2. lia.
Qed.

Lemma nest_spec fuel level scalar K N l : 1 <= level -> Pos level scalar -> InvK scalar K -> Forall (fun k => level <= fst k) K -> EndC level scalar -> NPc level K N ->
  nest P fuel (l_dom P N) (S level) (l_inner P N) = Some l ->
  (forall b x, cnt (Loop (l_dom P N) false None None l) b x = cnt N b x) /\ Post level (Loop (l_dom P N) false None None l).
Proof.
  intros Hl HP HK HdK HE (HN & Hcv & Hst) H. unfold nest in H. apply obind_some in H as (ds & Hds & H). injection H as <-.
  pose proof (np_inv _ _ _ _ HK HN) as HI. pose proof (np_dims _ _ _ (fun d => level <= d) HdK HN) as Hdims. pose proof (np_leaf _ _ _ HN) as Hlf.
  assert (Hpair : forall n l l', level <= n -> In l (l_inner P N) -> In l' (l_inner P N) -> (O -> tie = true -> kpos (key l) <= kpos (key l')) -> pairok n T l l').
  { intros n l l' Hn H1 H2 H3 HO. destruct (HE HO) as [E1 E2]. refine (inv_end scalar n T (l_inner P N) l l' HI _ _ H1 H2 H3 HO).
    - eapply at_pos_late; [apply (ps_at _ _ HP)|lia|exact Hn].
    - intros _. lia. }
  rewrite Forall_forall in Hlf, Hdims.
  destruct (stage_oconcat _ level T _ _ Hds) as (S1 & S2 & S3).
  { intros X rs HX HE'. destruct (leaf_pieces fuel X rs (Hlf X HX) HE') as [P1 P2]. split; [exact P2|].
    apply FOP_nth. intros i j a b _ Ha Hb. apply (pairok_cnt P Se O R level T X X).
    - intros b0 x. rewrite <- P2. apply cnts_in. eapply nth_error_In; eauto.
    - intros b0 x. rewrite <- P2. apply cnts_in. eapply nth_error_In; eauto.
    - apply Hpair; auto. }
  assert (HFop : ForallOrdPairs (pairok level T) (l_inner P N)).
  { apply FOP_nth. intros i j a b Hij Ha Hb. apply Hpair; try (eapply nth_error_In; eassumption); [apply le_n|]. intros HO Ht.
    pose proof (proj1 (FOP_nth _ _) (iv_ord _ _ (proj2 HI)) i j (key a) (key b) Hij) as Hr. rewrite !nth_error_map', Ha, Hb in Hr.
    apply (Hr eq_refl eq_refl); assumption. }
  specialize (S2 HFop).
  set (f := fun l0 => match restrict P (l_dom P N) l0 with None => [] | Some p => [wrap P (l_dom P p) (S level) (S (dim (l_dom P p)) - S level) p] end).
  (* every piece *)
  assert (G : forall X, In X ds -> (forall b x, cnts (f X) b x = Nat.b2n (inn (l_dom P N) None x) * cnt X b x) /\ Forall (fun l => ok1 l level T) (f X)).
  { intros X HX. destruct (S3 X HX) as (Y & rs & HY & HE' & HXin). destruct (leaf_pieces fuel Y rs (Hlf Y HY) HE') as [P1 P2].
    rewrite Forall_forall in P1. destruct (P1 X HXin) as [HXl HXk].
    assert (HdX : dim (l_dom P X) = dim (l_dom P Y)) by (unfold key in HXk; congruence).
    assert (HlX : level <= dim (l_dom P X)) by (rewrite HdX; apply Hdims; exact HY).
    assert (Hfl : forall n, level <= n -> pairok n T X X).
    { intros n Hn. apply (pairok_cnt P Se O R n T Y Y); [| |apply Hpair; auto]; intros b0 x; rewrite <- P2; apply cnts_in; exact HXin. }
    pose proof (restrict_spec P Se L (l_dom P N) X) as Hr. rewrite (np_dim _ _ _ HN) in Hr. specialize (Hr HlX (proj1 HXl)).
    pose proof (fun b x => restrict_cnts P Se L (l_dom P N) X b x) as Hrc. rewrite (np_dim _ _ _ HN) in Hrc.
    unfold f. destruct (restrict P (l_dom P N) X) as [p|] eqn:Er.
    - destruct Hr as (R1 & R2 & R3 & R4 & R5).
      assert (Hpc : forall b x, cnt p b x = Nat.b2n (inn (l_dom P N) None x) * cnt X b x).
      { intros b x. specialize (Hrc b x HlX (proj1 HXl)). cbn [list_of] in Hrc. rewrite cnts1 in Hrc. exact Hrc. }
      assert (Hpl : leaf p) by (unfold leaf; rewrite R2, R3, R4; split; [reflexivity|exact (proj2 HXl)]).
      assert (Hw : (forall b x, cnt (wrap P (l_dom P p) (S level) (S (dim (l_dom P p)) - S level) p) b x = cnt p b x) /\
                   ok1 (wrap P (l_dom P p) (S level) (S (dim (l_dom P p)) - S level) p) (S level - 1) T).
      { apply wrap_spec; try lia.
        - intros b x Hx. exact (inn_mem _ _ _ _ _ (cnt_inn _ _ _ _ _ Hx)).
        - intros n Hn HO b x b' x' H1 H2 A1 A2 Hag. rewrite cnts1, Hpc in H1, H2.
          refine (Hfl (n - 1) _ HO b x b' x' _ _ A1 A2 Hag); [lia| |].
          + destruct (cnt X b x); lia.
          + destruct (cnt X b' x'); lia.
        - replace (S level + (S (dim (l_dom P p)) - S level) - 1) with (dim (l_dom P p)) by lia.
          destruct (leaf_okl _ p Hpl eq_refl) as [Hok _]. inversion Hok; assumption. }
      destruct Hw as [W1 W2]. replace (S level - 1) with level in W2 by lia. split.
      + intros b x. rewrite cnts1, W1. apply Hpc.
      + constructor; [exact W2|constructor].
    - split; [|constructor]. intros b x. specialize (Hrc b x HlX (proj1 HXl)). cbn [list_of] in Hrc. exact Hrc. }
  assert (Hcnt : forall b x, cnts (flat_map f ds) b x = Nat.b2n (inn (l_dom P N) None x) * cnts (l_inner P N) b x).
  { intros b x. rewrite <- S1. unfold LoopSpec.cnts at 1. rewrite sumn_flat_map. unfold LoopSpec.cnts. rewrite <- sumn_mul.
    apply sumn_ext. intros X HX. apply (G X HX). }
  assert (Hle : forall b x, 0 < cnts (flat_map f ds) b x -> 0 < cnts (l_inner P N) b x /\ inn (l_dom P N) None x = true).
  { intros b x Hx. rewrite Hcnt in Hx. destruct (inn (l_dom P N) None x); cbn in Hx; [|lia]. split; [lia|reflexivity]. }
  split.
  - intros b x. fold f. rewrite cnt_node, Hcnt. rewrite (tight_cnt P Se N b x (np_blk _ _ _ HN) (np_tight _ _ _ HN)).
    destruct (Nat.eq_dec (cnts (l_inner P N) b x) 0) as [E|E]; [rewrite E; lia|].
    pose proof (np_tight _ _ _ HN b x ltac:(lia)) as Ht. rewrite Hst in Ht. rewrite Ht. cbn. lia.
  - fold f. constructor; cbn [l_blk l_dom l_inner l_st].
    + reflexivity.
    + apply (np_dim _ _ _ HN).
    + split; [intros _; exact Hcv|left; exact Hcv].
    + intros b x Hx. cbn [l_inner l_dom l_st] in *. apply (Hle b x Hx).
    + split.
      * rewrite Forall_forall. intros X HX. apply in_flat_map in HX as (Y & HY & HX). destruct (G Y HY) as [_ G2]. rewrite Forall_forall in G2. apply G2; exact HX.
      * rewrite flat_map_concat_map. apply FOP_concat.
        { rewrite Forall_map, Forall_forall. intros X _. unfold f. destruct (restrict P (l_dom P N) X); [apply FOP1|constructor]. }
        { apply FOP_map. eapply FOP_impl; [|exact S2]. intros X X' HX HX' Hpk a b Ha Hb. apply (pairok_cnt P Se O R level T X X'); [| |exact Hpk].
          - intros b0 x. destruct (G X HX) as [G1 _]. pose proof (cnts_in P Se a (f X) b0 x Ha) as Hle1. rewrite G1 in Hle1. destruct (inn (l_dom P N) None x); cbn in Hle1; lia.
          - intros b0 x. destruct (G X' HX') as [G1 _]. pose proof (cnts_in P Se b (f X') b0 x Hb) as Hle1. rewrite G1 in Hle1. destruct (inn (l_dom P N) None x); cbn in Hle1; lia. }
    + intros _ HO b x b' x' H1 H2. apply Hle in H1, H2. destruct H1 as [H1 _]. destruct H2 as [H2 _].
      apply (np_valok level scalar K N HP HK HdK HN ltac:(lia) HO b x b' x' H1 H2).
    + intros _. reflexivity.
Qed.

(** ** propagate, backtrack *)
Lemma ok1_dim N n A : ok1 N n A -> n <= dim (l_dom P N).
Proof.
  destruct N as [d ot st blk inner]. cbn [LoopOrder.ok1 l_dom]. destruct blk; [intros (H & _); lia|]. intros [_ [[H _]|[H _]]]; lia.
Qed.
Lemma propagate_spec level N N' : o_strides o = true -> Post level N -> propagate1 P N = Some N' ->
  (forall b x, cnt N' b x = cnt N b x) /\ Post level N'.
Proof.
  intros Hso [H1 H2 H3 H4 H5 H6 H7] H. unfold propagate1 in H.
  assert (Hsame : N' = N -> (forall b x, cnt N' b x = cnt N b x) /\ Post level N').
  { intros ->. split; [reflexivity|]. constructor; assumption. }
  destruct (l_inner P N) as [|i [|i2 r]] eqn:Ei; [discriminate| |injection H as <-; auto].
  destruct (isconvex P (l_dom P i)); [|injection H as <-; auto]. rewrite H2 in H.
  destruct (isconvex P (project P (l_dom P i) level)) eqn:Ec; [|injection H as <-; auto]. injection H as <-.
  assert (Hdi : level <= dim (l_dom P i)) by (destruct H5 as [H5 _]; inversion H5 as [|? ? Hk _]; subst; eapply ok1_dim; eauto).
  pose proof (L_project_dim _ _ L _ _ Hdi) as Hpd.
  set (D := intersection P (project P (l_dom P i) level) (l_dom P N)).
  assert (HD : dim D = level) by (unfold D; rewrite (L_inter_dim _ _ L); lia).
  assert (Ht : tight (set_dom P N D)).
  { intros b x Hx. pose proof (H4 b x) as Ht. unfold set_dom in *. cbn [l_inner l_dom l_st] in *. specialize (Ht Hx). unfold LoopSpec.inn in *. rewrite HD. rewrite H2 in Ht.
    apply andb_prop in Ht as [Ht1 Ht2]. rewrite Ht2, andb_true_r. unfold D. rewrite (L_inter _ _ L) by lia. rewrite Ht1, andb_true_r.
    rewrite Ei, cnts1 in Hx. eapply proj_event; eauto. }
  split.
  - intros b x. rewrite (tight_cnt P Se N b x H1 H4). rewrite (tight_cnt P Se (set_dom P N D) b x H1 Ht). reflexivity.
  - constructor; try (rewrite <- Ei in H5, H6); auto.
    destruct H3 as [H3 H3']. pose proof (SL_inter_convex _ _ (HSL Hso)) as Hic. split.
    + intros HO. apply Hic; [exact Ec|apply H3; exact HO].
    + destruct H3' as [H3'|H3']; [left; apply Hic; [exact Ec|exact H3']|right; exact H3'].
Qed.

Lemma backtrack_spec fuel level ls res : 1 <= level -> Forall (Post level) ls -> ForallOrdPairs (pairok (level - 1) T) ls ->
  backtrack P fuel level ls = Some res ->
  (forall b x, cnts res b x = cnts ls b x) /\ ForallOrdPairs (pairok (level - 1) T) res /\ Forall (GG level) res.
Proof.
  intros Hl HF Hfop H. unfold backtrack in H. rewrite Forall_forall in HF.
  assert (G : forall t rs, In t ls -> match map (backtrack_inner P level (l_dom P t)) (l_inner P t) with [] => Some [] | l => obind (separate P fuel l) (fun s => sort P level s) end = Some rs ->
    ((forall b x, cnts rs b x = cnt t b x) /\ ForallOrdPairs (pairok (level - 1) T) rs) /\ Forall (GG level) rs).
  { intros t rs Ht HE. destruct (HF t Ht) as [H1 H2 H3 H4 H5 H6 H7].
    set (X := map (backtrack_inner P level (l_dom P t)) (l_inner P t)) in *.
    (* the inner loops, leaves copied *)
    set (cp := fun l : loop => match l_blk P l with Some b => Loop (l_dom P l) false None (Some b) [] | None => l end).
    assert (Hcp : forall l b x, In l (l_inner P t) -> cnt (cp l) b x = cnt l b x).
    { intros l b x Hin. destruct H5 as [H5 _]. rewrite Forall_forall in H5. specialize (H5 l Hin). unfold cp.
      destruct l as [d ot st blk inner]. cbn [l_blk l_dom]. destruct blk as [b0|]; [|reflexivity]. cbn [LoopOrder.ok1] in H5. destruct H5 as (_ & -> & ->). reflexivity. }
    assert (Hokc : okl level T (map cp (l_inner P t))).
    { destruct H5 as [H5a H5b]. split.
      - rewrite Forall_map, Forall_forall. rewrite Forall_forall in H5a. intros l Hin. specialize (H5a l Hin). unfold cp.
        destruct l as [d ot st blk inner]. cbn [l_blk l_dom]. destruct blk as [b0|]; [|exact H5a]. cbn [LoopOrder.ok1] in *. tauto.
      - apply FOP_map. eapply FOP_impl; [|exact H5b]. intros a b Ha Hb Hp. apply (pairok_cnt P Se O R level T a b); [| |exact Hp]; intros; rewrite Hcp; auto. }
    assert (HX : Forall (nd level) X /\ Forall tight X /\ concat_inner P X = map cp (l_inner P t)).
    { assert (HX1 : forall l, In l (l_inner P t) -> nd level (backtrack_inner P level (l_dom P t) l) /\ tight (backtrack_inner P level (l_dom P t) l) /\ l_inner P (backtrack_inner P level (l_dom P t) l) = [cp l]).
      { intros l Hin. unfold backtrack_inner, cp. destruct (l_blk P l) as [b0|] eqn:Eb.
        - split; [repeat split; assumption|]. split; [|reflexivity]. intros b x Hx. cbn [l_inner l_dom l_st] in *. rewrite cnts1 in Hx.
          specialize (Hcp l b x Hin). unfold cp in Hcp. rewrite Eb in Hcp. rewrite Hcp in Hx. rewrite inn_none. eapply inn_mem. apply (H4 b x). apply cnts_pos. eauto.
        - assert (Hd : level <= dim (l_dom P l)) by (destruct H5 as [H5 _]; rewrite Forall_forall in H5; eapply ok1_dim; eauto).
          destruct (project_loop_spec level l Hd) as (Q1 & Q2 & Q3). auto. }
      unfold X. rewrite !Forall_map, !Forall_forall. split; [intros l Hin; apply HX1; exact Hin|]. split; [intros l Hin; apply HX1; exact Hin|].
      unfold concat_inner. rewrite flat_map_concat_map, map_map. clear - HX1. induction (l_inner P t) as [|l r IH]; [reflexivity|]. cbn [map concat].
      destruct (HX1 l (or_introl eq_refl)) as (_ & _ & ->). cbn [app]. f_equal. apply IH. intros l' Hl'. apply HX1; right; exact Hl'. }
    destruct HX as (X1 & X2 & X3).
    assert (HE' : obind (separate P fuel X) (fun s => sort P level s) = Some rs \/ (X = [] /\ rs = [])).
    { destruct X; [right; split; [reflexivity|injection HE as <-; reflexivity]|left; exact HE]. }
    assert (HXc : forall b x, cnts X b x = cnt t b x).
    { intros b x. rewrite (tight_cnt P Se t b x H1 H4). rewrite (tight_cnts P Se X b x).
      - rewrite X3. unfold LoopSpec.cnts. rewrite sumn_map. apply sumn_ext. intros l Hin. apply Hcp; exact Hin.
      - rewrite Forall_forall in *. intros l Hin. split; [apply (X1 l Hin)|apply (X2 l Hin)]. }
    destruct HE' as [HE'|[EX ->]].
    2:{ split; [split; [intros b x; rewrite <- HXc, EX; reflexivity|constructor]|constructor]. }
    apply obind_some in HE' as (sp & Esp & Eso).
    destruct (separate_spec P Se L fuel level X sp Esp X1) as (P1 & P2 & P3 & P4).
    pose proof (sort_perm _ _ _ Eso) as Hperm.
    assert (Hspc : forall b x, cnts sp b x = cnt t b x) by (intros b x; rewrite (same_payload_cnts P Se level X sp b x X1 P1 P3); apply HXc).
    assert (Hrsc : forall b x, cnts rs b x = cnt t b x) by (intros b x; rewrite (cnts_perm _ _ _ _ _ _ Hperm); apply Hspc).
    assert (Hvalt : valok (level - 1) T (l_inner P t)) by (apply H6; lia).
    assert (Htc : forall b x, cnt t b x = cnts (l_inner P t) b x) by (intros; apply tight_cnt; assumption).
    split; [split; [exact Hrsc|]|].
    - destruct level as [|n]; [lia|]. replace (S n - 1) with n in * by lia. eapply sort_order; try exact Eso; auto.
      + intros y. destruct P3 as [P3 _]. rewrite P3. destruct (0 <? cov X y); cbn; lia.
      + intros HO b x b' x' E1 E2. rewrite Hspc, Htc in E1, E2. apply (Hvalt HO b x b' x' E1 E2).
    - rewrite Forall_forall. intros N' HN'. apply (Permutation_in _ Hperm) in HN'. rewrite Forall_forall in P1, P2, P4.
      destruct (P1 N' HN') as (Q1 & Q2 & Q3). pose proof (P4 N' HN') as Q4. rewrite X3 in Q4.
      assert (Qc : cvO N') by (split; [intros _; apply P2; exact HN'|left; apply P2; exact HN']).
      constructor; auto; [|intros _; exact Q2]. apply mk_node; auto.
      + eapply okl_subl; [exact Q4|exact Hokc].
      + intros _ HO b x b' x' E1 E2.
        assert (Hmono : forall b x, 0 < cnts (l_inner P N') b x -> 0 < cnts (l_inner P t) b x).
        { intros b1 x1 E. apply cnts_pos in E as (l & Hin & E). apply (Subl_in _ _ _ Q4) in Hin. apply in_map_iff in Hin as (l0 & <- & Hin).
          rewrite (Hcp l0 b1 x1 Hin) in E. apply cnts_pos. eauto. }
        apply (Hvalt HO b x b' x' (Hmono _ _ E1) (Hmono _ _ E2)). }
  destruct (stage_oconcat _ (level - 1) T _ _ H) as (S1 & S2 & S3).
  { intros N rs HN HE. apply (G N rs HN HE). }
  split; [exact S1|]. split; [auto|]. rewrite Forall_forall. intros N' HN'. destruct (S3 N' HN') as (N & rs & HN & HE & Hin).
  destruct (G N rs HN HE) as [_ G3]. rewrite Forall_forall in G3. apply G3; exact Hin.
Qed.

(** ** combine *)
Hypothesis HCO : o_strides o = true -> forall a b, lazy_equal P a b = false.
Lemma combine_two level a c : 1 <= level -> GG level a -> GG level c -> lazy_equal P (l_dom P a) (l_dom P c) = true ->
  pairok (level - 1) T a c -> valok (level - 1) T [a; c] ->
  let m := set_inner P a (l_inner P a ++ l_inner P c) in
  GG level m /\ forall b x, cnt m b x = cnt a b x + cnt c b x.
Proof.
  intros Hl Ha Hc Heq Hpair Hval m.
  assert (Hso : o_strides o = false).
  { destruct (Bool.bool_dec (o_strides o) true) as [E|E]; [rewrite (HCO E) in Heq; discriminate|apply not_true_is_false; exact E]. }
  destruct Ha as [A1 A2 A3 A4 A5]. destruct Hc as [C1 C2 C3 C4 C5]. specialize (A5 Hso) as As. specialize (C5 Hso) as Cs.
  destruct (L_lazy_equal _ _ L _ _ Heq) as [_ Hm].
  destruct a as [da oa sa ba ia]. destruct c as [dc oc sc bc ic]. cbn [l_dom l_st l_blk l_inner] in *. subst ba sa bc sc. unfold m, set_inner. cbn [l_dom l_st l_blk l_inner l_otl].
  assert (Hinn : forall x, inn da None x = inn dc None x) by (intros x; rewrite !inn_none, A2, C2; apply Hm).
  assert (Hcnt : forall b x, cnt (Loop da oa None None (ia ++ ic)) b x = cnt (Loop da oa None None ia) b x + cnt (Loop dc oc None None ic) b x).
  { intros b x. rewrite !cnt_node, cnts_app, Hinn. lia. }
  split; [|exact Hcnt]. constructor; cbn [l_dom l_st l_blk l_inner]; auto.
  apply ok1_node in A4 as [_ A4]. apply ok1_node in C4 as [_ C4].
  destruct A4 as [[A4 _]|(_ & _ & A4)]; [lia|]. destruct C4 as [[C4 _]|(_ & _ & C4)]; [lia|].
  apply ok1_node. split; [apply (cv_ok (Loop da oa None None (ia ++ ic))); exact A3|]. right. split; [lia|].
  assert (Hev : forall b x, 0 < cnts (ia ++ ic) b x -> andp P Se T da None x -> 0 < cnts [Loop da oa None None ia; Loop dc oc None None ic] b x).
  { intros b x Hx [_ Hi]. rewrite cnts_cons, cnts1, <- Hcnt, cnt_node, Hi. cbn [Nat.b2n]. lia. }
  split.
  - intros HO b x b' x' H1 H2 Hx Hx'. apply (Hval HO b x b' x' (Hev _ _ H1 Hx) (Hev _ _ H2 Hx') I I).
  - replace (S (level - 1)) with level in * by lia. apply okl_app; [exact A4| |].
    + eapply okl_mono; [|exact C4]. intros b x _ [_ Hi]. split; [exact I|]. rewrite <- Hinn. exact Hi.
    + intros HO b x b' x' H1 H2 [_ Hi] [_ Hi'] Hag. apply (Hpair HO b x b' x'); try exact I.
      * rewrite cnt_node, Hi. cbn [Nat.b2n]. lia.
      * rewrite cnt_node, <- Hinn, Hi'. cbn [Nat.b2n]. lia.
      * eapply agree_le; [|exact Hag]. lia.
Qed.
Lemma combine_gg level : 1 <= level -> forall rest first,
  Forall (GG level) (first :: rest) -> ForallOrdPairs (pairok (level - 1) T) (first :: rest) -> valok (level - 1) T (first :: rest) ->
  let res := combine_with P first rest in
  (forall b x, cnts res b x = cnts (first :: rest) b x) /\ Forall (GG level) res /\ ForallOrdPairs (pairok (level - 1) T) res.
Proof.
  intros Hl. induction rest as [|second rest IH]; intros first HF HP HV res; cbn [combine_with] in res.
  - subst res. auto.
  - inversion HF as [|? ? F1 F2]; subst. inversion F2 as [|? ? F3 F4]; subst. inversion HP as [|? ? P1 P2]; subst. inversion P1 as [|? ? P3 P4]; subst. inversion P2 as [|? ? P5 P6]; subst.
    subst res. destruct (lazy_equal P (l_dom P first) (l_dom P second)) eqn:E.
    + destruct (combine_two level first second Hl F1 F3 E P3) as [M1 M2].
      { intros HO b x b' x' H1 H2. apply (HV HO b x b' x'); rewrite !cnts_cons in *; rewrite ?cnts_nil in *; lia. }
      destruct (IH (set_inner P first (l_inner P first ++ l_inner P second))) as (I1 & I2 & I3).
      * constructor; assumption.
      * constructor; [|exact P6]. rewrite Forall_forall in *. intros c Hc HO b x b' x' H1 H2. rewrite M2 in H1.
        destruct (Nat.eq_dec (cnt first b x) 0) as [E0|E0].
        { apply (P5 c Hc HO b x b' x'); [lia|exact H2]. }
        { apply (P4 c Hc HO b x b' x'); [lia|exact H2]. }
      * intros HO b x b' x' H1 H2. apply (HV HO b x b' x'); rewrite !cnts_cons in *; rewrite M2 in *; lia.
      * split; [|split; assumption]. intros b x. rewrite I1, !cnts_cons, M2. lia.
    + destruct (IH second F2 P2) as (I1 & I2 & I3).
      { intros HO b x b' x' H1 H2. apply (HV HO b x b' x'); rewrite !cnts_cons in *; lia. }
      split; [intros b x; rewrite cnts_cons, I1, !cnts_cons; lia|]. split; [constructor; assumption|]. constructor; [|exact I3].
      rewrite Forall_forall. intros c Hc. intros HO b x b' x' H1 H2.
      assert (H2' : 0 < cnts (second :: rest) b' x') by (rewrite <- I1; apply cnts_pos; eauto).
      apply cnts_pos in H2' as (c' & Hc' & H2'). rewrite Forall_forall in P1. apply (P1 c' Hc' HO b x b' x' H1 H2').
Qed.

(** ** options -f and -l *)
Hypothesis HfO : O -> o_f o <> 0%Z.
Definition late (v : Z) : Prop := (Z.of_nat (M + ct kinds) <= v)%Z.
Hypothesis HlO : O -> (o_l o < 0)%Z \/ late (o_l o).
Hypothesis HlsO : O -> match o_ls o with Some ls => Forall (fun v => (v <= 0)%Z \/ late v) ls | None => True end.

Lemma stmt_fl_ok acc s : O -> ((snd acc <= 0)%Z \/ late (snd acc)) -> (snd (stmt_fl o acc s) <= 0)%Z \/ late (snd (stmt_fl o acc s)).
Proof.
  intros HO Ha. unfold stmt_fl. pose proof (HlsO HO) as Hls. destruct (o_fs o); [|cbn; lia]. destruct (o_ls o) as [ls|]; [|cbn; lia]. cbn [snd].
  assert (Hn : (nth (s - 1) ls 0 <= 0)%Z \/ late (nth (s - 1) ls 0%Z)).
  { destruct (nth_in_or_default (s - 1) ls 0%Z) as [Hin|E]; [rewrite Forall_forall in Hls; apply Hls; exact Hin|rewrite E; lia]. }
  unfold late in *. destruct (Z.max_spec (nth (s - 1) ls 0%Z) (snd acc)) as [[_ ->]|[_ ->]]; auto.
Qed.
Lemma loop_fl_ok l : O -> forall acc, ((snd acc <= 0)%Z \/ late (snd acc)) -> (snd (loop_fl P o l acc) <= 0)%Z \/ late (snd (loop_fl P o l acc)).
Proof.
  intros HO. induction l as [d ot st blk inner IH] using (loop_ind' P). intros acc Ha. cbn [loop_fl].
  set (acc1 := match l_blk P (Loop d ot st blk inner) with Some b => fold_left (stmt_fl o) (b_stmts b) acc | None => acc end).
  assert (H1 : (snd acc1 <= 0)%Z \/ late (snd acc1)).
  { unfold acc1. cbn [l_blk]. destruct blk as [b|]; [|exact Ha]. revert acc Ha acc1. induction (b_stmts b) as [|s ss IHs]; intros acc Ha acc1; [exact Ha|]. cbn [fold_left].
    apply IHs. apply stmt_fl_ok; assumption. }
  clearbody acc1. revert acc1 H1. induction IH as [|l r Hl _ IHr]; intros acc1 H1; [exact H1|]. apply IHr. apply Hl. exact H1.
Qed.
Lemma get_fl_ok ls : O -> (snd (get_fl P o ls) < 0)%Z \/ late (snd (get_fl P o ls)).
Proof.
  intros HO. unfold get_fl.
  assert (H : forall acc, ((snd acc <= 0)%Z \/ late (snd acc)) -> let a := fold_left (fun acc l => loop_fl P o l acc) ls acc in (snd a <= 0)%Z \/ late (snd a)).
  { induction ls as [|l r IH]; intros acc Ha; [exact Ha|]. cbn [fold_left]. apply IH. apply loop_fl_ok; assumption. }
  specialize (H ((-1)%Z, (-1)%Z) ltac:(cbn; lia)). cbv zeta in H.
  destruct (fold_left (fun acc l => loop_fl P o l acc) ls ((-1)%Z, (-1)%Z)) as [f l]. cbn [snd] in *.
  destruct (Z.leb_spec f 0); cbn [orb]; [apply HlO; exact HO|]. destruct (Z.ltb_spec l f); [apply HlO; exact HO|]. cbn [snd]. destruct H; [lia|auto].
Qed.
Lemma get_fl_first ls : O -> fst (get_fl P o ls) <> 0%Z.
Proof.
  intros HO. unfold get_fl. destruct (fold_left (fun acc l => loop_fl P o l acc) ls ((-1)%Z, (-1)%Z)) as [f l].
  destruct (Z.leb_spec f 0); cbn [orb fst]; [apply HfO; exact HO|]. destruct (l <? f)%Z; cbn [fst]; [apply HfO; exact HO|lia].
Qed.

(** ** cloog_loop_generate_general *)
Hypothesis HH : hull_ok P Se o.
Lemma generate_general_spec fuel rec level scalar lc res :
  (level = 0 -> scalar = 0) -> Pos level scalar -> Inv scalar lc -> Forall (fun l => level <= dim (l_dom P l)) lc ->
  (forall ctx, RecSpec (rec ctx (S level) scalar) level scalar) ->
  generate_general P scaldims o fuel rec level scalar (project_all P level lc) = Some res ->
  (forall b x, cnts res b x = cnts lc b x) /\ ForallOrdPairs (pairok (level - 1) T) res /\ Forall (GG level) res.
Proof.
  intros H0 HP HI Hd HR H. unfold generate_general in H.
  destruct (project_all_spec level lc Hd) as (A1 & A2 & A3 & A4). set (ls := project_all P level lc) in *.
  pose proof (get_fl_ok ls) as Hlast. pose proof (get_fl_first ls) as Hfirst. destruct (get_fl P o ls) as [first last]. cbn [fst snd] in *.
  set (const := (0 <? level) && is_constant P level ls) in *.
  set (mrg := (Z.of_nat (level + scalar) <? first)%Z || (first <? 0)%Z) in *.
  apply obind_some in H as (r1 & E1 & H). apply obind_some in H as (r2 & E2 & H).
  (* separation or merge *)
  assert (S1 : (forall b x, cnts r1 b x = cnts lc b x) /\ Forall (fun N => nd level N /\ cvx N /\ Subl (l_inner P N) lc) r1 /\
               (forall y, cov r1 y <= 1) /\ (level = 0 -> O -> length r1 <= 1)).
  { assert (Hmerged : forall r, Forall (fun N => nd level N /\ cvx N /\ l_inner P N = concat_inner P ls) r -> (forall y, cov r y <= 1) -> (forall y, 0 < cov ls y -> cov r y = 1) ->
       (forall b x, cnts r b x = cnts lc b x) /\ Forall (fun N => nd level N /\ cvx N /\ Subl (l_inner P N) lc) r /\ (forall y, cov r y <= 1)).
    { intros r M1 M2 M3. split; [|split; [|exact M2]].
      - intros b x. rewrite (merged_cnts P Se level ls r b x A1 A2 M1 M2 M3). apply A4.
      - eapply Forall_impl; [|exact M1]. cbn. intros N (N1 & N2 & N3). split; [exact N1|]. split; [exact N2|]. rewrite N3, A3. apply Subl_refl. }
    destruct const eqn:Ec.
    - injection E1 as <-. destruct (constant_spec P Se L level ls A1) as (M1 & M2 & M3 & M4). destruct (Hmerged _ M1 M2 M3) as (R1 & R2 & R3). auto.
    - destruct mrg eqn:Em.
      + destruct (merge_spec P Se L fuel o level level ls r1 HH E1 A1) as (M1 & M2 & M3 & M4). destruct (Hmerged _ M1 M2 M3) as (R1 & R2 & R3). auto.
      + destruct (separate_spec P Se L fuel level ls r1 E1 A1) as (P1 & P2 & P3 & P4). split; [|split; [|split]].
        * intros b x. rewrite (same_payload_cnts P Se level ls r1 b x A1 P1 P3). apply A4.
        * rewrite Forall_forall in *. rewrite A3 in P4. intros N HN. auto.
        * intros y. destruct P3 as [P3 _]. rewrite P3. destruct (0 <? cov ls y); cbn; lia.
        * intros Hl0 HO. exfalso. unfold mrg in Em. specialize (Hfirst HO). rewrite (H0 Hl0), Hl0 in Em. apply orb_false_iff in Em as [Em1 Em2]. cbn in Em1. lia. }
  destruct S1 as (B1 & B2 & B3 & B4).
  pose proof (sort_perm _ _ _ E2) as Hperm.
  assert (C1 : forall b x, cnts r2 b x = cnts lc b x) by (intros b x; rewrite (cnts_perm _ _ _ _ _ _ Hperm); apply B1).
  assert (C2 : Forall (fun N => nd level N /\ cvx N /\ Subl (l_inner P N) lc) r2).
  { rewrite Forall_forall in *. intros N HN. apply B2. eapply Permutation_in; eauto. }
  assert (Hvlc : 0 < level -> valok (level - 1) T lc).
  { intros Hl. destruct (ps_prev _ _ HP Hl) as [Q1 Q2]. eapply inv_valok; eauto. eapply Forall_impl; [|exact Hd]. cbn. intros l Hdl. lia. }
  assert (C3 : ForallOrdPairs (pairok (level - 1) T) r2).
  { destruct level as [|n].
    - apply FOP_nth. intros i j a b Hij Ha Hb HO. exfalso. specialize (B4 eq_refl HO). rewrite <- (Permutation_length Hperm) in B4.
      assert (j < length r2) by (apply nth_error_Some; congruence). lia.
    - replace (S n - 1) with n in * by lia. eapply sort_order; try exact E2; auto.
      + eapply Forall_impl; [|exact B2]. cbn. tauto.
      + eapply Forall_impl; [|exact B2]. cbn. tauto.
      + intros HO b x b' x' X1 X2. rewrite B1 in X1, X2. apply (Hvlc ltac:(lia) HO b x b' x' X1 X2). }
  destruct HI as [HIl HIk]. set (K := map key lc) in *.
  assert (HdK : Forall (fun k => level <= fst k) K) by (unfold K; rewrite Forall_map; exact Hd).
  destruct (restrict_inner_spec level K (level - 1) T r2 HdK) as (D1 & D2 & D3).
  { eapply Forall_impl; [|exact C2]. cbn. intros N (N1 & N2 & N3). split; [exact N1|]. split; [exact N2|]. split; [eapply Subl_forall; eauto|apply Subl_map; exact N3]. }
  specialize (D2 C3). set (r3 := restrict_inner P r2) in *. apply obind_some in H as (r4 & E4 & H).
  assert (S4 : (forall b x, cnts r4 b x = cnts lc b x) /\ ForallOrdPairs (pairok (level - 1) T) r4 /\ Forall (NPc level K) r4).
  { destruct (negb const && negb mrg) eqn:Ecm.
    - destruct (specialize_spec level scalar K r3 r4 HIk) as (Q1 & Q2 & Q3); auto.
      + intros Hl0 HO. apply andb_prop in Ecm as [_ Em]. apply negb_true_iff in Em. unfold mrg in Em. specialize (Hfirst HO). rewrite (H0 Hl0), Hl0 in Em.
        apply orb_false_iff in Em as [Em1 Em2]. cbn in Em1. lia.
      + intros Hl. apply (ps_prev _ _ HP Hl).
      + split; [intros b x; rewrite Q1, D1; apply C1|]. split; [auto|exact Q3].
    - injection E4 as <-. split; [intros b x; rewrite D1; apply C1|]. split; [exact D2|exact D3]. }
  destruct S4 as (F1 & F2 & F3). rewrite Forall_forall in F3.
  apply obind_some in H as (r5 & E5 & H).
  assert (S5 : (forall b x, cnts r5 b x = cnts lc b x) /\ ForallOrdPairs (pairok (level - 1) T) r5 /\ Forall (Post level) r5).
  { destruct ((level =? 0) || ((Z.of_nat (level + scalar) <? last)%Z || (last <? 0)%Z)) eqn:Edeep.
    - assert (G : forall N rs, In N r4 -> loop_recurse P scaldims o rec level scalar const N = Some rs ->
         (forall b x, cnts rs b x = cnt N b x) /\ ForallOrdPairs (pairok (level - 1) T) rs /\ Forall (Post level) rs).
      { intros N rs HN HE. eapply loop_recurse_spec; eauto. }
      destruct (stage_oconcat _ (level - 1) T _ _ E5) as (Q1 & Q2 & Q3).
      { intros N rs HN HE. destruct (G N rs HN HE) as (G1 & G2 & _). auto. }
      split; [intros b x; rewrite Q1; apply F1|]. split; [auto|]. rewrite Forall_forall. intros N' HN'. destruct (Q3 N' HN') as (N & rs & HN & HE & Hin).
      destruct (G N rs HN HE) as (_ & _ & G3). rewrite Forall_forall in G3. apply G3; exact Hin.
    - apply orb_false_iff in Edeep as [El0 Edp]. apply Nat.eqb_neq in El0. apply orb_false_iff in Edp as [Ed1 Ed2]. apply Z.ltb_ge in Ed1, Ed2.
      assert (HE : EndC level scalar).
      { intros HO. destruct (Hlast HO) as [Hx|Hx]; [lia|]. unfold late in Hx. pose proof (at_pos_le kinds level scalar (ps_at _ _ HP)). pose proof (ct_cf kinds). lia. }
      assert (G : forall N N', In N r4 -> obind (nest P fuel (l_dom P N) (S level) (l_inner P N)) (fun l => Some (Loop (l_dom P N) false None None l)) = Some N' ->
         (forall b x, cnt N' b x = cnt N b x) /\ Post level N').
      { intros N N' HN HEx. apply obind_some in HEx as (l & Hnl & HEx). injection HEx as <-. eapply nest_spec; eauto. lia. }
      destruct (stage_omap _ (level - 1) T _ _ E5) as (Q1 & Q2 & Q3).
      { intros N N' HN HEx. apply (G N N' HN HEx). }
      split; [intros b x; rewrite Q1; apply F1|]. split; [auto|]. rewrite Forall_forall. intros N' HN'. destruct (Q3 N' HN') as (N & HN & HEx).
      apply (G N N' HN HEx). }
  destruct S5 as (G1 & G2 & G3). apply obind_some in H as (r6 & E6 & H).
  assert (S6 : (forall b x, cnts r6 b x = cnts lc b x) /\ ForallOrdPairs (pairok (level - 1) T) r6 /\ Forall (Post level) r6).
  { rewrite Forall_forall in G3. destruct (Bool.bool_dec (o_strides o) true) as [Eso|Eso].
    - rewrite Eso in E6. destruct (stage_omap _ (level - 1) T _ _ E6) as (Q1 & Q2 & Q3).
      { intros N N' HN HEx. eapply propagate_spec; eauto. }
      split; [intros b x; rewrite Q1; apply G1|]. split; [auto|]. rewrite Forall_forall. intros N' HN'. destruct (Q3 N' HN') as (N & HN & HEx).
      destruct (propagate_spec level N N' Eso (G3 N HN) HEx) as [_ Hpo]. exact Hpo.
    - apply not_true_is_false in Eso. rewrite Eso in E6. injection E6 as <-. rewrite <- Forall_forall in G3. auto. }
  destruct S6 as (J1 & J2 & J3).
  destruct (o_backtrack o && negb (level =? 0) && ((Z.of_nat (level + scalar) <? last)%Z || (last <? 0)%Z) && negb mrg) eqn:Eb.
  - apply andb_prop in Eb as [Eb _]. apply andb_prop in Eb as [Eb _]. apply andb_prop in Eb as [_ Eb]. apply negb_true_iff, Nat.eqb_neq in Eb.
    destruct (backtrack_spec fuel level r6 res ltac:(lia) J3 J2 H) as (Q1 & Q2 & Q3).
    split; [intros b x; rewrite Q1; apply J1|]. auto.
  - injection H as <-. split; [exact J1|]. split; [exact J2|]. eapply Forall_impl; [|exact J3]. apply post_gg.
Qed.

(** ** cloog_loop_generate_components *)
Lemma Subl_map_inv {A B} (f : A -> B) l' l : Subl l' (map f l) -> exists k, l' = map f k /\ Subl k l.
Proof.
  revert l'. induction l as [|a l IH]; intros l' H; cbn in H.
  - inversion H; subst. exists []. split; [reflexivity|apply Subl_nil].
  - inversion H as [|? ? ? H1|? ? ? H1]; subst.
    + destruct (IH _ H1) as (k & -> & Hk). exists k. split; [reflexivity|]. apply Subl_skip; exact Hk.
    + destruct (IH _ H1) as (k & -> & Hk). exists (a :: k). split; [reflexivity|]. apply Subl_keep; exact Hk.
Qed.

Lemma gg_okl level res : Forall (GG level) res -> ForallOrdPairs (pairok (level - 1) T) res -> okl (level - 1) T res.
Proof. intros H1 H2. split; [|exact H2]. eapply Forall_impl; [|exact H1]. intros N HN. apply (gg_ok _ _ HN). Qed.

Lemma generate_components_spec fuel rec level scalar ls res :
  (level = 0 -> scalar = 0) -> Pos level scalar -> Inv scalar ls -> Forall (fun l => level <= dim (l_dom P l)) ls ->
  (forall ctx, RecSpec (rec ctx (S level) scalar) level scalar) ->
  generate_components P scaldims o fuel rec level scalar (project_all P level ls) = Some res ->
  (forall b x, cnts res b x = cnts ls b x) /\ okl (level - 1) T res.
Proof.
  intros H0 HP HI Hd HR H. unfold generate_components in H.
  destruct ((level =? 0) || (length (project_all P level ls) <=? 1)) eqn:E.
  { destruct (generate_general_spec fuel rec level scalar ls res H0 HP HI Hd HR H) as (G1 & G2 & G3). split; [exact G1|]. apply gg_okl; assumption. }
  apply orb_false_iff in E as [El _]. apply Nat.eqb_neq in El. assert (Hl : 1 <= level) by lia. destruct (ps_prev _ _ HP ltac:(lia)) as [Hat Hns].
  apply obind_some in H as (cs & Ecs & H). apply obind_some in H as (r & Er & H). injection H as <-.
  destruct (loop_components_spec (fun a b def => inner_loop_follows P scaldims a b level scalar def) (pairok (level - 1) T) (project_all P level ls) cs) as (C1 & C2 & C3); [|exact Ecs|].
  { intros ia ib a c Ea Ec Hfol Hne. unfold project_all in Ea, Ec. rewrite nth_error_map' in Ea, Ec.
    destruct (nth_error ls ia) as [la|] eqn:Ela; [|discriminate]. destruct (nth_error ls ib) as [lb|] eqn:Elb; [|discriminate].
    cbn in Ea, Ec. injection Ea as <-. injection Ec as <-. unfold inner_loop_follows in Hfol. cbn [project_loop l_inner] in Hfol.
    apply orb_false_iff in Hfol as [_ Hfol].
    pose proof (nth_error_In _ _ Ela) as Hia. pose proof (nth_error_In _ _ Elb) as Hib. rewrite Forall_forall in Hd.
    apply (pairok_cnt P Se O R (level - 1) T la lb).
    - intros b x. rewrite project_loop_cnt; [lia|apply Hd; exact Hia].
    - intros b x. rewrite project_loop_cnt; [lia|apply Hd; exact Hib].
    - destruct level as [|n]; [lia|]. replace (S n - 1) with n in * by lia.
      eapply (follows_spec scalar ls la lb); try exact Hfol; auto.
      + specialize (Hd la Hia). cbn in Hd. lia.
      + intros HO Ht Hlt. apply Nat.ltb_ge in Hlt. assert (Hab : ia < ib) by lia.
        pose proof (iv_ord _ _ (proj2 HI)) as Hor.
        pose proof (proj1 (FOP_nth _ _) Hor ia ib (key la) (key lb) Hab) as Hr. rewrite !nth_error_map', Ela, Elb in Hr.
        apply (Hr eq_refl eq_refl); assumption. }
  assert (G : forall c rs, In c cs -> generate_general P scaldims o fuel rec level scalar c = Some rs ->
     (forall b x, cnts rs b x = cnts c b x) /\ ForallOrdPairs (pairok (level - 1) T) rs /\ Forall (GG level) rs).
  { intros c rs Hc HE. rewrite Forall_forall in C2. destruct (C2 c Hc) as [Hsub _]. unfold project_all in Hsub. apply Subl_map_inv in Hsub as (lc & -> & Hlc).
    fold (project_all P level lc) in *. assert (Hdc : Forall (fun l => level <= dim (l_dom P l)) lc) by (eapply Subl_forall; eauto).
    destruct (generate_general_spec fuel rec level scalar lc rs H0 HP (Inv_subl _ _ _ Hlc HI) Hdc HR HE) as (G1 & G2 & G3).
    split; [|auto]. intros b x. rewrite G1. destruct (project_all_spec level lc Hdc) as (_ & _ & _ & A4). symmetry. apply A4. }
  apply oconcat_forall2 in Er as (rss & -> & HF).
  assert (R1 : forall b x, cnts (concat rss) b x = cnts ls b x).
  { intros b x. destruct (project_all_spec level ls Hd) as (_ & _ & _ & A4). rewrite <- A4, <- (cnts_perm _ _ _ _ _ _ C1), !cnts_concat. symmetry.
    apply (sumn_forall2 _ _ _ _ _ HF). intros c rs Hc HE. symmetry. apply (G c rs Hc HE). }
  assert (R2 : Forall (GG level) (concat rss)).
  { rewrite Forall_forall. intros N HN. apply in_concat in HN as (rs & Hrs & HN). destruct (Forall2_in_r _ _ _ _ HF Hrs) as (c & Hc & HE).
    destruct (G c rs Hc HE) as (_ & _ & G3). rewrite Forall_forall in G3. apply G3; exact HN. }
  assert (R3 : ForallOrdPairs (pairok (level - 1) T) (concat rss)).
  { apply FOP_concat.
    - rewrite Forall_forall. intros rs Hrs. destruct (Forall2_in_r _ _ _ _ HF Hrs) as (c & Hc & HE). apply (G c rs Hc HE).
    - eapply FOP_forall2; [exact HF| |exact C3]. cbn. intros c c' rs rs' Hc Hc' HE HE' Hcc a a' Ha Ha' HO b x b' x' H1 H2.
      assert (E1 : 0 < cnts c b x) by (rewrite <- (proj1 (G c rs Hc HE)); apply cnts_pos; eauto).
      assert (E2 : 0 < cnts c' b' x') by (rewrite <- (proj1 (G c' rs' Hc' HE')); apply cnts_pos; eauto).
      apply cnts_pos in E1 as (p & Hp & E1). apply cnts_pos in E2 as (p' & Hp' & E2). apply (Hcc p p' Hp Hp' HO b x b' x' E1 E2). }
  assert (Hval : valok (level - 1) T (concat rss)).
  { intros HO b x b' x' H1 H2. rewrite R1 in H1, H2. assert (Hv : valok (level - 1) T ls).
    { eapply inv_valok; eauto. eapply Forall_impl; [|exact Hd]. cbn. intros l Hdl. lia. }
    apply (Hv HO b x b' x' H1 H2). }
  destruct (concat rss) as [|f rest] eqn:Ecr.
  - cbn [combine]. split; [exact R1|apply okl_nil].
  - cbn [combine]. destruct (combine_gg level Hl rest f R2 R3 Hval) as (Q1 & Q2 & Q3).
    split; [intros b x; rewrite Q1; apply R1|]. apply gg_okl; assumption.
Qed.

(** ** cloog_loop_generate_scalar *)
Section Scalar.
Variables n scalar : nat.
Notation r := (scaldim scaldims (n + scalar)).
Definition seq_ (l l' : loop) : Prop := forall i, i < r -> blk_scal P l (scalar + i) = blk_scal P l' (scalar + i).
Definition slt (l l' : loop) : Prop := exists i, i < r /\ (forall j, j < i -> blk_scal P l (scalar + j) = blk_scal P l' (scalar + j)) /\
   (blk_scal P l (scalar + i) < blk_scal P l' (scalar + i))%Z.
Lemma seq_slt a b : seq_ a b -> slt a b -> False.
Proof. intros H (i & Hi & _ & Hlt). rewrite (H i Hi) in Hlt. lia. Qed.
Lemma slt_asym a b : slt a b -> slt b a -> False.
Proof.
  intros (i & Hi & Hie & Hil) (j & Hj & Hje & Hjl). destruct (Nat.lt_trichotomy i j) as [H|[H|H]].
  - rewrite (Hje i H) in Hil. lia.
  - subst j. lia.
  - rewrite (Hie j H) in Hjl. lia.
Qed.
Lemma slt_trans a b c : slt a b -> slt b c -> slt a c.
Proof.
  intros (i & Hi & Hie & Hil) (j & Hj & Hje & Hjl). destruct (Nat.lt_trichotomy i j) as [H|[H|H]].
  - exists i. split; [exact Hi|]. split; [intros k Hk; rewrite Hie by exact Hk; apply Hje; lia|]. rewrite <- (Hje i H). exact Hil.
  - subst j. exists i. split; [exact Hi|]. split; [intros k Hk; rewrite Hie by exact Hk; apply Hje; lia|]. lia.
  - exists j. split; [exact Hj|]. split; [intros k Hk; rewrite Hie by lia; apply Hje; lia|]. rewrite (Hie j H). exact Hjl.
Qed.
Lemma seq_sym a b : seq_ a b -> seq_ b a.
Proof. intros H i Hi. symmetry. auto. Qed.
Lemma seq_trans a b c : seq_ a b -> seq_ b c -> seq_ a c.
Proof. intros H1 H2 i Hi. rewrite H1 by exact Hi. auto. Qed.
Lemma seq_slt_l a b c : seq_ a b -> slt b c -> slt a c.
Proof. intros H (i & Hi & Hie & Hil). exists i. split; [exact Hi|]. split; [intros j Hj; rewrite H by lia; auto|]. rewrite H by exact Hi. exact Hil. Qed.
Lemma seq_slt_r a b c : slt a b -> seq_ b c -> slt a c.
Proof. intros (i & Hi & Hie & Hil) H. exists i. split; [exact Hi|]. split; [intros j Hj; rewrite <- H by lia; auto|]. rewrite <- H by exact Hi. exact Hil. Qed.
Definition sle a b := seq_ a b \/ slt a b.
Lemma sle_trans a b c : sle a b -> sle b c -> sle a c.
Proof.
  intros [H1|H1] [H2|H2].
  - left. eapply seq_trans; eauto.
  - right. eapply seq_slt_l; eauto.
  - right. eapply seq_slt_r; eauto.
  - right. eapply slt_trans; eauto.
Qed.
Lemma sle_anti a b : sle a b -> sle b a -> seq_ a b.
Proof.
  intros [H1|H1] H2; [exact H1|]. exfalso. destruct H2 as [H2|H2]; [apply (seq_slt b a H2) |apply (slt_asym a b H1 H2)].
  eapply seq_slt_l; [exact H2|]. eapply seq_slt_r; [exact H1|exact H2].
Qed.
Lemma gt_spec a b : scalar_gt P scaldims (S n) scalar a b = true -> slt b a.
Proof.
  unfold scalar_gt. pose proof (ccmp_full n a b scalar) as Hc. cbv zeta in Hc. destruct (constant_cmp P scaldims a b (S n) scalar); try discriminate. intros _.
  destruct Hc as (i & Hi & He & Hlt). exists i. split; [exact Hi|]. split; [intros j Hj; symmetry; auto|lia].
Qed.
Lemma ngt_spec a b : scalar_gt P scaldims (S n) scalar a b = false -> sle a b.
Proof.
  unfold scalar_gt. pose proof (ccmp_full n a b scalar) as Hc. cbv zeta in Hc. destruct (constant_cmp P scaldims a b (S n) scalar); try discriminate; intros _; [left; exact Hc|right; exact Hc].
Qed.
Lemma eq_spec a b : scalar_eq P scaldims (S n) scalar a b = true <-> seq_ a b.
Proof.
  unfold scalar_eq. pose proof (ccmp_full n a b scalar) as Hc. cbv zeta in Hc. destruct (constant_cmp P scaldims a b (S n) scalar).
  - split; auto.
  - split; [discriminate|]. intros H. exfalso. exact (seq_slt a b H Hc).
  - split; [discriminate|]. intros H. exfalso. apply (seq_slt b a (seq_sym _ _ H)). destruct Hc as (i & Hi & He & Hlt). exists i. split; [exact Hi|]. split; [intros j Hj; symmetry; auto|lia].
Qed.
Lemma chain_sle ls : chain (scalar_gt P scaldims (S n) scalar) ls -> ForallOrdPairs sle ls.
Proof.
  induction 1 as [a|a b l Hgt Hc IH]; [apply FOP1|]. apply ngt_spec in Hgt. constructor; [|exact IH].
  inversion IH as [|? ? H1 H2]; subst. constructor; [exact Hgt|]. eapply Forall_impl; [|exact H1]. intros c Hbc. eapply sle_trans; eauto.
Qed.

Lemma take_while_spec {A} (p : A -> bool) l g nx : take_while p l = (g, nx) ->
  l = g ++ nx /\ Forall (fun x => p x = true) g /\ match nx with [] => True | c :: _ => p c = false end.
Proof.
  revert g nx. induction l as [|x l IH]; intros g nx H; cbn in H.
  - injection H as <- <-. repeat constructor.
  - destruct (p x) eqn:E.
    + destruct (take_while p l) as [a b]. injection H as <- <-. destruct (IH a b eq_refl) as (-> & H2 & H3). split; [reflexivity|]. split; [constructor; assumption|exact H3].
    + injection H as <- <-. split; [reflexivity|]. split; [constructor|exact E].
Qed.

(** a run of scalar dimensions that reaches the end *)
Lemma run_true r0 : forall m, scaldim scaldims m = r0 -> forall i, i < r0 -> nth (m + i) kinds false = true.
Proof.
  unfold scaldim. induction r0 as [|r0 IH]; intros m H i Hi; [lia|]. rewrite run_lengths_nth in H.
  destruct (nth m kinds false) eqn:E; [|discriminate]. destruct i as [|i]; [rewrite Nat.add_0_r; exact E|].
  replace (m + S i) with (S m + i) by lia. apply IH; lia.
Qed.
Lemma last_nth : last kinds false = nth (nb - 1) kinds false.
Proof.
  clear. induction kinds as [|a [|b ks] IH]; [reflexivity|reflexivity|]. change (last (b :: ks) false = nth (length (a :: b :: ks) - 1) (a :: b :: ks) false).
  rewrite IH. cbn [length]. replace (S (S (length ks)) - 1) with (S (S (length ks) - 1)) by lia. reflexivity.
Qed.
Lemma run_last m : nth m kinds false = true -> nb <= m + scaldim scaldims m -> last kinds false = true.
Proof.
  intros Hm H. rewrite last_nth. assert (Hlt : m < nb). { destruct (Nat.lt_ge_cases m nb); [assumption|]. rewrite nth_overflow in Hm by lia. discriminate. }
  replace (nb - 1) with (m + (nb - 1 - m)) by lia. apply (run_true (scaldim scaldims m)); [reflexivity|lia].
Qed.

Hypothesis Hat : at_pos n scalar.
Hypothesis Hsc : nth (n + scalar) kinds false = true.
Notation sn := (scalar + scaldim scaldims (n + scalar)).

Lemma pair_inv ls a c : Inv scalar ls -> In a ls -> In c ls -> seq_ a c -> Rin (key a) (key c) -> Inv sn [a; c].
Proof.
  intros [H1 H2] Ha Hc Hs Hr. rewrite Forall_forall in H1. split; [repeat constructor; apply H1; assumption|].
  destruct H2 as [K1 K2 K3 K4]. rewrite Forall_forall in K1.
  assert (Ka : In (key a) (map key ls)) by (apply in_map; exact Ha). assert (Kc : In (key c) (map key ls)) by (apply in_map; exact Hc).
  assert (Hac : forall i, i < sn -> kscal (key a) i = kscal (key c) i).
  { intros i Hi. destruct (Nat.lt_ge_cases i scalar) as [Hlt|Hge]; [apply K3; assumption|].
    replace i with (scalar + (i - scalar)) by lia. rewrite <- !blk_scal_key. apply Hs. lia. }
  constructor.
  - repeat constructor; apply K1; assumption.
  - intros HO. specialize (K2 HO). rewrite Forall_forall in K2. cbn [map]. constructor; [apply K2; exact Ka|]. constructor; [apply K2; exact Kc|constructor].
  - cbn [map]. intros k k' [<-|[<-|[]]] [<-|[<-|[]]] i Hi; auto. symmetry. auto.
  - cbn [map]. constructor; [constructor; [exact Hr|constructor]|apply FOP1].
Qed.

Lemma notmore_end ls c : Inv scalar ls -> In c ls -> more P scaldims (S n) sn c = false ->
  nb <= n + sn /\ sn = ct kinds /\ n = cf kinds /\ dim (l_dom P c) = n /\ (O -> M <= n).
Proof.
  intros [_ HK] Hc Hm. unfold more in Hm. rewrite nbs in Hm. apply orb_false_iff in Hm as [H1 H2]. apply Nat.leb_gt in H1, H2.
  pose proof (run_pos n _ scalar Hat eq_refl) as Hp'. destruct (at_pos_end kinds n sn Hp' ltac:(lia)) as [E1 E2].
  pose proof (at_pos_scalar_le kinds n scalar Hat Hsc) as E3.
  pose proof (iv_dim _ _ HK) as Hd. rewrite Forall_forall in Hd. specialize (Hd (key c) (in_map _ _ _ Hc)). cbn in Hd.
  split; [lia|]. split; [exact E1|]. split; [lia|]. split; [lia|]. intros HO. pose proof (iv_M _ _ HK HO) as HM. rewrite Forall_forall in HM. specialize (HM (key c) (in_map _ _ _ Hc)). cbn in HM. lia.
Qed.

Lemma scal_pair_lt ls a c : Inv scalar ls -> In a ls -> In c ls -> slt a c -> pairok n T a c.
Proof.
  intros [H1 HK] Ha Hc (i & Hi & He & Hlt). rewrite Forall_forall in H1.
  assert (HM : forall l, In l ls -> O -> M <= dim (l_dom P l)).
  { intros l Hl HO. pose proof (iv_M _ _ HK HO) as HM. rewrite Forall_forall in HM. apply (HM (key l) (in_map _ _ _ Hl)). }
  refine (scal_pair scalar n a c _ i T Hat eq_refl Hi (H1 a Ha) (H1 c Hc) (HM a Ha) (HM c Hc) _ He Hlt).
  intros j Hj. exact (iv_scal _ _ HK (key a) (key c) (in_map _ _ _ Ha) (in_map _ _ _ Hc) j Hj).
Qed.

Lemma groups_spec rec all : RecSpec rec n sn -> Inv scalar all ->
  forall fuel ls done res res', incl done all -> incl ls all -> ForallOrdPairs sle ls ->
  ForallOrdPairs (fun a c => seq_ a c -> Rin (key a) (key c)) ls ->
  (forall a c, In a done -> In c ls -> pairok n T a c) ->
  (forall b x, cnts res b x = cnts done b x) -> okl n T res ->
  scalar_groups P scaldims fuel rec (S n) scalar sn ls res [] = Some res' ->
  (forall b x, cnts res' b x = cnts (done ++ ls) b x) /\ okl n T res'.
Proof.
  intros HR HI. induction fuel as [|f IH]; intros ls done res res' Hdi Hli Hsle Hst Hx Hc Hok H; [discriminate|]. cbn [scalar_groups] in H.
  destruct ls as [|ref rl]; [injection H as <-; rewrite !app_nil_r; auto|].
  destruct (take_while (fun x => more P scaldims (S n) sn x && scalar_eq P scaldims (S n) scalar ref x) rl) as [grp next] eqn:Etw.
  apply take_while_spec in Etw as (-> & Hgrp & Hnext).
  assert (Hsub : Subl next (ref :: grp ++ next)) by (apply Subl_skip, Subl_app_r, Subl_refl).
  assert (Hgeq : forall a, In a (ref :: grp) -> seq_ ref a).
  { intros a [<-|Ha]; [intros i _; reflexivity|]. rewrite Forall_forall in Hgrp. specialize (Hgrp a Ha). apply andb_prop in Hgrp as [_ Hgrp]. apply eq_spec. exact Hgrp. }
  assert (Hsplit : forall Q : loop -> loop -> Prop, ForallOrdPairs Q (ref :: grp ++ next) -> forall a c, In a (ref :: grp) -> In c next -> Q a c).
  { intros Q HQ. change (ref :: grp ++ next) with ((ref :: grp) ++ next) in HQ. apply FOP_app in HQ as (_ & _ & HQ). exact HQ. }
  (* the group comes before the rest *)
  assert (Hpn : forall a c, In a (ref :: grp) -> In c next -> pairok n T a c).
  { intros a c Ha Hcn. pose proof (Hsplit _ Hsle a c Ha Hcn) as Hac. pose proof (Hsplit _ Hst a c Ha Hcn) as Hr.
    assert (Hia : In a all) by (apply Hli; change (ref :: grp ++ next) with ((ref :: grp) ++ next); apply in_or_app; left; exact Ha).
    assert (Hic : In c all) by (apply Hli; change (ref :: grp ++ next) with ((ref :: grp) ++ next); apply in_or_app; right; exact Hcn).
    destruct Hac as [Hac|Hac]; [|eapply scal_pair_lt; eauto].
    specialize (Hr Hac).
    assert (Hend : nb <= n + sn /\ (O -> M <= n)).
    { destruct next as [|c0 nx]; [destruct Hcn|].
      assert (Hi0 : In c0 all) by (apply Hli; change (ref :: grp ++ c0 :: nx) with ((ref :: grp) ++ c0 :: nx); apply in_or_app; right; left; reflexivity).
      assert (Hs0 : seq_ ref c0).
      { apply sle_anti; [apply (Hsplit _ Hsle ref c0); left; reflexivity|].
        apply sle_trans with c; [|left; apply seq_sym; eapply seq_trans; [apply Hgeq; exact Ha|exact Hac]].
        destruct Hcn as [<-|Hcn]; [left; intros i _; reflexivity|].
        eapply FOP_subl in Hsle; [|exact Hsub]. inversion Hsle as [|? ? Hf _]; subst. rewrite Forall_forall in Hf. apply Hf; exact Hcn. }
      apply andb_false_iff in Hnext as [Hm|Hm]; [|apply eq_spec in Hs0; congruence].
      destruct (notmore_end all c0 HI Hi0 Hm) as (E1 & _ & _ & _ & E5). auto. }
    destruct Hend as [He1 He2].
    refine (inv_end sn n T [a; c] a c (pair_inv all a c HI Hia Hic Hac Hr) (run_pos n _ scalar Hat eq_refl) _ _ _ _).
    - intros HO. split; [exact He1|auto].
    - left; reflexivity.
    - right; left; reflexivity.
    - intros HO Ht. apply Hr; assumption. }
  assert (Hrefall : In ref all) by (apply Hli; left; reflexivity).
  destruct (more P scaldims (S n) sn ref) eqn:Em.
  - apply obind_some in H as (l & El & H).
    assert (HIg : Inv sn (ref :: grp)).
    { destruct HI as [I1 I2]. assert (Hin : forall a, In a (ref :: grp) -> In a all).
      { intros a Ha. apply Hli. change (ref :: grp ++ next) with ((ref :: grp) ++ next). apply in_or_app; left; exact Ha. }
      split; [rewrite Forall_forall in *; auto|]. destruct I2 as [K1 K2 K3 K4]. constructor.
      - rewrite Forall_map, Forall_forall. rewrite Forall_map, Forall_forall in K1. auto.
      - intros HO. specialize (K2 HO). rewrite Forall_map, Forall_forall. rewrite Forall_map, Forall_forall in K2. auto.
      - intros k k' Hk Hk' i Hi. apply in_map_iff in Hk as (a & <- & Ha). apply in_map_iff in Hk' as (a' & <- & Ha').
        destruct (Nat.lt_ge_cases i scalar) as [Hlt|Hge]; [apply K3; auto; apply in_map; auto|].
        replace i with (scalar + (i - scalar)) by lia. rewrite <- !blk_scal_key.
        assert (Hs : seq_ a a') by (eapply seq_trans; [apply seq_sym; apply Hgeq; exact Ha|apply Hgeq; exact Ha']). apply Hs. lia.
      - apply FOP_map. change (ref :: grp ++ next) with ((ref :: grp) ++ next) in Hst. apply FOP_app in Hst as (Hst & _ & _). eapply FOP_impl; [|exact Hst].
        intros a a' Ha Ha' Hq. apply Hq. eapply seq_trans; [apply seq_sym; apply Hgeq; exact Ha|apply Hgeq; exact Ha']. }
    destruct (HR (ref :: grp) l HIg) as [R1 R2]; [|discriminate|exact El|].
    { constructor; [exact Em|]. eapply Forall_impl; [|exact Hgrp]. cbn. intros a Ha. apply andb_prop in Ha. apply Ha. }
    assert (Hok2 : okl n T (res ++ l)).
    { apply okl_app; [exact Hok|exact R2|]. intros HO b x b' x' E1 E2. rewrite Hc in E1. rewrite R1 in E2.
      apply cnts_pos in E1 as (a & Ha & E1). apply cnts_pos in E2 as (a' & Ha' & E2).
      apply (Hx a a' Ha); auto. change (ref :: grp ++ next) with ((ref :: grp) ++ next). apply in_or_app; left; exact Ha'. }
    assert (Hc2 : forall b x, cnts (res ++ l) b x = cnts (done ++ ref :: grp) b x) by (intros b x; rewrite !cnts_app, Hc, R1; reflexivity).
    assert (H' : scalar_groups P scaldims f rec (S n) scalar sn next (res ++ l) [] = Some res').
    { destruct l; [rewrite app_nil_r; exact H|exact H]. }
    replace (done ++ ref :: grp ++ next) with ((done ++ ref :: grp) ++ next) by (rewrite <- app_assoc; reflexivity).
    eapply IH; try exact H'; auto.
    + intros a Ha. apply in_app_iff in Ha as [Ha|Ha]; [auto|]. apply Hli. change (ref :: grp ++ next) with ((ref :: grp) ++ next). apply in_or_app; left; exact Ha.
    + intros a Ha. apply Hli. eapply Subl_in; [exact Hsub|exact Ha].
    + eapply FOP_subl; [exact Hsub|exact Hsle].
    + eapply FOP_subl; [exact Hsub|exact Hst].
    + intros a c Ha Hcn. apply in_app_iff in Ha as [Ha|Ha]; [|auto]. apply Hx; [exact Ha|]. eapply Subl_in; [exact Hsub|exact Hcn].
  - destruct (notmore_end all ref HI Hrefall Em) as (E1 & E2 & E3 & E4 & E5).
    assert (Hg : grp = []).
    { destruct grp as [|g grp]; [reflexivity|]. exfalso. inversion Hgrp as [|? ? Hg1 _]; subst. apply andb_prop in Hg1 as [Hm Hq]. apply eq_spec in Hq.
      inversion Hst as [|? ? Hf _]; subst. inversion Hf as [|? ? Hf1 _]; subst. destruct (Hf1 Hq) as [_ Hr2].
      unfold more in Hm. rewrite nbs in Hm. apply orb_prop in Hm as [Hm|Hm]; apply Nat.leb_le in Hm; [lia|].
      assert (Hia : In g all) by (apply Hli; right; left; reflexivity).
      assert (cf kinds < fst (key ref)); [|cbn in *; lia]. apply Hr2; [apply (run_last (n + scalar)); [exact Hsc|lia]| |cbn; lia].
      intros i Hi. rewrite <- E2 in Hi. destruct (Nat.lt_ge_cases i scalar) as [Hlt|Hge].
      - destruct HI as [_ HK]. apply (iv_scal _ _ HK); auto; apply in_map; assumption.
      - replace i with (scalar + (i - scalar)) by lia. rewrite <- !blk_scal_key. apply Hq. lia. }
    subst grp. cbn [app] in *.
    replace (done ++ ref :: next) with ((done ++ [ref]) ++ next) by (rewrite <- app_assoc; reflexivity).
    assert (Hlf : leaf ref) by (destruct HI as [I1 _]; rewrite Forall_forall in I1; auto).
    eapply IH; try exact H; auto.
    + intros a Ha. apply in_app_iff in Ha as [Ha|[<-|[]]]; auto.
    + intros a Ha. apply Hli. right; exact Ha.
    + eapply FOP_subl; [exact Hsub|exact Hsle].
    + eapply FOP_subl; [exact Hsub|exact Hst].
    + intros a c Ha Hcn. apply in_app_iff in Ha as [Ha|[<-|[]]]; [apply Hx; [exact Ha|right; exact Hcn]|]. apply Hpn; [left; reflexivity|exact Hcn].
    + intros b x. rewrite !cnts_app, Hc. reflexivity.
    + apply okl_app; [exact Hok|apply leaf_okl; assumption|]. intros HO b x b' x' X1 X2. rewrite Hc in X1. rewrite cnts1 in X2.
      apply cnts_pos in X1 as (a & Ha & X1). apply (Hx a ref Ha (or_introl eq_refl) HO b x b' x' X1 X2).
Qed.

Lemma generate_scalar_spec rec ls res : RecSpec (rec (S n) sn) n sn -> Inv scalar ls ->
  generate_scalar P scaldims rec (S n) scalar ls = Some res ->
  (forall b x, cnts res b x = cnts ls b x) /\ okl n T res.
Proof.
  intros HR HI H. unfold generate_scalar in H. apply obind_some in H as (sorted & Es & H). replace (S n + scalar - 1) with (n + scalar) in H by lia.
  unfold scalar_sort in Es. pose proof (bubble_sort_perm _ _ _ _ Es) as Hperm. pose proof (bubble_sort_chain _ _ _ _ Es) as Hch.
  assert (Hst : ForallOrdPairs (fun a c => seq_ a c -> Rin (key a) (key c)) sorted).
  { eapply bubble_sort_fop; [|exact Es|].
    - intros a b Hgt Hs. apply gt_spec in Hgt. exfalso. exact (seq_slt _ _ Hs Hgt).
    - destruct HI as [_ HK]. pose proof (iv_ord _ _ HK) as Ho.
      apply FOP_nth. intros i j a b Hij Ha Hb _. pose proof (proj1 (FOP_nth _ _) Ho i j (key a) (key b) Hij) as Hr. rewrite !nth_error_map', Ha, Hb in Hr. auto. }
  assert (Hin : incl sorted ls) by (intros a Ha; eapply Permutation_in; eauto).
  destruct (groups_spec (rec (S n) sn) ls HR HI _ sorted [] [] res (fun a (H : In a []) => match H with end) Hin (chain_sle _ Hch) Hst
     (fun a c (H : In a []) => match H with end) (fun _ _ => eq_refl) (okl_nil _ _ _ _ _ _ _) H) as [G1 G2].
  split; [|exact G2]. intros b x. rewrite G1. cbn [app]. apply cnts_perm. exact Hperm.
Qed.
End Scalar.

(** ** cloog_loop_generate_restricted, cloog_loop_generate *)
Hypothesis Hstop : (o_stop o < 0)%Z.
Lemma generate_restricted_spec : forall fuel level scalar ls res,
  (level = 0 -> scalar = 0) -> at_pos (level - 1) scalar -> Inv scalar ls ->
  (0 < level -> Forall (fun l => more P scaldims level scalar l = true) ls) ->
  generate_restricted P scaldims o fuel level scalar ls = Some res ->
  (forall b x, cnts res b x = cnts ls b x) /\ okl (level - 1) T res.
Proof.
  induction fuel as [|f IH]; intros level scalar ls res H0 Hat HI Hm H; [discriminate|]. cbn [generate_restricted] in H.
  destruct (level_is_constant scaldims level scalar) eqn:Ec.
  - destruct level as [|n]; [discriminate|]. replace (S n - 1) with n in * by lia. rewrite level_const in Ec.
    eapply generate_scalar_spec; try exact H; auto.
    intros g rs HIg Hmg Hne Hg. specialize (IH (S n) (scalar + scaldim scaldims (n + scalar)) g rs). replace (S n - 1) with n in IH by lia.
    apply IH; auto; [discriminate|]. apply run_pos; [exact Hat|reflexivity].
  - assert (HP : Pos level scalar).
    { destruct level as [|n].
      - constructor; [exact Hat|lia].
      - replace (S n - 1) with n in Hat by lia. rewrite level_const in Ec. constructor; [apply at_pos_next; assumption|].
        intros _. replace (S n - 1) with n by lia. auto. }
    assert (Hd : Forall (fun l => level <= dim (l_dom P l)) ls).
    { destruct level as [|n]; [rewrite Forall_forall; intros; lia|]. specialize (Hm ltac:(lia)). rewrite Forall_forall in *. intros l Hl. specialize (Hm l Hl).
      unfold more in Hm. apply orb_prop in Hm as [Hm|Hm]; apply Nat.leb_le in Hm; [|exact Hm]. rewrite nbs in Hm.
      destruct (ps_prev _ _ HP ltac:(lia)) as [Q1 Q2]. replace (S n - 1) with n in * by lia. pose proof (at_pos_nonscalar kinds n scalar Q1 Q2 ltac:(lia)) as Hc.
      destruct HI as [_ HK]. pose proof (iv_dim _ _ HK) as Hdm. rewrite Forall_map, Forall_forall in Hdm. specialize (Hdm l Hl). cbn in Hdm. lia. }
    eapply generate_components_spec; try exact H; auto.
    intros ctx g rs HIg Hmg Hne Hg. unfold restricted_or_stop in Hg.
    destruct (Z.leb_spec 0 (o_stop o)) as [Hs|_]; [lia|]. cbn [andb] in Hg.
    specialize (IH (S level) scalar g rs). replace (S level - 1) with level in IH by lia. apply IH; auto; [discriminate|apply (ps_at _ _ HP)].
Qed.

Theorem generate_spec fuel ctx ls res : dim ctx = 0 -> Inv 0 ls -> generate P scaldims o fuel ctx ls = Some res ->
  (forall b x, cnts res b x = Nat.b2n (mem ctx []) * cnts ls b x) /\ okl 0 T res.
Proof.
  intros Hd HI H. unfold generate in H. destruct HI as [H1 H2].
  destruct (restrict_all_leaf ctx ls H1) as (R1 & R2 & R3). { rewrite Forall_forall. intros; rewrite Hd; lia. }
  assert (R3' : forall b x, cnts (restrict_all P ctx ls) b x = Nat.b2n (mem ctx []) * cnts ls b x).
  { intros b x. rewrite R3, inn_none, Hd. reflexivity. }
  destruct (restrict_all P ctx ls) as [|l r] eqn:E.
  - injection H as <-. split; [exact R3'|apply okl_nil].
  - unfold restricted_or_stop in H. destruct (Z.leb_spec 0 (o_stop o)) as [Hs|_]; [lia|]. cbn [andb] in H.
    destruct (generate_restricted_spec fuel 0 0 (l :: r) res) as [G1 G2]; auto.
    + unfold LoopKeys.at_pos. reflexivity.
    + split; [exact R1|]. eapply InvK_subl; [exact R2|exact H2].
    + lia.
    + split; [intros b x; rewrite G1; apply R3'|exact G2].
Qed.
End Gen.
