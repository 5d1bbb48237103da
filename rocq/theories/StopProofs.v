(** Option -stop: what the generated loops execute when generation stops at some depth. *)
From Coq Require Import ZArith List Bool Arith Lia Permutation.
From Verif Require Import SortModel LoopModel LoopSpec LoopLists LoopCount LoopKeys LoopOrder LoopGen LoopSimplify LoopMain LoopFun StopSpec.
Import ListNotations.
Local Arguments Nat.ltb : simpl never.
Local Arguments Nat.leb : simpl never.
Local Arguments Nat.eqb : simpl never.
Local Arguments Nat.sub : simpl never.

(** ** the depth *)
Lemma depth_le kinds : forall go s, depth_from kinds go s <= (if go then Nat.max 1 s else s).
Proof.
  induction kinds as [|[] ks IH]; intros go s; cbn [depth_from]; [|pose proof (IH true (s - 1)) as H|pose proof (IH false (s - 1)) as H];
  cbn iota in *; destruct go, (Nat.eqb_spec s 0) as [E|E]; cbn [negb andb]; lia.
Qed.
Lemma depth_go kinds s : 0 < s -> depth_from kinds true s = depth_from kinds false s.
Proof. intros H. destruct kinds; cbn [depth_from]; destruct (Nat.eqb_spec s 0); [lia|reflexivity|lia|reflexivity]. Qed.
Lemma depth_pos kinds : forall s, 1 <= depth_from kinds true s.
Proof. induction kinds as [|[] ks IH]; intros s; cbn [depth_from negb andb]; try lia. apply IH. Qed.
Lemma depth_run kinds : forall s, depth_from kinds true s = depth_from (skipn (leading kinds) kinds) true (s - leading kinds).
Proof.
  induction kinds as [|[] ks IH]; intros s; cbn [leading skipn].
  - rewrite Nat.sub_0_r. reflexivity.
  - cbn [depth_from negb andb]. rewrite IH. f_equal. lia.
  - rewrite Nat.sub_0_r. reflexivity.
Qed.
Lemma depth_loops kinds : forallb negb kinds = true -> forall s, depth_from kinds false s = s.
Proof.
  induction kinds as [|[] ks IH]; intros H s; cbn in H; [|discriminate|]; cbn [depth_from]; destruct (Nat.eqb_spec s 0); cbn [negb andb]; try lia.
  rewrite IH by exact H. lia.
Qed.

Section Stop.
Variable P : Poly.
Variable Se : Sem P.
Hypothesis L : Laws P Se.
Variable kinds : list bool.
Variable o : options.
Hypothesis Hs0 : (0 <= o_stop o)%Z.
Hypothesis Hl0 : (o_l o < 0)%Z.
Hypothesis Hls0 : o_ls o = None.
Hypothesis Hstr : o_strides o = false.
Hypothesis Hbt : o_backtrack o = false.
Hypothesis HU : o_first_unroll o <> 0%Z.
Hypothesis HH : hull_ok P Se o.
Hypothesis EP : exact_projection P Se.
Notation dom := (dom P).
Notation loop := (loop P).
Notation dim := (dim P).
Notation mem := (mem Se).
Notation Loop := (@Loop P).
Notation M := (cf kinds).
Notation scaldims := (run_lengths kinds).
Notation nb := (length kinds).
Notation Inv := (Inv P kinds M false False).
Notation InvK := (InvK kinds M false False).
Notation leaf := (leaf P).
Notation key := (key P).
Notation NP := (NP P Se).
Notation NPc := (NPc P Se).
Notation NPo := (NPo P Se False o).
Notation GG := (GG P Se kinds M false False o).
Notation Pos := (Pos kinds).
Notation at_pos := (at_pos kinds).
Notation cnt := (cnt P Se).
Notation cnts := (cnts P Se).
Notation inn := (inn P Se).
Notation cov := (cov P Se).
Notation nd := (nd P).
Notation tight := (tight P Se).
Notation T := (fun _ : list Z => True).
Notation okl := (okl P Se False (prec kinds M false) (isconvex P)).
Notation s := (Z.to_nat (o_stop o)).

Lemma HM : cf kinds <= M. Proof. lia. Qed.
Lemma noO {X : Prop} : False -> X. Proof. intros []. Qed.
Lemma nostr {X : Prop} : o_strides o = true -> X. Proof. congruence. Qed.

Lemma c1 l b x : cnts [l] b x = cnt l b x.
Proof. unfold LoopSpec.cnts. rewrite sumn_cons, sumn_nil. lia. Qed.

(** number of loops with block [b] *)
Definition nl (ls : list loop) (b : block) : nat := sumn (fun l => Nat.b2n (holds_block b l)) ls.
Lemma nl_app l1 l2 b : nl (l1 ++ l2) b = nl l1 b + nl l2 b.
Proof. apply sumn_app. Qed.
Lemma nl_perm l1 l2 b : Permutation l1 l2 -> nl l1 b = nl l2 b.
Proof. apply sumn_perm. Qed.
Lemma nl_subl l1 l2 b : Subl l1 l2 -> nl l1 b <= nl l2 b.
Proof. unfold nl. induction 1; rewrite ?sumn_cons; lia. Qed.
Definition kh (b : block) (k : nat * option block) : bool :=
  match snd k with Some b' => if block_eq_dec b' b then true else false | None => false end.
Lemma nl_keys ls b : nl ls b = sumn (fun k => Nat.b2n (kh b k)) (map key ls).
Proof. unfold nl. rewrite sumn_map. reflexivity. Qed.
Lemma nl_keys_subl l1 l2 b : Subl (map key l1) (map key l2) -> nl l1 b <= nl l2 b.
Proof.
  rewrite !nl_keys. generalize (map key l1) (map key l2). intros a c H. induction H; rewrite ?sumn_cons; lia.
Qed.
Lemma nl_concat ls b : nl (concat ls) b = sumn (fun l => nl l b) ls.
Proof. apply sumn_concat. Qed.

(** what a list of nodes can run at most *)
Definition pot (ls : list loop) (b : block) (x : list Z) : nat :=
  sumn (fun N => Nat.b2n (inn (l_dom P N) (l_st P N) x) * nl (l_inner P N) b) ls.
Lemma pot_cons N ls b x : pot (N :: ls) b x = Nat.b2n (inn (l_dom P N) (l_st P N) x) * nl (l_inner P N) b + pot ls b x.
Proof. unfold pot. rewrite sumn_cons. reflexivity. Qed.
Lemma pot_perm l1 l2 b x : Permutation l1 l2 -> pot l1 b x = pot l2 b x.
Proof. intros H. unfold pot. apply sumn_perm. exact H. Qed.
Lemma pot_flat_map {A} (f : A -> list loop) (g : A -> nat) ls b x : (forall a, In a ls -> pot (f a) b x <= g a) ->
  pot (flat_map f ls) b x <= sumn g ls.
Proof.
  intros H. unfold pot. rewrite sumn_flat_map. induction ls as [|a ls IH]; [cbn; lia|]. rewrite !sumn_cons.
  pose proof (H a (or_introl eq_refl)). unfold pot in *. specialize (IH (fun a Ha => H a (or_intror Ha))). lia.
Qed.

(** [res] is what stopping makes of the leaves [lc]; [D] is the number of loops *)
Variable D : nat.
Definition Cut (lc res : list loop) : Prop :=
  (forall b x, cnts res b x <= nl lc b) /\
  (forall b y, 0 < cnts lc b y -> 0 < cnts res b (firstn D y)) /\
  (forall b x, 0 < cnts res b x -> exists l, In l lc /\ l_blk P l = Some b /\ length x = Nat.min D (dim (l_dom P l))).
Lemma cut_nil : Cut [] [].
Proof. split; [intros; cbn; lia|]. split; intros b x H; cbn in H; lia. Qed.
Lemma cut_app l1 l2 r1 r2 : Cut l1 r1 -> Cut l2 r2 -> Cut (l1 ++ l2) (r1 ++ r2).
Proof.
  intros (A1 & A2 & A3) (B1 & B2 & B3). split; [|split].
  - intros b x. rewrite cnts_app, nl_app. specialize (A1 b x). specialize (B1 b x). lia.
  - intros b y H. rewrite cnts_app in *. destruct (cnts l1 b y) eqn:E; [specialize (B2 b y ltac:(lia)); lia|specialize (A2 b y ltac:(lia)); lia].
  - intros b x H. rewrite cnts_app in H. destruct (cnts r1 b x) eqn:E.
    + destruct (B3 b x ltac:(lia)) as (l & Hl & H'). exists l. split; [apply in_or_app; auto|exact H'].
    + destruct (A3 b x ltac:(lia)) as (l & Hl & H'). exists l. split; [apply in_or_app; auto|exact H'].
Qed.
Lemma cut_perm l1 l2 r : Permutation l1 l2 -> Cut l1 r -> Cut l2 r.
Proof.
  intros Hp (A1 & A2 & A3). split; [|split].
  - intros b x. rewrite <- (nl_perm _ _ b Hp). apply A1.
  - intros b y. rewrite <- (cnts_perm _ _ _ _ _ _ Hp). apply A2.
  - intros b x H. destruct (A3 b x H) as (l & Hl & H'). exists l. split; [eapply Permutation_in; eauto|exact H'].
Qed.
Lemma leaf_cnt l b x : leaf l -> cnt l b x = Nat.b2n (holds_block b l && mem (l_dom P l) x).
Proof.
  destruct l as [d ot st blk inner]. unfold LoopGen.leaf. cbn [l_st l_inner l_blk]. intros (-> & -> & b0 & ->). cbn [LoopSpec.cnt]. unfold holds_block. cbn [l_blk l_dom].
  rewrite inn_none. destruct (block_eq_dec b0 b) as [->|]; cbn [andb Nat.b2n].
  - destruct (Nat.eqb_spec (length x) (dim d)) as [E|E].
    + rewrite <- E, firstn_all. destruct (mem d x); reflexivity.
    + destruct (mem d x) eqn:Em; [apply (L_len _ _ L) in Em; lia|]. destruct (mem d (firstn (dim d) x)); reflexivity.
  - destruct (mem d (firstn (dim d) x)); reflexivity.
Qed.
Lemma cut_leaf l : leaf l -> dim (l_dom P l) <= D -> Cut [l] [l].
Proof.
  intros Hl Hd. split; [|split].
  - intros b x. rewrite c1, leaf_cnt by exact Hl. unfold nl. rewrite sumn_cons, sumn_nil. destruct (holds_block b l), (mem (l_dom P l) x); cbn; lia.
  - intros b y H. rewrite c1 in *. destruct (leaf_event P Se kinds M HM _ _ _ Hl H) as (_ & Hlen & _). rewrite firstn_all2 by lia. exact H.
  - intros b x H. rewrite c1 in H. destruct (leaf_event P Se kinds M HM _ _ _ Hl H) as (E & Hlen & _). exists l. split; [left; reflexivity|]. split; [exact E|lia].
Qed.

(** ** cloog_loop_stop *)
Lemma stop_cnts ctx g b x : Forall leaf g -> cnts (stop P ctx g) b x = Nat.b2n (mem ctx x) * nl g b.
Proof.
  intros H. unfold LoopSpec.cnts, stop, nl. rewrite sumn_map, <- sumn_mul. apply sumn_ext. intros l Hl. rewrite Forall_forall in H.
  destruct (H l Hl) as (H1 & H2 & b0 & H3). fold (cnt (set_dom P l ctx) b x).
  rewrite leaf_cnt; [|repeat split; cbn; eauto]. unfold holds_block. cbn [set_dom l_blk l_dom]. destruct (match l_blk P l with Some b' => _ | None => _ end), (mem ctx x); reflexivity.
Qed.
Lemma stop_cut ctx g : Forall leaf g -> dim ctx = D -> Forall (fun l => D <= dim (l_dom P l)) g ->
  (forall b y, 0 < cnts g b y -> mem ctx (firstn D y) = true) -> Cut g (stop P ctx g) /\ okl D T (stop P ctx g).
Proof.
  intros Hg Hd Hdg Ht. split; [split; [|split]|split].
  - intros b x. rewrite stop_cnts by exact Hg. destruct (mem ctx x); cbn; lia.
  - intros b y H. rewrite stop_cnts by exact Hg. rewrite (Ht b y H). cbn. apply cnts_pos in H as (l & Hl & H).
    rewrite Forall_forall in Hg. rewrite leaf_cnt in H by auto. destruct (holds_block b l) eqn:E; [|cbn in H; lia].
    pose proof (sumn_le (fun l => Nat.b2n (holds_block b l)) g l Hl) as Hle. cbn beta in Hle. rewrite E in Hle. cbn in Hle. unfold nl. lia.
  - intros b x H. rewrite stop_cnts in H by exact Hg. destruct (mem ctx x) eqn:Em; [|cbn in H; lia]. cbn in H. rewrite Nat.add_0_r in H.
    unfold nl in H. apply sumn_pos in H as (l & Hl & H). exists l. split; [exact Hl|]. apply (L_len _ _ L) in Em.
    rewrite Forall_forall in Hdg. specialize (Hdg l Hl). cbn in Hdg. split; [|lia].
    unfold holds_block in H. destruct (l_blk P l) as [b'|]; [|cbn in H; lia]. destruct (block_eq_dec b' b); [congruence|cbn in H; lia].
  - unfold stop. rewrite Forall_map. eapply Forall_impl; [|exact Hg]. intros l (H1 & H2 & b0 & H3). destruct l as [d ot st blk inner]. cbn in *. subst. auto.
  - apply FOP_nth. intros i j a b _ _ _ [].
Qed.

(** ** nodes and their potential *)
Lemma merged_pot level r I b x : Forall (fun N => nd level N /\ l_inner P N = I) r -> (forall y, cov r y <= 1) -> pot r b x <= nl I b.
Proof.
  intros H Hc. specialize (Hc (firstn level x)). assert (E : pot r b x = cov r (firstn level x) * nl I b).
  { unfold pot, LoopCount.cov. rewrite Nat.mul_comm, <- sumn_mul. apply sumn_ext. intros N HN. rewrite Forall_forall in H. destruct (H N HN) as ((D1 & D2 & D3) & D4).
    rewrite D2, inn_none, D1, D4. lia. }
  rewrite E. destruct (cov r (firstn level x)) as [|[|k]]; lia.
Qed.
Lemma payload_subl ls y : Subl (payload P Se ls y) (concat_inner P ls).
Proof.
  unfold payload, concat_inner. induction ls as [|l ls IH]; cbn [flat_map]; [constructor|]. destruct (mem (l_dom P l) y).
  - apply Subl_app; [apply Subl_refl|exact IH].
  - cbn. apply Subl_app_r. exact IH.
Qed.
Lemma separated_pot level ls r b x : Forall (nd level) r -> same_payload P Se ls r -> pot r b x <= nl (concat_inner P ls) b.
Proof.
  intros Hr [H1 H2]. set (y := firstn level x). assert (E : pot r b x = cov r y * nl (payload P Se ls y) b).
  { unfold pot, LoopCount.cov. rewrite Nat.mul_comm, <- sumn_mul. apply sumn_ext. intros N HN. rewrite Forall_forall in Hr. destruct (Hr N HN) as (D1 & D2 & D3).
    rewrite D2, inn_none, D1. fold y. destruct (mem (l_dom P N) y) eqn:Em; cbn [Nat.b2n]; [|lia]. rewrite (H2 N y HN Em). lia. }
  rewrite E, H1. pose proof (nl_subl _ _ b (payload_subl ls y)). destruct (0 <? cov ls y); cbn; lia.
Qed.
Lemma restrict_inner_pot level r b x : Forall (fun N => nd level N /\ Forall leaf (l_inner P N) /\ Forall (fun l => level <= dim (l_dom P l)) (l_inner P N)) r ->
  pot (restrict_inner P r) b x <= pot r b x.
Proof.
  intros H. unfold restrict_inner. apply pot_flat_map. intros N HN. rewrite Forall_forall in H. destruct (H N HN) as ((D1 & D2 & D3) & Hlf & Hdm).
  destruct (restrict_all_leaf P Se L (l_dom P N) (l_inner P N) Hlf) as (_ & R2 & _). { rewrite D1. exact Hdm. }
  destruct (restrict_all P (l_dom P N) (l_inner P N)) as [|i q] eqn:E; [cbn; lia|].
  rewrite pot_cons. unfold pot. rewrite sumn_nil. cbn [set_inner l_dom l_st l_inner]. pose proof (nl_keys_subl _ _ b R2). destruct (inn (l_dom P N) (l_st P N) x); cbn [Nat.b2n]; lia.
Qed.
Lemma decompose_pot level scalar r r' b x : decompose_inner P scaldims level scalar r = Some r' -> pot r' b x = pot r b x.
Proof.
  unfold decompose_inner. intros H. apply oconcat_forall2 in H as (rss & -> & HF). unfold pot. rewrite sumn_concat. symmetry. apply (sumn_forall2 _ _ _ _ _ HF).
  intros N rs HN HE. destruct (length (l_inner P N) <=? 1).
  - injection HE as <-. rewrite sumn_cons, sumn_nil. lia.
  - apply obind_some in HE as (cs & Ecs & HE). injection HE as <-.
    destruct (loop_components_spec P kinds M HM (fun a b def => follows P scaldims a b level scalar def) (fun _ _ => True) (l_inner P N) cs) as (C1 & _ & _); [auto|exact Ecs|].
    rewrite sumn_map. cbn [set_inner l_dom l_st l_inner]. rewrite sumn_mul. f_equal. rewrite <- (nl_perm _ _ b C1), nl_concat. reflexivity.
Qed.
Lemma specialize1_pot level K N N' b x : Forall (fun k => level <= fst k) K -> NPc level K N -> specialize1 P N = Some N' ->
  pot [N'] b x <= pot [N] b x.
Proof.
  intros HdK (HN & Hcv & Hst) H. unfold specialize1 in H.
  destruct (l_inner P N) as [|i [|i2 r]] eqn:Ei; [discriminate| |injection H as <-; lia].
  destruct (isconvex P (l_dom P i)); [|injection H as <-; lia]. rewrite (np_dim _ _ _ _ _ HN) in H.
  destruct (isconvex P (project P (l_dom P i) level)); [|injection H as <-; lia]. injection H as <-.
  unfold pot. rewrite !sumn_cons, !sumn_nil. cbn [set_dom l_dom l_st l_inner]. rewrite Hst, !inn_none.
  pose proof (np_dims _ _ _ _ _ (fun d => level <= d) HdK HN) as Hdims. rewrite Ei in Hdims. inversion Hdims as [|? ? Hdi _]; subst. cbn in Hdi.
  rewrite (L_project_dim _ _ L) by exact Hdi. rewrite (np_dim _ _ _ _ _ HN).
  destruct (mem (project P (l_dom P i) level) (firstn level x)) eqn:E; [|cbn; lia].
  destruct (EP _ _ _ Hdi E) as (y & Ey & Hy). pose proof (np_leaf _ _ _ _ _ HN) as Hlf. rewrite Ei in Hlf. inversion Hlf as [|? ? Hl _]; subst.
  destruct Hl as (H1 & H2 & b0 & H3).
  assert (Hp : 0 < cnts (l_inner P N) b0 y).
  { rewrite Ei, c1, leaf_cnt by (repeat split; eauto). rewrite Ey. unfold holds_block. rewrite H3. destruct (block_eq_dec b0 b0); [cbn; lia|congruence]. }
  pose proof (np_tight _ _ _ _ _ HN b0 y Hp) as Ht. rewrite Hst, inn_none, (np_dim _ _ _ _ _ HN), Hy in Ht. rewrite Ht. lia.
Qed.
Lemma specialize_pot level scalar K r r' b x : InvK scalar K -> (0 < level -> at_pos (level - 1) scalar) -> Forall (fun k => level <= fst k) K ->
  Forall (NPc level K) r -> specialize P scaldims level scalar r = Some r' -> pot r' b x <= pot r b x.
Proof.
  intros HK Hp HdK HF H. unfold specialize in H. apply obind_some in H as (r1 & E1 & H). apply obind_some in H as (r2 & E2 & H). injection H as <-.
  destruct (decompose_spec P Se kinds M false False HM noO _ _ _ _ _ HK (fun _ => fun x => x) Hp HdK HF E1) as (_ & _ & A3).
  rewrite <- (decompose_pot _ _ _ _ b x E1). apply Nat.le_trans with (pot r2 b x).
  - unfold remove_empty. clear. induction r2 as [|l q IH]; [cbn; lia|]. cbn [filter]. destruct (negb _); rewrite ?pot_cons; lia.
  - apply omap_forall2 in E2. clear - E2 A3 HdK L EP. induction E2 as [|N N' q q' HE E2 IH]; [cbn; lia|]. inversion A3 as [|? ? A4 A5]; subst. rewrite !pot_cons.
    pose proof (specialize1_pot level K N N' b x HdK A4 HE) as Hq. unfold pot in Hq. rewrite !sumn_cons, !sumn_nil in Hq. specialize (IH A5). lia.
Qed.
Lemma unroll_pot level K N b x : 1 <= level -> Forall (fun k => level <= fst k) K -> NPo level K N -> pot (loop_unroll P level N) b x <= pot [N] b x.
Proof.
  intros Hl HdK (HN & Hcv & Hst). specialize (Hst Hstr). unfold loop_unroll.
  destruct (can_unroll P (l_dom P N) level) as [[nn lb]|] eqn:Eu; [|lia].
  pose proof (np_dims _ _ _ _ _ (fun d => level <= d) HdK HN) as Hdims.
  set (d := fun i => fixed_offset P (l_dom P N) level lb (Z.of_nat i)).
  assert (Hdd : forall i, dim (d i) = level) by (intros i; unfold d; rewrite (L_fixed_dim _ _ L); apply (np_dim _ _ _ _ _ HN)).
  set (y := firstn level x). set (v := (nth (level - 1) y 0 - lbv Se lb (firstn (level - 1) y))%Z).
  assert (Hmem : forall i, mem (d i) y = mem (l_dom P N) y && (v =? Z.of_nat i)%Z).
  { intros i. unfold d. rewrite (L_fixed _ _ L _ _ nn lb) by (exact Hl || exact Eu || apply (np_dim _ _ _ _ _ HN)). f_equal. apply eq_true_iff_eq. rewrite !Z.eqb_eq. unfold v. lia. }
  eapply Nat.le_trans.
  { apply (pot_flat_map _ (fun i => Nat.b2n (mem (l_dom P N) y) * nl (l_inner P N) b * Nat.b2n (v =? Z.of_nat i)%Z)).
    intros i _. fold (d i). destruct (restrict_all_leaf P Se L (d i) (l_inner P N) (np_leaf _ _ _ _ _ HN)) as (_ & R2 & _). { rewrite Hdd. exact Hdims. }
    destruct (restrict_all P (d i) (l_inner P N)) as [|a q] eqn:E; [cbn; lia|]. unfold pot. rewrite sumn_cons, sumn_nil. cbn [l_dom l_st l_inner].
    rewrite inn_none, Hdd. fold y. rewrite Hmem. pose proof (nl_keys_subl _ _ b R2). destruct (mem (l_dom P N) y), (v =? Z.of_nat i)%Z; cbn [Nat.b2n andb]; lia. }
  rewrite sumn_mul. unfold pot. rewrite sumn_cons, sumn_nil, Hst, inn_none, (np_dim _ _ _ _ _ HN). fold y.
  assert (Hone : forall k a, sumn (fun i => Nat.b2n (v =? Z.of_nat i)%Z) (seq a k) <= 1 /\ (sumn (fun i => Nat.b2n (v =? Z.of_nat i)%Z) (seq a k) = 1 -> (Z.of_nat a <= v)%Z)).
  { induction k as [|k IH]; intros a; cbn [seq]; rewrite ?sumn_nil, ?sumn_cons; [lia|]. destruct (IH (S a)) as [I1 I2].
    destruct (Z.eqb_spec v (Z.of_nat a)) as [E|E]; cbn [Nat.b2n]; [|lia].
    destruct (sumn (fun i => Nat.b2n (v =? Z.of_nat i)%Z) (seq (S a) k)) as [|[|q]]; [lia| |lia]. specialize (I2 eq_refl). lia. }
  destruct (Hone (Z.to_nat nn) 0) as [H1 _]. set (z := sumn _ _) in *. destruct (mem (l_dom P N) y); cbn [Nat.b2n]; [|lia]. nia.
Qed.

(** ** recursion on the inner loops *)
Definition RecCut (rec : rec_t P) (level scalar : nat) : Prop :=
  forall ctx g res, Inv scalar g -> Forall (fun l => more P scaldims (S level) scalar l = true) g -> g <> [] ->
  Forall (fun l => level <= dim (l_dom P l)) g -> dim ctx = level -> (forall b y, 0 < cnts g b y -> mem ctx (firstn level y) = true) ->
  rec ctx (S level) scalar g = Some res -> Cut g res /\ okl level T res.

Lemma rr_cut rec level scalar ctx : RecCut rec level scalar -> level <= D -> dim ctx = level ->
  forall ls pre grp into term stale res,
  Inv scalar (grp ++ ls) -> Forall (fun l => level <= dim (l_dom P l)) (grp ++ ls) ->
  (forall b y, 0 < cnts (grp ++ ls) b y -> mem ctx (firstn level y) = true) ->
  Cut pre into -> okl level T into ->
  Forall (fun l => more P scaldims (S level) scalar l = true) grp ->
  recurse_runs P (rec ctx (S level) scalar) (runs P (more P scaldims (S level) scalar) grp ls) into term stale = Some res ->
  Cut (pre ++ grp ++ ls) res /\ okl level T res.
Proof.
  intros HR HlD Hctx ls.
  assert (Flush : forall grp rest pre into term stale res,
     Inv scalar grp -> Forall (fun l => level <= dim (l_dom P l)) grp -> (forall b y, 0 < cnts grp b y -> mem ctx (firstn level y) = true) ->
     Cut pre into -> okl level T into -> Forall (fun l => more P scaldims (S level) scalar l = true) grp ->
     recurse_runs P (rec ctx (S level) scalar) (match grp with [] => [] | _ => [(true, grp)] end ++ rest) into term stale = Some res ->
     exists into' term' stale', recurse_runs P (rec ctx (S level) scalar) rest into' term' stale' = Some res /\ Cut (pre ++ grp) into' /\ okl level T into').
  { intros grp rest pre into term stale res HI Hd Ht Hc Hok Hg H. destruct grp as [|g grp].
    - cbn in H. exists into, term, stale. rewrite app_nil_r. auto.
    - set (G := g :: grp) in *. cbn [app recurse_runs] in H. apply obind_some in H as (l & El & H).
      destruct (HR ctx G l HI Hg ltac:(discriminate) Hd Hctx Ht El) as [R1 R2].
      pose proof (cut_app _ _ _ _ Hc R1) as Hc2. assert (Hok2 : okl level T (into ++ l)) by (apply okl_app; [exact Hok|exact R2|intros []]).
      destruct l as [|l1 lr].
      + exists into, term, term. rewrite app_nil_r in Hc2, Hok2. auto.
      + exists (into ++ l1 :: lr), false, false. auto. }
  assert (Hinl : forall (a c : list loop), (forall b y, 0 < cnts (a ++ c) b y -> mem ctx (firstn level y) = true) ->
     (forall b y, 0 < cnts a b y -> mem ctx (firstn level y) = true) /\ (forall b y, 0 < cnts c b y -> mem ctx (firstn level y) = true)).
  { intros a c H. split; intros b y Hy; apply (H b y); rewrite cnts_app; lia. }
  induction ls as [|l ls IH]; intros pre grp into term stale res HI Hd Ht Hc Hok Hg H; cbn [runs] in H.
  - rewrite app_nil_r in *. destruct (Flush grp [] pre into term stale res) as (i' & t' & s' & H' & C' & O'); auto; [rewrite app_nil_r; exact H|].
    cbn in H'. destruct s'; [discriminate|]. injection H' as <-. auto.
  - destruct (more P scaldims (S level) scalar l) eqn:Em.
    + assert (E : grp ++ l :: ls = (grp ++ [l]) ++ ls) by (rewrite <- !app_assoc; reflexivity).
      rewrite E in *. eapply IH; try exact H; auto.
      apply Forall_app. split; [exact Hg|]. constructor; [exact Em|constructor].
    + apply Forall_app in Hd as [Hd1 Hd2]. inversion Hd2 as [|? ? Hd3 Hd4]; subst. destruct (Hinl _ _ Ht) as [Ht1 Ht2].
      assert (Ht3 : forall b y, 0 < cnts ls b y -> mem ctx (firstn (dim ctx) y) = true).
      { intros b y Hy. apply (Ht2 b y). rewrite cnts_cons. lia. }
      assert (Hdl : dim (l_dom P l) = dim ctx).
      { unfold more in Em. apply orb_false_iff in Em as [_ Em]. apply Nat.leb_gt in Em. lia. }
      assert (Hlf : leaf l).
      { destruct HI as [HI _]. rewrite !Forall_app in HI. destruct HI as (_ & HI). inversion HI; assumption. }
      destruct (Flush grp ((false, [l]) :: runs P (more P scaldims (S (dim ctx)) scalar) [] ls) pre into term stale res) as (i' & t' & s' & H' & C' & O'); auto.
      { eapply Inv_subl; [|exact HI]. apply Subl_app_l, Subl_refl. }
      cbn [recurse_runs] in H'.
      assert (E : pre ++ grp ++ l :: ls = ((pre ++ grp) ++ [l]) ++ [] ++ ls) by (rewrite <- !app_assoc; reflexivity).
      rewrite E in *. eapply IH; try exact H'; auto.
      * eapply Inv_subl; [|exact HI]. apply Subl_app_r, Subl_skip, Subl_refl.
      * apply cut_app; [exact C'|]. apply cut_leaf; [exact Hlf|lia].
      * apply okl_app; [exact O'|apply leaf_okl; assumption|intros []].
Qed.

(** what the recursion makes of a list of nodes *)
Definition Step (ns rs : list loop) : Prop :=
  (forall b x, cnts rs b x <= pot ns b x) /\
  (forall b y, 0 < cnts ns b y -> 0 < cnts rs b (firstn D y)) /\
  (forall b x, 0 < cnts rs b x -> exists N l, In N ns /\ In l (l_inner P N) /\ l_blk P l = Some b /\ length x = Nat.min D (dim (l_dom P l))).
Lemma step_nil : Step [] [].
Proof. split; [intros; cbn; lia|]. split; intros b x H; cbn in H; lia. Qed.
Lemma step_cons N ns r rs : Step [N] r -> Step ns rs -> Step (N :: ns) (r ++ rs).
Proof.
  intros (A1 & A2 & A3) (B1 & B2 & B3). split; [|split].
  - intros b x. rewrite cnts_app, pot_cons. specialize (A1 b x). specialize (B1 b x). unfold pot in A1. rewrite sumn_cons, sumn_nil in A1. lia.
  - intros b y H. rewrite cnts_cons, cnts_app in *. destruct (cnt N b y) eqn:E; [specialize (B2 b y ltac:(lia)); lia|specialize (A2 b y ltac:(rewrite c1; lia)); lia].
  - intros b x H. rewrite cnts_app in H. destruct (cnts r b x) eqn:E.
    + destruct (B3 b x ltac:(lia)) as (N' & l & HN & Hl). exists N', l. split; [right; exact HN|exact Hl].
    + destruct (A3 b x ltac:(lia)) as (N' & l & [<-|[]] & Hl). exists N, l. split; [left; reflexivity|exact Hl].
Qed.
Lemma step_list (f : loop -> option (list loop)) (Q : loop -> Prop) ns res : (forall N r, In N ns -> f N = Some r -> Step [N] r /\ Forall Q r) ->
  oconcat f ns = Some res -> Step ns res /\ Forall Q res.
Proof.
  intros HF H. apply oconcat_forall2 in H as (rss & -> & H2). induction H2 as [|N r ns rss HE H2 IH]; [split; [apply step_nil|constructor]|].
  destruct (HF N r (or_introl eq_refl) HE) as [S1 S2]. destruct IH as [I1 I2]; [intros N' r' HN; apply HF; right; exact HN|].
  cbn [concat]. split; [apply step_cons; assumption|apply Forall_app; auto].
Qed.
Lemma step_trans ns ns' rs : (forall b x, pot ns' b x <= pot ns b x) -> (forall b y, cnts ns' b y = cnts ns b y) ->
  (forall N l, In N ns' -> In l (l_inner P N) -> exists N' l', In N' ns /\ In l' (l_inner P N') /\ key l' = key l) ->
  Step ns' rs -> Step ns rs.
Proof.
  intros H1 H2 H3 (A1 & A2 & A3). split; [|split].
  - intros b x. specialize (A1 b x). specialize (H1 b x). lia.
  - intros b y H. apply A2. rewrite H2. exact H.
  - intros b x H. destruct (A3 b x H) as (N & l & HN & Hl & Hb & Hlen). destruct (H3 N l HN Hl) as (N' & l' & HN' & Hl' & E).
    unfold LoopGen.key in E. injection E as E1 E2. exists N', l'. rewrite E1, E2. auto.
Qed.

Section Level.
Variables level scalar : nat.
Hypothesis H0 : level = 0 -> scalar = 0.
Hypothesis HP : Pos level scalar.
Hypothesis HlD : level <= D.
Variable rec : rec_t P.
Hypothesis HR : RecCut rec level scalar.

Lemma recurse_inner_cut K N N' : InvK scalar K -> Forall (fun k => level <= fst k) K -> NPo level K N ->
  recurse_inner P scaldims o rec level scalar N = Some N' -> Step [N] [N'] /\ GG level N'.
Proof.
  intros HK HdK (HN & Hcv & Hst) H. specialize (Hst Hstr). unfold recurse_inner in H.
  set (N1 := if negb (level =? 0) && o_otl o then loop_otl P level N else N) in *.
  assert (E1 : l_dom P N1 = l_dom P N /\ l_st P N1 = l_st P N /\ l_blk P N1 = l_blk P N /\ l_inner P N1 = l_inner P N).
  { unfold N1, loop_otl. destruct (negb (level =? 0) && o_otl o); [|auto]. destruct (is_otl P (l_dom P N) level); auto. }
  destruct E1 as (Ed & Es & Eb & Ei). apply obind_some in H as (into & Hin & H). injection H as <-.
  rewrite Ei, Es, Hst, Ed in Hin.
  destruct (rr_cut rec level scalar (l_dom P N) HR HlD (np_dim _ _ _ _ _ HN) (l_inner P N) [] [] [] false false into) as [(C1 & C2 & C3) C4]; cbn [app]; auto.
  { eapply np_inv; eauto. }
  { exact (np_dims _ _ _ _ _ (fun d => level <= d) HdK HN). }
  { intros b y Hy. pose proof (inn_mem _ _ _ _ _ (np_tight _ _ _ _ _ HN b y Hy)) as Hm. rewrite (np_dim _ _ _ _ _ HN) in Hm. exact Hm. }
  { apply cut_nil. }
  { apply okl_nil. }
  cbn [app] in *.
  assert (Hcn : forall b x, cnt (set_inner P N1 into) b x = Nat.b2n (mem (l_dom P N) (firstn level x)) * cnts into b x).
  { intros b x. rewrite (cnt_nd P Se level); [cbn; rewrite Ed; reflexivity|]. unfold LoopCount.nd. cbn. rewrite Ed, Es, Eb. split; [apply (np_dim _ _ _ _ _ HN)|]. split; [exact Hst|apply (np_blk _ _ _ _ _ HN)]. }
  split; [split; [|split]|].
  - intros b x. rewrite c1, Hcn. unfold pot. rewrite sumn_cons, sumn_nil, Hst, inn_none, (np_dim _ _ _ _ _ HN). specialize (C1 b x).
    destruct (mem (l_dom P N) (firstn level x)); cbn [Nat.b2n]; lia.
  - intros b y H. rewrite c1 in H. rewrite c1, Hcn. rewrite (tight_cnt P Se _ b y (np_blk _ _ _ _ _ HN) (np_tight _ _ _ _ _ HN)) in H.
    pose proof (inn_mem _ _ _ _ _ (np_tight _ _ _ _ _ HN b y H)) as Hm. rewrite (np_dim _ _ _ _ _ HN) in Hm.
    rewrite firstn_firstn, Nat.min_l by exact HlD. rewrite Hm. specialize (C2 b y H). cbn [Nat.b2n]. lia.
  - intros b x H. rewrite c1, Hcn in H. assert (Hx : 0 < cnts into b x) by (destruct (cnts into b x); lia).
    destruct (C3 b x Hx) as (l & Hl & Hb). exists N, l. split; [left; reflexivity|]. auto.
  - constructor.
    + cbn. rewrite Eb. apply (np_blk _ _ _ _ _ HN).
    + cbn. rewrite Ed. apply (np_dim _ _ _ _ _ HN).
    + unfold cvO, LoopCount.cvx in *. cbn. rewrite Ed, Es. exact Hcv.
    + apply (mk_node P Se kinds M false False HM).
      * cbn. rewrite Eb. apply (np_blk _ _ _ _ _ HN).
      * cbn. rewrite Ed. apply (np_dim _ _ _ _ _ HN).
      * unfold cvO, LoopCount.cvx in *. cbn. rewrite Ed, Es. exact Hcv.
      * cbn. exact C4.
      * intros _ [].
    + intros _. cbn. rewrite Es. exact Hst.
Qed.

Lemma loop_recurse_cut K const N rs : InvK scalar K -> Forall (fun k => level <= fst k) K -> NPc level K N ->
  loop_recurse P scaldims o rec level scalar const N = Some rs -> Step [N] rs /\ Forall (GG level) rs.
Proof.
  intros HK HdK HNc H. pose proof (npc_npo P Se False o _ _ _ HNc) as HNo. unfold loop_recurse in H. rewrite Hstr, andb_false_r in H. cbn [andb] in H.
  destruct (negb const && (0 <=? o_first_unroll o)%Z && (o_first_unroll o <=? Z.of_nat (level + scalar))%Z) eqn:Eu.
  - apply andb_prop in Eu as [Eu E2]. apply andb_prop in Eu as [_ E1]. apply Z.leb_le in E1, E2.
    assert (Hl : 1 <= level) by (destruct level; [rewrite H0 in E2 by reflexivity; cbn in E2; lia|lia]).
    destruct (unroll_spec P Se L kinds M false False o HM noO level scalar K N Hl HP HK HdK (proj1 (proj2 HNc)) HNo) as (U1 & U2 & _).
    pose proof (fun b x => unroll_pot level K N b x Hl HdK HNo) as U3.
    assert (U4 : forall u l, In u (loop_unroll P level N) -> In l (l_inner P u) -> exists N' l', In N' [N] /\ In l' (l_inner P N') /\ key l' = key l).
    { clear H. unfold loop_unroll. destruct (can_unroll P (l_dom P N) level) as [[nn lb]|].
      - intros u l Hu Hl'. apply in_flat_map in Hu as (i & _ & Hu).
        destruct (restrict_all_leaf P Se L (fixed_offset P (l_dom P N) level lb (Z.of_nat i)) (l_inner P N) (np_leaf _ _ _ _ _ (proj1 HNo))) as (_ & R2 & _).
        { rewrite (L_fixed_dim _ _ L), (np_dim _ _ _ _ _ (proj1 HNo)). exact (np_dims _ _ _ _ _ (fun d => level <= d) HdK (proj1 HNo)). }
        destruct (restrict_all P (fixed_offset P (l_dom P N) level lb (Z.of_nat i)) (l_inner P N)) as [|a q]; [destruct Hu|]. destruct Hu as [<-|[]]. change (In l (a :: q)) in Hl'.
        pose proof (Subl_in _ _ (key l) R2 (in_map key _ _ Hl')) as Hk. apply in_map_iff in Hk as (l' & E & Hin). exists N, l'. split; [left; reflexivity|auto].
      - intros u l [<-|[]] Hl'. exists N, l. split; [left; reflexivity|auto]. }
    destruct (loop_unroll P level N) as [|u us] eqn:El; [discriminate|]. rewrite <- El in *.
    assert (Hoc : oconcat (fun u => obind (recurse_inner P scaldims o rec level scalar u) (fun x => Some [x])) (loop_unroll P level N) = Some rs).
    { clear - H. unfold oconcat. revert rs H. generalize (loop_unroll P level N) as us. induction us as [|a us IH]; intros rs H; cbn in *; [injection H as <-; reflexivity|].
      destruct (recurse_inner P scaldims o rec level scalar a) as [a'|]; [|discriminate]. cbn in *. destruct (omap (recurse_inner P scaldims o rec level scalar) us) as [r|]; [|discriminate].
      cbn in H. injection H as <-. specialize (IH r eq_refl). destruct (omap (fun u => obind (recurse_inner P scaldims o rec level scalar u) (fun x => Some [x])) us); [|discriminate]. cbn in *. injection IH as ->. reflexivity. }
    assert (HS : Step (loop_unroll P level N) rs /\ Forall (GG level) rs).
    { eapply step_list; [|exact Hoc]. intros v r Hv HE. cbn beta in HE. apply obind_some in HE as (v' & HE & Hr). injection Hr as <-. rewrite Forall_forall in U2.
      destruct (recurse_inner_cut K v v' HK HdK (U2 v Hv) HE) as [X1 X2]. split; [exact X1|]. constructor; [exact X2|constructor]. }
    destruct HS as [S1 S2].
    split; [|exact S2]. eapply step_trans; [exact U3| |exact U4|exact S1]. intros b y. rewrite U1, c1. reflexivity.
  - apply obind_some in H as (N' & HE & H). injection H as <-. destruct (recurse_inner_cut K N N' HK HdK HNo HE) as [R1 R2]. auto.
Qed.

(** ** cloog_loop_generate_general *)
Lemma loop_fl_none l : loop_fl P o l ((-1)%Z, (-1)%Z) = ((-1)%Z, (-1)%Z).
Proof.
  assert (Hf : forall ss, fold_left (stmt_fl o) ss ((-1)%Z, (-1)%Z) = ((-1)%Z, (-1)%Z)).
  { induction ss as [|a ss IH]; [reflexivity|]. cbn [fold_left]. unfold stmt_fl at 2. rewrite Hls0. destruct (o_fs o); exact IH. }
  induction l as [d ot st blk inner IH] using loop_ind'. cbn [loop_fl l_blk].
  assert (E : match blk with Some b => fold_left (stmt_fl o) (b_stmts b) ((-1)%Z, (-1)%Z) | None => ((-1)%Z, (-1)%Z) end = ((-1)%Z, (-1)%Z)) by (destruct blk; [apply Hf|reflexivity]).
  rewrite E. clear E. induction inner as [|a inner IH2]; [reflexivity|]. inversion IH as [|? ? I1 I2]; subst. rewrite I1. apply IH2; exact I2.
Qed.
Lemma get_fl_none ls : get_fl P o ls = (o_f o, o_l o).
Proof.
  unfold get_fl. assert (E : fold_left (fun acc l => loop_fl P o l acc) ls ((-1)%Z, (-1)%Z) = ((-1)%Z, (-1)%Z)).
  { induction ls as [|l ls IH]; [reflexivity|]. cbn [fold_left]. rewrite loop_fl_none. exact IH. }
  rewrite E. reflexivity.
Qed.

Lemma generate_general_cut fuel lc res : Inv scalar lc -> Forall (fun l => level <= dim (l_dom P l)) lc ->
  generate_general P scaldims o fuel rec level scalar (project_all P level lc) = Some res ->
  Cut lc res /\ Forall (GG level) res.
Proof.
  intros HI Hd H. unfold generate_general in H.
  destruct (project_all_spec P Se L kinds M HM level lc Hd) as (A1 & A2 & A3 & A4). set (ls := project_all P level lc) in *.
  rewrite get_fl_none in H. set (first := o_f o) in *.
  set (const := (0 <? level) && is_constant P level ls) in *.
  set (mrg := (Z.of_nat (level + scalar) <? first)%Z || (first <? 0)%Z) in *.
  apply obind_some in H as (r1 & E1 & H). apply obind_some in H as (r2 & E2 & H).
  assert (S1 : (forall b x, cnts r1 b x = cnts lc b x) /\ Forall (fun N => nd level N /\ cvx P N /\ Subl (l_inner P N) lc) r1 /\
               (forall b x, pot r1 b x <= nl lc b)).
  { assert (Hmerged : forall r, Forall (fun N => nd level N /\ cvx P N /\ l_inner P N = concat_inner P ls) r -> (forall y, cov r y <= 1) -> (forall y, 0 < cov ls y -> cov r y = 1) ->
       (forall b x, cnts r b x = cnts lc b x) /\ Forall (fun N => nd level N /\ cvx P N /\ Subl (l_inner P N) lc) r /\ (forall b x, pot r b x <= nl lc b)).
    { intros r M1 M2 M3. split; [|split].
      - intros b x. rewrite (merged_cnts P Se level ls r b x A1 A2 M1 M2 M3). apply A4.
      - eapply Forall_impl; [|exact M1]. cbn. intros N (N1 & N2 & N3). split; [exact N1|]. split; [exact N2|]. rewrite N3, A3. apply Subl_refl.
      - intros b x. rewrite <- A3. apply (merged_pot level); [|exact M2]. eapply Forall_impl; [|exact M1]. cbn. tauto. }
    destruct const eqn:Ec.
    - injection E1 as <-. destruct (constant_spec P Se L level ls A1) as (M1 & M2 & M3 & M4). auto.
    - destruct mrg eqn:Em.
      + destruct (merge_spec P Se L fuel o level level ls r1 HH E1 A1) as (M1 & M2 & M3 & M4). auto.
      + destruct (separate_spec P Se L fuel level ls r1 E1 A1) as (P1 & P2 & P3 & P4). split; [|split].
        * intros b x. rewrite (same_payload_cnts P Se level ls r1 b x A1 P1 P3). apply A4.
        * rewrite Forall_forall in *. rewrite A3 in P4. intros N HN. auto.
        * intros b x. rewrite <- A3. apply (separated_pot level); assumption. }
  destruct S1 as (B1 & B2 & B3).
  pose proof (sort_perm _ _ _ _ E2) as Hperm.
  assert (C1 : forall b x, cnts r2 b x = cnts lc b x) by (intros b x; rewrite (cnts_perm _ _ _ _ _ _ Hperm); apply B1).
  assert (C2 : Forall (fun N => nd level N /\ cvx P N /\ Subl (l_inner P N) lc) r2).
  { rewrite Forall_forall in *. intros N HN. apply B2. eapply Permutation_in; eauto. }
  assert (C3 : forall b x, pot r2 b x <= nl lc b) by (intros b x; rewrite (pot_perm _ _ b x Hperm); apply B3).
  destruct HI as [HIl HIk]. set (K := map key lc) in *.
  assert (HdK : Forall (fun k => level <= fst k) K) by (unfold K; rewrite Forall_map; exact Hd).
  destruct (restrict_inner_spec P Se L kinds M false False HM level K (level - 1) T r2 HdK) as (D1 & D2 & D3).
  { eapply Forall_impl; [|exact C2]. cbn. intros N (N1 & N2 & N3). split; [exact N1|]. split; [exact N2|]. split; [eapply Subl_forall; eauto|apply Subl_map; exact N3]. }
  assert (D4 : forall b x, pot (restrict_inner P r2) b x <= nl lc b).
  { intros b x. eapply Nat.le_trans; [apply (restrict_inner_pot level)|apply C3]. eapply Forall_impl; [|exact C2]. cbn. intros N (N1 & N2 & N3). split; [exact N1|].
    split; eapply Subl_forall; eauto. }
  set (r3 := restrict_inner P r2) in *. apply obind_some in H as (r4 & E4 & H).
  assert (S4 : (forall b x, cnts r4 b x = cnts lc b x) /\ Forall (NPc level K) r4 /\ (forall b x, pot r4 b x <= nl lc b)).
  { destruct (negb const && negb mrg) eqn:Ecm.
    - assert (Hpv : 0 < level -> at_pos (level - 1) scalar) by (intros Hl; apply (ps_prev _ _ _ HP Hl)).
      destruct (specialize_spec P Se L kinds M false False HM noO level scalar K r3 r4 HIk (fun _ f => f) Hpv HdK D3 E4) as (Q1 & Q2 & Q3).
      split; [intros b x; rewrite Q1, D1; apply C1|]. split; [exact Q3|]. intros b x. eapply Nat.le_trans; [eapply (specialize_pot level scalar K r3 r4); eauto|apply D4].
    - injection E4 as <-. split; [intros b x; rewrite D1; apply C1|]. split; [exact D3|exact D4]. }
  destruct S4 as (F1 & F3 & F4).
  apply obind_some in H as (r5 & E5 & H). rewrite Hstr, Hbt in H. cbn [obind andb] in H. injection H as <-.
  assert (Ed : (level =? 0) || ((Z.of_nat (level + scalar) <? o_l o)%Z || (o_l o <? 0)%Z) = true).
  { apply orb_true_iff. right. apply orb_true_iff. right. apply Z.ltb_lt. exact Hl0. }
  rewrite Ed in E5.
  assert (HS : Step r4 r5 /\ Forall (GG level) r5).
  { eapply step_list; [|exact E5]. intros N r HN HE. rewrite Forall_forall in F3. apply (loop_recurse_cut K const N r HIk HdK (F3 N HN) HE). }
  destruct HS as [(G1 & G2 & G3) G4].
  split; [|exact G4]. split; [|split].
  - intros b x. eapply Nat.le_trans; [apply G1|apply F4].
  - intros b y Hy. apply G2. rewrite F1. exact Hy.
  - intros b x Hx. destruct (G3 b x Hx) as (N & l & HN & Hl & Hb & Hlen). rewrite Forall_forall in F3. destruct (F3 N HN) as (HNP & _ & _).
    pose proof (Subl_in _ _ (key l) (np_key _ _ _ _ _ HNP) (in_map key _ _ Hl)) as Hk. unfold K in Hk. apply in_map_iff in Hk as (l' & E & Hin).
    unfold LoopGen.key in E. injection E as X1 X2. exists l'. rewrite X1, X2. auto.
Qed.

Lemma generate_components_cut fuel ls res : Inv scalar ls -> Forall (fun l => level <= dim (l_dom P l)) ls ->
  generate_components P scaldims o fuel rec level scalar (project_all P level ls) = Some res ->
  Cut ls res /\ okl (level - 1) T res.
Proof.
  intros HI Hd H. unfold generate_components in H.
  assert (Hfop : forall r : list loop, ForallOrdPairs (pairok P Se False (prec kinds M false) (level - 1) T) r) by (intros r; apply FOP_nth; intros i j a b _ _ _ []).
  destruct ((level =? 0) || (length (project_all P level ls) <=? 1)) eqn:E.
  { destruct (generate_general_cut fuel ls res HI Hd H) as (G1 & G3). split; [exact G1|]. eapply gg_okl; [exact G3|apply Hfop]. }
  apply orb_false_iff in E as [El _]. apply Nat.eqb_neq in El. assert (Hl : 1 <= level) by lia.
  apply obind_some in H as (cs & Ecs & H). apply obind_some in H as (r & Er & H). injection H as <-.
  destruct (loop_components_spec P kinds M HM (fun a b def => inner_loop_follows P scaldims a b level scalar def) (fun _ _ => True) (project_all P level ls) cs) as (C1 & C2 & _); [auto|exact Ecs|].
  apply oconcat_forall2 in Er as (rss & -> & HF).
  assert (G : forall c rs, In c cs -> generate_general P scaldims o fuel rec level scalar c = Some rs -> Cut (concat_inner P c) rs /\ Forall (GG level) rs).
  { intros c rs Hc HE. rewrite Forall_forall in C2. destruct (C2 c Hc) as [Hsub _]. unfold project_all in Hsub. apply Subl_map_inv in Hsub as (lc & -> & Hlc).
    fold (project_all P level lc) in *. assert (Hdc : Forall (fun l => level <= dim (l_dom P l)) lc) by (eapply Subl_forall; eauto).
    destruct (project_all_spec P Se L kinds M HM level lc Hdc) as (_ & _ & A3 & _). rewrite A3.
    apply (generate_general_cut fuel lc rs (Inv_subl _ _ _ _ _ _ _ _ Hlc HI) Hdc HE). }
  assert (R1 : Cut (concat_inner P (concat cs)) (concat rss) /\ Forall (GG level) (concat rss)).
  { clear C1 C2 Ecs. induction HF as [|c rs cs rss HE HF IH]; [split; [apply cut_nil|constructor]|]. cbn [concat].
    destruct (G c rs (or_introl eq_refl) HE) as [G1 G2]. destruct IH as [I1 I2]; [intros c' rs' Hc'; apply G; right; exact Hc'|].
    split; [|apply Forall_app; auto]. unfold concat_inner in *. rewrite flat_map_app. apply cut_app; assumption. }
  destruct R1 as [R1 R2].
  assert (R3 : Cut ls (concat rss)).
  { eapply cut_perm; [|exact R1]. destruct (project_all_spec P Se L kinds M HM level ls Hd) as (_ & _ & A3 & _). 
    
    assert (Hcc : Permutation (concat_inner P (concat cs)) (concat_inner P (project_all P level ls))) by (unfold concat_inner; apply Permutation_flat_map; exact C1).
    rewrite A3 in Hcc. exact Hcc. }
  destruct (concat rss) as [|f rest] eqn:Ecr.
  - cbn [combine]. split; [exact R3|apply okl_nil].
  - cbn [combine]. destruct (combine_gg P Se L kinds M false False o HM nostr level Hl rest f R2 (Hfop _)) as (Q1 & Q2 & Q3); [intros []|].
    split; [|eapply gg_okl; [exact Q2|exact Q3]]. destruct R3 as (X1 & X2 & X3). split; [|split].
    + intros b x. rewrite Q1. apply X1.
    + intros b y Hy. rewrite Q1. apply X2; exact Hy.
    + intros b x Hx. rewrite Q1 in Hx. apply X3; exact Hx.
Qed.
End Level.

(** ** cloog_loop_generate_scalar *)
Section Scalar.
Variables n scalar : nat.
Hypothesis Hat : at_pos n scalar.
Hypothesis Hsc : nth (n + scalar) kinds false = true.
Hypothesis HnD : n <= D.
Notation sn := (scalar + scaldim scaldims (n + scalar)).
Notation seq_ := (seq_ P kinds n scalar).

Definition RecS (rec : list loop -> option (list loop)) : Prop :=
  forall g res, Inv sn g -> Forall (fun l => more P scaldims (S n) sn l = true) g -> g <> [] -> rec g = Some res -> Cut g res /\ okl n T res.

Lemma groups_cut rec all : RecS rec -> Inv scalar all ->
  forall fuel ls done res res', incl ls all ->
  ForallOrdPairs (fun a c => seq_ a c -> Rin kinds false False (key a) (key c)) ls ->
  Cut done res -> okl n T res ->
  scalar_groups P scaldims fuel rec (S n) scalar sn ls res [] = Some res' ->
  Cut (done ++ ls) res' /\ okl n T res'.
Proof.
  intros HR HI. induction fuel as [|f IH]; intros ls done res res' Hli Hst Hc Hok H; [discriminate|]. cbn [scalar_groups] in H.
  destruct ls as [|ref rl]; [injection H as <-; rewrite !app_nil_r; auto|].
  destruct (take_while (fun x => more P scaldims (S n) sn x && scalar_eq P scaldims (S n) scalar ref x) rl) as [grp next] eqn:Etw.
  apply take_while_spec in Etw as (-> & Hgrp & Hnext).
  assert (Hsub : Subl next (ref :: grp ++ next)) by (apply Subl_skip, Subl_app_r, Subl_refl).
  assert (Hgeq : forall a, In a (ref :: grp) -> seq_ ref a).
  { intros a [<-|Ha]; [intros i _; reflexivity|]. rewrite Forall_forall in Hgrp. specialize (Hgrp a Ha). apply andb_prop in Hgrp as [_ Hgrp]. apply (eq_spec P kinds M HM). exact Hgrp. }
  assert (Hrefall : In ref all) by (apply Hli; left; reflexivity).
  destruct (more P scaldims (S n) sn ref) eqn:Em.
  - apply obind_some in H as (l & El & H).
    assert (HIg : Inv sn (ref :: grp)).
    { destruct HI as [I1 I2]. assert (Hin : forall a, In a (ref :: grp) -> In a all).
      { intros a Ha. apply Hli. change (ref :: grp ++ next) with ((ref :: grp) ++ next). apply in_or_app; left; exact Ha. }
      split; [rewrite Forall_forall in *; auto|]. destruct I2 as [K1 K2 K3 K4]. constructor.
      - rewrite Forall_map, Forall_forall. rewrite Forall_map, Forall_forall in K1. auto.
      - intros [].
      - intros k k' Hk Hk' i Hi. apply in_map_iff in Hk as (a & <- & Ha). apply in_map_iff in Hk' as (a' & <- & Ha').
        destruct (Nat.lt_ge_cases i scalar) as [Hlt|Hge]; [apply K3; auto; apply in_map; auto|].
        replace i with (scalar + (i - scalar)) by lia. rewrite <- !blk_scal_key.
        assert (Hs : seq_ a a') by (eapply seq_trans; [apply seq_sym; apply Hgeq; exact Ha|apply Hgeq; exact Ha']). apply Hs. lia.
      - apply FOP_map. change (ref :: grp ++ next) with ((ref :: grp) ++ next) in Hst. apply FOP_app in Hst as (Hst & _ & _). eapply FOP_impl; [|exact Hst].
        intros a a' Ha Ha' Hq. apply Hq. eapply seq_trans; [apply seq_sym; apply Hgeq; exact Ha|apply Hgeq; exact Ha']. }
    destruct (HR (ref :: grp) l HIg) as [R1 R2]; [|discriminate|exact El|].
    { constructor; [exact Em|]. eapply Forall_impl; [|exact Hgrp]. cbn. intros a Ha. apply andb_prop in Ha. apply Ha. }
    assert (H' : scalar_groups P scaldims f rec (S n) scalar sn next (res ++ l) [] = Some res').
    { destruct l; [rewrite app_nil_r; exact H|exact H]. }
    replace (done ++ ref :: grp ++ next) with ((done ++ ref :: grp) ++ next) by (rewrite <- app_assoc; reflexivity).
    eapply IH; try exact H'; auto.
    + intros a Ha. apply Hli. eapply Subl_in; [exact Hsub|exact Ha].
    + eapply FOP_subl; [exact Hsub|exact Hst].
    + apply cut_app; assumption.
    + apply okl_app; [exact Hok|exact R2|intros []].
  - destruct (notmore_end P kinds M false False HM n scalar Hat Hsc all ref HI Hrefall Em) as (E1 & E2 & E3 & E4 & E5).
    assert (Hg : grp = []).
    { destruct grp as [|g grp]; [reflexivity|]. exfalso. inversion Hgrp as [|? ? Hg1 _]; subst. apply andb_prop in Hg1 as [Hm Hq]. apply (eq_spec P kinds M HM) in Hq.
      inversion Hst as [|? ? Hf _]; subst. inversion Hf as [|? ? Hf1 _]; subst. destruct (Hf1 Hq) as [_ Hr2].
      unfold more in Hm. rewrite (nbs kinds) in Hm. apply orb_prop in Hm as [Hm|Hm]; apply Nat.leb_le in Hm; [lia|].
      assert (Hia : In g all) by (apply Hli; right; left; reflexivity).
      assert (cf kinds < fst (key ref)); [|cbn in *; lia]. apply Hr2; [apply (run_last kinds M HM (n + scalar)); [exact Hsc|lia]| |cbn; lia].
      intros i Hi. rewrite <- E2 in Hi. destruct (Nat.lt_ge_cases i scalar) as [Hlt|Hge].
      - destruct HI as [_ HK]. apply (iv_scal _ _ _ _ _ _ HK); auto; apply in_map; assumption.
      - replace i with (scalar + (i - scalar)) by lia. rewrite <- !blk_scal_key. apply Hq. lia. }
    subst grp. cbn [app] in *.
    replace (done ++ ref :: next) with ((done ++ [ref]) ++ next) by (rewrite <- app_assoc; reflexivity).
    assert (Hlf : leaf ref) by (destruct HI as [I1 _]; rewrite Forall_forall in I1; auto).
    eapply IH; try exact H; auto.
    + intros a Ha. apply Hli. right; exact Ha.
    + eapply FOP_subl; [exact Hsub|exact Hst].
    + apply cut_app; [exact Hc|]. apply cut_leaf; [exact Hlf|lia].
    + apply okl_app; [exact Hok|apply leaf_okl; assumption|intros []].
Qed.

Lemma generate_scalar_cut rec ls res : RecS (rec (S n) sn) -> Inv scalar ls ->
  generate_scalar P scaldims rec (S n) scalar ls = Some res -> Cut ls res /\ okl n T res.
Proof.
  intros HR HI H. unfold generate_scalar in H. apply obind_some in H as (sorted & Es & H). replace (S n + scalar - 1) with (n + scalar) in H by lia.
  unfold scalar_sort in Es. pose proof (bubble_sort_perm _ _ _ _ Es) as Hperm.
  assert (Hst : ForallOrdPairs (fun a c => seq_ a c -> Rin kinds false False (key a) (key c)) sorted).
  { eapply bubble_sort_fop; [|exact Es|].
    - intros a b Hgt Hs. apply (gt_spec P kinds M HM) in Hgt. exfalso. exact (seq_slt P kinds M HM _ _ _ _ Hs Hgt).
    - destruct HI as [_ HK]. pose proof (iv_ord _ _ _ _ _ _ HK) as Ho.
      apply FOP_nth. intros i j a b Hij Ha Hb _. pose proof (proj1 (FOP_nth _ _) Ho i j (key a) (key b) Hij) as Hr. rewrite !nth_error_map', Ha, Hb in Hr. auto. }
  assert (Hin : incl sorted ls) by (intros a Ha; eapply Permutation_in; eauto).
  destruct (groups_cut (rec (S n) sn) ls HR HI _ sorted [] [] res Hin Hst cut_nil (okl_nil _ _ _ _ _ _ _) H) as [G1 G2].
  split; [|exact G2]. eapply cut_perm; [exact Hperm|exact G1].
Qed.
End Scalar.

(** ** cloog_loop_generate_restricted, cloog_loop_generate *)
Lemma scaldim_leading m : scaldim scaldims m = leading (skipn m kinds).
Proof.
  remember (nb - m) as k eqn:Ek. revert m Ek. induction k as [|k IH]; intros m Ek; rewrite (scaldim_eq kinds).
  - rewrite nth_overflow by lia. rewrite skipn_all2 by lia. reflexivity.
  - rewrite IH by lia. clear IH. assert (Hm : m < nb) by lia. clear Ek.
    assert (E : skipn m kinds = nth m kinds false :: skipn (S m) kinds).
    { clear - Hm. revert m Hm. generalize kinds as ks. induction ks as [|a ks IH]; intros m Hm; [cbn in Hm; lia|]. destruct m as [|m]; [reflexivity|]. cbn [skipn nth]. apply IH. cbn in Hm. lia. }
    rewrite E. cbn [leading]. destruct (nth m kinds false); reflexivity.
Qed.
Definition pos_go (n scalar : nat) (go : bool) : Prop := D = n + depth_from (skipn (n + scalar) kinds) go (s - (n + scalar)).
Lemma pos_run n scalar : pos_go n scalar true -> pos_go n (scalar + scaldim scaldims (n + scalar)) true.
Proof.
  unfold pos_go. intros ->. f_equal. rewrite depth_run, scaldim_leading.
  assert (E : forall a b (l : list bool), skipn a (skipn b l) = skipn (b + a) l).
  { intros a b. induction b as [|b IH]; intros l; [reflexivity|]. destruct l; [rewrite !skipn_nil; reflexivity|]. cbn [skipn Nat.add]. apply IH. }
  rewrite E, Nat.add_assoc. f_equal. lia.
Qed.
Lemma pos_step n scalar : nth (n + scalar) kinds false = false -> pos_go n scalar true -> pos_go (S n) scalar false.
Proof.
  unfold pos_go. intros Hn ->. cbn [Nat.add].
  destruct (Nat.lt_ge_cases (n + scalar) nb) as [Hm|Hm].
  - assert (E : skipn (n + scalar) kinds = nth (n + scalar) kinds false :: skipn (S (n + scalar)) kinds).
    { clear - Hm. revert Hm. generalize (n + scalar) as m. generalize kinds as ks. induction ks as [|a ks IH]; intros m Hm; [cbn in Hm; lia|]. destruct m as [|m]; [reflexivity|]. cbn [skipn nth]. apply IH. cbn in Hm. lia. }
    rewrite E, Hn. cbn [depth_from negb andb]. rewrite <- plus_n_Sm. f_equal. f_equal. f_equal. lia.
  - rewrite !skipn_all2 by lia. cbn [depth_from negb andb]. destruct (Nat.eqb_spec (s - S (n + scalar)) 0); lia.
Qed.

Lemma generate_restricted_cut : forall fuel level scalar ls res,
  (level = 0 -> scalar = 0) -> at_pos (level - 1) scalar -> Inv scalar ls ->
  (0 < level -> Forall (fun l => more P scaldims level scalar l = true) ls) ->
  (level = 0 -> pos_go 0 0 false) -> (0 < level -> pos_go (level - 1) scalar true) ->
  generate_restricted P scaldims o fuel level scalar ls = Some res ->
  Cut ls res /\ okl (level - 1) T res.
Proof.
  induction fuel as [|f IH]; intros level scalar ls res H0 Hat HI Hm Hp0 Hp1 H; [discriminate|]. cbn [generate_restricted] in H.
  destruct (level_is_constant scaldims level scalar) eqn:Ec.
  - destruct level as [|n]; [discriminate|]. specialize (Hp1 ltac:(lia)). replace (S n - 1) with n in * by lia. rewrite (level_const kinds M HM) in Ec.
    eapply generate_scalar_cut; try exact H; auto; [unfold pos_go in Hp1; lia|].
    intros g rs HIg Hmg Hne Hg. specialize (IH (S n) (scalar + scaldim scaldims (n + scalar)) g rs). replace (S n - 1) with n in IH by lia.
    apply IH; auto; try discriminate; [apply (run_pos kinds M HM); [exact Hat|reflexivity]|intros _; apply pos_run; exact Hp1].
  - assert (HP : Pos level scalar).
    { destruct level as [|n].
      - constructor; [exact Hat|lia].
      - replace (S n - 1) with n in Hat by lia. rewrite (level_const kinds M HM) in Ec. constructor; [apply at_pos_next; assumption|].
        intros _. replace (S n - 1) with n by lia. auto. }
    assert (Hp : pos_go level scalar false).
    { destruct level as [|n]; [rewrite H0 by reflexivity; apply Hp0; reflexivity|]. rewrite (level_const kinds M HM) in Ec. apply pos_step; [exact Ec|].
      specialize (Hp1 ltac:(lia)). replace (S n - 1) with n in Hp1 by lia. exact Hp1. }
    assert (Hd : Forall (fun l => level <= dim (l_dom P l)) ls).
    { destruct level as [|n]; [rewrite Forall_forall; intros; lia|]. specialize (Hm ltac:(lia)). rewrite Forall_forall in *. intros l Hl. specialize (Hm l Hl).
      unfold more in Hm. apply orb_prop in Hm as [Hm|Hm]; apply Nat.leb_le in Hm; [|exact Hm]. rewrite (nbs kinds) in Hm.
      destruct (ps_prev _ _ _ HP ltac:(lia)) as [Q1 Q2]. replace (S n - 1) with n in * by lia. pose proof (at_pos_nonscalar kinds n scalar Q1 Q2 ltac:(lia)) as Hc.
      destruct HI as [_ HK]. pose proof (iv_dim _ _ _ _ _ _ HK) as Hdm. rewrite Forall_map, Forall_forall in Hdm. specialize (Hdm l Hl). cbn in Hdm. lia. }
    eapply generate_components_cut; try exact H; auto; [unfold pos_go in Hp; lia|].
    intros ctx g rs HIg Hmg Hne Hdg Hcd Hct Hg. unfold restricted_or_stop in Hg.
    destruct (Z.leb_spec 0 (o_stop o)) as [_|Hx]; [|lia]. cbn [andb] in Hg.
    destruct (Z.leb_spec (o_stop o + 1) (Z.of_nat (S level + scalar))) as [Hs|Hs].
    + injection Hg as <-. assert (HD : D = level).
      { unfold pos_go in Hp. replace (s - (level + scalar)) with 0 in Hp by lia. assert (E0 : forall ks, depth_from ks false 0 = 0) by (intros [|k ks]; reflexivity). rewrite E0 in Hp. lia. }
      rewrite <- HD in *. apply stop_cut; auto. apply HIg.
    + specialize (IH (S level) scalar g rs). replace (S level - 1) with level in IH by lia. apply IH; auto; try discriminate; [apply (ps_at _ _ _ HP)|].
      intros _. unfold pos_go in *. rewrite depth_go by lia. exact Hp.
Qed.

Theorem generate_cut fuel ctx ls res : dim ctx = 0 -> mem ctx [] = true -> Inv 0 ls -> D = stop_depth kinds s ->
  generate P scaldims o fuel ctx ls = Some res -> Cut ls res /\ okl 0 T res.
Proof.
  intros Hd Hcx HI HD H. unfold generate in H. destruct HI as [H1 H2].
  destruct (restrict_all_leaf P Se L ctx ls H1) as (R1 & R2 & R3). { rewrite Forall_forall. intros; rewrite Hd; lia. }
  assert (R3' : forall b x, cnts (restrict_all P ctx ls) b x = cnts ls b x).
  { intros b x. rewrite R3, inn_none, Hd. cbn [firstn]. rewrite Hcx. cbn [Nat.b2n]. lia. }
  assert (Hcut : forall r, Cut (restrict_all P ctx ls) r -> Cut ls r).
  { intros r (A1 & A2 & A3). split; [|split].
    - intros b x. pose proof (nl_keys_subl _ _ b R2). specialize (A1 b x). lia.
    - intros b y Hy. apply A2. rewrite R3'. exact Hy.
    - intros b x Hx. destruct (A3 b x Hx) as (l & Hl & Hb & Hlen). pose proof (Subl_in _ _ (key l) R2 (in_map key _ _ Hl)) as Hk. apply in_map_iff in Hk as (l' & E & Hin).
      unfold LoopGen.key in E. injection E as X1 X2. exists l'. rewrite X1, X2. auto. }
  destruct (restrict_all P ctx ls) as [|l r] eqn:E.
  - injection H as <-. split; [apply Hcut, cut_nil|apply okl_nil].
  - unfold restricted_or_stop in H. destruct (Z.leb_spec (o_stop o + 1) (Z.of_nat (0 + 0))) as [Hx|_]; [cbn in Hx; lia|]. rewrite andb_false_r in H.
    destruct (generate_restricted_cut fuel 0 0 (l :: r) res) as [G1 G2]; auto; try lia.
    + unfold LoopKeys.at_pos. reflexivity.
    + split; [exact R1|]. eapply InvK_subl; [exact R2|exact H2].
    + intros _. unfold pos_go. cbn [Nat.add skipn]. rewrite Nat.sub_0_r. exact HD.
Qed.
End Stop.
