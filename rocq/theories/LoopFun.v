(** Single functions of loop.c, stated over executions or over instances of loop trees. *)
From Coq Require Import ZArith List Bool Arith Lia Permutation.
From Verif Require Import SortModel LoopModel LoopSpec LoopLists LoopCount LoopKeys LoopOrder LoopGen LoopSimplify LoopBridge.
Import ListNotations.
Local Arguments Nat.ltb : simpl never.
Local Arguments Nat.leb : simpl never.
Local Arguments Nat.eqb : simpl never.
Local Arguments Nat.sub : simpl never.

Section Fun.
Variable P : Poly.
Variable Se : Sem P.
Hypothesis L : Laws P Se.
Notation loop := (loop P).
Notation dim := (dim P).
Notation mem := (mem Se).
Notation Loop := (@Loop P).
Notation cnt := (cnt P Se).
Notation cnts := (cnts P Se).
Notation inn := (inn P Se).
Notation noR := (fun (_ : block) (_ : list Z) (_ : block) (_ : list Z) => False).
Notation T := (fun _ : list Z => True).

Theorem simplify_instances fuel ctx x ls rs :
  Forall (scannable (length x)) ls ->
  Forall (each_loop (fun l => l_blk P l = None -> isconvex P (l_dom P l) = true \/ l_st P l = None)) ls ->
  dim ctx <= length x -> mem ctx (firstn (dim ctx) x) = true ->
  simplify P fuel ctx ls = Some rs -> same_instances Se x ls rs.
Proof.
  intros Hs He Hd Hc H.
  assert (Ho : okl P Se False noR (isconvex P) (length x) T ls).
  { split; [|apply FOP_nth; intros i j a c _ _ _ []]. rewrite Forall_forall in *. intros l Hl. apply scannable_ok1; auto. }
  destruct (simplify_spec P Se L False noR (fun _ _ H => H) (length x) T fuel ctx ls rs Ho Hd H) as [K1 [K2 _]].
  eapply (same_instances_cnts P Se L); [exact (proj1 Ho)|exact K2|reflexivity|].
  intros b y Hy. symmetry. apply K1. rewrite inn_none. 
  assert (E : firstn (dim ctx) y = firstn (dim ctx) x) by (rewrite <- Hy, firstn_firstn, Nat.min_l by lia; reflexivity).
  rewrite E. exact Hc.
Qed.

Theorem simplify_order R fuel ctx x ls rs : (forall b y, ~ R b y b y) ->
  Forall (scannable (length x)) ls ->
  Forall (each_loop (fun l => l_blk P l = None -> isconvex P (l_dom P l) = true)) ls ->
  dim ctx <= length x -> mem ctx (firstn (dim ctx) x) = true ->
  simplify P fuel ctx ls = Some rs -> respects Se x ls R -> respects Se x rs R.
Proof.
  intros Rirr Hs He Hd Hc H Hr.
  set (A := fun y => firstn (length x) y = x).
  assert (Ho : okl P Se True R (isconvex P) (length x) A ls).
  { apply resp_okl; auto. intros x' p b y p' b' y' Hx HA HA' E E' HR.
    assert (Ex : x' = x).
    { unfold A in HA. destruct (exec_app1 P Se _ _ _ _ _ E) as (t & ->). rewrite <- Hx, firstn_app_exact in HA. exact HA. }
    subst x'. eapply Hr; eauto. }
  destruct (simplify_spec P Se L True R Rirr (length x) A fuel ctx ls rs Ho Hd H) as [_ K2].
  intros p b y p' b' y' E E' HR.
  assert (Q : forall p b y, Exec P Se rs x p b y -> andp P Se A ctx None y).
  { intros q c z Hq. destruct (exec_app1 P Se _ _ _ _ _ Hq) as (t & ->). split; [unfold A; apply firstn_app_exact|].
    rewrite inn_none, firstn_app. replace (dim ctx - length x) with 0 by lia. rewrite firstn_O, app_nil_r. exact Hc. }
  eapply (exec_order_aux P Se True R (fun _ => true) L I rs); [|exact K2|reflexivity| | |exact E|exact E'|exact HR]; eauto.
  intros l _. apply exec1_order; auto.
Qed.

(** ** separation, merging *)
Lemma covering_payload ls y : flat_map (l_inner P) (covering Se ls y) = payload P Se ls y.
Proof.
  unfold covering, payload. induction ls as [|l ls IH]; [reflexivity|]. cbn [filter flat_map]. destruct (mem (l_dom P l) y); cbn; rewrite IH; reflexivity.
Qed.
Lemma covering_cov ls y : length (covering Se ls y) = cov P Se ls y.
Proof.
  unfold covering, cov. induction ls as [|l ls IH]; [reflexivity|]. cbn [filter]. rewrite sumn_cons. destruct (mem (l_dom P l) y); cbn; rewrite IH; reflexivity.
Qed.
Lemma cov_iff ls y : 0 < cov P Se ls y <-> covering Se ls y <> [].
Proof. rewrite <- covering_cov. destruct (covering Se ls y); cbn; split; intros; try lia; congruence. Qed.

Theorem separate_fun fuel n ls res : separate P fuel ls = Some res -> Forall (plain_loop n) ls ->
  Forall (plain_loop n) res /\ Forall (fun l => isconvex P (l_dom P l) = true) res /\
  ForallOrdPairs (fun a b => disjoint_sets Se (l_dom P a) (l_dom P b)) res /\
  (forall y, (exists N, In N res /\ mem (l_dom P N) y = true) <-> (exists l, In l ls /\ mem (l_dom P l) y = true)) /\
  (forall N y, In N res -> mem (l_dom P N) y = true -> l_inner P N = flat_map (l_inner P) (covering Se ls y)).
Proof.
  intros H Hl. destruct (separate_spec P Se L fuel n ls res H Hl) as (H1 & H2 & [H3 H4] & _).
  split; [exact H1|]. split; [exact H2|]. split; [|split].
  - apply (cov_le1_disj P Se). intros y. rewrite H3. destruct (0 <? cov P Se ls y); cbn; lia.
  - intros y. rewrite <- !(cov_pos P Se), H3. destruct (Nat.ltb_spec 0 (cov P Se ls y)); cbn; split; lia.
  - intros N y HN Hy. rewrite covering_payload. auto.
Qed.
Theorem separate_instances fuel n ls res : separate P fuel ls = Some res -> Forall (plain_loop n) ls ->
  forall b x, cnts res b x = cnts ls b x.
Proof.
  intros H Hl b x. destruct (separate_spec P Se L fuel n ls res H Hl) as (H1 & _ & H3 & _). eapply same_payload_cnts; eauto.
Qed.

Theorem merge_fun fuel o level n ls res : (o_sh o = true -> simple_hull_tight P Se) ->
  merge P fuel o level ls = Some res -> Forall (plain_loop n) ls ->
  Forall (plain_loop n) res /\ Forall (fun l => isconvex P (l_dom P l) = true) res /\
  Forall (fun l => l_inner P l = flat_map (l_inner P) ls) res /\
  ForallOrdPairs (fun a b => disjoint_sets Se (l_dom P a) (l_dom P b)) res /\
  (forall y l, In l ls -> mem (l_dom P l) y = true -> exists N, In N res /\ mem (l_dom P N) y = true) /\
  (Forall (body_inside Se) ls -> forall b x, cnts res b x = cnts ls b x).
Proof.
  intros Ho H Hl. destruct (merge_spec P Se L fuel o level n ls res Ho H Hl) as (H1 & H2 & H3 & _).
  split; [eapply Forall_impl; [|exact H1]; intros a Ha; apply Ha|].
  split; [eapply Forall_impl; [|exact H1]; intros a Ha; apply Ha|].
  split; [eapply Forall_impl; [|exact H1]; intros a Ha; apply Ha|].
  split; [apply (cov_le1_disj P Se); exact H2|].
  split; [intros y l Hin Hy; apply (cov_pos P Se); rewrite H3; [lia|]; apply (cov_pos P Se); eauto|].
  intros Ht b x. eapply merged_cnts; eauto.
Qed.
Theorem constant_fun n ls : Forall (plain_loop n) ls ->
  length (constant P ls) <= 1 /\
  Forall (fun N => plain_loop n N /\ isconvex P (l_dom P N) = true /\ l_inner P N = flat_map (l_inner P) ls) (constant P ls) /\
  (forall y l, In l ls -> mem (l_dom P l) y = true -> exists N, In N (constant P ls) /\ mem (l_dom P N) y = true) /\
  (Forall (body_inside Se) ls -> forall b x, cnts (constant P ls) b x = cnts ls b x).
Proof.
  intros Hl. destruct (constant_spec P Se L n ls Hl) as (H1 & H2 & H3 & H4).
  split; [exact H4|]. split; [exact H1|].
  split; [intros y l Hin Hy; apply (cov_pos P Se); rewrite H3; [lia|]; apply (cov_pos P Se); eauto|].
  intros Ht b x. eapply merged_cnts; eauto.
Qed.

(** ** unrolling *)
Lemma cnts_one l b x : cnts [l] b x = cnt l b x.
Proof. unfold LoopSpec.cnts. cbn. lia. Qed.
Lemma nth_first (i k : nat) (x : list Z) : i < k -> nth i (firstn k x) 0%Z = nth i x 0%Z.
Proof. revert i x. induction k; intros i x H; [lia|]. destruct x; [destruct i; reflexivity|]. destruct i; [reflexivity|]. cbn. apply IHk. lia. Qed.
Theorem unroll_fun level l : 1 <= level -> dim (l_dom P l) = level -> isconvex P (l_dom P l) = true -> l_blk P l = None -> body_inside Se l ->
  Forall (fun i => statement_leaf i /\ level <= dim (l_dom P i)) (l_inner P l) ->
  (forall b x, cnts (loop_unroll P level l) b x = cnt l b x) /\
  (can_unroll P (l_dom P l) level <> None -> 
   ForallOrdPairs (fun c c' => forall b y b' y', 0 < cnt c b y -> 0 < cnt c' b' y' -> agree (level - 1) y y' ->
      (nth (level - 1) y 0 < nth (level - 1) y' 0)%Z) (loop_unroll P level l) /\
  Forall (fun c => forall b y b' y', 0 < cnt c b y -> 0 < cnt c b' y' -> agree (level - 1) y y' ->
      nth (level - 1) y 0%Z = nth (level - 1) y' 0%Z) (loop_unroll P level l)).
Proof.
  intros Hl Hd Hcv Hb Ht Hi. unfold loop_unroll.
  destruct (can_unroll P (l_dom P l) level) as [[nn lb]|] eqn:Eu; [|split; [intros b x; rewrite cnts_cons; unfold LoopSpec.cnts; cbn; lia|congruence]].
  assert (Hleaf : Forall (leaf P) (l_inner P l)).
  { eapply Forall_impl; [|exact Hi]. intros a [(d & ot & b & ->) _]. unfold leaf; cbn; eauto. }
  assert (Hdims : Forall (fun i => level <= dim (l_dom P i)) (l_inner P l)) by (eapply Forall_impl; [|exact Hi]; intros a Ha; apply Ha).
  set (d := fun i => fixed_offset P (l_dom P l) level lb (Z.of_nat i)).
  set (copy := fun i => match restrict_all P (d i) (l_inner P l) with [] => [] | inner => [Loop (d i) true None None inner] end).
  assert (Hra : forall i b x, cnts (restrict_all P (d i) (l_inner P l)) b x = Nat.b2n (inn (d i) None x) * cnts (l_inner P l) b x).
  { intros i. apply (restrict_all_leaf P Se L); [exact Hleaf|]. unfold d. rewrite (L_fixed_dim _ _ L), Hd. exact Hdims. }
  assert (Hdd : forall i, dim (d i) = level) by (intros i; unfold d; rewrite (L_fixed_dim _ _ L); exact Hd).
  assert (Hcopy : forall i b x, cnts (copy i) b x = Nat.b2n (inn (d i) None x) * cnts (l_inner P l) b x).
  { intros i b x. unfold copy. pose proof (Hra i b x) as Hc.
    destruct (restrict_all P (d i) (l_inner P l)) as [|y r]; [exact Hc|]. rewrite cnts_one, cnt_node, Hc.
    destruct (inn (d i) None x); cbn [Nat.b2n]; lia. }
  assert (Hin : forall b x, 0 < cnts (l_inner P l) b x -> mem (l_dom P l) (firstn level x) = true).
  { intros b x Hx. rewrite <- Hd. eapply inn_mem. apply (Ht b x Hx). }
  assert (Hval : forall i b x, 0 < cnts (l_inner P l) b x -> inn (d i) None x = (nth (level - 1) x 0 =? lbv Se lb (firstn (level - 1) x) + Z.of_nat i)%Z).
  { intros i b x Hx. rewrite inn_none, Hdd. unfold d. rewrite (L_fixed _ _ L _ _ nn lb) by (exact Hl || assumption). rewrite (Hin b x Hx). cbn [andb].
    rewrite nth_first by lia. rewrite firstn_firstn, Nat.min_l by lia. reflexivity. }
  assert (Hrange : forall b x, 0 < cnts (l_inner P l) b x -> (lbv Se lb (firstn (level - 1) x) <= nth (level - 1) x 0 < lbv Se lb (firstn (level - 1) x) + nn)%Z).
  { intros b x Hx. pose proof (L_unroll_range _ _ L _ _ _ _ _ Hl Hd Hcv Eu (Hin b x Hx)) as Hr. rewrite nth_first in Hr by lia. rewrite firstn_firstn, Nat.min_l in Hr by lia. exact Hr. }
  assert (Hone : forall i C b x, In C (copy i) -> 0 < cnt C b x -> nth (level - 1) x 0%Z = (lbv Se lb (firstn (level - 1) x) + Z.of_nat i)%Z).
  { intros i C b x HC Hx. assert (E : 0 < cnts (copy i) b x) by (apply cnts_pos; eauto). rewrite Hcopy in E.
    destruct (inn (d i) None x) eqn:Ei; [|cbn in E; lia]. rewrite (Hval i b x) in Ei by (cbn in E; lia). apply Z.eqb_eq. exact Ei. }
  split; [|intros _; split].
  - intros b x. rewrite (tight_cnt P Se l b x Hb Ht).
    change (cnts (flat_map copy (seq 0 (Z.to_nat nn))) b x = cnts (l_inner P l) b x).
    unfold LoopSpec.cnts at 1. rewrite sumn_flat_map. rewrite (sumn_ext _ (fun i => cnts (l_inner P l) b x * Nat.b2n (inn (d i) None x))).
    2:{ intros i _. fold (cnts (copy i) b x). rewrite Hcopy. lia. }
    rewrite sumn_mul. destruct (Nat.eq_dec (cnts (l_inner P l) b x) 0) as [E0|E0]; [rewrite E0; reflexivity|].
    assert (Hx : 0 < cnts (l_inner P l) b x) by lia. specialize (Hrange b x Hx).
    rewrite (sumn_ext _ (fun i => Nat.b2n (i =? Z.to_nat (nth (level - 1) x 0 - lbv Se lb (firstn (level - 1) x))%Z))).
    2:{ intros i _. rewrite (Hval i b x Hx). f_equal. apply eq_true_iff_eq. rewrite Z.eqb_eq, Nat.eqb_eq. lia. }
    set (v := Z.to_nat (nth (level - 1) x 0 - lbv Se lb (firstn (level - 1) x))%Z) in *.
    assert (Hv : v < Z.to_nat nn) by (unfold v; lia).
    assert (Hs : forall k a, sumn (fun i => Nat.b2n (i =? v)) (seq a k) = Nat.b2n ((a <=? v) && (v <? a + k))).
    { induction k as [|k IH]; intros a; cbn [seq].
      - rewrite sumn_nil. destruct (Nat.leb_spec a v); destruct (Nat.ltb_spec v (a + 0)); cbn; lia.
      - rewrite sumn_cons, IH. destruct (Nat.eqb_spec a v); destruct (Nat.leb_spec (S a) v); destruct (Nat.ltb_spec v (S a + k));
        destruct (Nat.leb_spec a v); destruct (Nat.ltb_spec v (a + S k)); cbn; lia. }
    rewrite Hs. destruct (Nat.leb_spec 0 v); [|lia]. destruct (Nat.ltb_spec v (0 + Z.to_nat nn)); [|lia]. cbn. lia.
  - match goal with |- ForallOrdPairs ?Q _ => change (ForallOrdPairs Q (flat_map copy (seq 0 (Z.to_nat nn)))) end. rewrite flat_map_concat_map. apply FOP_concat.
    + rewrite Forall_map, Forall_forall. intros i _. unfold copy. destruct (restrict_all P (d i) (l_inner P l)); [constructor|repeat constructor].
    + apply FOP_map. apply FOP_nth. intros i j a b Hij Ha Hb' C C' HC HC' b0 x b' x' Hx Hx' Hag.
      assert (Hsq : forall i a, nth_error (seq 0 (Z.to_nat nn)) i = Some a -> a = i).
      { clear. intros i a H. assert (Hi : i < length (seq 0 (Z.to_nat nn))) by (apply nth_error_Some; congruence). rewrite seq_length in Hi.
        apply (nth_error_nth _ _ 0) in H. rewrite seq_nth in H by exact Hi. lia. }
      apply Hsq in Ha, Hb'. subst a b.
      rewrite (Hone i C b0 x HC Hx), (Hone j C' b' x' HC' Hx'). unfold agree in Hag. rewrite Hag. lia.
  - match goal with |- Forall ?Q _ => change (Forall Q (flat_map copy (seq 0 (Z.to_nat nn)))) end. rewrite Forall_forall. intros C HC. apply in_flat_map in HC as (i & _ & HC).
    intros b y b' y' Hy Hy' Hag. rewrite (Hone i C b y HC Hy), (Hone i C b' y' HC Hy'). unfold agree in Hag. rewrite Hag. reflexivity.
Qed.

(** ** scalar sort *)
Lemma scaldim_leading kinds : forall m, scaldim (run_lengths kinds) m = leading (skipn m kinds).
Proof.
  unfold scaldim. intros m. remember (length kinds - m) as k eqn:Ek. revert m Ek. induction k as [|k IH]; intros m Ek.
  - rewrite nth_overflow by (rewrite run_lengths_length; lia). rewrite skipn_all2 by lia. reflexivity.
  - rewrite run_lengths_nth. assert (E : skipn m kinds = nth m kinds false :: skipn (S m) kinds).
    { clear -Ek. assert (H : m < length kinds) by lia. clear Ek. revert m H. induction kinds as [|a ks IHk]; intros m H; [cbn in H; lia|].
      destruct m; [reflexivity|]. cbn in *. apply IHk. lia. }
    rewrite E. destruct (nth m kinds false); cbn [leading]; [|reflexivity]. rewrite IH by lia. reflexivity.
Qed.
Lemma lex_lt_map (f g : nat -> Z) : forall k s, (exists i, i < k /\ (forall j, j < i -> f (s + j) = g (s + j)) /\ (f (s + i)%nat < g (s + i)%nat)%Z) ->
  lex_lt (map f (seq s k)) (map g (seq s k)).
Proof.
  induction k as [|k IH]; intros s (i & Hi & He & Hlt); [lia|]. cbn [seq map]. destruct i as [|i].
  - rewrite Nat.add_0_r in Hlt. apply lex_here. exact Hlt.
  - pose proof (He 0 ltac:(lia)) as E0. rewrite Nat.add_0_r in E0. rewrite E0. apply lex_next. apply IH. exists i. split; [lia|]. split.
    + intros j Hj. specialize (He (S j) ltac:(lia)). rewrite Nat.add_succ_r in He. exact He.
    + rewrite Nat.add_succ_r in Hlt. exact Hlt.
Qed.
Lemma seq_map_eq (f g : nat -> Z) s k : (forall i, i < k -> f (s + i) = g (s + i)) <-> map f (seq s k) = map g (seq s k).
Proof.
  split; intros H.
  - apply map_ext_in. intros a Ha. apply in_seq in Ha. replace a with (s + (a - s)) by lia. apply H. lia.
  - intros i Hi. assert (E : nth i (map f (seq s k)) (f 0) = nth i (map g (seq s k)) (f 0)) by (rewrite H; reflexivity).
    rewrite map_nth in E. rewrite (nth_indep (map g (seq s k)) (f 0) (g 0)), map_nth in E by (rewrite map_length, seq_length; lia).
    rewrite seq_nth in E by lia. exact E.
Qed.
Lemma bubble_filter {A} (gt : A -> A -> bool) (p : A -> bool) : (forall a b, gt a b = true -> p a = true -> p b = true -> False) ->
  forall rest cur, filter p (fst (bubble gt cur rest)) = filter p (cur :: rest).
Proof.
  intros H. induction rest as [|x r IH]; intros cur; [reflexivity|]. cbn [bubble]. destruct (gt cur x) eqn:E.
  - specialize (IH cur). destruct (bubble gt cur r) as [l b]. cbn [fst] in *. cbn [filter] in *. rewrite IH.
    specialize (H cur x E). destruct (p cur), (p x); try reflexivity. exfalso. auto.
  - specialize (IH x). destruct (bubble gt x r) as [l b]. cbn [fst] in *. cbn [filter] in *. rewrite IH. reflexivity.
Qed.
Lemma bubble_sort_filter {A} (gt : A -> A -> bool) (p : A -> bool) : (forall a b, gt a b = true -> p a = true -> p b = true -> False) ->
  forall fuel ls rs, bubble_sort fuel gt ls = Some rs -> filter p rs = filter p ls.
Proof.
  intros H. induction fuel as [|f IH]; intros ls rs E; cbn in E; [discriminate|]. destruct ls as [|a l]; [discriminate|].
  pose proof (bubble_filter gt p H l a) as Hp. destruct (bubble gt a l) as [l' b]. cbn [fst] in Hp. destruct b.
  - rewrite (IH _ _ E). exact Hp.
  - injection E as <-. exact Hp.
Qed.

Theorem scalar_sort_fun kinds n scalar ls : ls <> [] ->
  let vec := scalar_vector (P := P) scalar (leading (skipn (n + scalar) kinds)) in
  exists rs, scalar_sort P (run_lengths kinds) (S n) scalar ls = Some rs /\ Permutation rs ls /\
  ForallOrdPairs (fun a b => vec a = vec b \/ lex_lt (vec a) (vec b)) rs /\
  forall v, filter (fun l => if list_eq_dec Z.eq_dec (vec l) v then true else false) rs =
              filter (fun l => if list_eq_dec Z.eq_dec (vec l) v then true else false) ls.
Proof.
  intros Hne vec.
  assert (Hseq : forall a b, seq_ P kinds n scalar a b <-> vec a = vec b).
  { intros a b. unfold seq_, vec, scalar_vector. rewrite scaldim_leading. apply (seq_map_eq (scal a) (scal b)). }
  assert (Hslt : forall a b, slt P kinds n scalar a b -> lex_lt (vec a) (vec b)).
  { intros a b H. unfold slt in H. rewrite scaldim_leading in H. apply (lex_lt_map (scal a) (scal b)). exact H. }
  destruct (bubble_sort_total (scalar_gt P (run_lengths kinds) (S n) scalar)) with (ls := ls) as (rs & Ers); auto.
  - intros a b H. destruct (scalar_gt P (run_lengths kinds) (S n) scalar b a) eqn:E; [|reflexivity].
    apply (gt_spec P kinds _ (le_n (LoopKeys.cf kinds))) in H, E. exfalso. eapply (slt_asym P kinds _ (le_n (LoopKeys.cf kinds))); eauto.
  - intros a b c H1 H2. destruct (scalar_gt P (run_lengths kinds) (S n) scalar a c) eqn:E; [|reflexivity].
    apply (ngt_spec P kinds _ (le_n (LoopKeys.cf kinds))) in H1, H2. apply (gt_spec P kinds _ (le_n (LoopKeys.cf kinds))) in E. pose proof (sle_trans P kinds _ (le_n (LoopKeys.cf kinds)) _ _ _ _ _ H1 H2) as [H|H]; exfalso.
    + eapply (seq_slt P kinds _ (le_n (LoopKeys.cf kinds))); [intros i Hi; symmetry; apply H; exact Hi|exact E].
    + eapply (slt_asym P kinds _ (le_n (LoopKeys.cf kinds))); eauto.
  - exists rs. split; [exact Ers|]. split; [eapply bubble_sort_perm; exact Ers|]. split.
    + pose proof (bubble_sort_chain _ _ _ _ Ers) as Hc. apply (chain_sle P kinds _ (le_n (LoopKeys.cf kinds))) in Hc. eapply FOP_impl; [|exact Hc].
      intros a b _ _ [H|H]; [left; apply Hseq; exact H|right; apply Hslt; exact H].
    + intros v. eapply bubble_sort_filter; [|exact Ers]. intros a b Hgt Ha Hb. cbn in Ha, Hb.
      destruct (list_eq_dec Z.eq_dec (vec a) v) as [E1|]; [|discriminate]. destruct (list_eq_dec Z.eq_dec (vec b) v) as [E2|]; [|discriminate].
      apply (gt_spec P kinds _ (le_n (LoopKeys.cf kinds))) in Hgt. eapply (seq_slt P kinds _ (le_n (LoopKeys.cf kinds))); [|exact Hgt]. apply Hseq. congruence.
Qed.

(** ** stopping *)
Theorem stop_fun ctx ls x : Forall statement_leaf ls -> length x = dim ctx ->
  forall p b y, Exec P Se (stop P ctx ls) x p b y <->
    y = x /\ mem ctx x = true /\ exists i l, nth_error ls i = Some l /\ l_blk P l = Some b /\ p = [Z.of_nat i].
Proof.
  intros Hl Hx p b y. rewrite Forall_forall in Hl. rewrite exec_iff. unfold stop. split.
  - intros (i & l & p' & Hi & -> & He). rewrite nth_error_map' in Hi. destruct (nth_error ls i) as [l0|] eqn:E; [|discriminate].
    injection Hi as <-. destruct (Hl l0 (nth_error_In _ _ E)) as (d & ot & b0 & ->). unfold set_dom in He. cbn in He.
    apply exec1_leaf in He as (-> & -> & -> & _ & Hi). rewrite inn_none, <- Hx, firstn_all in Hi.
    split; [reflexivity|]. split; [exact Hi|]. exists i, (Loop d ot None (Some b0) []). auto.
  - intros (-> & Hm & i & l & Hi & Hb & ->). exists i, (set_dom P l ctx), []. rewrite nth_error_map', Hi. split; [reflexivity|]. split; [reflexivity|].
    destruct (Hl l (nth_error_In _ _ Hi)) as (d & ot & b0 & ->). cbn in Hb. injection Hb as ->. unfold set_dom; cbn.
    apply exec1_leaf. do 3 (split; [reflexivity|]). split; [auto|]. rewrite inn_none, <- Hx, firstn_all. exact Hm.
Qed.
End Fun.
