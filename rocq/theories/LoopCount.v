(** Which block runs at which point, and how often: counting semantics of loop
    structures, and the building blocks of loop.c that preserve it. *)
From Coq Require Import ZArith List Bool Arith Lia Permutation.
From Verif Require Import SortModel LoopModel LoopSpec LoopLists.
Import ListNotations.
Local Arguments Nat.ltb : simpl never.
Local Arguments Nat.leb : simpl never.
Local Arguments Nat.eqb : simpl never.


Section Count.
Variable P : Poly.
Variable S : Sem P.
Notation dom := (dom P).
Notation loop := (loop P).
Notation dim := (dim P).
Notation mem := (mem S).
Notation Loop := (@Loop P).

Notation inn := (inn P S).
Notation cnt := (cnt P S).
Notation cnts := (cnts P S).

Lemma loop_ind' (Q : loop -> Prop) :
  (forall d o st blk inner, Forall Q inner -> Q (Loop d o st blk inner)) -> forall l, Q l.
Proof.
  intros H. fix IH 1. intros [d o st blk inner]. apply H. induction inner as [|a r IHr]; constructor; auto.
Qed.

Lemma cnt_node d o st inner b x :
  cnt (Loop d o st None inner) b x = Nat.b2n (inn d st x) * cnts inner b x.
Proof. cbn [cnt]. unfold cnts, sumn. destruct (inn d st x); cbn; lia. Qed.

Lemma cnts_app l1 l2 b x : cnts (l1 ++ l2) b x = cnts l1 b x + cnts l2 b x.
Proof. apply sumn_app. Qed.
Lemma cnts_cons l ls b x : cnts (l :: ls) b x = cnt l b x + cnts ls b x.
Proof. reflexivity. Qed.
Lemma cnts_concat ls b x : cnts (concat ls) b x = sumn (fun l => cnts l b x) ls.
Proof. apply sumn_concat. Qed.
Lemma cnts_perm l1 l2 b x : Permutation l1 l2 -> cnts l1 b x = cnts l2 b x.
Proof. apply sumn_perm. Qed.
Lemma cnts_in l ls b x : In l ls -> cnt l b x <= cnts ls b x.
Proof. apply (sumn_le (fun l => cnt l b x)). Qed.
Lemma cnts_pos ls b x : 0 < cnts ls b x <-> exists l, In l ls /\ 0 < cnt l b x.
Proof. apply sumn_pos. Qed.
Lemma cnt_inn l b x : 0 < cnt l b x -> inn (l_dom P l) (l_st P l) x = true.
Proof. destruct l as [d o st blk inner]; cbn. destruct (inn d st x); [reflexivity|lia]. Qed.
Lemma inn_mem d st x : inn d st x = true -> mem d (firstn (dim d) x) = true.
Proof. unfold inn. intros H. apply andb_prop in H. tauto. Qed.
Lemma inn_none d x : inn d None x = mem d (firstn (dim d) x).
Proof. unfold inn. cbn. apply andb_true_r. Qed.

(** ** nodes *)
Definition nd (n : nat) (l : loop) : Prop := dim (l_dom P l) = n /\ l_st P l = None /\ l_blk P l = None.
Definition cov (ls : list loop) (y : list Z) : nat := sumn (fun l => Nat.b2n (mem (l_dom P l) y)) ls.
Definition payload (ls : list loop) (y : list Z) : list loop :=
  flat_map (fun l => if mem (l_dom P l) y then l_inner P l else []) ls.

Lemma cnt_nd n l b x : nd n l -> cnt l b x = Nat.b2n (mem (l_dom P l) (firstn n x)) * cnts (l_inner P l) b x.
Proof.
  destruct l as [d o st blk inner]. intros (H1 & H2 & H3). cbn [l_dom l_st l_blk l_inner] in *. subst st blk n.
  rewrite cnt_node, inn_none. reflexivity.
Qed.
Lemma cnts_nd n ls b x : Forall (nd n) ls -> cnts ls b x = cnts (payload ls (firstn n x)) b x.
Proof.
  intros H. unfold cnts at 2, payload. rewrite sumn_flat_map. unfold cnts. apply sumn_ext.
  intros l Hl. rewrite Forall_forall in H. rewrite (cnt_nd n) by auto.
  destruct (mem (l_dom P l) (firstn n x)); cbn; [|reflexivity]. unfold cnts. lia.
Qed.
Lemma payload_cov0 ls y : cov ls y = 0 -> payload ls y = [].
Proof.
  unfold cov, payload. induction ls as [|l ls IH]; intros H; [reflexivity|]. rewrite sumn_cons in H. cbn [flat_map].
  destruct (mem (l_dom P l) y); cbn in H; [lia|]. apply IH. exact H.
Qed.
Lemma cov_app l1 l2 y : cov (l1 ++ l2) y = cov l1 y + cov l2 y.
Proof. apply sumn_app. Qed.
Lemma cov_pos ls y : 0 < cov ls y <-> exists l, In l ls /\ mem (l_dom P l) y = true.
Proof.
  unfold cov. rewrite sumn_pos. split; intros (l & H & E); exists l; (split; [exact H|]).
  - destruct (mem (l_dom P l) y); [reflexivity|cbn in E; lia].
  - rewrite E. cbn; lia.
Qed.
Lemma payload_app l1 l2 y : payload (l1 ++ l2) y = payload l1 y ++ payload l2 y.
Proof. apply flat_map_app. Qed.

(** the same content at every point: [res] covers each point at most once, exactly the points
    of [ls], with the payload of [ls] *)
Definition same_payload (ls res : list loop) : Prop :=
  (forall y, cov res y = Nat.b2n (0 <? cov ls y)) /\
  (forall N y, In N res -> mem (l_dom P N) y = true -> l_inner P N = payload ls y).

Lemma same_payload_cnts n ls res b x :
  Forall (nd n) ls -> Forall (nd n) res -> same_payload ls res -> cnts res b x = cnts ls b x.
Proof.
  intros Hl Hr [H1 H2]. rewrite (cnts_nd n ls) by exact Hl. set (y := firstn n x).
  assert (E : cnts res b x = cov res y * cnts (payload ls y) b x).
  { unfold cnts at 1, cov. rewrite Nat.mul_comm, <- sumn_mul. apply sumn_ext. intros N HN.
    rewrite Forall_forall in Hr. rewrite (cnt_nd n) by auto. fold y.
    destruct (mem (l_dom P N) y) eqn:E; cbn; [|lia]. rewrite (H2 N y HN E). lia. }
  rewrite E, H1. destruct (Nat.ltb_spec 0 (cov ls y)) as [H|H]; cbn; [lia|].
  rewrite payload_cov0 by lia. reflexivity.
Qed.

Lemma cov_le1_disj res : (forall y, cov res y <= 1) -> ForallOrdPairs (fun a b => disjoint_sets S (l_dom P a) (l_dom P b)) res.
Proof.
  induction res as [|l res IH]; intros H; [constructor|]. constructor.
  - rewrite Forall_forall. intros l' Hl' y E1 E2. specialize (H y). unfold cov in H. rewrite sumn_cons, E1 in H. cbn in H.
    pose proof (sumn_le (fun l => Nat.b2n (mem (l_dom P l) y)) res l' Hl') as H'. cbn in H'. rewrite E2 in H'. cbn in H'. lia.
  - apply IH. intros y. specialize (H y). unfold cov in *. rewrite sumn_cons in H. lia.
Qed.

(** ** pieces of a non-convex domain *)
Hypothesis L : Laws P S.

Definition dcov (ds : list dom) (y : list Z) : nat := sumn (fun d => Nat.b2n (mem d y)) ds.
Lemma dcov_cons d ds y : dcov (d :: ds) y = Nat.b2n (mem d y) + dcov ds y.
Proof. reflexivity. Qed.
Lemma dcov_app a b y : dcov (a ++ b) y = dcov a y + dcov b y.
Proof. apply sumn_app. Qed.

Lemma pieces_spec : forall fuel,
  (forall d ds, pieces P fuel d = Some ds ->
     Forall (fun d' => dim d' = dim d /\ isconvex P d' = true) ds /\ forall y, dcov ds y = Nat.b2n (mem d y)) /\
  (forall d seen ds, dim seen = dim d -> pieces_rest P fuel d seen = Some ds ->
     Forall (fun d' => dim d' = dim d /\ isconvex P d' = true) ds /\
     forall y, dcov ds y = Nat.b2n (mem d y && negb (mem seen y))).
Proof.
  induction fuel as [|f [IH1 IH2]]; [split; intros; discriminate|]. split.
  - intros d ds H. cbn in H. destruct (cut_first P (simplify_union P d)) as [[first rest]|] eqn:Ec; [|discriminate].
    apply obind_some in H as (r & Er & H). injection H as <-.
    destruct (L_cut_dim _ _ L _ _ _ Ec) as [D1 D2]. rewrite (L_su_dim _ _ L) in D1, D2.
    destruct (IH2 rest first r ltac:(congruence) Er) as [HF Hy]. split.
    + constructor; [split; [exact D1|exact (L_cut_convex _ _ L _ _ _ Ec)]|].
      eapply Forall_impl; [|exact HF]. cbn. intros d' [Hd Hc]. split; [congruence|exact Hc].
    + intros y. rewrite dcov_cons, Hy. rewrite <- (L_su _ _ L d y), (L_cut _ _ L _ _ _ y Ec).
      destruct (mem first y), (mem rest y); reflexivity.
  - intros d seen ds Hd H. cbn in H. destruct (isempty P d) eqn:Ee.
    + injection H as <-. split; [constructor|]. intros y. rewrite (L_isempty _ _ L _ _ Ee). reflexivity.
    + destruct (cut_first P d) as [[temp rest]|] eqn:Ec; [|discriminate].
      destruct (L_cut_dim _ _ L _ _ _ Ec) as [D1 D2].
      assert (Dd : dim (difference P temp seen) = dim d) by (rewrite (L_diff_dim _ _ L); congruence).
      pose proof (fun y => L_diff _ _ L temp seen y ltac:(congruence)) as Hdiff.
      destruct (isempty P (difference P temp seen)) eqn:Ed.
      * destruct (IH2 rest seen ds ltac:(congruence) H) as [HF Hy]. split.
        -- eapply Forall_impl; [|exact HF]. cbn. intros d' [? ?]. split; [congruence|assumption].
        -- intros y. rewrite Hy, (L_cut _ _ L _ _ _ y Ec).
           pose proof (L_isempty _ _ L _ y Ed) as Hn. rewrite Hdiff in Hn.
           destruct (mem temp y), (mem seen y), (mem rest y); cbn in *; congruence.
      * apply obind_some in H as (here & Eh & H).
        assert (Hh : Forall (fun d' => dim d' = dim d /\ isconvex P d' = true) here /\
                     forall y, dcov here y = Nat.b2n (mem temp y && negb (mem seen y))).
        { destruct (isconvex P (difference P temp seen)) eqn:Ecv.
          - injection Eh as <-. split; [repeat constructor; auto|]. intros y. unfold dcov. cbn. rewrite Hdiff. lia.
          - destruct (IH1 _ _ Eh) as [HF Hy]. split.
            + eapply Forall_impl; [|exact HF]. cbn. intros d' [? ?]. split; [congruence|assumption].
            + intros y. rewrite Hy, Hdiff. reflexivity. }
        destruct Hh as [HF Hy].
        destruct (isempty P rest) eqn:Er.
        -- injection H as <-. split; [exact HF|]. intros y. rewrite Hy, (L_cut _ _ L _ _ _ y Ec), (L_isempty _ _ L _ y Er).
           rewrite orb_false_r. reflexivity.
        -- apply obind_some in H as (mr & Em & H). injection H as <-.
           destruct (IH2 rest (union P seen (difference P temp seen)) mr) as [HF2 Hy2]; [|exact Em|].
           { rewrite (L_union_dim _ _ L); congruence. }
           split.
           ++ apply Forall_app. split; [exact HF|]. eapply Forall_impl; [|exact HF2]. cbn. intros d' [? ?]. split; [congruence|assumption].
           ++ intros y. rewrite dcov_app, Hy, Hy2, (L_cut _ _ L _ _ _ y Ec), (L_union _ _ L) by congruence. rewrite Hdiff.
              destruct (mem temp y), (mem seen y), (mem rest y); reflexivity.
Qed.

Lemma add_disjoint_spec fuel l ls :
  add_disjoint P fuel l = Some ls -> l_st P l = None ->
  Forall (fun l' => dim (l_dom P l') = dim (l_dom P l) /\ isconvex P (l_dom P l') = true /\
                    l_st P l' = None /\ l_blk P l' = l_blk P l /\ l_inner P l' = l_inner P l) ls /\
  forall y, cov ls y = Nat.b2n (mem (l_dom P l) y).
Proof.
  unfold add_disjoint. intros H Hst. destruct (isconvex P (l_dom P l)) eqn:E.
  - injection H as <-. split; [repeat constructor; auto|]. intros y. unfold cov. cbn. lia.
  - apply obind_some in H as (ds & Ed & H). injection H as <-.
    destruct (pieces_spec fuel) as [Hp _]. destruct (Hp _ _ Ed) as [HF Hy]. split.
    + rewrite Forall_map. eapply Forall_impl; [|exact HF]. cbn. intros d [H1 H2]. auto.
    + intros y. rewrite <- Hy. unfold cov, dcov. rewrite sumn_map. reflexivity.
Qed.

Lemma add_disjoint_nd fuel n l ls : add_disjoint P fuel l = Some ls -> nd n l ->
  Forall (fun l' => nd n l' /\ isconvex P (l_dom P l') = true /\ l_inner P l' = l_inner P l) ls /\
  forall y, cov ls y = Nat.b2n (mem (l_dom P l) y).
Proof.
  intros H (H1 & H2 & H3). destruct (add_disjoint_spec _ _ _ H H2) as [HF Hy]. split; [|exact Hy].
  eapply Forall_impl; [|exact HF]. cbn. intros l' (A1 & A2 & A3 & A4 & A5). unfold nd. repeat split; congruence.
Qed.

Lemma disjoint_payload fuel n l ls : add_disjoint P fuel l = Some ls -> nd n l ->
  Forall (fun l' => nd n l' /\ isconvex P (l_dom P l') = true /\ l_inner P l' = l_inner P l) ls /\ same_payload [l] ls.
Proof.
  intros H Hn. destruct (add_disjoint_nd _ _ _ _ H Hn) as [HF Hy]. split; [exact HF|]. split.
  - intros y. rewrite Hy. unfold cov, sumn. cbn. destruct (mem (l_dom P l) y); reflexivity.
  - intros N y HN Hm. rewrite Forall_forall in HF. destruct (HF N HN) as (_ & _ & ->).
    assert (Hc : 0 < cov ls y) by (apply cov_pos; eauto). rewrite Hy in Hc.
    unfold payload. cbn. rewrite app_nil_r. destruct (mem (l_dom P l) y); [reflexivity|cbn in Hc; lia].
Qed.

(** ** combine *)
Lemma combine_with_spec n rest : forall first, nd n first -> Forall (nd n) rest ->
  let res := combine_with P first rest in
  Forall (nd n) res /\ concat_inner P res = concat_inner P (first :: rest) /\
  (forall y, payload res y = payload (first :: rest) y) /\
  (forall y, 0 < cov res y <-> 0 < cov (first :: rest) y).
Proof.
  induction rest as [|second r IH]; intros first Hf Hr; cbn [combine_with].
  - cbn. split; [auto|]. split; [reflexivity|]. split; [reflexivity|]. reflexivity.
  - inversion Hr as [|? ? Hs Hr']; subst.
    destruct (lazy_equal P (l_dom P first) (l_dom P second)) eqn:E.
    + destruct (L_lazy_equal _ _ L _ _ E) as [_ Heq].
      set (f2 := set_inner P first (l_inner P first ++ l_inner P second)).
      assert (Hf2 : nd n f2) by (destruct first; exact Hf).
      assert (Hd : l_dom P f2 = l_dom P first) by (destruct first; reflexivity).
      assert (Hi : l_inner P f2 = l_inner P first ++ l_inner P second) by (destruct first; reflexivity).
      destruct (IH f2 Hf2 Hr') as (H1 & H2 & H3 & H4). split; [exact H1|]. split; [|split].
      * rewrite H2. unfold concat_inner. cbn [flat_map]. rewrite Hi, app_assoc. reflexivity.
      * intros y. rewrite H3. unfold payload. cbn [flat_map]. rewrite Hd, Hi, <- Heq.
        destruct (mem (l_dom P first) y); [rewrite app_assoc|]; reflexivity.
      * intros y. rewrite H4. unfold cov. rewrite !sumn_cons, Hd, <- Heq. lia.
    + destruct (IH second Hs Hr') as (H1 & H2 & H3 & H4). split; [constructor; auto|]. split; [|split].
      * unfold concat_inner in *. cbn in *. rewrite H2. reflexivity.
      * intros y. unfold payload in *. cbn [flat_map] in *. rewrite H3. reflexivity.
      * intros y. specialize (H4 y). unfold cov in *. rewrite !sumn_cons in *. lia.
Qed.
Lemma combine_spec n ls : Forall (nd n) ls ->
  let res := combine P ls in
  Forall (nd n) res /\ concat_inner P res = concat_inner P ls /\
  (forall y, payload res y = payload ls y) /\ (forall y, 0 < cov res y <-> 0 < cov ls y).
Proof.
  destruct ls as [|l r]; intros H; cbn.
  - split; [constructor|]. split; [reflexivity|]. split; [reflexivity|]. reflexivity.
  - inversion H; subst. apply combine_with_spec; assumption.
Qed.

(** ** separate *)
Definition cvx (l : loop) : Prop := isconvex P (l_dom P l) = true.

Lemma if_some {A} (c : bool) (a : option (list A)) r : (if c then Some [] else a) = Some r ->
  (c = true /\ r = []) \/ (c = false /\ a = Some r).
Proof. destruct c; intros H; [left; injection H as <-; auto|right; auto]. Qed.

Lemma sep_Q_spec fuel n l Q res :
  sep_Q P fuel l Q = Some res -> nd n l -> nd n Q ->
  Forall (fun N => nd n N /\ cvx N /\ Subl (l_inner P N) (l_inner P Q ++ l_inner P l) /\
     forall y, mem (l_dom P N) y = true -> mem (l_dom P Q) y = true /\
       l_inner P N = l_inner P Q ++ (if mem (l_dom P l) y then l_inner P l else [])) res /\
  forall y, cov res y = Nat.b2n (mem (l_dom P Q) y).
Proof.
  intros H (Hl1 & Hl2 & Hl3) (HQ1 & HQ2 & HQ3). unfold sep_Q in H.
  set (dQ := l_dom P Q) in *. set (dl := l_dom P l) in *.
  set (eq := lazy_equal P dQ dl) in *.
  set (inter := if eq then dQ else intersection P dQ dl) in *.
  set (disj := lazy_disjoint P dQ dl || isempty P inter) in *.
  assert (Hinter : dim inter = n /\ forall y, mem inter y = mem dQ y && mem dl y).
  { subst inter. destruct eq eqn:Eq.
    - destruct (L_lazy_equal _ _ L _ _ Eq) as [_ Heq]. split; [exact HQ1|]. intros y. rewrite <- Heq. destruct (mem dQ y); reflexivity.
    - split; [rewrite (L_inter_dim _ _ L); congruence|]. intros y. rewrite (L_inter _ _ L); congruence. }
  destruct Hinter as [Di Hi].
  assert (Hdisj : disj = true -> forall y, mem dQ y && mem dl y = false).
  { subst disj. intros Ht y. apply orb_prop in Ht as [Ht|Ht].
    - destruct (mem dQ y) eqn:E; [|reflexivity]. cbn. eapply (L_lazy_disjoint _ _ L); eauto.
    - rewrite <- Hi. apply (L_isempty _ _ L _ _ Ht). }
  set (d := if disj then dQ else if eq then empty_like P dQ else difference P dQ dl) in *.
  assert (Hd : dim d = n /\ forall y, mem d y = mem dQ y && negb (mem dl y)).
  { subst d. destruct disj eqn:Ed.
    - split; [exact HQ1|]. intros y. specialize (Hdisj eq_refl y). destruct (mem dQ y), (mem dl y); cbn in *; congruence.
    - destruct eq eqn:Eq.
      + destruct (L_lazy_equal _ _ L _ _ Eq) as [_ Heq]. rewrite (L_empty_dim _ _ L). split; [exact HQ1|].
        intros y. rewrite (L_empty _ _ L), Heq. destruct (mem dl y); reflexivity.
      + rewrite (L_diff_dim _ _ L) by congruence. split; [exact HQ1|]. intros y. rewrite (L_diff _ _ L) by congruence. reflexivity. }
  destruct Hd as [Dd Hd].
  apply obind_some in H as (both & Eb & H). apply obind_some in H as (only & Eo & H). injection H as <-.
  assert (Hb : Forall (fun N => nd n N /\ cvx N /\ l_inner P N = l_inner P Q ++ l_inner P l) both /\
               forall y, cov both y = Nat.b2n (mem dQ y && mem dl y)).
  { apply if_some in Eb as [[Ec ->]|[Ec Eb]].
    - split; [constructor|]. intros y. rewrite (Hdisj Ec). reflexivity.
    - destruct (add_disjoint_nd _ n _ _ Eb) as [HF Hy]; [repeat split; exact Di|]. cbn in HF, Hy.
      split; [exact HF|]. intros y. rewrite Hy, Hi. reflexivity. }
  assert (Ho : Forall (fun N => nd n N /\ cvx N /\ l_inner P N = l_inner P Q) only /\
               forall y, cov only y = Nat.b2n (mem dQ y && negb (mem dl y))).
  { apply if_some in Eo as [[Ec ->]|[Ec Eo]].
    - split; [constructor|]. intros y. rewrite <- Hd, (L_isempty _ _ L _ _ Ec). reflexivity.
    - destruct (add_disjoint_nd _ n _ _ Eo) as [HF Hy]; [repeat split; exact Dd|]. cbn in HF, Hy.
      split; [exact HF|]. intros y. rewrite Hy, Hd. reflexivity. }
  destruct Hb as [Hb1 Hb2], Ho as [Ho1 Ho2]. split.
  - apply Forall_app. split; rewrite Forall_forall in *.
    + intros N HN. destruct (Hb1 N HN) as (A1 & A2 & A3). split; [exact A1|]. split; [exact A2|]. rewrite A3. split; [apply Subl_refl|].
      intros y Hy. assert (Hc : 0 < cov both y) by (apply cov_pos; eauto). rewrite Hb2 in Hc.
      destruct (mem dQ y), (mem dl y); cbn in Hc; try lia. auto.
    + intros N HN. destruct (Ho1 N HN) as (A1 & A2 & A3). split; [exact A1|]. split; [exact A2|]. rewrite A3.
      split; [apply Subl_app_l, Subl_refl|].
      intros y Hy. assert (Hc : 0 < cov only y) by (apply cov_pos; eauto). rewrite Ho2 in Hc.
      destruct (mem dQ y), (mem dl y); cbn in Hc; try lia. rewrite app_nil_r. auto.
  - intros y. rewrite cov_app, Hb2, Ho2. destruct (mem dQ y), (mem dl y); reflexivity.
Qed.

(** invariant of the loop over the input: [done] is what has been processed *)
Record sep_inv (n : nat) (done res : list loop) (UQ : dom) : Prop := {
  si_nd : Forall (nd n) res;
  si_dim : dim UQ = n;
  si_UQ : forall y, mem UQ y = (0 <? cov done y);
  si_cov : forall y, cov res y = Nat.b2n (0 <? cov done y);
  si_pay : forall N y, In N res -> mem (l_dom P N) y = true -> l_inner P N = payload done y;
  si_sub : Forall (fun N => Subl (l_inner P N) (concat_inner P done)) res
}.

Lemma sep_step_spec fuel n done res UQ l res' UQ' :
  sep_inv n done res UQ -> nd n l -> sep_step P fuel (res, UQ) l = Some (res', UQ') ->
  sep_inv n (done ++ [l]) res' UQ' /\ Forall cvx res'.
Proof.
  intros I Hl H. unfold sep_step in H. apply obind_some in H as (temp & Et & H).
  set (d := if lazy_disjoint P (l_dom P l) UQ then l_dom P l
            else if lazy_equal P (l_dom P l) UQ then empty_like P UQ else difference P (l_dom P l) UQ) in *.
  apply obind_some in H as (new & En & H). injection H as <- <-.
  destruct Hl as (Hl1 & Hl2 & Hl3). pose proof (si_dim _ _ _ _ I) as HUd.
  assert (Hd : dim d = n /\ forall y, mem d y = mem (l_dom P l) y && negb (mem UQ y)).
  { subst d. destruct (lazy_disjoint P (l_dom P l) UQ) eqn:E1.
    - split; [exact Hl1|]. intros y. destruct (mem (l_dom P l) y) eqn:E; [|reflexivity].
      rewrite (L_lazy_disjoint _ _ L _ _ y E1 E). reflexivity.
    - destruct (lazy_equal P (l_dom P l) UQ) eqn:E2.
      + destruct (L_lazy_equal _ _ L _ _ E2) as [_ Heq]. rewrite (L_empty_dim _ _ L). split; [exact HUd|].
        intros y. rewrite (L_empty _ _ L), Heq. destruct (mem UQ y); reflexivity.
      + rewrite (L_diff_dim _ _ L) by congruence. split; [exact Hl1|]. intros y. rewrite (L_diff _ _ L) by congruence. reflexivity. }
  destruct Hd as [Dd Hd].
  assert (Hnew : Forall (fun N => nd n N /\ cvx N /\ l_inner P N = l_inner P l) new /\
               forall y, cov new y = Nat.b2n (mem (l_dom P l) y && negb (mem UQ y))).
  { apply if_some in En as [[Ec ->]|[Ec En]].
    - split; [constructor|]. intros y. rewrite <- Hd, (L_isempty _ _ L _ _ Ec). reflexivity.
    - destruct (add_disjoint_nd _ n _ _ En) as [HF Hy]; [repeat split; exact Dd|]. cbn in HF, Hy.
      split; [exact HF|]. intros y. rewrite Hy, Hd. reflexivity. }
  destruct Hnew as [Hn1 Hn2].
  apply oconcat_forall2 in Et as (rs & -> & HF2).
  assert (Ht : Forall (fun N => nd n N /\ cvx N /\ Subl (l_inner P N) (concat_inner P done ++ l_inner P l) /\
       forall y, mem (l_dom P N) y = true -> 0 < cov done y /\
         l_inner P N = payload done y ++ (if mem (l_dom P l) y then l_inner P l else [])) (concat rs) /\
      forall y, cov (concat rs) y = cov res y).
  { pose proof (si_nd _ _ _ _ I) as Hnd. pose proof (si_pay _ _ _ _ I) as Hpay. pose proof (si_sub _ _ _ _ I) as Hsub.
    pose proof (si_cov _ _ _ _ I) as Hcov.
    split.
    - rewrite Forall_forall. intros N HN. apply in_concat in HN as (r & Hr & HN).
      destruct (Forall2_in_r _ _ _ _ HF2 Hr) as (Q & HQ & EQ).
      rewrite Forall_forall in Hnd, Hsub.
      destruct (sep_Q_spec _ n _ _ _ EQ) as [HF _]; [repeat split; assumption|auto|].
      rewrite Forall_forall in HF. destruct (HF N HN) as (A1 & A2 & A3 & A4).
      split; [exact A1|]. split; [exact A2|]. split.
      + eapply Subl_trans; [exact A3|]. apply Subl_app; [auto|apply Subl_refl].
      + intros y Hy. destruct (A4 y Hy) as [B1 B2]. rewrite B2, (Hpay Q y HQ B1). split; [|reflexivity].
        assert (Hc : 0 < cov res y) by (apply cov_pos; eauto). rewrite Hcov in Hc.
        destruct (Nat.ltb_spec 0 (cov done y)); [assumption|cbn in Hc; lia].
    - intros y. unfold cov. rewrite sumn_concat. symmetry.
      apply (sumn_forall2 _ _ _ _ _ HF2). intros Q r HQ EQ. rewrite Forall_forall in Hnd.
      destruct (sep_Q_spec _ n _ _ _ EQ) as [_ Hy]; [repeat split; assumption|auto|]. symmetry. apply Hy. }
  destruct Ht as [Ht1 Ht2]. pose proof (si_UQ _ _ _ _ I) as HUQ. pose proof (si_cov _ _ _ _ I) as Hcov.
  assert (Hcd : forall y, (0 <? cov (done ++ [l]) y) = (0 <? cov done y) || mem (l_dom P l) y).
  { intros y. rewrite cov_app. unfold cov at 2. rewrite sumn_cons, sumn_nil.
    destruct (mem (l_dom P l) y), (Nat.ltb_spec 0 (cov done y)); cbn; apply Nat.ltb_lt || apply Nat.ltb_ge; cbn; lia. }
  assert (Hci : concat_inner P (done ++ [l]) = concat_inner P done ++ l_inner P l).
  { unfold concat_inner. rewrite flat_map_app. cbn. rewrite app_nil_r. reflexivity. }
  split.
  - constructor.
    + apply Forall_app. split; [eapply Forall_impl; [|exact Ht1]|eapply Forall_impl; [|exact Hn1]]; cbn; tauto.
    + rewrite (L_union_dim _ _ L); congruence.
    + intros y. rewrite (L_union _ _ L) by congruence. rewrite HUQ, Hcd. reflexivity.
    + intros y. rewrite cov_app, Ht2, Hn2, Hcov, HUQ, Hcd.
      destruct (0 <? cov done y), (mem (l_dom P l) y); reflexivity.
    + intros N y HN Hy. rewrite payload_app. unfold payload at 2. cbn. rewrite app_nil_r.
      apply in_app_or in HN as [HN|HN].
      * rewrite Forall_forall in Ht1. destruct (Ht1 N HN) as (_ & _ & _ & A4). apply A4. exact Hy.
      * rewrite Forall_forall in Hn1. destruct (Hn1 N HN) as (_ & _ & ->).
        assert (Hc : 0 < cov new y) by (apply cov_pos; eauto). rewrite Hn2, HUQ in Hc.
        destruct (Nat.ltb_spec 0 (cov done y)); [rewrite andb_false_r in Hc; cbn in Hc; lia|].
        rewrite payload_cov0 by lia. destruct (mem (l_dom P l) y); [reflexivity|cbn in Hc; lia].
    + rewrite Hci. apply Forall_app. split.
      * eapply Forall_impl; [|exact Ht1]. cbn. tauto.
      * eapply Forall_impl; [|exact Hn1]. cbn. intros N (_ & _ & ->). apply Subl_app_r, Subl_refl.
  - apply Forall_app. split; [eapply Forall_impl; [|exact Ht1]|eapply Forall_impl; [|exact Hn1]]; cbn; tauto.
Qed.

Lemma sep_all_spec fuel n : forall ls done res UQ r,
  sep_inv n done res UQ -> Forall (nd n) ls -> (ls <> [] \/ Forall cvx res) ->
  sep_all P fuel (res, UQ) ls = Some r ->
  exists UQ', sep_inv n (done ++ ls) r UQ' /\ Forall cvx r.
Proof.
  induction ls as [|l ls IH]; intros done res UQ r I Hl Hc H; cbn in H.
  - injection H as <-. exists UQ. rewrite app_nil_r. split; [exact I|]. destruct Hc; [contradiction|assumption].
  - apply obind_some in H as ([res' UQ'] & E & H). inversion Hl; subst.
    destruct (sep_step_spec _ _ _ _ _ _ _ _ I ltac:(eassumption) E) as [I' Hc'].
    destruct (IH (done ++ [l]) res' UQ' r I') as (U & I2 & Hc2); auto.
    exists U. rewrite <- app_assoc in I2. auto.
Qed.

(** C04 at the level of the model *)
Lemma separate_spec fuel n ls res :
  separate P fuel ls = Some res -> Forall (nd n) ls ->
  Forall (nd n) res /\ Forall cvx res /\ same_payload ls res /\
  Forall (fun N => Subl (l_inner P N) (concat_inner P ls)) res.
Proof.
  intros H Hl. unfold separate in H. destruct (combine_spec n ls Hl) as (C1 & C2 & C3 & C4).
  assert (Hsp : forall r, same_payload (combine P ls) r -> same_payload ls r).
  { intros r [A1 A2]. split.
    - intros y. rewrite A1. f_equal. destruct (Nat.ltb_spec 0 (cov (combine P ls) y)) as [B|B], (Nat.ltb_spec 0 (cov ls y)) as [B'|B'];
        try reflexivity; exfalso; specialize (C4 y); lia.
    - intros N y HN Hy. rewrite (A2 N y HN Hy). apply C3. }
  destruct (combine P ls) as [|l1 [|l2 r]] eqn:Ec.
  - injection H as <-. split; [constructor|]. split; [constructor|]. split; [|constructor]. apply Hsp. split; [reflexivity|intros N y []].
  - unfold disjoint in H. apply oconcat_cons in H as (r1 & r2 & E1 & E2 & ->). cbn in E2. injection E2 as <-. rewrite app_nil_r.
    inversion C1; subst. destruct (disjoint_payload _ n _ _ E1 ltac:(assumption)) as [HF HP].
    split; [eapply Forall_impl; [|exact HF]; cbn; tauto|]. split; [eapply Forall_impl; [|exact HF]; cbn; unfold cvx; tauto|].
    split; [apply Hsp; exact HP|]. rewrite <- C2. eapply Forall_impl; [|exact HF]. cbn. intros N (_ & _ & ->).
    unfold concat_inner. cbn. rewrite app_nil_r. apply Subl_refl.
  - inversion C1 as [|? ? Hn1 Hn2]; subst.
    destruct (sep_all_spec fuel n (l2 :: r) [l1] [Loop (l_dom P l1) false None (l_blk P l1) (l_inner P l1)] (l_dom P l1) res) as (U & I & Hc); [| |left; discriminate|exact H|].
    + constructor.
      * repeat constructor; destruct Hn1 as (? & ? & ?); assumption.
      * apply Hn1.
      * intros y. unfold cov. rewrite sumn_cons, sumn_nil. destruct (mem (l_dom P l1) y); reflexivity.
      * intros y. unfold cov. rewrite !sumn_cons, !sumn_nil. cbn. destruct (mem (l_dom P l1) y); reflexivity.
      * intros N y [<-|[]] Hy. cbn in *. rewrite Hy, app_nil_r. reflexivity.
      * repeat constructor. cbn. rewrite app_nil_r. apply Subl_refl.
    + exact Hn2.
    + cbn in I. split; [apply (si_nd _ _ _ _ I)|]. split; [exact Hc|]. split.
      * apply Hsp. split; [apply (si_cov _ _ _ _ I)|apply (si_pay _ _ _ _ I)].
      * rewrite <- C2. apply (si_sub _ _ _ _ I).
Qed.

(** ** merge *)
Lemma union_doms_spec n l r : Forall (nd n) (l :: r) ->
  dim (union_doms P l r) = n /\ forall y, mem (union_doms P l r) y = (0 <? cov (l :: r) y).
Proof.
  intros H. unfold union_doms. inversion H as [|? ? Hl Hr]; subst.
  assert (G : forall r d c, dim d = n -> (forall y, mem d y = (0 <? cov c y)) -> Forall (nd n) r ->
     dim (fold_left (fun d l' => union P d (l_dom P l')) r d) = n /\
     forall y, mem (fold_left (fun d l' => union P d (l_dom P l')) r d) y = (0 <? cov (c ++ r) y)).
  { clear - L. induction r as [|a r IH]; intros d c Hd Hm Hr; cbn.
    - split; [exact Hd|]. intros y. rewrite app_nil_r. apply Hm.
    - inversion Hr as [|? ? Ha Hr']; subst. destruct Ha as (Ha & _ & _).
      replace (c ++ a :: r) with ((c ++ [a]) ++ r) by (rewrite <- app_assoc; reflexivity).
      apply IH; [rewrite (L_union_dim _ _ L); congruence| |exact Hr'].
      intros y. rewrite (L_union _ _ L) by congruence. rewrite Hm, cov_app. unfold cov at 3. rewrite sumn_cons, sumn_nil.
      destruct (mem (l_dom P a) y), (Nat.ltb_spec 0 (cov c y)); cbn; symmetry; apply Nat.ltb_lt || apply Nat.ltb_ge; cbn; lia. }
  destruct (G r (l_dom P l) [l]) as [G1 G2]; [apply Hl| |exact Hr|].
  - intros y. unfold cov. rewrite sumn_cons, sumn_nil. destruct (mem (l_dom P l) y); reflexivity.
  - split; [exact G1|exact G2].
Qed.

Definition hull_ok (o : options) : Prop := o_sh o = true -> simple_hull_tight P S.

Lemma bounding_spec o d :
  dim (bounding_domain P o d) = dim d /\ isconvex P (bounding_domain P o d) = true /\
  (forall y, mem d y = true -> mem (bounding_domain P o d) y = true) /\
  (hull_ok o -> forall c e y, d = intersection P c e -> dim c = dim e -> isconvex P c = true -> polyh S c ->
     mem (bounding_domain P o d) y = true -> mem c y = true).
Proof.
  unfold bounding_domain, hull_ok. destruct (o_sh o) eqn:E.
  - split; [apply (L_simple_dim _ _ L)|]. split; [apply (L_simple_convex _ _ L)|]. split; [apply (L_simple _ _ L)|].
    intros H c e y -> H1 H2 H3 H4. eapply (H eq_refl); eauto.
  - split; [apply (L_convex_dim _ _ L)|]. split; [apply (L_convex_convex _ _ L)|]. split; [apply (L_convex _ _ L)|].
    intros _ c e y -> H1 H2 H3 H4. eapply (L_convex_in _ _ L); eauto.
Qed.

(** [s] is what is left of the splitter, [done] the part already used *)
Lemma merge_split_spec o n temp inner : hull_ok o -> dim temp = n -> forall fuel s res r,
  dim s = n -> pdisj S s -> polyh S s ->
  Forall (fun N => nd n N /\ cvx N /\ l_inner P N = inner) res ->
  (forall y, cov res y <= 1) -> (forall y, mem s y = true -> cov res y = 0) ->
  merge_split P fuel o temp inner s res = Some r ->
  Forall (fun N => nd n N /\ cvx N /\ l_inner P N = inner) r /\
  (forall y, cov r y <= 1) /\ (forall y, cov res y <= cov r y) /\ (forall y, mem s y = true -> mem temp y = true -> cov r y = 1).
Proof.
  intros Ho Ht. induction fuel as [|f IH]; intros s res r Hs Hp Hpl HF H1 H0 H; [discriminate|].
  cbn [merge_split] in H. cbv zeta in H.
  (* adding the hull of a convex part [c] disjoint from res *)
  assert (Hadd : forall c, dim c = n -> isconvex P c = true -> polyh S c -> (forall y, mem c y = true -> cov res y = 0) ->
    let h := bounding_domain P o (intersection P c temp) in
    let res' := if isempty P h then res else Loop h false None None inner :: res in
    Forall (fun N => nd n N /\ cvx N /\ l_inner P N = inner) res' /\
    (forall y, cov res' y <= 1) /\ (forall y, cov res y <= cov res' y) /\
    (forall y, mem c y = true -> mem temp y = true -> cov res' y = 1) /\
    (forall y, mem c y = false -> cov res' y = cov res y)).
  { intros c Hc Hcv Hcp Hc0 h res'.
    destruct (bounding_spec o (intersection P c temp)) as (B1 & B2 & B3 & B4). fold h in B1, B2, B3, B4.
    assert (Hin : forall y, mem (intersection P c temp) y = mem c y && mem temp y) by (intros; apply (L_inter _ _ L); congruence).
    assert (Hhc : forall y, mem h y = true -> mem c y = true).
    { intros y Hy. eapply (B4 Ho); [reflexivity| |exact Hcv|exact Hcp|exact Hy]. congruence. }
    assert (Dh : dim h = n) by (rewrite B1, (L_inter_dim _ _ L); congruence).
    subst res'. destruct (isempty P h) eqn:Ee.
    - split; [exact HF|]. split; [exact H1|]. split; [intros; lia|]. split; [|reflexivity].
      intros y Hy1 Hy2. exfalso. assert (mem h y = true) by (apply B3; rewrite Hin, Hy1, Hy2; reflexivity).
      rewrite (L_isempty _ _ L _ y Ee) in *. discriminate.
    - assert (Hcov : forall y, cov (Loop h false None None inner :: res) y = Nat.b2n (mem h y) + cov res y) by reflexivity.
      split; [constructor; [split; [repeat split; exact Dh|split; [exact B2|reflexivity]]|exact HF]|]. split; [|split; [|split]].
      + intros y. rewrite Hcov. destruct (mem h y) eqn:E; cbn; [rewrite (Hc0 y (Hhc y E)); lia|apply H1].
      + intros y. rewrite Hcov. lia.
      + intros y Hy1 Hy2. rewrite Hcov, (Hc0 y Hy1), B3; [reflexivity|]. rewrite Hin, Hy1, Hy2. reflexivity.
      + intros y Hy. rewrite Hcov. destruct (mem h y) eqn:E; [|reflexivity]. rewrite (Hhc y E) in Hy. discriminate. }
  destruct (isconvex P s) eqn:Es.
  - injection H as <-. destruct (Hadd s Hs Es Hpl H0) as (A1 & A2 & A3 & A4 & A5). auto.
  - destruct (cut_first P s) as [[first rest]|] eqn:Ec; [|discriminate].
    destruct (L_cut_dim _ _ L _ _ _ Ec) as [D1 D2].
    destruct (L_cut_disj _ _ L _ _ _ Hp Ec) as [Hp' Hd]. destruct (L_cut_poly _ _ L _ _ _ Hpl Ec) as [Hl1 Hl2].
    pose proof (fun y => L_cut _ _ L _ _ _ y Ec) as Hcut.
    destruct (Hadd first ltac:(congruence) (L_cut_convex _ _ L _ _ _ Ec) Hl1) as (A1 & A2 & A3 & A4 & A5).
    { intros y Hy. apply H0. rewrite Hcut, Hy. reflexivity. }
    destruct (IH rest _ r ltac:(congruence) Hp' Hl2 A1 A2) with (2 := H) as (B1 & B2 & B3 & B4).
    { intros y Hy. rewrite A5; [apply H0; rewrite Hcut, Hy; apply orb_true_r|].
      destruct (mem first y) eqn:E; [rewrite (Hd y E) in Hy; discriminate|reflexivity]. }
    split; [exact B1|]. split; [exact B2|]. split; [intros y; etransitivity; [apply A3|apply B3]|].
    intros y Hy1 Hy2. rewrite Hcut in Hy1. apply orb_prop in Hy1 as [Hy1|Hy1].
    + specialize (A4 y Hy1 Hy2). specialize (B3 y). specialize (B2 y). lia.
    + apply B4; assumption.
Qed.

Lemma merge_spec fuel o level n ls res : hull_ok o ->
  merge P fuel o level ls = Some res -> Forall (nd n) ls ->
  Forall (fun N => nd n N /\ cvx N /\ l_inner P N = concat_inner P ls) res /\
  (forall y, cov res y <= 1) /\ (forall y, 0 < cov ls y -> cov res y = 1) /\ (level = 0 -> length res <= 1).
Proof.
  intros Ho H Hl. unfold merge in H. destruct ls as [|l r].
  - injection H as <-. split; [constructor|]. split; [intros; cbn; lia|]. split; [intros y Hy; cbn in Hy; lia|]. cbn; lia.
  - destruct (match r with [] => isconvex P (l_dom P l) | _ => false end) eqn:E1.
    + injection H as <-. destruct r; [|discriminate]. inversion Hl; subst.
      split; [repeat constructor; try assumption; [apply H1..|]; cbn; rewrite app_nil_r; reflexivity|].
      unfold cov. cbn. split; [|split]; try (intros y; destruct (mem (l_dom P l) y); cbn; lia). lia.
    + destruct (union_doms_spec n l r Hl) as [Du Hu].
      destruct ((0 <? level) && negb (is_bounded P (bounding_domain P o (union_doms P l r)) level) &&
                is_bounded P (union_doms P l r) level) eqn:E2.
      * destruct (merge_split_spec o n (union_doms P l r) (concat_inner P (l :: r)) Ho Du fuel (bound_splitter P (union_doms P l r) level) [] res) with (7 := H) as (B1 & B2 & B3 & B4).
        -- rewrite (L_splitter_dim _ _ L). exact Du.
        -- apply (L_splitter_disj _ _ L).
        -- apply (L_splitter_poly _ _ L).
        -- constructor.
        -- intros; cbn; lia.
        -- reflexivity.
        -- split; [exact B1|]. split; [exact B2|]. split.
           ++ intros y Hy. assert (Hm : mem (union_doms P l r) y = true) by (rewrite Hu; apply Nat.ltb_lt; exact Hy).
              apply B4; [apply (L_splitter _ _ L); exact Hm|exact Hm].
           ++ intros ->. discriminate.
      * injection H as <-. destruct (bounding_spec o (union_doms P l r)) as (B1 & B2 & B3 & _).
        split; [repeat constructor; cbn; [congruence|exact B2]|]. unfold cov at 1 3. cbn. split; [|split].
        -- intros y. destruct (mem (bounding_domain P o (union_doms P l r)) y); cbn; lia.
        -- intros y Hy. rewrite B3; [reflexivity|]. rewrite Hu. apply Nat.ltb_lt. exact Hy.
        -- lia.
Qed.

Lemma constant_spec n ls : Forall (nd n) ls ->
  Forall (fun N => nd n N /\ cvx N /\ l_inner P N = concat_inner P ls) (constant P ls) /\
  (forall y, cov (constant P ls) y <= 1) /\ (forall y, 0 < cov ls y -> cov (constant P ls) y = 1) /\ length (constant P ls) <= 1.
Proof.
  destruct ls as [|l r]; intros Hl; cbn [constant].
  - split; [constructor|]. split; [intros; cbn; lia|]. split; [intros y Hy; cbn in Hy; lia|]. cbn; lia.
  - destruct (union_doms_spec n l r Hl) as [Du Hu].
    split; [repeat constructor; cbn; [rewrite (L_simple_dim _ _ L); exact Du|apply (L_simple_convex _ _ L)]|].
    unfold cov at 1 3. cbn. split; [|split].
    + intros y. destruct (mem (simple_convex P (union_doms P l r)) y); cbn; lia.
    + intros y Hy. rewrite (L_simple _ _ L); [reflexivity|]. rewrite Hu. apply Nat.ltb_lt. exact Hy.
    + lia.
Qed.

(** inner instances lie in the domain of their loop *)
Definition tight (l : loop) : Prop := forall b x, 0 < cnts (l_inner P l) b x -> inn (l_dom P l) (l_st P l) x = true.

Lemma tight_cnt l b x : l_blk P l = None -> tight l -> cnt l b x = cnts (l_inner P l) b x.
Proof.
  destruct l as [d o st blk inner]. cbn [l_blk]. intros -> H. rewrite cnt_node. unfold tight in H. cbn [l_inner l_dom l_st] in *.
  destruct (cnts inner b x) eqn:E; [lia|]. rewrite (H b x) by lia. cbn. lia.
Qed.
Lemma tight_cnts ls b x : Forall (fun l => l_blk P l = None /\ tight l) ls -> cnts ls b x = cnts (concat_inner P ls) b x.
Proof.
  intros H. unfold concat_inner, cnts at 2. rewrite sumn_flat_map. unfold cnts at 1. apply sumn_ext.
  intros l Hl. rewrite Forall_forall in H. destruct (H l Hl). apply tight_cnt; assumption.
Qed.

(** bounding loops keep the instances *)
Lemma merged_cnts n ls res b x :
  Forall (nd n) ls -> Forall tight ls ->
  Forall (fun N => nd n N /\ cvx N /\ l_inner P N = concat_inner P ls) res ->
  (forall y, cov res y <= 1) -> (forall y, 0 < cov ls y -> cov res y = 1) ->
  cnts res b x = cnts ls b x.
Proof.
  intros Hl Ht Hr H1 H2. rewrite (tight_cnts ls).
  2: { rewrite Forall_forall in *. intros l Hin. split; [apply (Hl l Hin)|apply (Ht l Hin)]. }
  assert (E : cnts res b x = cov res (firstn n x) * cnts (concat_inner P ls) b x).
  { unfold cnts at 1, cov. rewrite Nat.mul_comm, <- sumn_mul. apply sumn_ext. intros N HN.
    rewrite Forall_forall in Hr. destruct (Hr N HN) as (Hn & _ & Hi). rewrite (cnt_nd n) by exact Hn. rewrite Hi. lia. }
  rewrite E. destruct (cnts (concat_inner P ls) b x) eqn:Ec; [lia|].
  rewrite H2; [lia|].
  assert (Hp : 0 < cnts (concat_inner P ls) b x) by lia. apply cnts_pos in Hp as (i & Hi & Hc).
  unfold concat_inner in Hi. apply in_flat_map in Hi as (l & Hin & Hi).
  apply cov_pos. exists l. split; [exact Hin|]. rewrite Forall_forall in Hl, Ht. destruct (Hl l Hin) as (D & _ & _). rewrite <- D.
  apply inn_mem with (st := l_st P l). apply (Ht l Hin b x). apply cnts_pos. eauto.
Qed.

(** ** restrict *)
Lemma restrict_spec ctx l : dim ctx <= dim (l_dom P l) -> l_st P l = None ->
  match restrict P ctx l with
  | Some l' => dim (l_dom P l') = dim (l_dom P l) /\ l_st P l' = None /\ l_blk P l' = l_blk P l /\ l_inner P l' = l_inner P l /\
               (forall x, inn (l_dom P l') None x = inn ctx None x && inn (l_dom P l) None x)
  | None => forall x, inn ctx None x && inn (l_dom P l) None x = false
  end.
Proof.
  intros Hd Hst. unfold restrict.
  set (ctx' := if dim ctx <? dim (l_dom P l) then extend P ctx (dim (l_dom P l)) else ctx).
  assert (Hc : dim ctx' = dim (l_dom P l) /\ forall x, length x = dim (l_dom P l) -> mem ctx' x = mem ctx (firstn (dim ctx) x)).
  { subst ctx'. destruct (Nat.ltb_spec (dim ctx) (dim (l_dom P l))) as [Hlt|Hge].
    - split; [apply (L_extend_dim _ _ L); lia|]. intros x Hx. apply (L_extend _ _ L); [lia|exact Hx].
    - split; [lia|]. intros x Hx. rewrite firstn_all2 by lia. reflexivity. }
  destruct Hc as [Dc Hc].
  assert (Hm : forall x, mem (intersection P ctx' (l_dom P l)) (firstn (dim (l_dom P l)) x) = inn ctx None x && inn (l_dom P l) None x).
  { intros x. rewrite (L_inter _ _ L) by exact Dc. rewrite !inn_none.
    destruct (mem (l_dom P l) (firstn (dim (l_dom P l)) x)) eqn:E; [|rewrite !andb_false_r; reflexivity].
    rewrite Hc by (apply (L_len _ _ L); exact E). rewrite firstn_firstn, Nat.min_l by exact Hd. reflexivity. }
  destruct (isempty P (intersection P ctx' (l_dom P l))) eqn:Ee.
  - intros x. rewrite <- Hm. apply (L_isempty _ _ L). exact Ee.
  - cbn. rewrite (L_inter_dim _ _ L) by exact Dc. split; [exact Dc|]. split; [reflexivity|]. split; [reflexivity|]. split; [reflexivity|].
    intros x. rewrite inn_none, (L_inter_dim _ _ L), Dc by exact Dc. apply Hm.
Qed.

Lemma restrict_cnts ctx l b x : dim ctx <= dim (l_dom P l) -> l_st P l = None ->
  cnts (list_of (restrict P ctx l)) b x = Nat.b2n (inn ctx None x) * cnt l b x.
Proof.
  intros Hd Hst. pose proof (restrict_spec ctx l Hd Hst) as H. destruct (restrict P ctx l) as [l'|]; cbn [list_of].
  - destruct H as (H1 & H2 & H3 & H4 & H5). unfold cnts. rewrite sumn_cons, sumn_nil.
    destruct l as [d o st blk inner], l' as [d' o' st' blk' inner']. cbn in *. subst.
    rewrite H5. destruct (inn ctx None x), (inn d None x); cbn; try lia.
    destruct blk; [|lia]. destruct (block_eq_dec b0 b); [|reflexivity]. rewrite H1. lia.
  - specialize (H x). destruct l as [d o st blk inner]. cbn in *. subst. unfold cnts. cbn.
    destruct (inn ctx None x), (inn d None x); cbn in *; try lia.
Qed.

Lemma restrict_all_cnts ctx ls b x : Forall (fun l => dim ctx <= dim (l_dom P l) /\ l_st P l = None) ls ->
  cnts (restrict_all P ctx ls) b x = Nat.b2n (inn ctx None x) * cnts ls b x.
Proof.
  intros H. unfold restrict_all, cnts. rewrite sumn_flat_map, <- sumn_mul. apply sumn_ext. intros l Hl.
  rewrite Forall_forall in H. destruct (H l Hl). apply (restrict_cnts ctx l b x); assumption.
Qed.
End Count.
