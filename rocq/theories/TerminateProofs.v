(** Code generation returns: the recursion of cloog_loop_generate and the simplification. *)
From Coq Require Import ZArith List Bool Arith Lia Permutation Relations.
From Verif Require Import SortModel TarjanProofs LoopModel LoopSpec LoopLists LoopCount LoopKeys LoopOrder LoopGen LoopSimplify LoopMain LoopFun
  TerminateSpec TerminateLists.
Import ListNotations.
Local Arguments Nat.ltb : simpl never.
Local Arguments Nat.leb : simpl never.
Local Arguments Nat.eqb : simpl never.
Local Arguments Nat.sub : simpl never.

Section Total.
Variable P : Poly.
Variable V : Type.
Variable v0 : V.
Variable Sp : V -> Sem P.
Variable nparts : dom P -> nat.
Hypothesis L : forall v, Laws P (Sp v).
Hypothesis TL : TotalLaws P V Sp nparts.
Variable kinds : list bool.
Variable o : options.
Hypothesis Hopt : forall v, plain_options P (Sp v) o.
Hypothesis Hst : forall v, strides_ok P (Sp v) o.
Notation dom := (dom P).
Notation loop := (loop P).
Notation dim := (dim P).
Notation Loop := (@Loop P).
Notation M := (cf kinds).
Notation scaldims := (run_lengths kinds).
Notation nb := (length kinds).
Notation Inv := (Inv P kinds M false False).
Notation InvK := (InvK kinds M false False).
Notation leaf := (leaf P).
Notation key := (key P).
Notation NP v := (NP P (Sp v)).
Notation NPc v := (NPc P (Sp v)).
Notation NPo v := (NPo P (Sp v) False o).
Notation Post v := (Post P (Sp v) kinds M false False o).
Notation RecSpec v := (RecSpec P (Sp v) kinds M false False).
Notation Pos := (Pos kinds).
Notation at_pos := (at_pos kinds).
Notation cnt v := (cnt P (Sp v)).
Notation cnts v := (cnts P (Sp v)).
Notation cov v := (cov P (Sp v)).

Lemma HM : cf kinds <= M. Proof. lia. Qed.
Lemma HSL v : o_strides o = true -> StrideLaws P (Sp v).
Proof. intros E. apply (Hst v E). Qed.
Lemma HU : o_first_unroll o <> 0%Z.
Proof. apply (Hopt v0). Qed.
Lemma Hstop : (o_stop o < 0)%Z.
Proof. apply (Hopt v0). Qed.
Lemma HH v : hull_ok P (Sp v) o.
Proof. destruct (Hopt v) as (_ & _ & H). exact H. Qed.
Lemma noO {X : Prop} : False -> X. Proof. intros []. Qed.

(** ** loops that hold an instance for some parameters *)
Definition full (l : loop) : Prop := isempty P (l_dom P l) = false.
Definition live (l : loop) : Prop := exists v b x, 0 < cnt v l b x.

Lemma leaf_live l : leaf l -> full l -> live l.
Proof.
  intros (H1 & H2 & b & H3) Hf. destruct (TL_exact _ _ _ _ TL _ Hf) as (v & x & Hx). exists v, b, x. destruct l as [d ot st blk inner].
  cbn [l_st l_inner l_blk l_dom] in *. subst. cbn [LoopSpec.cnt]. pose proof (L_len _ _ (L v) _ _ Hx) as Hl. rewrite inn_none, <- Hl, firstn_all, Hx.
  destruct (block_eq_dec b b); [|congruence]. rewrite Nat.eqb_refl. lia.
Qed.
Lemma leaves_live ls : Forall leaf ls -> Forall full ls -> ls <> [] -> exists v b x, 0 < cnts v ls b x.
Proof.
  intros H1 H2 Hn. destruct ls as [|l r]; [congruence|]. inversion H1; subst. inversion H2; subst.
  destruct (leaf_live l) as (v & b & x & Hc); auto. exists v, b, x. rewrite cnts_cons. lia.
Qed.
Lemma cnts_live v ls b x : 0 < cnts v ls b x -> ls <> [].
Proof. intros H ->. cbn in H. lia. Qed.
Lemma live_inner N : l_blk P N = None -> live N -> l_inner P N <> [].
Proof.
  intros Hb (v & b & x & H) E. destruct N as [d ot st blk inner]. cbn [l_blk l_inner] in *. subst. rewrite cnt_node in H.
  change (cnts v [] b x) with 0 in H. lia.
Qed.
Lemma np_live level K N : (forall v, NP v level K N) -> Forall full (l_inner P N) -> live N.
Proof.
  intros HN Hf. destruct (leaves_live (l_inner P N)) as (v & b & x & Hc); [apply (np_leaf _ _ _ _ _ (HN v0))|exact Hf|apply (np_ne _ _ _ _ _ (HN v0))|].
  exists v, b, x. rewrite (tight_cnt P (Sp v) N b x (np_blk _ _ _ _ _ (HN v)) (np_tight _ _ _ _ _ (HN v))). exact Hc.
Qed.

Lemma restrict_full D ls : Forall full (restrict_all P D ls).
Proof.
  rewrite Forall_forall. unfold restrict_all. intros l Hl. apply in_flat_map in Hl as (l0 & _ & Hl). unfold restrict in Hl.
  destruct (isempty P _) eqn:E in Hl; [destruct Hl|]. destruct Hl as [<-|[]]. exact E.
Qed.
Lemma restrict_inner_full ls : Forall (fun N => Forall full (l_inner P N)) (restrict_inner P ls).
Proof.
  rewrite Forall_forall. unfold restrict_inner. intros N HN. apply in_flat_map in HN as (l0 & _ & HN).
  pose proof (restrict_full (l_dom P l0) (l_inner P l0)) as Hf. destruct (restrict_all P (l_dom P l0) (l_inner P l0)); [destruct HN|].
  destruct HN as [<-|[]]. exact Hf.
Qed.

(** ** components *)
Lemma loop_components_total fol ls : exists cs, loop_components P fol ls = Some cs.
Proof.
  unfold loop_components. match goal with |- context [components ?n ?e] => destruct (components_spec n e) as (cs & -> & _) end. eexists. reflexivity.
Qed.
Lemma loop_components_sub fol ls cs c : loop_components P fol ls = Some cs -> In c cs -> Subl c ls /\ c <> [].
Proof.
  intros H Hc. destruct (loop_components_spec P kinds M HM fol (fun _ _ => True) ls cs (fun _ _ _ _ _ _ _ _ => I) H) as (_ & HF & _).
  rewrite Forall_forall in HF. auto.
Qed.

(** ** specialize *)
Lemma omap_total {A B} (f : A -> option B) l : (forall a, In a l -> exists r, f a = Some r) -> exists rs, omap f l = Some rs.
Proof.
  induction l as [|a l IH]; intros H; [eexists; reflexivity|]. destruct (H a (or_introl eq_refl)) as [r Hr].
  destruct IH as [rs Hrs]; [intros b Hb; apply H; right; exact Hb|]. cbn [omap]. rewrite Hr, Hrs. eexists. reflexivity.
Qed.
Lemma decompose_total level scalar ls : exists r, decompose_inner P scaldims level scalar ls = Some r.
Proof.
  unfold decompose_inner, oconcat.
  destruct (omap_total (fun l => if length (l_inner P l) <=? 1 then Some [l] else
      obind (loop_components P (fun a b def => follows P scaldims a b level scalar def) (l_inner P l)) (fun cs => Some (map (set_inner P l) cs))) ls) as [r Hr].
  - intros l _. destruct (length (l_inner P l) <=? 1); [eauto|]. destruct (loop_components_total (fun a b def => follows P scaldims a b level scalar def) (l_inner P l)) as [cs Hcs].
    rewrite Hcs. cbn [obind]. eauto.
  - rewrite Hr. cbn [obind]. eauto.
Qed.
Lemma decompose_full level scalar ls r : decompose_inner P scaldims level scalar ls = Some r ->
  Forall (fun N => Forall full (l_inner P N)) ls -> Forall (fun N => Forall full (l_inner P N)) r.
Proof.
  intros H Hf. unfold decompose_inner in H. apply oconcat_forall2 in H as (rss & -> & HF). rewrite Forall_forall in *. intros N HN.
  apply in_concat in HN as (rs & Hrs & HN). destruct (Forall2_in_r _ _ _ _ HF Hrs) as (l & Hl & E). cbn beta in E.
  destruct (length (l_inner P l) <=? 1); [injection E as <-; destruct HN as [<-|[]]; apply Hf; exact Hl|].
  apply obind_some in E as (cs & Ecs & E). injection E as <-. apply in_map_iff in HN as (c & <- & Hc). cbn [set_inner l_inner].
  destruct (loop_components_sub _ _ _ _ Ecs Hc) as [Hsub _]. eapply Subl_forall; [exact Hsub|]. apply Hf; exact Hl.
Qed.
Lemma specialize_total level scalar K ls : InvK scalar K -> (0 < level -> at_pos (level - 1) scalar) -> Forall (fun k => level <= fst k) K ->
  Forall (NPc v0 level K) ls -> Forall (fun N => Forall full (l_inner P N)) ls ->
  exists r, specialize P scaldims level scalar ls = Some r /\ Forall (fun N => Forall full (l_inner P N)) r.
Proof.
  intros HK Hp Hd HN Hf. unfold specialize. destruct (decompose_total level scalar ls) as [r1 E1].
  pose proof (decompose_full _ _ _ _ E1 Hf) as Hf1.
  destruct (decompose_spec P (Sp v0) kinds M false False HM noO level scalar K ls r1 HK (fun _ F => F) Hp Hd HN E1) as (_ & _ & A3).
  destruct (omap_total (specialize1 P) r1) as [r2 E2].
  { intros N Hin. rewrite Forall_forall in A3. destruct (A3 N Hin) as [HNP _]. pose proof (np_ne _ _ _ _ _ HNP) as Hne. unfold specialize1.
    destruct (l_inner P N) as [|i [|i2 q]]; [congruence| |eauto]. destruct (isconvex P (l_dom P i)); [|eauto]. destruct (isconvex P _); eauto. }
  rewrite E1. cbn [obind]. rewrite E2. cbn [obind]. eexists. split; [reflexivity|]. unfold remove_empty. eapply Subl_forall; [apply Subl_filter|].
  apply omap_forall2 in E2. rewrite Forall_forall in *. intros N' HN'. destruct (Forall2_in_r _ _ _ _ E2 HN') as (N & Hin & E).
  assert (Ei : l_inner P N' = l_inner P N).
  { unfold specialize1 in E. destruct (l_inner P N) as [|i [|i2 q]] eqn:Ein; [discriminate| |injection E as <-; exact Ein].
    destruct (isconvex P (l_dom P i)); [|injection E as <-; exact Ein]. destruct (isconvex P _); injection E as <-; exact Ein. }
  rewrite Ei. apply Hf1; exact Hin.
Qed.

(** ** recursion on the inner loops *)
Lemma rr_total (rec : nat -> list loop -> option (list loop)) : forall rs into term,
  (forall g, In (true, g) rs -> exists l, returns (fun n => rec n g) l /\ l <> []) ->
  exists r, returns (fun n => recurse_runs P (rec n) rs into term false) r.
Proof.
  induction rs as [|[b g] rs IH]; intros into term H; cbn [recurse_runs]; [eexists; apply ret_some|].
  assert (H' : forall g, In (true, g) rs -> exists l, returns (fun n => rec n g) l /\ l <> []) by (intros g' Hg'; apply H; right; exact Hg').
  destruct b; [|apply IH; exact H'].
  destruct (H g (or_introl eq_refl)) as (l & Hl & Hne). destruct (IH (into ++ l) false H') as [r Hr]. exists r.
  apply ret_bind with l; [exact Hl|]. destruct l as [|a q]; [congruence|]. exact Hr.
Qed.
Lemma runs_groups t : forall ls grp g, Forall (fun l => t l = true) grp -> In (true, g) (runs P t grp ls) ->
  g <> [] /\ Forall (fun l => t l = true) g /\ Subl g (grp ++ ls).
Proof.
  induction ls as [|l ls IH]; intros grp g Hg Hin; cbn [runs] in Hin.
  - rewrite app_nil_r. destruct grp as [|a q]; [destruct Hin|]. destruct Hin as [E|[]]. injection E as <-. split; [discriminate|]. split; [exact Hg|apply Subl_refl].
  - destruct (t l) eqn:Et.
    + destruct (IH (grp ++ [l]) g) as (A1 & A2 & A3); [apply Forall_app; split; [exact Hg|constructor; [exact Et|constructor]]|exact Hin|].
      rewrite <- app_assoc in A3. auto.
    + apply in_app_or in Hin as [Hin|Hin].
      * destruct grp as [|a q]; [destruct Hin|]. destruct Hin as [E|[]]. injection E as <-. split; [discriminate|]. split; [exact Hg|].
        apply Subl_app_l. apply Subl_refl.
      * destruct Hin as [E|Hin]; [discriminate|]. destruct (IH [] g (Forall_nil _) Hin) as (A1 & A2 & A3). split; [exact A1|]. split; [exact A2|].
        apply Subl_app_r. apply Subl_skip. exact A3.
Qed.

Section Level.
Variable G : nat -> rec_t P.
Variables level scalar D : nat.
Hypothesis H0 : level = 0 -> scalar = 0.
Hypothesis HP : Pos level scalar.
Hypothesis HRS : forall v n ctx, RecSpec v (G n ctx (S level) scalar) level scalar.
Hypothesis HRT : forall ctx g, Inv scalar g -> Forall full g -> Forall (fun l => dim (l_dom P l) <= D) g ->
  Forall (fun l => more P scaldims (S level) scalar l = true) g -> g <> [] -> exists r, returns (fun n => G n ctx (S level) scalar g) r.

Section Key.
Variable K : list (nat * option block).
Hypothesis HK : InvK scalar K.
Hypothesis HdK : Forall (fun k => level <= fst k) K.
Hypothesis HDK : Forall (fun k => fst k <= D) K.

Lemma recurse_inner_total N : (forall v, NPo v level K N) -> Forall full (l_inner P N) ->
  exists N', returns (fun n => recurse_inner P scaldims o (G n) level scalar N) N' /\ live N' /\ forall v, Post v level N'.
Proof.
  intros HN Hf. assert (Hnp : forall v, NP v level K N) by (intros v; apply (HN v)).
  pose proof (np_inv _ _ _ _ _ _ _ _ _ _ HK (Hnp v0)) as HI.
  assert (Hex : exists N', returns (fun n => recurse_inner P scaldims o (G n) level scalar N) N').
  { unfold recurse_inner. set (N1 := if negb (level =? 0) && o_otl o then loop_otl P level N else N).
    assert (Ei : l_inner P N1 = l_inner P N).
    { unfold N1, loop_otl. destruct (negb (level =? 0) && o_otl o); [|reflexivity]. destruct (is_otl P (l_dom P N) level); reflexivity. }
    set (ctx := match l_st P N1 with Some (_, _, Some c) => add_stride_constraint P (l_dom P N1) c | _ => l_dom P N1 end).
    rewrite Ei. destruct (rr_total (fun n => G n ctx (S level) scalar) (runs P (more P scaldims (S level) scalar) [] (l_inner P N)) [] false) as [into Hinto].
    - intros g Hg. destruct (runs_groups _ _ _ _ (Forall_nil _) Hg) as (A1 & A2 & A3). cbn [app] in A3.
      pose proof (Inv_subl _ _ _ _ _ _ _ _ A3 HI) as HIg. pose proof (Subl_forall _ _ _ A3 Hf) as Hfg.
      destruct (HRT ctx g HIg Hfg) as [r Hr]; auto.
      { eapply Subl_forall; [exact A3|]. apply (np_dims _ _ _ _ _ (fun d => d <= D) HDK (Hnp v0)). }
      exists r. split; [exact Hr|]. destruct (ret_at _ _ Hr) as [n En].
      destruct (leaves_live g (proj1 HIg) Hfg A1) as (v & b & x & Hc). destruct (HRS v n ctx g r HIg A2 A1 En) as [Hcc _]. rewrite <- Hcc in Hc. eapply cnts_live; exact Hc.
    - eexists. apply ret_bind with into; [exact Hinto|]. apply ret_some. }
  destruct Hex as [N' HN']. exists N'. split; [exact HN'|]. destruct (ret_at _ _ HN') as [n En].
  assert (Hs : forall v, (forall b x, cnt v N' b x = cnt v N b x) /\ Post v level N').
  { intros v. apply (recurse_inner_spec P (Sp v) kinds M false False o HM (G n) level scalar K N N' HP HK HdK (HRS v n) (HN v) En). }
  split; [|intros v; apply (Hs v)]. destruct (np_live level K N Hnp Hf) as (v & b & x & Hc). exists v, b, x. destruct (Hs v) as [E _]. rewrite E. exact Hc.
Qed.

Lemma unroll_full N : Forall full (l_inner P N) -> Forall (fun u => Forall full (l_inner P u)) (loop_unroll P level N).
Proof.
  intros Hf. unfold loop_unroll. destruct (can_unroll P (l_dom P N) level) as [[nn lb]|]; [|constructor; [exact Hf|constructor]].
  rewrite Forall_forall. intros u Hu. apply in_flat_map in Hu as (i & _ & Hu). pose proof (restrict_full (fixed_offset P (l_dom P N) level lb (Z.of_nat i)) (l_inner P N)) as Hr.
  destruct (restrict_all P (fixed_offset P (l_dom P N) level lb (Z.of_nat i)) (l_inner P N)); [destruct Hu|]. destruct Hu as [<-|[]]. exact Hr.
Qed.
Lemma stride_inner N : l_inner P (loop_stride P level N) = l_inner P N.
Proof.
  unfold loop_stride. destruct (negb (can_stride P (l_dom P N) level)); [reflexivity|]. destruct (list_stride P _ level) as [[[s off] c]|]; [reflexivity|].
  destruct (fold_left _ _ _) as [[[fs s] ref] off]. cbv zeta. destruct (_ =? 1)%Z; reflexivity.
Qed.
Lemma loop_recurse_total const N : (forall v, NPc v level K N) -> Forall full (l_inner P N) ->
  exists rs, returns (fun n => loop_recurse P scaldims o (G n) level scalar const N) rs /\ Forall live rs /\ forall v, Forall (Post v level) rs.
Proof.
  intros HN Hf. unfold loop_recurse. set (N1 := if negb (level =? 0) && o_strides o && negb const then loop_stride P level N else N).
  assert (HN1c : forall v, NPo v level K N1 /\ isconvex P (l_dom P N1) = true).
  { intros v. unfold N1. pose proof (stride_spec P (Sp v) (L v) kinds M False o HM (HSL v) level K N) as Hss.
    destruct (Nat.eqb_spec level 0) as [E|E]; cbn [negb andb]; [split; [apply npc_npo; apply HN|apply (HN v)]|].
    destruct (o_strides o) eqn:Es; cbn [andb]; [|split; [apply npc_npo; apply HN|apply (HN v)]].
    destruct (negb const); [|split; [apply npc_npo; apply HN|apply (HN v)]]. apply Hss; auto; lia. }
  assert (HN1 : forall v, NPo v level K N1) by (intros v; apply HN1c).
  assert (Hf1 : Forall full (l_inner P N1)).
  { unfold N1. destruct (negb (level =? 0) && o_strides o && negb const); [rewrite stride_inner|]; exact Hf. }
  destruct (negb const && (0 <=? o_first_unroll o)%Z && (o_first_unroll o <=? Z.of_nat (level + scalar))%Z) eqn:Eu.
  - apply andb_prop in Eu as [Eu E2]. apply andb_prop in Eu as [_ E1]. apply Z.leb_le in E1, E2. pose proof HU as HU'.
    assert (Hl : 1 <= level) by (destruct level; [rewrite H0 in E2 by reflexivity; cbn in E2; lia|lia]).
    assert (Hus : forall v, (forall b x, cnts v (loop_unroll P level N1) b x = cnt v N1 b x) /\ Forall (NPo v level K) (loop_unroll P level N1)).
    { intros v. destruct (unroll_spec P (Sp v) (L v) kinds M false False o HM noO level scalar K N1 Hl HP HK HdK (proj2 (HN1c v)) (HN1 v)) as (U1 & U2 & _). auto. }
    pose proof (unroll_full N1 Hf1) as Huf.
    destruct (np_live level K N1 (fun v => proj1 (HN1 v)) Hf1) as (v & b & x & Hc).
    rewrite <- (proj1 (Hus v)) in Hc. pose proof (cnts_live _ _ _ _ Hc) as Hne.
    assert (Hall : forall u, In u (loop_unroll P level N1) -> exists N', returns (fun n => recurse_inner P scaldims o (G n) level scalar u) N' /\ live N' /\ forall v, Post v level N').
    { intros u Hu. apply recurse_inner_total; [|rewrite Forall_forall in Huf; apply Huf; exact Hu].
      intros w. destruct (Hus w) as [_ HF]. rewrite Forall_forall in HF. apply HF; exact Hu. }
    assert (Hgo : forall us, incl us (loop_unroll P level N1) ->
       exists rs, returns (fun n => omap (recurse_inner P scaldims o (G n) level scalar) us) rs /\ Forall live rs /\ forall v, Forall (Post v level) rs).
    { induction us as [|u us IH]; intros Hi; [exists []; split; [apply ret_some|split; [constructor|intros; constructor]]|].
      destruct (Hall u (Hi u (or_introl eq_refl))) as (N' & A1 & A2 & A3). destruct IH as (rs & B1 & B2 & B3); [intros y Hy; apply Hi; right; exact Hy|].
      exists (N' :: rs). split; [|split; [constructor; assumption|intros w; constructor; auto]].
      cbn [omap]. apply ret_bind with N'; [exact A1|]. apply ret_bind with rs; [exact B1|]. apply ret_some. }
    destruct (Hgo _ (incl_refl _)) as (rs & R1 & R2 & R3). exists rs. split; [|auto]. destruct (loop_unroll P level N1) as [|u us]; [congruence|]. exact R1.
  - destruct (recurse_inner_total N1 HN1 Hf1) as (N' & A1 & A2 & A3). exists [N']. split; [apply ret_bind with N'; [exact A1|]; apply ret_some|].
    split; [constructor; [exact A2|constructor]|intros v; constructor; [apply A3|constructor]].
Qed.
Lemma nest_total N : 1 <= level -> (forall v, NPc v level K N) -> Forall full (l_inner P N) ->
  exists N', returns (fun n => obind (nest P (S n) (l_dom P N) (S level) (l_inner P N)) (fun l => Some (Loop (l_dom P N) false None None l))) N' /\
    live N' /\ forall v, Post v level N'.
Proof.
  intros Hl HN Hf.
  assert (Hex : exists l, returns (fun n => nest P (S n) (l_dom P N) (S level) (l_inner P N)) l).
  { unfold nest. destruct (disjoint_total P V v0 Sp nparts L TL (l_inner P N)) as [ds Hds]. eexists.
    apply ret_bind with ds; [apply (ret_unshift (fun n => disjoint P n (l_inner P N))); exact Hds|]. apply ret_some. }
  destruct Hex as [l Hl']. exists (Loop (l_dom P N) false None None l). split; [apply ret_bind with l; [exact Hl'|]; apply ret_some|].
  destruct (ret_at _ _ Hl') as [n En].
  assert (Hs : forall v, (forall b x, cnt v (Loop (l_dom P N) false None None l) b x = cnt v N b x) /\ Post v level (Loop (l_dom P N) false None None l)).
  { intros v. apply (nest_spec P (Sp v) (L v) kinds M false False o HM (S n) level scalar K N l Hl HP HK HdK noO (HN v) En). }
  split; [|intros v; apply (Hs v)]. destruct (np_live level K N (fun v => proj1 (HN v)) Hf) as (v & b & x & Hc). exists v, b, x. destruct (Hs v) as [E _]. rewrite E. exact Hc.
Qed.
End Key.

Lemma oconcat_live (f : nat -> loop -> option (list loop)) (Q : loop -> Prop) ls :
  (forall l, In l ls -> exists rs, returns (fun n => f n l) rs /\ Forall Q rs) ->
  exists rs, returns (fun n => oconcat (f n) ls) rs /\ Forall Q rs.
Proof.
  intros H. enough (Hg : exists rss, returns (fun n => omap (f n) ls) rss /\ Forall (Forall Q) rss).
  { destruct Hg as (rss & H1 & H2). exists (concat rss). split; [unfold oconcat; apply ret_bind with rss; [exact H1|]; apply ret_some|].
    clear - H2. induction H2; [constructor|]. cbn [concat]. apply Forall_app; auto. }
  induction ls as [|l ls IH]; [exists []; split; [apply ret_some|constructor]|].
  destruct (H l (or_introl eq_refl)) as (rs & A1 & A2). destruct IH as (rss & B1 & B2); [intros y Hy; apply H; right; exact Hy|].
  exists (rs :: rss). split; [|constructor; assumption]. cbn [omap]. apply ret_bind with rs; [exact A1|]. apply ret_bind with rss; [exact B1|]. apply ret_some.
Qed.
Lemma omap_live (f : nat -> loop -> option loop) (Q : loop -> Prop) ls :
  (forall l, In l ls -> exists r, returns (fun n => f n l) r /\ Q r) ->
  exists rs, returns (fun n => omap (f n) ls) rs /\ Forall Q rs.
Proof.
  intros H. induction ls as [|l ls IH]; [exists []; split; [apply ret_some|constructor]|].
  destruct (H l (or_introl eq_refl)) as (r & A1 & A2). destruct IH as (rs & B1 & B2); [intros y Hy; apply H; right; exact Hy|].
  exists (r :: rs). split; [|constructor; assumption]. cbn [omap]. apply ret_bind with r; [exact A1|]. apply ret_bind with rs; [exact B1|]. apply ret_some.
Qed.

Lemma backtrack_total ls : Forall (Post v0 level) ls -> exists r, returns (fun n => backtrack P (S n) level ls) r.
Proof.
  intros HF. unfold backtrack. apply ret_oconcat. intros t Ht. rewrite Forall_forall in HF. destruct (HF t Ht) as [H1 H2 H3 H4 H5 H6 H7].
  set (X := map (backtrack_inner P level (l_dom P t)) (l_inner P t)).
  assert (HX : Forall (nd P level) X).
  { unfold X. rewrite Forall_map, Forall_forall. intros l Hl. unfold backtrack_inner. destruct (l_blk P l) as [b|] eqn:Eb; [repeat split; exact H2|].
    assert (Hd : level <= dim (l_dom P l)) by (destruct H5 as [H5 _]; rewrite Forall_forall in H5; eapply ok1_dim; eauto).
    apply (project_loop_spec P (Sp v0) (L v0) level l Hd). }
  assert (Hg : exists r, returns (fun n => obind (separate P (S n) X) (fun s => sort P level s)) r).
  { destruct (separate_total P V v0 Sp nparts L TL X) as [s Hs]. destruct (ret_at _ _ Hs) as [n En].
    destruct (sort_total P V Sp nparts TL level s) as [r Hr].
    - apply (separate_spec P (Sp v0) (L v0) n level X s En HX).
    - apply (separate_spec P (Sp v0) (L v0) n level X s En HX).
    - intros v y. destruct (separate_spec P (Sp v) (L v) n level X s En HX) as (_ & _ & [P3 _] & _). rewrite P3. destruct (0 <? cov v X y); cbn; lia.
    - eapply separate_single; [exact TL|exact En].
    - exists r. apply ret_bind with s; [apply (ret_unshift (fun n => separate P n X)); exact Hs|]. rewrite Hr. apply ret_some. }
  destruct X; [eexists; apply ret_some|exact Hg].
Qed.

Lemma generate_general_total lc : Inv scalar lc -> Forall (fun l => level <= dim (l_dom P l) <= D) lc ->
  exists r, returns (fun n => generate_general P scaldims o (S n) (G n) level scalar (project_all P level lc)) r.
Proof.
  intros HI HdD. assert (Hd : Forall (fun l => level <= dim (l_dom P l)) lc) by (eapply Forall_impl; [|exact HdD]; cbn; lia).
  unfold generate_general. destruct (project_all_spec P (Sp v0) (L v0) kinds M HM level lc Hd) as (A1 & _ & A3 & _). set (ls := project_all P level lc) in *.
  destruct (get_fl P o ls) as [first last]. set (const := (0 <? level) && is_constant P level ls).
  set (mrg := (Z.of_nat (level + scalar) <? first)%Z || (first <? 0)%Z).
  (* separation or merge *)
  assert (S1 : exists r1, returns (fun n => if const then Some (constant P ls) else if mrg then merge P (S n) o level ls else separate P (S n) ls) r1 /\
     Forall (fun N => nd P level N /\ cvx P N /\ Subl (l_inner P N) lc) r1 /\ (forall v y, cov v r1 y <= 1) /\
     (length r1 = 1 \/ Forall (fun l => one P (l_dom P l)) r1)).
  { assert (Hmerged : forall r, Forall (fun N => nd P level N /\ cvx P N /\ l_inner P N = concat_inner P ls) r ->
       Forall (fun N => nd P level N /\ cvx P N /\ Subl (l_inner P N) lc) r).
    { intros r M1. eapply Forall_impl; [|exact M1]. cbn. intros N (N1 & N2 & N3). split; [exact N1|]. split; [exact N2|]. rewrite N3, A3. apply Subl_refl. }
    destruct const eqn:Ec.
    - exists (constant P ls). split; [apply ret_some|]. destruct (constant_spec P (Sp v0) (L v0) level ls A1) as (M1 & _ & _ & M4).
      split; [apply Hmerged; exact M1|]. split; [intros v; apply (constant_spec P (Sp v) (L v) level ls A1)|]. left.
      destruct ls as [|a q]; [|reflexivity]. unfold const in Ec. cbn in Ec. rewrite andb_false_r in Ec. discriminate.
    - destruct mrg.
      + destruct (merge_total P V Sp nparts TL o level ls) as [r1 Hr1]. destruct (ret_at _ _ Hr1) as [n En]. exists r1.
        split; [apply (ret_unshift (fun n => merge P n o level ls)); exact Hr1|].
        split; [apply Hmerged; apply (merge_spec P (Sp v0) (L v0) n o level level ls r1 (HH v0) En A1)|].
        split; [intros v; apply (merge_spec P (Sp v) (L v) n o level level ls r1 (HH v) En A1)|]. eapply merge_single; [exact v0|exact L|exact TL|exact En].
      + destruct (separate_total P V v0 Sp nparts L TL ls) as [r1 Hr1]. destruct (ret_at _ _ Hr1) as [n En]. exists r1.
        split; [apply (ret_unshift (fun n => separate P n ls)); exact Hr1|].
        destruct (separate_spec P (Sp v0) (L v0) n level ls r1 En A1) as (P1 & P2 & _ & P4). rewrite A3 in P4.
        split; [rewrite Forall_forall in *; intros N HN; auto|].
        split; [|eapply separate_single; [exact TL|exact En]]. intros v y. destruct (separate_spec P (Sp v) (L v) n level ls r1 En A1) as (_ & _ & [P3 _] & _).
        rewrite P3. destruct (0 <? cov v ls y); cbn; lia. }
  destruct S1 as (r1 & E1 & B2 & B3 & B4).
  destruct (sort_total P V Sp nparts TL level r1) as [r2 E2]; auto; [eapply Forall_impl; [|exact B2]; cbn; tauto..|].
  pose proof (sort_perm _ _ _ _ E2) as Hperm.
  assert (C2 : Forall (fun N => nd P level N /\ cvx P N /\ Subl (l_inner P N) lc) r2).
  { rewrite Forall_forall in *. intros N HN. apply B2. eapply Permutation_in; eauto. }
  destruct HI as [HIl HIk]. set (K := map key lc) in *.
  assert (HdK : Forall (fun k => level <= fst k) K) by (unfold K; rewrite Forall_map; exact Hd).
  assert (HDK : Forall (fun k => fst k <= D) K) by (unfold K; rewrite Forall_map; eapply Forall_impl; [|exact HdD]; cbn; lia).
  assert (D3 : forall v, Forall (NPc v level K) (restrict_inner P r2)).
  { intros v. destruct (restrict_inner_spec P (Sp v) (L v) kinds M false False HM level K (level - 1) (fun _ => True) r2 HdK) as (_ & _ & D3); [|exact D3].
    eapply Forall_impl; [|exact C2]. cbn. intros N (N1 & N2 & N3). split; [exact N1|]. split; [exact N2|]. split; [eapply Subl_forall; eauto|apply Subl_map; exact N3]. }
  pose proof (restrict_inner_full r2) as Hf3. set (r3 := restrict_inner P r2) in *.
  assert (S4 : exists r4, (if negb const && negb mrg then specialize P scaldims level scalar r3 else Some r3) = Some r4 /\
      (forall v, Forall (NPc v level K) r4) /\ Forall (fun N => Forall full (l_inner P N)) r4).
  { destruct (negb const && negb mrg); [|exists r3; auto].
    assert (Hp : 0 < level -> at_pos (level - 1) scalar) by (intros Hl; apply (ps_prev _ _ _ HP Hl)).
    destruct (specialize_total level scalar K r3 HIk Hp HdK (D3 v0) Hf3) as (r4 & E4 & F4). exists r4. split; [exact E4|]. split; [|exact F4].
    intros v. apply (specialize_spec P (Sp v) (L v) kinds M false False HM noO level scalar K r3 r4 HIk (fun _ F => F) Hp HdK (D3 v) E4). }
  destruct S4 as (r4 & E4 & F3 & Hf4). rewrite Forall_forall in Hf4.
  assert (HNP : forall v N, In N r4 -> NPc v level K N) by (intros v N HN; specialize (F3 v); rewrite Forall_forall in F3; apply F3; exact HN).
  assert (S5 : exists r5, returns (fun n => if (level =? 0) || ((Z.of_nat (level + scalar) <? last)%Z || (last <? 0)%Z)
             then oconcat (loop_recurse P scaldims o (G n) level scalar const) r4
             else omap (fun t => obind (nest P (S n) (l_dom P t) (S level) (l_inner P t)) (fun l => Some (Loop (l_dom P t) false None None l))) r4) r5 /\
       Forall (fun N => live N /\ forall v, Post v level N) r5).
  { destruct ((level =? 0) || ((Z.of_nat (level + scalar) <? last)%Z || (last <? 0)%Z)) eqn:Edeep.
    - apply oconcat_live. intros N HN. destruct (loop_recurse_total K HIk HdK HDK const N (fun v => HNP v N HN) (Hf4 N HN)) as (rs & R1 & R2 & R3).
      exists rs. split; [exact R1|]. rewrite Forall_forall in *. intros X HX. split; [apply R2; exact HX|]. intros v. specialize (R3 v). rewrite Forall_forall in R3. apply R3; exact HX.
    - apply orb_false_iff in Edeep as [El0 _]. apply Nat.eqb_neq in El0. apply omap_live. intros N HN.
      destruct (nest_total K HIk HdK N ltac:(lia) (fun v => HNP v N HN) (Hf4 N HN)) as (N' & R1 & R2 & R3). exists N'. auto. }
  destruct S5 as (r5 & E5 & G3).
  assert (S6 : exists r6, (if o_strides o then omap (propagate1 P) r5 else Some r5) = Some r6 /\ Forall (Post v0 level) r6).
  { rewrite Forall_forall in G3. pose proof (HSL v0) as HSL0. destruct (o_strides o) eqn:Eso.
    - destruct (omap_total (propagate1 P) r5) as [r6 E6].
      { intros N HN. destruct (G3 N HN) as [Hlv Hpo]. pose proof (live_inner N (po_blk _ _ _ _ _ _ _ _ _ (Hpo v0)) Hlv) as Hne. unfold propagate1.
        destruct (l_inner P N) as [|i [|i2 q]]; [congruence| |eauto]. destruct (isconvex P (l_dom P i)); [|eauto]. destruct (isconvex P _); eauto. }
      exists r6. split; [exact E6|]. apply omap_forall2 in E6. rewrite Forall_forall. intros N' HN'. destruct (Forall2_in_r _ _ _ _ E6 HN') as (N & HN & E).
      destruct (G3 N HN) as [_ Hpo]. apply (propagate_spec P (Sp v0) (L v0) kinds M false False o HM (fun _ => HSL0 eq_refl) level N N' Eso (Hpo v0) E).
    - exists r5. split; [reflexivity|]. rewrite Forall_forall. intros N HN. apply (G3 N HN). }
  destruct S6 as (r6 & E6 & J3).
  assert (S7 : exists r, returns (fun n => if o_backtrack o && negb (level =? 0) && ((Z.of_nat (level + scalar) <? last)%Z || (last <? 0)%Z) && negb mrg
     then backtrack P (S n) level r6 else Some r6) r).
  { destruct (o_backtrack o && negb (level =? 0) && _ && _); [apply backtrack_total; exact J3|eexists; apply ret_some]. }
  destruct S7 as [r E7]. exists r.
  apply ret_bind with r1; [exact E1|]. rewrite E2. cbn [obind]. fold r3. rewrite E4. cbn [obind].
  apply ret_bind with r5; [exact E5|]. rewrite E6. cbn [obind]. exact E7.
Qed.

Lemma generate_components_total ls : Inv scalar ls -> Forall (fun l => level <= dim (l_dom P l) <= D) ls ->
  exists r, returns (fun n => generate_components P scaldims o (S n) (G n) level scalar (project_all P level ls)) r.
Proof.
  intros HI Hd. unfold generate_components. destruct ((level =? 0) || (length (project_all P level ls) <=? 1)); [apply generate_general_total; assumption|].
  destruct (loop_components_total (fun a b def => inner_loop_follows P scaldims a b level scalar def) (project_all P level ls)) as [cs Ecs]. rewrite Ecs. cbn [obind].
  destruct (ret_oconcat (fun n => generate_general P scaldims o (S n) (G n) level scalar) cs) as [r Hr].
  - intros c Hc. destruct (loop_components_sub _ _ _ _ Ecs Hc) as [Hsub _]. unfold project_all in Hsub. apply Subl_map_inv in Hsub as (lc & -> & Hlc).
    apply generate_general_total; [eapply Inv_subl; eauto|eapply Subl_forall; eauto].
  - eexists. apply ret_bind with r; [exact Hr|]. apply ret_some.
Qed.
End Level.

(** ** scalar dimensions *)
Lemma take_while_app {A} (p : A -> bool) l : fst (take_while p l) ++ snd (take_while p l) = l.
Proof. induction l as [|a l IH]; [reflexivity|]. cbn [take_while]. destruct (p a); [|reflexivity]. destruct (take_while p l) as [g nx]. cbn in *. congruence. Qed.
Lemma groups_total (rec : nat -> list loop -> option (list loop)) level scalar sn all :
  (forall g, g <> [] -> Forall (fun l => more P scaldims level sn l = true) g ->
     (forall a c, In a g -> In c g -> scalar_eq P scaldims level scalar a c = true) -> Subl g all -> exists r, returns (fun n => rec n g) r) ->
  (forall a c d, scalar_eq P scaldims level scalar a c = true -> scalar_eq P scaldims level scalar a d = true -> scalar_eq P scaldims level scalar c d = true) ->
  (forall a, scalar_eq P scaldims level scalar a a = true) ->
  forall fuel ls res pending, Subl ls all -> length ls < fuel -> exists r, returns (fun n => scalar_groups P scaldims fuel (rec n) level scalar sn ls res pending) r.
Proof.
  intros HR Htr Hrefl. induction fuel as [|f IH]; intros ls res pending Hs Hlt; [lia|]. cbn [scalar_groups].
  destruct ls as [|ref rl]; [eexists; apply ret_some|].
  pose proof (take_while_app (fun x => more P scaldims level sn x && scalar_eq P scaldims level scalar ref x) rl) as Happ.
  destruct (take_while (fun x => more P scaldims level sn x && scalar_eq P scaldims level scalar ref x) rl) as [grp next] eqn:Etw. cbn [fst snd] in Happ.
  apply take_while_spec in Etw as (-> & Hgrp & _). cbn [length] in Hlt. rewrite app_length in Hlt.
  assert (Hnx : Subl next all) by (eapply Subl_trans; [|exact Hs]; apply Subl_skip, Subl_app_r, Subl_refl).
  destruct (more P scaldims level sn ref) eqn:Em; [|apply IH; [exact Hnx|lia]].
  assert (Hsg : Subl (ref :: grp) all).
  { eapply Subl_trans; [|exact Hs]. change (ref :: grp ++ next) with ((ref :: grp) ++ next). apply Subl_app_l, Subl_refl. }
  assert (Hge : forall a, In a (ref :: grp) -> scalar_eq P scaldims level scalar ref a = true).
  { intros a [<-|Ha]; [apply Hrefl|]. rewrite Forall_forall in Hgrp. specialize (Hgrp a Ha). apply andb_prop in Hgrp. apply Hgrp. }
  destruct (HR (ref :: grp)) as [l Hl].
  - discriminate.
  - constructor; [exact Em|]. eapply Forall_impl; [|exact Hgrp]. cbn. intros a Ha. apply andb_prop in Ha. apply Ha.
  - intros a c Ha Hc. eapply Htr; apply Hge; assumption.
  - exact Hsg.
  - destruct l as [|a q].
    + destruct (IH next res pending Hnx ltac:(lia)) as [r Hr]. exists r. apply ret_bind with (@nil loop); [exact Hl|]. exact Hr.
    + destruct (IH next (res ++ a :: q) [] Hnx ltac:(lia)) as [r Hr]. exists r. apply ret_bind with (a :: q); [exact Hl|]. exact Hr.
Qed.

(** ** the whole recursion *)
Lemma generate_restricted_rec v n level scalar g res : (level = 0 -> scalar = 0) -> at_pos (level - 1) scalar -> Inv scalar g ->
  (0 < level -> Forall (fun l => more P scaldims level scalar l = true) g) ->
  generate_restricted P scaldims o n level scalar g = Some res ->
  (forall b x, cnts v res b x = cnts v g b x) /\ okl P (Sp v) False (prec kinds M false) (isconvex P) (level - 1) (fun _ => True) res.
Proof.
  apply (generate_restricted_spec P (Sp v) (L v) kinds M false False o HM noO (HSL v) HU (fun E => proj2 (Hst v E)) noO noO noO (HH v) Hstop).
Qed.

Lemma generate_restricted_total D : forall k level scalar ls, nb + D + 1 - (level + scalar) <= k ->
  (level = 0 -> scalar = 0) -> at_pos (level - 1) scalar -> Inv scalar ls -> Forall full ls -> Forall (fun l => dim (l_dom P l) <= D) ls ->
  (0 < level -> Forall (fun l => more P scaldims level scalar l = true) ls) -> ls <> [] ->
  exists r, returns (fun n => generate_restricted P scaldims o n level scalar ls) r.
Proof.
  induction k as [|k IH]; intros level scalar ls Hk H0 Hat HI Hf HD Hm Hne.
  { exfalso. destruct level as [|lv]; [rewrite H0 in Hk by reflexivity; lia|]. specialize (Hm ltac:(lia)). destruct ls as [|l r]; [congruence|].
    inversion Hm as [|? ? Hm1 _]; subst. inversion HD as [|? ? HD1 _]; subst. pose proof (at_pos_le kinds _ _ Hat). pose proof (ct_cf kinds).
    unfold more in Hm1. rewrite (nbs kinds) in Hm1. apply orb_prop in Hm1 as [Hm1|Hm1]; apply Nat.leb_le in Hm1; lia. }
  assert (Hlt : level + scalar <= nb + D).
  { destruct level as [|lv]; [rewrite H0 by reflexivity; lia|]. specialize (Hm ltac:(lia)). destruct ls as [|l r]; [congruence|].
    inversion Hm as [|? ? Hm1 _]; subst. inversion HD as [|? ? HD1 _]; subst. pose proof (at_pos_le kinds _ _ Hat). pose proof (ct_cf kinds).
    unfold more in Hm1. rewrite (nbs kinds) in Hm1. apply orb_prop in Hm1 as [Hm1|Hm1]; apply Nat.leb_le in Hm1; lia. }
  enough (Hgo : exists r, returns (fun n => generate_restricted P scaldims o (S n) level scalar ls) r).
  { destruct Hgo as [r Hr]. exists r. apply ret_shift. exact Hr. }
  cbn [generate_restricted]. destruct (level_is_constant scaldims level scalar) eqn:Ec.
  - (* scalar dimension *)
    destruct level as [|n0]; [discriminate|]. replace (S n0 - 1) with n0 in * by lia. rewrite (level_const kinds M HM) in Ec.
    destruct (scalar_sort_fun P kinds n0 scalar ls Hne) as (sorted & Es & Hperm & _).
    unfold generate_scalar. rewrite Es. cbn [obind]. replace (S n0 + scalar - 1) with (n0 + scalar) by lia.
    set (sn := scalar + scaldim scaldims (n0 + scalar)). unfold scalar_sort in Es.
    pose proof (run_pos kinds M HM n0 _ scalar Hat eq_refl) as Hat'. fold sn in Hat'.
    assert (Hsn : scalar < sn).
    { unfold sn. rewrite (scaldim_eq kinds), Ec. lia. }
    assert (Hsto : ForallOrdPairs (fun a c => seq_ P kinds n0 scalar a c -> Rin kinds false False (key a) (key c)) sorted).
    { eapply bubble_sort_fop; [|exact Es|].
      - intros a b Hgt Hs. apply (gt_spec P kinds M HM) in Hgt. exfalso. exact (seq_slt P kinds M HM _ _ _ _ Hs Hgt).
      - destruct HI as [_ HK]. pose proof (iv_ord _ _ _ _ _ _ HK) as Ho.
        apply FOP_nth. intros i j a b Hij Ha Hb _. pose proof (proj1 (FOP_nth _ _) Ho i j (key a) (key b) Hij) as Hr. rewrite !nth_error_map', Ha, Hb in Hr. auto. }
    assert (Hin : incl sorted ls) by (intros a Ha; eapply Permutation_in; eauto).
    apply (groups_total (fun n => generate_restricted P scaldims o n (S n0) sn) (S n0) scalar sn sorted).
    + intros g Hgn Hgm Hge Hgs.
      assert (Hgi : forall a, In a g -> In a ls) by (intros a Ha; apply Hin; eapply Subl_in; eauto).
      assert (Hgq : forall a c, In a g -> In c g -> seq_ P kinds n0 scalar a c) by (intros a c Ha Hc; apply (eq_spec P kinds M HM); apply Hge; assumption).
      apply IH; auto; try lia.
      * replace (S n0 - 1) with n0 by lia. exact Hat'.
      * destruct HI as [I1 [K1 K2 K3 K4]]. split; [rewrite Forall_forall in *; auto|]. constructor.
        -- rewrite Forall_map, Forall_forall. rewrite Forall_map, Forall_forall in K1. auto.
        -- intros [].
        -- intros k' k'' Hk' Hk'' i Hi. apply in_map_iff in Hk' as (a & <- & Ha). apply in_map_iff in Hk'' as (a' & <- & Ha').
           destruct (Nat.lt_ge_cases i scalar) as [Hl|Hg2]; [apply K3; auto; apply in_map; auto|].
           replace i with (scalar + (i - scalar)) by lia. rewrite <- !blk_scal_key. apply (Hgq a a' Ha Ha'). unfold sn in Hi. lia.
        -- apply FOP_map. eapply FOP_subl in Hsto; [|exact Hgs]. eapply FOP_impl; [|exact Hsto]. intros a a' Ha Ha' Hq. apply Hq. apply Hgq; assumption.
      * rewrite Forall_forall in *. auto.
      * rewrite Forall_forall in *. auto.
    + intros a c d Ha Hc. apply (eq_spec P kinds M HM) in Ha, Hc. apply (eq_spec P kinds M HM). eapply seq_trans; [apply seq_sym; exact Ha|exact Hc].
    + intros a. apply (eq_spec P kinds M HM). intros i _. reflexivity.
    + apply Subl_refl.
    + lia.
  - assert (HP : Pos level scalar).
    { destruct level as [|n0].
      - constructor; [exact Hat|lia].
      - replace (S n0 - 1) with n0 in Hat by lia. rewrite (level_const kinds M HM) in Ec. constructor; [apply at_pos_next; assumption|].
        intros _. replace (S n0 - 1) with n0 by lia. auto. }
    assert (Hd : Forall (fun l => level <= dim (l_dom P l)) ls).
    { destruct level as [|n0]; [rewrite Forall_forall; intros; lia|]. specialize (Hm ltac:(lia)). rewrite Forall_forall in *. intros l Hl. specialize (Hm l Hl).
      unfold more in Hm. apply orb_prop in Hm as [Hm|Hm]; apply Nat.leb_le in Hm; [|exact Hm]. rewrite (nbs kinds) in Hm.
      destruct (ps_prev _ _ _ HP ltac:(lia)) as [Q1 Q2]. replace (S n0 - 1) with n0 in * by lia. pose proof (at_pos_nonscalar kinds n0 scalar Q1 Q2 ltac:(lia)) as Hc.
      destruct HI as [_ HK]. pose proof (iv_dim _ _ _ _ _ _ HK) as Hdm. rewrite Forall_map, Forall_forall in Hdm. specialize (Hdm l Hl). cbn in Hdm. lia. }
    assert (Hrs : forall n ctx g, restricted_or_stop P o (generate_restricted P scaldims o n) ctx (S level) scalar g = generate_restricted P scaldims o n (S level) scalar g).
    { intros n ctx g. unfold restricted_or_stop. pose proof Hstop. destruct (Z.leb_spec 0 (o_stop o)) as [Hs|_]; [lia|]. reflexivity. }
    apply (generate_components_total (fun n => restricted_or_stop P o (generate_restricted P scaldims o n)) level scalar D H0 HP); auto.
    + intros v n ctx g rs HIg Hmg Hgn Hg. rewrite Hrs in Hg.
      pose proof (generate_restricted_rec v n (S level) scalar g rs) as Hrr. replace (S level - 1) with level in Hrr by lia. apply Hrr; auto; [discriminate|apply (ps_at _ _ _ HP)].
    + intros ctx g HIg Hfg HDg Hmg Hgn. destruct (IH (S level) scalar g) as [r Hr]; auto; try lia.
      * replace (S level - 1) with level by lia. apply (ps_at _ _ _ HP).
      * exists r. eapply ret_ext; [|exact Hr]. intros n. apply Hrs.
    + rewrite Forall_forall in *. intros l Hl. split; auto.
Qed.

Lemma generate_total ctx ls : dim ctx = 0 -> Inv 0 ls -> exists r, returns (fun n => generate P scaldims o n ctx ls) r.
Proof.
  intros Hd [H1 H2]. unfold generate. destruct (restrict_all_leaf P (Sp v0) (L v0) ctx ls H1) as (R1 & R2 & _). { rewrite Forall_forall. intros; rewrite Hd; lia. }
  pose proof (restrict_full ctx ls) as Hf. destruct (restrict_all P ctx ls) as [|l r] eqn:E; [eexists; apply ret_some|].
  assert (HD : exists D, Forall (fun l => dim (l_dom P l) <= D) (l :: r)).
  { clear. generalize (l :: r). intros q. induction q as [|a q [D HD]]; [exists 0; constructor|]. exists (Nat.max D (dim (l_dom P a))). constructor; [lia|].
    eapply Forall_impl; [|exact HD]. cbn. lia. }
  destruct HD as [D HD]. destruct (generate_restricted_total D _ 0 0 (l :: r) (le_n _)) as [s Hs]; auto; try lia.
  - unfold LoopKeys.at_pos. reflexivity.
  - split; [exact R1|]. eapply InvK_subl; [exact R2|exact H2].
  - discriminate.
  - exists s. eapply ret_ext; [|exact Hs]. intros n. unfold restricted_or_stop. pose proof Hstop. destruct (Z.leb_spec 0 (o_stop o)) as [Hx|_]; [lia|]. reflexivity.
Qed.

(** ** simplification *)
Lemma simplify1_total l : forall ctx, exists r, returns (fun n => simplify1 P n ctx l) r.
Proof.
  induction l as [d ot st blk inner IH] using loop_ind'. intros ctx. cbn [simplify1]. set (d1 := if isconvex P d then d else simplify_union P d).
  assert (Hp : exists parts, returns (fun n => if isconvex P d1 then Some [(d1, ot, st)] else obind (pieces P n d1) (fun ds => Some (map (fun x => (x, false, None)) ds))) parts).
  { destruct (isconvex P d1) eqn:Ec; [eexists; apply ret_some|]. destruct (pieces_total P V v0 Sp nparts L TL d1 Ec) as [r Hr]. eexists.
    apply ret_bind with r; [exact Hr|]. apply ret_some. }
  destruct Hp as [parts Hparts].
  match goal with |- exists r, returns (fun n => obind _ (fun parts => oconcat (@?f n) parts)) r =>
    enough (Hq : exists r, returns (fun n => oconcat (f n) parts) r); [destruct Hq as [r Hr]; exists r; apply ret_bind with parts; [exact Hparts|exact Hr]|] end.
  apply ret_oconcat. intros [[x ot'] st'] _. cbv zeta.
  set (inter := intersection P x (extend P ctx (dim x))). set (simp := gist P x (extend P ctx (dim x))).
  destruct (never_integral P simp); [eexists; apply ret_some|].
  assert (Hin : exists ins, returns (fun n => (fix go (ls : list loop) : option (list loop) :=
                     match ls with [] => Some [] | a :: r => obind (simplify1 P n inter a) (fun x => obind (go r) (fun y => Some (x ++ y))) end) inner) ins).
  { clear - IH. induction IH as [|a q Ha _ IHq]; [eexists; apply ret_some|]. destruct (Ha inter) as [ra Hra]. destruct IHq as [rq Hrq]. exists (ra ++ rq).
    apply ret_bind with ra; [exact Hra|]. apply ret_bind with rq; [exact Hrq|]. apply ret_some. }
  destruct Hin as [ins Hins]. destruct ins as [|i q].
  - destruct blk; eexists; (apply ret_bind with (@nil loop); [exact Hins|]); apply ret_some.
  - eexists. apply ret_bind with (i :: q); [exact Hins|]. apply ret_some.
Qed.
Lemma program_generate_total ctx ls : dim ctx = 0 -> statement_loops P kinds ls -> depth_order P kinds ls ->
  exists r, returns (fun n => program_generate P scaldims o n ctx ls) r.
Proof.
  intros Hd H1 H2. unfold program_generate. pose proof (input_inv P kinds M false False HM ls H1 H2 noO noO) as HI.
  destruct ls as [|l0 r0] eqn:Els; [eexists; apply ret_some|]. rewrite <- Els in *.
  destruct (generate_total ctx ls Hd HI) as [r Hr].
  assert (Hs : exists s, returns (fun n => if o_nosimplify o then Some r else simplify P n ctx r) s).
  { destruct (o_nosimplify o); [eexists; apply ret_some|]. unfold simplify. apply ret_oconcat. intros l _. apply simplify1_total. }
  destruct Hs as [s Hs]. exists s. apply ret_bind with r; assumption.
Qed.
End Total.
