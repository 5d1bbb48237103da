(** cloog_program_alloc returns when all statements have scatterings of the same number of
    dimensions. *)
From Coq Require Import ZArith List Bool Arith Lia.
From Verif Require Import LoopModel LoopSpec ProgramModel ProgramSpec ProgramLoopBlock.
Import ListNotations.
Local Open Scope nat_scope.
Local Arguments Nat.ltb : simpl never.
Local Arguments Nat.leb : simpl never.
Local Arguments Nat.eqb : simpl never.
Local Arguments Nat.sub : simpl never.

Section Alloc.
Variable P : Poly.
Variable Se : Sem P.
Variable C : Scat P.
Variable rel : ScatSem C.
Hypothesis CL : ScatLaws P Se C rel.
Hypothesis Herase : forall s k i, s_scalar C s k <> None -> i < k -> s_scalar C s i <> None -> s_scalar C (s_erase C s k) i <> None.

Lemma scan_total : forall ls ss dl ds start sstart dref sref, length ls = length ss -> length dl = length ds ->
  exists ls' ss', block_scan P C dl ds start sstart dref sref ls ss = Some (ls', ss') /\ length ls' = length ss' /\ ls' <> [] /\
    incl ss' (ds ++ sstart :: ss).
Proof.
  induction ls as [|l ls IH]; intros [|s ss] dl ds start sstart dref sref Hl Hd; try discriminate; cbn.
  - eexists _, _. split; [reflexivity|]. rewrite !app_length. cbn. split; [lia|]. split; [destruct dl; discriminate|]. apply incl_refl.
  - destruct (lazy_equal P dref (pl_dom P l) && lazy_block P C sref s (ds ++ sstart :: s :: ss)).
    + destruct (IH ss dl ds (merge_loop P start l) sstart (pl_dom P l) s) as (ls' & ss' & E & H1 & H2 & H3); [cbn in Hl; lia|exact Hd|].
      exists ls', ss'. split; [exact E|]. split; [exact H1|]. split; [exact H2|]. intros x Hx. apply H3 in Hx. rewrite in_app_iff in *. cbn in *. tauto.
    + destruct (IH ss (dl ++ [start]) (ds ++ [sstart]) l s (pl_dom P l) s) as (ls' & ss' & E & H1 & H2 & H3); [cbn in Hl; lia|rewrite !app_length; cbn; lia|].
      exists ls', ss'. split; [exact E|]. split; [exact H1|]. split; [exact H2|]. intros x Hx. apply H3 in Hx. rewrite <- app_assoc in Hx. exact Hx.
Qed.
Lemma block_total ls ss : ls <> [] -> length ls = length ss ->
  exists ls' ss', program_block P C ls ss = Some (ls', ss') /\ length ls' = length ss' /\ ls' <> [] /\ incl ss' ss.
Proof.
  intros Hne Hl. unfold program_block. destruct ls as [|l [|l' ls]]; [congruence| |].
  - eexists _, _. split; [reflexivity|]. split; [exact Hl|]. split; [discriminate|apply incl_refl].
  - destruct ss as [|s ss]; [discriminate|]. apply (scan_total (l' :: ls) ss [] []); [cbn in *; lia|reflexivity].
Qed.

Lemma fill_total i : forall ls ss, length ls = length ss -> Forall (fun l => pl_scal P l <> None) ls -> Forall (fun s => s_scalar C s i <> None) ss ->
  exists ls', fill_scalars P C i ls ss = Some ls' /\ length ls' = length ls /\ Forall (fun l => pl_scal P l <> None) ls'.
Proof.
  induction ls as [|l ls IH]; intros [|s ss] Hl H1 H2; try discriminate; cbn; [eauto|].
  inversion H1 as [|? ? A1 A2]; inversion H2 as [|? ? B1 B2]; subst. destruct (IH ss) as (r & E & F1 & F2); [cbn in Hl; lia|exact A2|exact B2|].
  destruct (s_scalar C s i) as [v|]; [|congruence]. destruct (pl_scal P l) as [vs|]; [|congruence]. rewrite E.
  eexists. split; [reflexivity|]. split; [cbn; lia|]. constructor; [discriminate|exact F2].
Qed.
Lemma extract_total kinds : forall n ls ss m, length ls = length ss -> Forall (fun l => pl_scal P l <> None) ls ->
  (forall s i, In s ss -> i < n -> nth i kinds false = true -> s_scalar C s i <> None) -> (forall s, In s ss -> s_dim C s = m) ->
  exists ls' ss' m', extract_from P C kinds n ls ss = Some (ls', ss') /\ length ls' = length ls /\ length ss' = length ss /\
    (forall s, In s ss' -> s_dim C s = m').
Proof.
  induction n as [|n IH]; intros ls ss m Hl H1 H2 H3; cbn [extract_from]; [eexists _, _, _; eauto|].
  destruct (nth n kinds false) eqn:En.
  - assert (Hs : Forall (fun s => s_scalar C s n <> None) ss) by (apply Forall_forall; intros s Hs; apply H2; auto).
    destruct (fill_total n ls ss Hl H1 Hs) as (ls1 & -> & F1 & F2). rewrite Forall_forall in Hs.
    destruct (IH ls1 (map (fun s => s_erase C s n) ss) (m - 1)) as (ls' & ss' & m' & E & G1 & G2 & G3).
    + rewrite map_length. lia.
    + exact F2.
    + intros s i Hi Hin Hk. apply in_map_iff in Hi as (s0 & <- & Hi). apply Herase; [apply Hs; exact Hi|exact Hin|]. apply H2; auto.
    + intros s Hi. apply in_map_iff in Hi as (s0 & <- & Hi). rewrite <- (H3 s0 Hi). apply (SC_erase_dim _ _ _ _ CL).
      specialize (Hs s0 Hi). destruct (s_scalar C s0 n) as [v|] eqn:Ev; [|congruence]. apply (SC_scalar _ _ _ _ CL _ _ _ Ev).
    + rewrite E. rewrite map_length in G2. eexists _, _, _. split; [reflexivity|]. split; [lia|]. split; [exact G2|exact G3].
  - destruct (IH ls ss m) as (ls' & ss' & m' & E & G); auto. eauto 6.
Qed.
Lemma scalars_total nb ls ss m : length ls = length ss -> (forall s, In s ss -> s_dim C s = m) ->
  exists sd ls' ss' m', extract_scalars P C nb ls ss = Some (sd, ls', ss') /\ length ls' = length ls /\ length ss' = length ss /\
    (forall s, In s ss' -> s_dim C s = m').
Proof.
  intros Hl Hm. unfold extract_scalars. cbv zeta. destruct (existsb (fun k => k) (scalar_dims P C nb ss)); [|eexists _, _, _, _; eauto].
  destruct (extract_total (scalar_dims P C nb ss) nb (map (fun l => {| pl_dom := pl_dom P l; pl_stmts := pl_stmts P l; pl_scal := Some [] |}) ls) ss m)
    as (ls' & ss' & m' & E & G1 & G2 & G3).
  - rewrite map_length. exact Hl.
  - apply Forall_forall. intros l Hi. apply in_map_iff in Hi as (l0 & <- & _). discriminate.
  - intros s i Hs Hi Hk. unfold scalar_dims in Hk.
    rewrite (nth_indep _ false (forallb (fun s => is_some (s_scalar C s 0)) ss)) in Hk by (rewrite map_length, seq_length; exact Hi).
    rewrite (map_nth (fun i => forallb (fun s => is_some (s_scalar C s i)) ss)) in Hk. rewrite seq_nth in Hk by exact Hi.
    rewrite forallb_forall in Hk. specialize (Hk s Hs). cbn in Hk. destruct (s_scalar C s i); [discriminate|discriminate Hk].
  - exact Hm.
  - rewrite E. rewrite map_length in G1. eexists _, _, _, _. eauto.
Qed.
Lemma scatter_total n : forall ls ss, (forall s, In s ss -> s_dim C s = n) ->
  exists ls', scatter_rest P C n ls ss = Some ls' /\ length ls' = length ls.
Proof.
  induction ls as [|l ls IH]; intros ss H; [destruct ss; eexists; split; reflexivity|]. destruct ss as [|s ss]; [eexists; split; reflexivity|]. cbn [scatter_rest].
  rewrite (H s (or_introl eq_refl)), Nat.eqb_refl. destruct (IH ss) as (r & -> & E); [intros x Hx; apply H; right; exact Hx|].
  eexists. split; [reflexivity|]. cbn. lia.
Qed.
Lemma same_as_len sd b ls aft t a r : same_as P sd b aft ls = (t, a, r) -> length r <= length ls.
Proof. intros H. apply same_as_spec in H as (-> & _). rewrite app_length. lia. Qed.
Lemma groups_total sd : forall fuel aft ls, length ls < fuel -> exists r, block_groups P fuel sd aft ls = Some r.
Proof.
  induction fuel as [|f IH]; intros aft ls H; [lia|]. destruct ls as [|b r]; [eexists; reflexivity|]. cbn [block_groups]. cbv zeta. cbn [length] in H.
  assert (K : exists k, match block_groups P f sd match next_scal_cmp P b r with Lt => true | _ => false end r with
                        | Some r' => Some (b :: r') | None => None end = Some k).
  { edestruct (IH match next_scal_cmp P b r with Lt => true | _ => false end r) as (k & ->); [lia|]. eauto. }
  destruct (negb aft); [exact K|]. destruct (same_as P sd b _ r) as [[t a] r'] eqn:Es. destruct t as [|x t]; [exact K|]. destruct a; [|exact K].
  apply same_as_len in Es. edestruct (IH match next_scal_cmp P b r' with Lt => true | _ => false end r') as (k & ->); [lia|]. eauto.
Qed.
Lemma loop_block_total sd ls : ls <> [] -> exists r, loop_block P sd ls = Some r.
Proof.
  intros H. unfold loop_block. destruct ls as [|l [|l' ls]]; [congruence|eauto|]. destruct (increasing P (l :: l' :: ls)); [|eauto]. apply groups_total. lia.
Qed.

Lemma from_domains_len ds : forall i, length (from_domains P i ds) = length ds.
Proof. induction ds as [|d ds IH]; intros i; cbn; [reflexivity|]. rewrite IH. reflexivity. Qed.
Theorem alloc_total ao input n : input <> [] -> (forall x, In x input -> s_dim C (snd x) = n) ->
  exists sd ls, program_alloc P C ao (all_scattered input) = Some (sd, ls).
Proof.
  intros Hne Hn. unfold program_alloc.
  assert (E1 : map fst (all_scattered input) = map fst input) by (unfold all_scattered; rewrite map_map; reflexivity).
  assert (E2 : flat_map (fun x : dom P * option (smap C) => match snd x with Some s => [s] | None => [] end) (all_scattered input) = map snd input).
  { unfold all_scattered. clear. induction input as [|x r IH]; cbn; [reflexivity|]. now rewrite IH. }
  rewrite E1, E2. set (ls := from_domains P 0 (map fst input)). set (ss := map snd input).
  assert (Hl : length ls = length ss) by (unfold ls, ss; rewrite from_domains_len, !map_length; reflexivity).
  assert (Hs : forall s, In s ss -> s_dim C s = n) by (intros s Hi; apply in_map_iff in Hi as (x & <- & Hi); auto).
  assert (Hne' : ls <> []) by (intros E; rewrite E in Hl; unfold ss in Hl; rewrite map_length in Hl; destruct input; [congruence|discriminate]).
  destruct ss as [|s0 r0] eqn:Ess; [destruct ls; [congruence|discriminate]|]. rewrite <- Ess in *. clear Ess.
  assert (B : exists ls1 ss1, (if a_noblocks ao then Some (ls, ss) else program_block P C ls ss) = Some (ls1, ss1) /\
    length ls1 = length ss1 /\ ls1 <> [] /\ incl ss1 ss).
  { destruct (a_noblocks ao); [eexists _, _; split; [reflexivity|]; split; [exact Hl|]; split; [exact Hne'|apply incl_refl]|apply block_total; assumption]. }
  destruct B as (ls1 & ss1 & -> & B1 & B2 & B3).
  assert (Hs1 : forall s, In s ss1 -> s_dim C s = n) by (intros s Hi; apply Hs, B3, Hi).
  assert (X : exists sd ls2 ss2 m, (if a_noscalars ao then Some (repeat 0 (s_dim C s0), ls1, ss1) else extract_scalars P C (s_dim C s0) ls1 ss1) = Some (sd, ls2, ss2) /\
    length ls2 = length ls1 /\ length ss2 = length ss1 /\ (forall s, In s ss2 -> s_dim C s = m)).
  { destruct (a_noscalars ao); [eexists _, _, _, _; eauto|]. eapply scalars_total; eauto. }
  destruct X as (sd & ls2 & ss2 & m & -> & X1 & X2 & X3).
  assert (Hne2 : ls2 <> []) by (intros ->; destruct ls1; [congruence|discriminate]).
  assert (Y : exists ls3, program_scatter P C ls2 ss2 = Some ls3 /\ length ls3 = length ls2).
  { unfold program_scatter. destruct ss2 as [|s2 r2]; [eauto|]. destruct ls2 as [|l2 q2] eqn:E; [congruence|]. rewrite <- E.
    rewrite (X3 s2 (or_introl eq_refl)). apply scatter_total. exact X3. }
  destruct Y as (ls3 & -> & Y1).
  assert (Hne3 : ls3 <> []) by (intros ->; destruct ls2; [congruence|discriminate]).
  destruct (a_noblocks ao); [eauto|]. destruct (loop_block_total sd ls3 Hne3) as (r & ->). eauto.
Qed.
End Alloc.
