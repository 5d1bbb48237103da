(** Scalar extraction and scattering: the dates of the statements are kept. *)
From Coq Require Import ZArith List Bool Arith Lia.
From Verif Require Import LoopModel LoopSpec LoopKeys ProgramModel ProgramSpec.
Import ListNotations.
Local Open Scope nat_scope.
Local Arguments Nat.ltb : simpl never.
Local Arguments Nat.leb : simpl never.
Local Arguments Nat.eqb : simpl never.
Local Arguments Nat.sub : simpl never.

(** * Run lengths *)
Lemma leading_flags : forall ks, leading_nonzero (map (fun k : bool => if k then 1 else 0) ks) = leading ks.
Proof. induction ks as [|[] ks IH]; cbn; [reflexivity| |reflexivity]. now rewrite IH. Qed.
Lemma leading_runs : forall ks, hd 0 (run_lengths ks) = leading ks.
Proof.
  induction ks as [|[] ks IH]; cbn; try reflexivity.
  destruct (run_lengths ks) as [|r rs] eqn:E.
  - cbn. destruct ks as [|[] ks']; cbn in *; try reflexivity; destruct (run_lengths ks'); discriminate.
  - cbn in *. now rewrite IH.
Qed.
Lemma count_runs_flags : forall ks, count_runs (map (fun k : bool => if k then 1 else 0) ks) = run_lengths ks.
Proof.
  induction ks as [|[] ks IH]; cbn; [reflexivity| |].
  - rewrite IH, leading_flags, <- leading_runs. destruct (run_lengths ks) as [|r rs]; reflexivity.
  - now rewrite IH.
Qed.
Lemma run_lengths_false : forall n, run_lengths (repeat false n) = repeat 0 n.
Proof. induction n; cbn; congruence. Qed.
Lemma flags_no_scalar : forall ks, existsb (fun k => k) ks = false ->
  map (fun k : bool => if k then 1 else 0) ks = run_lengths ks /\ ks = repeat false (length ks).
Proof.
  induction ks as [|[] ks IH]; cbn; intros H; [split; reflexivity|discriminate|].
  destruct (IH H) as [H1 H2]. split; [now rewrite H1|now rewrite <- H2].
Qed.
Lemma scanned_runs : forall ks, scanned (run_lengths ks) = nonscalar ks.
Proof.
  unfold scanned, nonscalar. induction ks as [|[] ks IH]; [reflexivity| |].
  - transitivity (length (filter (fun r : nat => r =? 0) (run_lengths ks))); [|exact IH].
    cbn [run_lengths]. destruct (run_lengths ks) as [|r rs]; reflexivity.
  - cbn [run_lengths]. transitivity (Datatypes.S (length (filter (fun r : nat => r =? 0) (run_lengths ks)))); [reflexivity|].
    cbn. now rewrite IH.
Qed.

(** * Dates *)
Lemma date_app : forall ks ks' sc sc' u u', length sc = nscalar ks -> length u = nonscalar ks ->
  date (ks ++ ks') (sc ++ sc') (u ++ u') = date ks sc u ++ date ks' sc' u'.
Proof.
  induction ks as [|[] ks IH]; intros ks' sc sc' u u' H1 H2; cbn in *.
  - destruct sc, u; try discriminate. reflexivity.
  - destruct sc; [discriminate|]. cbn. rewrite IH; auto.
  - destruct u; [discriminate|]. cbn. rewrite IH; auto.
Qed.
Lemma date_length : forall ks sc u, length sc = nscalar ks -> length u = nonscalar ks -> length (date ks sc u) = length ks.
Proof.
  induction ks as [|[] ks IH]; intros sc u H1 H2; cbn in *.
  - destruct u; [reflexivity|discriminate].
  - destruct sc; [discriminate|]. cbn. rewrite IH; auto.
  - destruct u; [discriminate|]. cbn. rewrite IH; auto.
Qed.
Lemma date_inj : forall ks sc u u', length u = nonscalar ks -> length u' = nonscalar ks ->
  date ks sc u = date ks sc u' -> u = u'.
Proof.
  induction ks as [|[] ks IH]; intros sc u u' H1 H2 H; cbn in *.
  - exact H.
  - injection H. intros. eapply IH; eauto.
  - destruct u, u'; try discriminate. injection H. intros H3 ->. f_equal. eapply IH; eauto.
Qed.
Lemma date_false : forall n sc u, length u = n -> date (repeat false n) sc u = u.
Proof. induction n; intros sc [|x u] H; cbn in *; try discriminate; [reflexivity|]. rewrite IHn; auto. Qed.
Lemma nonscalar_false : forall n, nonscalar (repeat false n) = n.
Proof. unfold nonscalar. induction n; cbn; auto. Qed.

Section S.
Variable P : Poly.
Variable S : Sem P.
Variable C : Scat P.
Variable rel : ScatSem C.
Hypothesis CL : ScatLaws P S C rel.

(** [ls']/[ss'] are [ls]/[ss] with the scalar dimensions of [suf], the last dimensions,
    moved to the loops; [n] dimensions are not looked at yet. *)
Definition moved1 (n : nat) (suf : list bool) (l : ploop P) (s : smap C) (l' : ploop P) (s' : smap C) : Prop :=
  pl_dom P l' = pl_dom P l /\ pl_stmts P l' = pl_stmts P l /\
  (exists sc, pl_scal P l' = Some sc /\ length sc = nscalar suf /\
    (s_dim C s = n + length suf <-> s_dim C s' = n + nonscalar suf) /\
    (s_dim C s = n + length suf ->
      (forall u1 u2 i, length u1 = n -> length u2 = nonscalar suf ->
         rel s' (u1 ++ u2) i = rel s (u1 ++ date suf sc u2) i) /\
      (forall t i, rel s t i = true -> exists u1 u2, length u1 = n /\ length u2 = nonscalar suf /\ t = u1 ++ date suf sc u2))).

Inductive moved (n : nat) (suf : list bool) : list (ploop P) -> list (smap C) -> list (ploop P) -> list (smap C) -> Prop :=
| Mv_nil : forall ss, moved n suf [] ss [] ss
| Mv_cons : forall l s l' s' ls ss ls' ss', moved1 n suf l s l' s' -> moved n suf ls ss ls' ss' ->
    moved n suf (l :: ls) (s :: ss) (l' :: ls') (s' :: ss').

Lemma moved1_skip : forall n suf l s l' s', moved1 (Datatypes.S n) suf l s l' s' -> moved1 n (false :: suf) l s l' s'.
Proof.
  intros n suf l s l' s' (H1 & H2 & sc & H3 & H4 & H5 & H6). split; [exact H1|]. split; [exact H2|].
  exists sc. split; [exact H3|]. split; [exact H4|].
  change (nonscalar (false :: suf)) with (1 + nonscalar suf). change (length (false :: suf)) with (1 + length suf).
  split; [split; intros; [replace (n + (1 + nonscalar suf)) with (Datatypes.S n + nonscalar suf) by lia; apply H5; lia
                         |replace (n + (1 + length suf)) with (Datatypes.S n + length suf) by lia; apply H5; lia]|].
  intros Hd. destruct H6 as [H6 H7]; [lia|]. split.
  - intros u1 u2 i L1 L2. destruct u2 as [|x u2]; [discriminate|]. cbn in *.
    specialize (H6 (u1 ++ [x]) u2 i). rewrite <- !app_assoc in H6. cbn in H6. apply H6; rewrite ?app_length; cbn; lia.
  - intros t i Ht. destruct (H7 t i Ht) as (u1 & u2 & L1 & L2 & ->).
    destruct (@exists_last _ u1) as (v & x & ->); [destruct u1; [discriminate|congruence]|].
    rewrite app_length in L1. cbn in L1. exists v, (x :: u2). cbn. split; [lia|]. split; [lia|].
    rewrite <- app_assoc. reflexivity.
Qed.

Lemma moved1_scalar : forall n suf l s l' s' v sc, moved1 (Datatypes.S n) suf l s l' s' ->
  s_scalar C s' n = Some v -> pl_scal P l' = Some sc ->
  moved1 n (true :: suf) l s {| pl_dom := pl_dom P l'; pl_stmts := pl_stmts P l'; pl_scal := Some (v :: sc) |} (s_erase C s' n).
Proof.
  intros n suf l s l' s' v sc0 (H1 & H2 & sc & H3 & H4 & H5 & H6) Hv Hsc. rewrite H3 in Hsc. injection Hsc as <-.
  split; [exact H1|]. split; [exact H2|].
  exists (v :: sc). split; [reflexivity|]. split; [cbn; unfold nscalar in *; cbn; lia|].
  change (nonscalar (true :: suf)) with (nonscalar suf). change (length (true :: suf)) with (1 + length suf).
  destruct (SC_scalar _ _ _ _ CL _ _ _ Hv) as [Hn Hval].
  pose proof (SC_erase_dim _ _ _ _ CL _ _ Hn) as Hed.
  split; [split; intros; [assert (s_dim C s' = Datatypes.S n + nonscalar suf) by (apply H5; lia); lia
                         |assert (s_dim C s = Datatypes.S n + length suf) by (apply H5; lia); lia]|].
  intros Hd. assert (Hd' : s_dim C s = Datatypes.S n + length suf) by lia.
  destruct (H6 Hd') as [H7 H8]. apply H5 in Hd'. split.
  - intros u1 u2 i L1 L2. rewrite (SC_erase _ _ _ _ CL _ _ v); [|exact Hv|rewrite app_length; lia].
    replace (firstn n (u1 ++ u2)) with u1 by (rewrite firstn_app, <- L1, firstn_all, Nat.sub_diag, firstn_O, app_nil_r; reflexivity).
    replace (skipn n (u1 ++ u2)) with u2 by (rewrite skipn_app, <- L1, skipn_all, Nat.sub_diag; reflexivity).
    specialize (H7 (u1 ++ [v]) u2 i). rewrite <- !app_assoc in H7. cbn in H7. apply H7; rewrite ?app_length; cbn; lia.
  - intros t i Ht. destruct (H8 t i Ht) as (u1 & u2 & L1 & L2 & ->).
    destruct (@exists_last _ u1) as (w & x & ->); [destruct u1; [discriminate|congruence]|].
    rewrite app_length in L1. cbn in L1.
    assert (x = v).
    { rewrite <- (H7 (w ++ [x]) u2 i) in Ht; [|rewrite app_length; cbn; lia|exact L2].
      apply Hval in Ht. rewrite <- Ht, <- app_assoc, app_nth2 by lia. replace (n - length w) with 0 by lia. reflexivity. }
    subst x. exists w, u2. split; [lia|]. split; [exact L2|]. rewrite <- app_assoc. reflexivity.
Qed.

Lemma fill_moved : forall n suf ls ss ls' ss', moved (Datatypes.S n) suf ls ss ls' ss' ->
  forall ls2, fill_scalars P C n ls' ss' = Some ls2 ->
  moved n (true :: suf) ls ss ls2 (firstn (length ls2) (map (fun s => s_erase C s n) ss') ++ skipn (length ls2) ss').
Proof.
  intros n suf ls ss ls' ss' H. induction H as [ss|l s l' s' ls ss ls' ss' H1 H2 IH]; intros ls2 Hf; cbn in Hf.
  - injection Hf as <-. cbn. constructor.
  - destruct (s_scalar C s' n) as [v|] eqn:Ev; [|discriminate].
    destruct (pl_scal P l') as [vs|] eqn:Es; [|discriminate].
    destruct (fill_scalars P C n ls' ss') as [r|] eqn:Er; [|discriminate]. injection Hf as <-.
    cbn. constructor; [|apply IH; reflexivity]. apply moved1_scalar; auto.
Qed.
Lemma moved_skip : forall n suf ls ss ls' ss', moved (Datatypes.S n) suf ls ss ls' ss' -> moved n (false :: suf) ls ss ls' ss'.
Proof. intros n suf ls ss ls' ss' H. induction H; constructor; auto using moved1_skip. Qed.
Lemma moved_len : forall n suf ls ss ls' ss', moved n suf ls ss ls' ss' -> length ls = length ls' /\ length ss = length ss'.
Proof. intros n suf ls ss ls' ss' H. induction H; cbn; intuition lia. Qed.
Lemma fill_length : forall n ls ss ls', fill_scalars P C n ls ss = Some ls' -> length ls' = length ls.
Proof.
  induction ls as [|l ls IH]; intros ss ls' H; cbn in H; [injection H as <-; reflexivity|].
  destruct ss as [|s ss]; [discriminate|]. destruct (s_scalar C s n); [|discriminate]. destruct (pl_scal P l); [|discriminate].
  destruct (fill_scalars P C n ls ss) as [r|] eqn:E; [|discriminate]. injection H as <-. cbn. f_equal. eauto.
Qed.

Lemma extract_moved : forall kinds n ls0 ss0 ls ss ls' ss', length ls0 = length ss0 -> n <= length kinds ->
  moved n (skipn n kinds) ls0 ss0 ls ss -> extract_from P C kinds n ls ss = Some (ls', ss') ->
  moved 0 kinds ls0 ss0 ls' ss'.
Proof.
  induction n as [|n IH]; intros ls0 ss0 ls ss ls' ss' Hlen Hn Hm H; cbn in H.
  - injection H as <- <-. exact Hm.
  - assert (Hs : skipn n kinds = nth n kinds false :: skipn (Datatypes.S n) kinds).
    { clear - Hn. revert n Hn. induction kinds as [|k ks IHk]; intros [|n] Hn; cbn in *; try lia; [reflexivity|]. apply IHk. lia. }
    destruct (nth n kinds false) eqn:En.
    + destruct (fill_scalars P C n ls ss) as [ls2|] eqn:Ef; [|discriminate].
      eapply IH; [exact Hlen|lia| |exact H]. rewrite Hs.
      pose proof (fill_moved _ _ _ _ _ _ Hm _ Ef) as Hf. apply fill_length in Ef. destruct (moved_len _ _ _ _ _ _ Hm) as [E1 E2].
      rewrite firstn_all2 in Hf by (rewrite map_length; lia). rewrite (skipn_all2 ss) in Hf by lia. rewrite app_nil_r in Hf. exact Hf.
    + eapply IH; [exact Hlen|lia| |exact H]. rewrite Hs. apply moved_skip. exact Hm.
Qed.

Lemma moved_start : forall nb ls ss, length ls = length ss ->
  moved nb [] ls ss (map (fun l => {| pl_dom := pl_dom P l; pl_stmts := pl_stmts P l; pl_scal := Some [] |}) ls) ss.
Proof.
  induction ls as [|l ls IH]; intros [|s ss] H; try discriminate; cbn; constructor; auto.
  split; [reflexivity|]. split; [reflexivity|]. exists []. split; [reflexivity|]. split; [reflexivity|].
  cbn. unfold nonscalar. cbn. split; [tauto|]. intros Hd. split.
  - intros u1 [|x u2] i L1 L2; [reflexivity|discriminate].
  - intros t i Ht. apply (SC_len _ _ _ _ CL) in Ht. exists t, []. rewrite app_nil_r. repeat split; lia.
Qed.

(** A loop of the program and its scattering: statement numbers, and when it runs. *)
Definition same_dates (kinds : list bool) (l : ploop P) (s : smap C) (l' : ploop P) : Prop :=
  pl_stmts P l' = pl_stmts P l /\ length (scals P l') = nscalar kinds /\
  dim P (pl_dom P l') = nonscalar kinds + dim P (pl_dom P l) /\ s_dim C s = length kinds /\
  (forall u i, length u = nonscalar kinds ->
     mem S (pl_dom P l') (u ++ i) = rel s (date kinds (scals P l') u) i && mem S (pl_dom P l) i) /\
  (forall t i, rel s t i = true -> exists u, length u = nonscalar kinds /\ t = date kinds (scals P l') u).

Inductive same_dates_all (kinds : list bool) : list (ploop P) -> list (smap C) -> list (ploop P) -> Prop :=
| SD_nil : same_dates_all kinds [] [] []
| SD_cons : forall l s l' ls ss ls', same_dates kinds l s l' -> same_dates_all kinds ls ss ls' ->
    same_dates_all kinds (l :: ls) (s :: ss) (l' :: ls').

Lemma scatter_moved : forall kinds n ls ss ls1 ss1 ls2, n = nonscalar kinds -> length ls = length ss ->
  moved 0 kinds ls ss ls1 ss1 -> scatter_rest P C n ls1 ss1 = Some ls2 -> same_dates_all kinds ls ss ls2.
Proof.
  intros kinds n ls ss ls1 ss1 ls2 Hn Hlen H. revert Hlen ls2.
  induction H as [ss|l s l' s' ls ss ls' ss' H1 H2 IH]; intros Hlen ls2 Hf.
  - destruct ss; [|discriminate]. injection Hf as <-. constructor.
  - cbn in Hf. destruct (Nat.eqb_spec (s_dim C s') n) as [Hd|]; [|discriminate].
    destruct (scatter_rest P C n ls' ss') as [r|] eqn:Er; [|discriminate]. injection Hf as <-.
    constructor; [|apply IH; [cbn in Hlen; lia|reflexivity]].
    destruct H1 as (E1 & E2 & sc & E3 & E4 & E5 & E6). cbn in E5, E6.
    assert (Hs : s_dim C s = length kinds) by (apply E5; lia). destruct (E6 Hs) as [E7 E8].
    repeat split; cbn.
    + exact E2.
    + unfold scals. cbn. rewrite E3. exact E4.
    + rewrite (SC_scatter_dim _ _ _ _ CL), E1. lia.
    + exact Hs.
    + intros u i Hu. rewrite (SC_scatter _ _ _ _ CL) by lia. rewrite E1. f_equal.
      unfold scals. cbn. rewrite E3. apply (E7 [] u i); [reflexivity|exact Hu].
    + intros t i Ht. destruct (E8 t i Ht) as (u1 & u2 & L1 & L2 & ->). destruct u1; [|discriminate].
      exists u2. split; [exact L2|]. unfold scals. cbn. rewrite E3. reflexivity.
Qed.

Lemma scatter_plain : forall n ls ss ls2, length ls = length ss -> Forall (fun l => pl_scal P l = None) ls ->
  scatter_rest P C n ls ss = Some ls2 -> same_dates_all (repeat false n) ls ss ls2.
Proof.
  induction ls as [|l ls IH]; intros [|s ss] ls2 Hlen Hn Hf; try discriminate.
  - injection Hf as <-. constructor.
  - inversion Hn as [|? ? Hl Hn']; subst. cbn in Hf. destruct (Nat.eqb_spec (s_dim C s) n) as [Hd|]; [|discriminate].
    destruct (scatter_rest P C n ls ss) as [r|] eqn:Er; [|discriminate]. injection Hf as <-.
    constructor; [|apply IH; auto].
    unfold same_dates, scals. cbn. rewrite Hl, nonscalar_false, repeat_length.
    repeat split; cbn.
    + unfold nscalar. clear. induction n; cbn; auto.
    + rewrite (SC_scatter_dim _ _ _ _ CL). lia.
    + exact Hd.
    + intros u i Hu. rewrite (SC_scatter _ _ _ _ CL) by lia. rewrite date_false; auto.
    + intros t i Ht. exists t. rewrite (SC_len _ _ _ _ CL _ _ _ Ht). split; [exact Hd|].
      rewrite date_false; [reflexivity|]. rewrite (SC_len _ _ _ _ CL _ _ _ Ht). exact Hd.
Qed.

Definition extraction (noscalars : bool) (nb : nat) (ls : list (ploop P)) (ss : list (smap C)) :=
  if noscalars then Some (repeat 0 nb, ls, ss) else extract_scalars P C nb ls ss.

Lemma scalar_dims_length : forall nb ss, length (scalar_dims P C nb ss) = nb.
Proof. intros. unfold scalar_dims. rewrite map_length, seq_length. reflexivity. Qed.

Theorem extract_scatter : forall nosc nb ls ss scaldims ls2 ss2 ls3,
  length ls = length ss -> Forall (fun l => pl_scal P l = None) ls ->
  nb = match ss with s :: _ => s_dim C s | [] => 0 end -> ss <> [] ->
  extraction nosc nb ls ss = Some (scaldims, ls2, ss2) -> program_scatter P C ls2 ss2 = Some ls3 ->
  exists kinds, scaldims = run_lengths kinds /\ kinds = (if nosc then repeat false nb else scalar_dims P C nb ss) /\
    same_dates_all kinds ls ss ls3.
Proof.
  intros nosc nb ls ss scaldims ls2 ss2 ls3 Hlen Hn Hnb Hne He Hs.
  assert (Hplain : forall n, ls2 = ls -> ss2 = ss -> n = nb -> same_dates_all (repeat false n) ls ss ls3).
  { intros n -> -> ->. unfold program_scatter in Hs. destruct ss as [|s ss]; [congruence|].
    destruct ls as [|l ls]; [discriminate|]. subst nb. apply scatter_plain; auto. }
  unfold extraction in He. destruct nosc.
  - injection He as <- <- <-. exists (repeat false nb). split; [symmetry; apply run_lengths_false|]. split; [reflexivity|]. auto.
  - unfold extract_scalars in He.
    exists (scalar_dims P C nb ss). split; [|split; [reflexivity|]].
    + destruct (existsb _ _) eqn:Ex.
      * destruct (extract_from _ _ _ _ _ _) as [[? ?]|]; [|discriminate]. injection He as <- _ _. apply count_runs_flags.
      * injection He as <- _ _. apply flags_no_scalar. exact Ex.
    + destruct (existsb _ _) eqn:Ex.
      * destruct (extract_from _ _ _ _ _ _) as [[ls' ss']|] eqn:Ee; [|discriminate]. injection He as <- <- <-.
        assert (Hm : moved 0 (scalar_dims P C nb ss) ls ss ls' ss').
        { eapply extract_moved; [exact Hlen| | |exact Ee].
          - rewrite scalar_dims_length. lia.
          - rewrite skipn_all2 by (rewrite scalar_dims_length; lia). apply moved_start. exact Hlen. }
        unfold program_scatter in Hs. pose proof (moved_len _ _ _ _ _ _ Hm) as [L1 L2].
        destruct ss' as [|s' ss']; [destruct ss; [congruence|discriminate]|].
        destruct ls' as [|l' ls']; [discriminate|].
        eapply scatter_moved; [|exact Hlen|exact Hm|exact Hs].
        inversion Hm as [|l s l1 s1 lr sr lr' sr' H1 H2]; subst. destruct H1 as (_ & _ & sc & _ & _ & H5 & _).
        cbn in H5. apply H5. rewrite scalar_dims_length. reflexivity.
      * injection He as <- <- <-. destruct (flags_no_scalar _ Ex) as [_ Hk]. rewrite Hk, scalar_dims_length. auto.
Qed.

(** cloog_program_extract_scalars alone. *)
Lemma moved_nth : forall n suf ls ss ls' ss', moved n suf ls ss ls' ss' -> forall k l s, nth_error ls k = Some l -> nth_error ss k = Some s ->
  exists l' s', nth_error ls' k = Some l' /\ nth_error ss' k = Some s' /\ moved1 n suf l s l' s'.
Proof.
  intros n suf ls ss ls' ss' H. induction H as [ss|l s l' s' ls ss ls' ss' H1 H2 IH]; intros [|k] l0 s0 E1 E2; try discriminate; cbn in *.
  - injection E1 as <-. injection E2 as <-. eauto 6.
  - eauto.
Qed.
Theorem extract_dates : forall nb ls ss scaldims ls' ss', length ls = length ss ->
  Forall (fun l => pl_scal P l = None) ls -> extract_scalars P C nb ls ss = Some (scaldims, ls', ss') ->
  exists kinds, scaldims = run_lengths kinds /\ kinds = scalar_dims P C nb ss /\ length ls' = length ls /\ length ss' = length ss /\
    forall k l s, nth_error ls k = Some l -> nth_error ss k = Some s -> s_dim C s = nb ->
    exists l' s', nth_error ls' k = Some l' /\ nth_error ss' k = Some s' /\
      pl_dom P l' = pl_dom P l /\ pl_stmts P l' = pl_stmts P l /\ length (scals P l') = nscalar kinds /\ s_dim C s' = nonscalar kinds /\
      (forall u i, length u = nonscalar kinds -> rel s' u i = rel s (date kinds (scals P l') u) i) /\
      (forall t i, rel s t i = true -> exists u, length u = nonscalar kinds /\ t = date kinds (scals P l') u).
Proof.
  intros nb ls ss scaldims ls' ss' Hlen Hn He. unfold extract_scalars in He.
  exists (scalar_dims P C nb ss). destruct (existsb _ _) eqn:Ex.
  - destruct (extract_from _ _ _ _ _ _) as [[ls0 ss0]|] eqn:Ee; [|discriminate]. injection He as <- <- <-.
    assert (Hm : moved 0 (scalar_dims P C nb ss) ls ss ls0 ss0).
    { eapply extract_moved; [exact Hlen| | |exact Ee].
      - rewrite scalar_dims_length. lia.
      - rewrite skipn_all2 by (rewrite scalar_dims_length; lia). apply moved_start. exact Hlen. }
    split; [apply count_runs_flags|]. split; [reflexivity|]. pose proof (moved_len _ _ _ _ _ _ Hm) as [L1 L2].
    split; [lia|]. split; [lia|]. intros k l s E1 E2 Hd.
    destruct (moved_nth _ _ _ _ _ _ Hm k l s E1 E2) as (l' & s' & F1 & F2 & (G1 & G2 & sc & G3 & G4 & G5 & G6)).
    exists l', s'. assert (Hd' : s_dim C s = 0 + length (scalar_dims P C nb ss)) by (rewrite scalar_dims_length; exact Hd).
    destruct (G6 Hd') as [G7 G8]. unfold scals. rewrite G3.
    split; [exact F1|]. split; [exact F2|]. split; [exact G1|]. split; [exact G2|]. split; [exact G4|]. split; [apply G5; exact Hd'|]. split.
    + intros u i Hu. apply (G7 [] u i eq_refl Hu).
    + intros t i Ht. destruct (G8 t i Ht) as (u1 & u2 & Q1 & Q2 & Q3). destruct u1; [|discriminate]. exists u2. auto.
  - injection He as <- <- <-. destruct (flags_no_scalar _ Ex) as [E1 E2]. split; [exact E1|]. split; [reflexivity|]. split; [reflexivity|]. split; [reflexivity|].
    intros k l s F1 F2 Hd. rewrite E2. rewrite scalar_dims_length. rewrite Forall_forall in Hn.
    exists l, s. unfold scals. rewrite (Hn l (nth_error_In _ _ F1)). rewrite nonscalar_false.
    split; [exact F1|]. split; [exact F2|]. split; [reflexivity|]. split; [reflexivity|].
    split; [unfold nscalar; clear; induction nb; cbn; auto|]. split; [exact Hd|]. split.
    + intros u i Hu. rewrite date_false by exact Hu. reflexivity.
    + intros t i Ht. apply (SC_len _ _ _ _ CL) in Ht. exists t. rewrite date_false by lia. split; [lia|reflexivity].
Qed.
End S.

(** Run lengths count the scalar dimensions from a position on. *)
Lemma run_lengths_nth : forall ks n, nth n (run_lengths ks) 0 = leading (skipn n ks).
Proof.
  induction ks as [|k ks IH]; intros n; [destruct n; reflexivity|].
  destruct n as [|n].
  - cbn [skipn]. rewrite <- leading_runs. destruct (run_lengths (k :: ks)); reflexivity.
  - cbn [skipn]. rewrite <- IH. destruct k; cbn [run_lengths]; [|reflexivity].
    destruct (run_lengths ks) as [|r rs]; [destruct n as [|[|]]; reflexivity|reflexivity].
Qed.
