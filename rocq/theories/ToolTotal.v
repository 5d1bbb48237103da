(** The whole command comes to an end: the names are there, and every step returns. *)
From Coq Require Import ZArith List Bool Arith String Ascii Permutation Lia.
From Verif Require Import LoopModel LoopSpec ProgramModel ProgramSpec ProgramMain ClastModel ClastSpec ClastReturns PprintModel CReader PprintSpec PprintEnd
  FileModel FileSpec EndSpec EndProofs TerminateSpec TerminateAlloc OptionsModel ToolModel ToolSpec ToolProofs.
From Verif Require NamesModel NamesSpec NamesProofs InputModel.
Import ListNotations.
Local Open Scope nat_scope.
Local Arguments Nat.ltb : simpl never. Local Arguments Nat.leb : simpl never. Local Arguments Nat.eqb : simpl never. Local Arguments Nat.sub : simpl never.

Section Names.
Import NamesModel NamesSpec NamesProofs InputModel.
Variables D Sc : Type.
Variables (dom_dim : D -> nat) (scat_dim : Sc -> nat).
Lemma count_le flags : count flags <= List.length flags.
Proof. unfold count. induction flags as [|b f IH]; cbn; [lia|]. destruct b; cbn; lia. Qed.
Lemma split_total : forall flags src, List.length flags <= List.length src -> exists scat scal, scalar_split flags src = Some (scat, scal) /\ List.length scat = List.length flags - count flags.
Proof.
  induction flags as [|b flags IH]; intros src H; [exists [], []; split; reflexivity|]. destruct src as [|s src]; [cbn in H; lia|]. destruct (IH src) as (scat & scal & E & L); [cbn in H; lia|].
  pose proof (count_le flags) as G. cbn [scalar_split]. rewrite E. destruct b; eexists _, _; (split; [reflexivity|]); unfold count in *; cbn [filter List.length]; lia.
Qed.
Lemma scalarize_total n flags : n_nb_scat n = List.length flags -> List.length (n_scattering n) = List.length flags ->
  exists n', scalarize n (List.length flags) (Some flags) = Some n' /\ n_nb_scat n' <= List.length (n_scattering n').
Proof.
  intros H1 H2. unfold scalarize. destruct (List.length flags) as [|m] eqn:El; [exists n; split; [reflexivity|lia]|]. rewrite <- El in *.
  destruct (Nat.ltb_spec (List.length flags) (List.length flags)); [lia|]. rewrite firstn_all. destruct (Nat.eqb_spec (count flags) 0); [exists n; split; [reflexivity|lia]|].
  pose proof (count_le flags). destruct (Nat.ltb_spec (n_nb_scat n) (count flags)); [lia|]. destruct (split_total flags (n_scattering n)) as (scat & scal & E & L); [lia|]. rewrite E.
  destruct (Nat.ltb_spec (n_nb_scat n - count flags) (List.length scat)); [lia|]. eexists. split; [reflexivity|]. cbn. lia.
Qed.
Lemma maxs_same (l : list nat) k : l <> [] -> (forall x, In x l -> x = k) -> maxs l = k.
Proof. intros Hn H. destruct (maxs_max l) as (A & B). destruct B as [B|B]; [|apply H; exact B]. destruct l as [|x l]; [contradiction|]. pose proof (A x (or_introl eq_refl)) as G. pose proof (H x (or_introl eq_refl)) as E. lia. Qed.
Lemma scattering_names np (ud : udom (D * option Sc)) k n : api_history D Sc dom_dim scat_dim np ud -> u_domains ud <> [] ->
  (forall s, In s (u_domains ud) -> exists sc, snd (d_dom s) = Some sc /\ scat_dim sc = k) -> program_names ud k = Some n -> List.length (n_scattering n) = k.
Proof.
  intros (h & H1 & H2) Hne Hk E. pose proof (run_spec np h) as H. rewrite H1 in H. destruct H as [_ I].
  unfold program_names in E. destruct (table ud CLOOG_PARAM _) as [p|]; [|discriminate]. destruct (table ud CLOOG_ITER _) as [i|]; [|discriminate]. destruct (table ud CLOOG_SCAT _) as [s|] eqn:Es; [|discriminate].
  injection E as <-. cbn [n_scattering]. apply table_length in Es. pose proof (I_tab _ _ _ I CLOOG_SCAT) as T. destruct (u_name ud CLOOG_SCAT) as [tab|].
  - rewrite Es. destruct T as (_ & _ & ->). change (sz np (added h) CLOOG_SCAT) with (maxs (scat_dims (added h))). rewrite (I_dom _ _ _ I) in Hne, Hk.
    assert (G : forall l : list (named (D * option Sc)), (forall x, In x l -> right_made D Sc dom_dim scat_dim x /\ exists sc, snd (d_dom x) = Some sc /\ scat_dim sc = k) -> scat_dims l = map (fun _ => k) l).
    { induction l as [|x l IH]; intros Hl; [reflexivity|]. unfold scat_dims in *. cbn [flat_map map]. rewrite IH by (intros; apply Hl; right; assumption). destruct (Hl x (or_introl eq_refl)) as (M & sc & M1 & M2). unfold right_made in M. rewrite M. cbn [made d_scat]. rewrite M1. cbn. rewrite M2. reflexivity. }
    rewrite G by (intros x Hx; split; [apply H2; exact Hx|apply Hk; exact Hx]). apply maxs_same; [destruct (added h); [contradiction|discriminate]|]. intros x Hx. apply in_map_iff in Hx. destruct Hx as (? & <- & _). reflexivity.
  - subst s. unfold generate_items. rewrite map_length, seq_length. reflexivity.
Qed.
End Names.

Section Alloc.
Variables (P : Poly) (C : Scat P).
Lemma nb_same (input : list (dom P * smap C)) k : input <> [] -> (forall x, In x input -> s_dim C (snd x) = k) -> nb_scattdims P C (all_scattered input) = k.
Proof. intros Hne H. destruct input as [|x r]; [contradiction|]. unfold nb_scattdims, all_scattered. cbn. apply H. left. reflexivity. Qed.
Lemma tool_alloc_total np ao (ud : udom P C) (input : list (dom P * smap C)) k n sd ls : api_history (dom P) (smap C) (dim P) (s_dim C) np ud ->
  statements P C ud = all_scattered input -> input <> [] -> (forall x, In x input -> s_dim C (snd x) = k) ->
  NamesModel.program_names ud k = Some n -> program_alloc P C ao (all_scattered input) = Some (sd, ls) -> exists nm, tool_alloc P C ao ud = Some (nm, sd, map (to_loop P) ls).
Proof.
  intros HH ES Hne Hk En Ea. unfold tool_alloc. rewrite ES, (nb_same input k Hne Hk), En, Ea. pose proof (alloc_length _ _ _ _ _ _ Ea) as Hl. rewrite (nb_same input k Hne Hk) in Hl.
  assert (LF : List.length (map (fun r => negb (r =? 0)) sd) = k) by (rewrite map_length; exact Hl).
  destruct (scalarize_total n (map (fun r => negb (r =? 0)) sd)) as (n' & E1 & E2).
  - rewrite LF. apply (program_names_sizes_api _ _ _ _ _ _ _ _ HH En).
  - rewrite LF. eapply scattering_names; [exact HH| | |exact En].
    + unfold statements in ES. destruct (NamesModel.u_domains ud); [|discriminate]. destruct input; [contradiction|discriminate].
    + intros s Hs. assert (Hin : In (NamesModel.d_dom s) (all_scattered input)) by (rewrite <- ES; unfold statements; apply in_map; exact Hs). unfold all_scattered in Hin. apply in_map_iff in Hin. destruct Hin as ([d sc] & <- & Hx). exists sc. split; [reflexivity|]. exact (Hk _ Hx).
  - rewrite LF in E1. rewrite E1. unfold printed_names. destruct (Nat.ltb_spec (List.length (NamesModel.n_scattering n')) (NamesModel.n_nb_scat n')); [lia|]. eexists; reflexivity.
Qed.
End Alloc.
