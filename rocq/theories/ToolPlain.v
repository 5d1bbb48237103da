(** The whole command for input files without scattering functions. *)
From Coq Require Import ZArith List Bool Arith String Sorted Lia.
From Verif Require Import LoopModel LoopSpec LoopKeys ProgramModel ProgramSpec ProgramScalars ProgramBlock ProgramLoopBlock ProgramMain ClastModel ClastSpec CReader PprintSpec
  PropertiesLoop PropertiesProgram ClastEnd FileModel FileSpec EndSpec EndProofs ToolModel ToolSpec ToolProofs.
From Verif Require NamesModel NamesSpec NamesProofs InputModel InputProofs.
Import ListNotations.
Local Open Scope nat_scope.
Local Arguments Nat.ltb : simpl never. Local Arguments Nat.leb : simpl never. Local Arguments Nat.eqb : simpl never. Local Arguments Nat.sub : simpl never.

Section Plain.
Variables (P : Poly) (Se : Sem P) (C : Scat P).
Hypothesis L : Laws P Se.
Lemma from_at : forall (ds : list (dom P)) n k, nth_error (from_domains P n ds) k = option_map (fun d => {| pl_dom := d; pl_stmts := [S (n + k)]; pl_scal := None |}) (nth_error ds k).
Proof.
  induction ds as [|d r IH]; intros n [|k]; cbn; try reflexivity.
  - rewrite Nat.add_0_r. reflexivity.
  - rewrite IH. replace (S n + k) with (n + S k) by lia. reflexivity.
Qed.
Lemma plain_alloc ao ds : program_alloc P C ao (unscattered ds) = Some ([], from_domains P 0 ds).
Proof.
  unfold program_alloc, unscattered. assert (E : flat_map (fun x : dom P * option (smap C) => match snd x with Some s => [s] | None => [] end) (map (fun d => (d, None)) ds) = []).
  { induction ds; cbn; auto. }
  rewrite E, map_map. cbn [fst]. rewrite map_id. reflexivity.
Qed.
Lemma plain_loops ds : statement_loops P [] (map (to_loop P) (from_domains P 0 ds)).
Proof. apply Forall_forall. intros x Hx. apply in_map_iff in Hx. destruct Hx as (l & <- & _). eexists _, _, _. split; [reflexivity|]. cbn. lia. Qed.
Lemma plain_depth (ls : list (loop P)) : depth_order P [] ls.
Proof. intros E. discriminate E. Qed.
Lemma from_stmts : forall (ds : list (dom P)) n, flat_map (pl_stmts P) (from_domains P n ds) = seq (S n) (List.length ds).
Proof. induction ds as [|d ds IH]; intros n; [reflexivity|]. cbn. rewrite IH. reflexivity. Qed.
Lemma from_textual : forall (ds : list (dom P)) n, textual_order P (map (to_loop P) (from_domains P n ds)).
Proof.
  induction ds as [|d ds IH]; intros n; cbn [from_domains map]; [constructor|]. constructor; [|apply IH]. apply Forall_forall. intros x Hx. apply in_map_iff in Hx. destruct Hx as (w & <- & Hw).
  apply In_nth_error in Hw. destruct Hw as (k & Hk). rewrite from_at in Hk. destruct (nth_error ds k); [|discriminate]. cbn in Hk. apply ClastNames.some_eq in Hk. subst w. cbn. lia.
Qed.

Variables (ao : alloc_options) (o : options) (fuel : nat) (ctx : dom P) (ds : list (dom P)) (res : list (loop P)).
Hypothesis Ho : plain_options P Se o.
Hypothesis Hs : o_strides o = false.
Hypothesis Hd : dim P ctx = 0.
Hypothesis Hc : mem Se ctx [] = true.
Hypothesis H : cloog_program_generate P [] o fuel ctx (map (to_loop P) (from_domains P 0 ds)) = Some res.
Lemma plain_generated : alloc_and_generate P C ao o fuel ctx (unscattered ds) = Some ([], res).
Proof. unfold alloc_and_generate. rewrite plain_alloc, H. reflexivity. Qed.
Lemma plain_exec q b y : Exec P Se res [] q b y -> exists k d, nth_error ds k = Some d /\ mem Se d y = true /\ b = {| b_pos := S k; b_stmts := [S k]; b_scal := [] |}.
Proof.
  intros HE. assert (Hcount : forall b y, exists ps, NoDup ps /\ List.length ps = input_count Se (map (to_loop P) (from_domains P 0 ds)) b y /\ forall p, In p ps <-> Exec P Se res [] p b y).
  { eapply C01_instances_exactly_once with (kinds := []); eauto; [apply plain_loops|apply plain_depth]. }
  destruct (exec_in P Se (from_domains P 0 ds) res Hcount q b y HE) as (k & w & Hw & -> & Hm). rewrite from_at in Hw. destruct (nth_error ds k) as [d|] eqn:Ed; [|discriminate]. cbn in Hw. apply ClastNames.some_eq in Hw. subst w.
  exists k, d. split; [exact Ed|]. split; [exact Hm|]. reflexivity.
Qed.
(** *** order *)
Lemma plain_order m (tie : bool) : OrderLaws P Se -> depth_safe (sanitize 0 o) m ->
  Forall (fun d => m <= dim P d /\ (tie = true -> dim P d = m)) ds ->
  forall p b y p' b' y', Exec P Se res [] p b y -> Exec P Se res [] p' b' y' -> lex_lt (firstn m y) (firstn m y') \/ tie = true /\ firstn m y = firstn m y' /\ b_pos b < b_pos b' -> lex_lt p p'.
Proof.
  intros OL DS HD p b y p' b' y' E E' HR. set (o' := sanitize 0 o) in *.
  assert (F : plain_options P Se o' /\ o_strides o' = false).
  { unfold o', sanitize. destruct (o_override o); [split; [exact Ho|exact Hs]|]. split; [exact Ho|exact Hs]. }
  destruct F as (F1 & F2).
  eapply (C02_order_all_dimensions P Se L OL [] m tie o' fuel ctx (map (to_loop P) (from_domains P 0 ds)) res) with (b := b) (y := y) (b' := b') (y' := y'); eauto.
  - cbn. lia.
  - intros Hst. rewrite F2 in Hst. discriminate Hst.
  - cbn. rewrite Nat.add_0_r. exact DS.
  - apply plain_loops.
  - apply plain_depth.
  - apply Forall_forall. intros l Hl. apply in_map_iff in Hl. destruct Hl as (w & <- & Hw). apply In_nth_error in Hw. destruct Hw as (k & Hk). rewrite from_at in Hk. destruct (nth_error ds k) as [d|] eqn:Ed; [|discriminate].
    cbn in Hk. apply ClastNames.some_eq in Hk. subst w. cbn. rewrite Forall_forall in HD. apply HD. eapply nth_error_In; eauto.
  - intros _. apply from_textual.
Qed.

Lemma plain_run : forall Ls, runs Se res [] Ls -> exists T, calls 0 Ls = numbered T /\ each_point_once Se ds T /\
  (forall m, OrderLaws P Se -> depth_safe (sanitize 0 o) m -> Forall (fun d => m <= dim P d) ds -> lexicographic m T) /\
  (forall m, OrderLaws P Se -> depth_safe (sanitize 0 o) m -> Forall (fun d => dim P d = m) ds -> textual_ties T).
Proof.
  intros Ls HR. destruct (statements_in_turn Se res 0 Ls HR) as (R & R1 & R2 & R3).
  destruct (C01_program_without_scattering P Se C L ao o fuel ctx ds [] res Ho Hs Hd Hc plain_generated) as (_ & O1 & O2).
  assert (Hnum : forall p e, In (p, e) R -> exists k q, fst e = S k /\ Runs Se res 0 p k (snd e) /\ p = (q ++ [0%Z])%list /\ Exec P Se res [] q {| b_pos := S k; b_stmts := [S k]; b_scal := [] |} (snd e)).
  { intros p e He. apply R2 in He. destruct He as (q & b & y & j & HE & Hj & Hi & Hp). cbn in Hi. subst y. destruct (plain_exec _ _ _ HE) as (k & d & _ & _ & ->). cbn in Hj. destruct j as [|[|j]]; try discriminate. cbn in Hj. injection Hj as Hj.
    exists k, q. split; [congruence|]. split; [|split; [exact Hp|exact HE]]. exists q, {| b_pos := S k; b_stmts := [S k]; b_scal := [] |}, (snd e), 0. split; [exact HE|]. split; [reflexivity|]. split; [reflexivity|exact Hp]. }
  set (g := fun x : list Z * event => (fst (snd x) - 1, snd (snd x))).
  assert (HQ : forall (Q : nat * list Z -> nat * list Z -> Prop), (forall p q k i p' q' k' i', Runs Se res 0 p k i -> Runs Se res 0 p' k' i' -> p = (q ++ [0%Z])%list -> p' = (q' ++ [0%Z])%list ->
      Exec P Se res [] q {| b_pos := S k; b_stmts := [S k]; b_scal := [] |} i -> Exec P Se res [] q' {| b_pos := S k'; b_stmts := [S k']; b_scal := [] |} i' -> lex_lt p p' -> Q (k, i) (k', i')) -> ForallOrdPairs Q (map g R)).
  { intros Q HQ. apply fop_map. pose proof R1 as R4. apply sorted_pairs in R4. apply fop_map_inv in R4. eapply fop_in; [|exact R4]. intros [p e] [p' e'] Hin Hin' Hlt. cbn [fst] in Hlt.
    destruct (Hnum _ _ Hin) as (k & q & Ek & Rk & Ep & HE). destruct (Hnum _ _ Hin') as (k' & q' & Ek' & Rk' & Ep' & HE'). unfold g. cbn [fst snd]. rewrite Ek, Ek'. replace (S k - 1) with k by lia. replace (S k' - 1) with k' by lia.
    eapply (HQ p q k (snd e) p' q' k' (snd e')); eassumption. }
  exists (map g R). split; [|split; [split|split]].
  - rewrite R3. unfold numbered. rewrite map_map. apply map_ext_in. intros [p [num i]] Hin. destruct (Hnum _ _ Hin) as (k & _ & Ek & _). cbn in Ek. subst num. cbn. f_equal. lia.
  - apply NoDup_map_inv with (f := fun e : nat * list Z => (S (fst e), snd e)). rewrite map_map. rewrite (map_ext_in _ snd).
    + apply nodup_times; [exact R1|]. intros p p' e He He'. destruct (Hnum _ _ He) as (k & _ & Ek & Rk & _). destruct (Hnum _ _ He') as (k' & _ & Ek' & Rk' & _). rewrite Ek in Ek'. injection Ek' as <-.
      destruct (O1 _ _ _ Rk) as (d & Hk & Hm). destruct (O2 k d _ Hk Hm) as (p0 & _ & U). rewrite (U _ Rk), (U _ Rk'). reflexivity.
    + intros [p [num i]] Hin. destruct (Hnum _ _ Hin) as (k & _ & Ek & _). cbn in Ek. subst num. cbn. f_equal. lia.
  - intros k i. split.
    + intros Hin. apply in_map_iff in Hin. destruct Hin as ([p [num v]] & E & Hin). destruct (Hnum _ _ Hin) as (k' & _ & Ek & Rk & _). cbn in E, Ek, Rk. subst num. injection E as E <-. replace (S k' - 1) with k' in E by lia. subst k'. eapply O1; exact Rk.
    + intros (d & Hk & Hm). destruct (O2 k d i Hk Hm) as (p & (q & b & y & j & A & B & Ei & Ep) & _). apply in_map_iff. exists (p, (S k, i)). split; [unfold g; cbn; f_equal; lia|].
      apply R2. exists q, b, y, j. auto.
  - intros m OL DS HD. apply HQ. intros p q k i p' q' k' i' Rk Rk' -> -> HE HE' Hlt Hlex. cbn [snd] in Hlex. apply (lex_asym _ _ Hlt). apply lex_snoc.
    apply (plain_order m false OL DS) with (b := {| b_pos := S k'; b_stmts := [S k']; b_scal := [] |}) (y := i') (b' := {| b_pos := S k; b_stmts := [S k]; b_scal := [] |}) (y' := i); try assumption; [|left; exact Hlex].
    eapply Forall_impl; [|exact HD]. intros d Hm. split; [exact Hm|discriminate].
  - intros m OL DS HD. apply HQ. intros p q k i p' q' k' i' Rk Rk' Ep Ep' HE HE' Hlt E. cbn [snd fst] in *. subst i'. destruct (lt_eq_lt_dec k k') as [[G|G]|G]; [exact G| |]; exfalso.
    + subst k'. destruct (O1 _ _ _ Rk) as (d & Hk & Hm). destruct (O2 k d _ Hk Hm) as (p0 & _ & U). rewrite (U _ Rk), (U _ Rk') in Hlt. exact (lex_irrefl _ Hlt).
    + subst p p'. apply (lex_asym _ _ Hlt). apply lex_snoc.
      apply (plain_order m true OL DS) with (b := {| b_pos := S k'; b_stmts := [S k']; b_scal := [] |}) (y := i) (b' := {| b_pos := S k; b_stmts := [S k]; b_scal := [] |}) (y' := i); try assumption; [|right; split; [reflexivity|split; [reflexivity|cbn; lia]]].
      eapply Forall_impl; [|exact HD]. intros d Hm. cbv beta in Hm. split; [lia|intros _; exact Hm].
Qed.
End Plain.

(** *** names *)
Section PlainNames.
Variables (P : Poly) (C : Scat P).
Lemma plain_named_api : forall reserved np ao (ud : udom P C) ds nm sd lls,
  api_history (dom P) (smap C) (dim P) (s_dim C) np ud -> statements P C ud = unscattered ds ->
  (forall n, NamesModel.program_names ud 0 = Some n -> names_fit reserved n) ->
  tool_alloc P C ao ud = Some (nm, sd, lls) ->
  sd = [] /\ lls = map (to_loop P) (from_domains P 0 ds) /\ nm_scat nm = [] /\ List.length (nm_par nm) = np /\
    NoDup (FileSpec.all_names nm) /\ well_named reserved nm (blocks_of P 0 lls) /\ ~ In 0 (flat_map snd (blocks_of P 0 lls)).
Proof.
  intros reserved np ao ud ds nm sd lls HH ES HN E. unfold tool_alloc in E. rewrite ES, plain_alloc in E.
  assert (E0 : nb_scattdims P C (unscattered ds) = 0).
  { unfold nb_scattdims, unscattered. assert (Q : flat_map (fun x : dom P * option (smap C) => match snd x with Some s => [s] | None => [] end) (map (fun d => (d, None)) ds) = []) by (clear; induction ds; cbn; auto). rewrite Q. reflexivity. }
  rewrite E0 in E. destruct (NamesModel.program_names ud 0) as [n|] eqn:En; [|discriminate]. specialize (HN n eq_refl).
  cbn [NamesModel.scalarize map] in E. destruct (program_names_sizes_api _ _ _ _ _ _ _ _ HH En) as (Np & Nn & Ni).
  unfold printed_names in E. rewrite Nn in E. destruct (Nat.ltb_spec (List.length (NamesModel.n_scattering n)) 0); [lia|]. cbn [firstn] in E. injection E as <- <- <-. cbn [nm_scat nm_par].
  destruct HN as [ND HI]. unfold NamesSpec.all_names in ND, HI. destruct (EndProofs.nodup_app _ _ ND) as (N1 & N2 & N3). destruct (EndProofs.nodup_app _ _ N2) as (N4 & N5 & N6).
  assert (Hall : forall x, In x (NamesModel.n_iterators n ++ NamesModel.n_parameters n)%list -> ident x = true /\ ~ reserved x) by (intros x Hx; apply HI; apply in_or_app; right; exact Hx).
  split; [reflexivity|]. split; [reflexivity|]. split; [reflexivity|]. split; [exact Np|]. split; [exact N2|]. split.
  - constructor; cbn [nm_scat nm_iter nm_par FileSpec.all_names app]; try assumption.
    + intros x Hx. apply Hall. exact Hx.
    + constructor.
    + intros x Hx. split; [intros []|]. intros Hy. apply (N6 x); assumption.
    + intros x Hx. apply Hall. exact Hx.
    + intros d nums Hin. unfold blocks_of in Hin. apply in_flat_map in Hin. destruct Hin as (l & Hl1 & Hin). apply in_map_iff in Hl1. destruct Hl1 as (w & <- & Hw). cbn in Hin. destruct Hin as [Hin|[]]. injection Hin as <- _.
      apply In_nth_error in Hw. destruct Hw as (k & Hk). rewrite from_at in Hk. destruct (nth_error ds k) as [d0|] eqn:Ed; [|discriminate]. cbn in Hk. apply ClastNames.some_eq in Hk. subst w. cbn [pl_dom].
      assert (In (d0, None) (statements P C ud)) as Hd by (rewrite ES; unfold unscattered; apply in_map_iff; exists d0; split; [reflexivity|eapply nth_error_In; eauto]).
      unfold statements in Hd. apply in_map_iff in Hd. destruct Hd as (x & Ex & Hx). pose proof (Ni x Hx) as Hle. rewrite Ex in Hle. cbn in Hle. lia.
    + rewrite blocks_of_nums, from_stmts. apply seq_NoDup.
  - rewrite blocks_of_nums, from_stmts. intro Hin. apply in_seq in Hin. lia.
Qed.
Lemma plain_named : forall reserved np ao (ud : udom P C) ds nm sd lls,
  history (dom P) (smap C) (dim P) (s_dim C) np ud -> statements P C ud = unscattered ds ->
  (forall n, NamesModel.program_names ud 0 = Some n -> names_fit reserved n) ->
  tool_alloc P C ao ud = Some (nm, sd, lls) ->
  sd = [] /\ lls = map (to_loop P) (from_domains P 0 ds) /\ nm_scat nm = [] /\ List.length (nm_par nm) = np /\
    NoDup (FileSpec.all_names nm) /\ well_named reserved nm (blocks_of P 0 lls) /\ ~ In 0 (flat_map snd (blocks_of P 0 lls)) /\ (forall n, statement_name P C ud n = None).
Proof.
  intros reserved np ao ud ds nm sd lls HH ES HN E.
  destruct (plain_named_api reserved np ao ud ds nm sd lls (history_api _ _ _ _ _ _ HH) ES HN E) as (A1 & A2 & A3 & A4 & A5 & A6 & A7).
  repeat (split; [assumption|]). intro k. unfold statement_name. destruct (nth_error (NamesModel.u_domains ud) (k - 1)) as [x|] eqn:Ex; [|reflexivity]. eapply history_unnamed; [exact HH|]. eapply nth_error_In; eauto.
Qed.
End PlainNames.
