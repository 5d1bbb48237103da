(** Property C45: code generation ends with a result.  The polyhedral library has to obey
    LoopSpec.Laws for every value of the parameters, and TerminateSpec.TotalLaws. *)
From Coq Require Import ZArith List Bool Arith Lia.
From Verif Require Import LoopModel LoopSpec LoopBox LoopExamples PropertiesLoop.
From Verif Require Import ProgramModel ProgramSpec ProgramMain ProgramBox PropertiesProgram.
From Verif Require Import TerminateSpec TerminateProofs TerminateBox TerminateAlloc.
Import ListNotations.
Local Open Scope nat_scope.

(** ** the generator *)
(** One run of the generator (the amount of fuel is of no importance once it is large
    enough) returns loops that, for all values of the parameters in the context, run every
    instance exactly once. *)
Theorem C45_generation_returns_partial :
  forall (P : Poly) (V : Type) (v0 : V) (Sp : V -> Sem P) (nparts : dom P -> nat),
  (forall v, Laws P (Sp v)) -> TotalLaws P V Sp nparts ->
  forall (kinds : list bool) (o : options) (ctx : dom P) (ls : list (loop P)),
  (forall v, plain_options P (Sp v) o) -> (forall v, strides_ok P (Sp v) o) ->
  dim P ctx = 0 -> statement_loops P kinds ls -> depth_order P kinds ls ->
  exists res, returns (fun fuel => cloog_program_generate P (run_lengths kinds) o fuel ctx ls) res /\
    forall v, mem (Sp v) ctx [] = true -> forall b y, exists ps, NoDup ps /\ length ps = input_count (Sp v) ls b y /\
      forall p, In p ps <-> Exec P (Sp v) res [] p b y.
Proof.
  intros P V v0 Sp nparts L TL kinds o ctx ls Ho Hs Hd H1 H2.
  set (o' := sanitize (length (run_lengths kinds)) o).
  assert (Hf : o_stop o' = o_stop o /\ o_first_unroll o' = o_first_unroll o /\ o_sh o' = o_sh o /\ o_strides o' = o_strides o).
  { unfold o', sanitize. destruct (o_override o); auto. }
  destruct Hf as (F1 & F2 & F3 & F4).
  destruct (program_generate_total P V v0 Sp nparts L TL kinds o') with (ctx := ctx) (ls := ls) as (res & n & Hr); auto.
  - intros v. specialize (Ho v). unfold plain_options in *. rewrite F1, F2, F3. exact Ho.
  - intros v. specialize (Hs v). unfold strides_ok in *. rewrite F4. exact Hs.
  - exists res. split; [exists n; exact Hr|]. intros v Hc.
    exact (C01_instances_exactly_once_strides_partial P (Sp v) (L v) kinds o n ctx ls res (Ho v) (Hs v) Hd Hc H1 H2 (Hr n (le_n n))).
Qed.
Print Assumptions C45_generation_returns_partial.

(** ** from the statements of the input to the loops *)
(** The same for cloog_program_alloc followed by the generator, for statements that all have
    scatterings of the same dimension.  Erasing a scalar dimension must not hide that an
    earlier dimension is scalar (otherwise the program stops with an error message). *)
Definition erase_keeps_scalars {P} (C : Scat P) : Prop :=
  forall s k i, s_scalar C s k <> None -> i < k -> s_scalar C s i <> None -> s_scalar C (s_erase C s k) i <> None.
Theorem C45_program_returns_partial :
  forall (P : Poly) (V : Type) (v0 : V) (Sp : V -> Sem P) (nparts : dom P -> nat) (C : Scat P) (rel : V -> ScatSem C),
  (forall v, Laws P (Sp v)) -> TotalLaws P V Sp nparts ->
  (forall v, ScatLaws P (Sp v) C (rel v)) -> erase_keeps_scalars C ->
  forall (ao : alloc_options) (o : options) (ctx : dom P) (input : list (dom P * smap C)) (n : nat),
  (forall v, plain_options P (Sp v) o) -> o_strides o = false -> dim P ctx = 0 ->
  input <> [] -> (forall v, dated (Sp v) (rel v) input) -> flat_last input ->
  (forall x, In x input -> s_dim C (snd x) = n) ->
  exists scaldims res, returns (fun fuel => alloc_and_generate P C ao o fuel ctx (all_scattered input)) (scaldims, res) /\
    forall v, mem (Sp v) ctx [] = true ->
    (forall p k i, Runs (Sp v) res (scanned scaldims) p k i -> exists d s, nth_error input k = Some (d, s) /\ mem (Sp v) d i = true) /\
    (forall k d s i, nth_error input k = Some (d, s) -> mem (Sp v) d i = true ->
       exists p, Runs (Sp v) res (scanned scaldims) p k i /\ forall p', Runs (Sp v) res (scanned scaldims) p' k i -> p' = p).
Proof.
  intros P V v0 Sp nparts C rel L TL CL He ao o ctx input n Ho Hst Hd Hne Hdt Hfl Hn.
  destruct (alloc_total P (Sp v0) C (rel v0) (CL v0) He ao input n Hne Hn) as (sd & ls & Ea).
  destruct (alloc_shape P (Sp v0) C (rel v0) (L v0) (CL v0) ao input sd ls (Hdt v0) Hne Ea) as (Bs & kinds & G & HS).
  assert (Hs : forall v, strides_ok P (Sp v) o) by (intros v E; congruence).
  destruct (C45_generation_returns_partial P V v0 Sp nparts L TL kinds o ctx (map (to_loop P) ls) Ho Hs Hd) as (res & (m & Hm) & _).
  - eapply shape_statement_loops; eauto.
  - eapply shape_depth_order; eauto.
  - assert (R : forall m', m <= m' -> alloc_and_generate P C ao o m' ctx (all_scattered input) = Some (sd, res)).
    { intros m' Hle. unfold alloc_and_generate. rewrite Ea. rewrite (sh_sd _ _ _ _ _ _ _ _ _ _ _ HS) at 1. rewrite (Hm m' Hle). reflexivity. }
    exists sd, res. split; [exists m; exact R|]. intros v Hc.
    exact (C01_program_instances_exactly_once P (Sp v) C (rel v) (L v) (CL v) ao o m ctx input sd res (Ho v) Hst Hd Hc Hne (Hdt v) Hfl (R m (le_n m))).
Qed.
Print Assumptions C45_program_returns_partial.

(** The hypotheses are met by unions of boxes and tables of dates. *)
Lemma box_erase : erase_keeps_scalars BoxScat.
Proof.
  intros s k i Hk Hik Hi. cbn [BoxScat s_scalar s_erase] in *. cbn [td tp] in *.
  destruct (Nat.ltb_spec k (td s)) as [Hl|Hl]; [|congruence]. destruct (Nat.ltb_spec i (td s)) as [Hl'|Hl']; [|congruence].
  destruct (Nat.ltb_spec i (td s - 1)) as [Hl''|Hl'']; [|lia].
  replace (map (fun p => nth i (fst p) 0%Z) (entries {| td := td s - 1; tp := map (fun p => (drop_at k (fst p), snd p)) (entries s) |}))
    with (map (fun p => nth i (fst p) 0%Z) (entries s)); [exact Hi|].
  assert (H : Forall (fun p => length (fst p) = td s) (entries s)).
  { apply Forall_forall. intros p Hp. apply filter_In in Hp as [_ Hp]. apply Nat.eqb_eq in Hp. exact Hp. }
  unfold entries at 2. cbn [td tp]. clear Hk Hi. induction H as [|p r Hp _ IH]; [reflexivity|]. cbn [map filter fst].
  rewrite drop_at_length by lia. rewrite Hp, Nat.eqb_refl. cbn [map fst]. rewrite IH. f_equal.
  unfold drop_at. rewrite app_nth1 by (rewrite firstn_length; lia). rewrite <- (firstn_skipn k (fst p)) at 1. apply app_nth1. rewrite firstn_length. lia.
Qed.
Example C45_example :
  (forall v : unit, Laws BoxPoly BoxSem) /\ TotalLaws BoxPoly unit (fun _ => BoxSem) (fun d => length (good d)) /\
  (forall v : unit, plain_options BoxPoly BoxSem opts) /\ (forall v : unit, strides_ok BoxPoly BoxSem opts) /\
  statement_loops BoxPoly kinds2 input2 /\ depth_order BoxPoly kinds2 input2 /\
  exists res, cloog_program_generate BoxPoly (run_lengths kinds2) opts 60 ctx0 input2 = Some res /\ res <> [].
Proof.
  split; [intros _; exact box_laws|]. split; [exact box_total_laws|]. split; [intros _; split; [reflexivity|split; [discriminate|discriminate]]|].
  split; [intros _ E; discriminate E|]. split; [repeat (constructor; [eexists _, _, _; split; [reflexivity|cbn; lia]|]); constructor|]. split; [dord|].
  run_result. discriminate.
Qed.
Example C45_program_example :
  (forall v : unit, ScatLaws BoxPoly BoxSem BoxScat BoxRel) /\ erase_keeps_scalars BoxScat /\
  dated BoxSem BoxRel inputA /\ flat_last inputA /\ (forall x, In x inputA -> s_dim BoxScat (snd x) = 3) /\
  exists scaldims res, alloc_and_generate BoxPoly BoxScat blocks_on opts 60 ctx0 (all_scattered inputA) = Some (scaldims, res) /\ res <> [].
Proof.
  split; [intros _; exact box_scat_laws|]. split; [exact box_erase|]. destruct inputA_ok as (H1 & _ & _ & H4). split; [exact H1|]. split; [exact H4|].
  split; [intros x [<-|[<-|[]]]; reflexivity|]. run_alloc. discriminate.
Qed.
