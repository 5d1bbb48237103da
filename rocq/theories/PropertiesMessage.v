(** C61: what the user is told.

    The messages of a run and their texts are those of MessageModel.v; the runs themselves are ProgramModel.v's and
    LoopModel.v's. *)
From Coq Require Import ZArith List Bool Arith String Ascii Lia.
From Verif Require Import PprintModel LoopModel LoopBox ProgramModel ProgramBox PropertiesProgram MessageModel.
Import ListNotations.
Local Arguments Nat.ltb : simpl never. Local Arguments Nat.leb : simpl never. Local Arguments Nat.eqb : simpl never. Local Arguments Nat.sub : simpl never.
Local Open Scope nat_scope.
Local Notation length := List.length.

(** With -q no warning and no information is printed, whatever the run had to say; errors are printed always; without
    -q every message is printed, in the order of the run. *)
Theorem C61_quiet :
  (forall ms, stderr_of true ms = EmptyString) /\
  (forall ms, stderr_of false ms = fold_right (fun m t => ("[CLooG] " ++ (match mkind m with MInfo => "INFO" | MWarning => "WARNING" | MError => "ERROR" end) ++ ": " ++ mtext m) ++ t)%string EmptyString ms) /\
  (forall quiet text, vmsg quiet MError text = ("[CLooG] ERROR: " ++ text)%string) /\
  (forall text, die_text text = ("[CLooG] ERROR: " ++ text)%string).
Proof.
  split; [|split; [|split]].
  - induction ms as [|m ms IH]; [reflexivity|]. cbn [stderr_of]. rewrite IH. unfold vmsg. destruct m; reflexivity.
  - induction ms as [|m ms IH]; [reflexivity|]. cbn [stderr_of fold_right]. rewrite IH. destruct m; reflexivity.
  - intros [|] text; reflexivity.
  - reflexivity.
Qed.
Print Assumptions C61_quiet.

(** The user is told when the depths they asked for are changed, and only then: without -override there is one warning
    if the depth -l used is not the one given, and none if it is; with -override nothing is changed, and the user is
    warned of that. *)
Theorem C61_depth_change_is_announced :
  forall (nb : nat) (o : options), let '(m, o') := generate_messages nb o in
  o' = sanitize nb o /\
  (o_override o = true -> o' = o /\ m = [Override]) /\
  (o_override o = false ->
     (o_l o' = o_l o -> o' = o /\ m = []) /\
     (o_l o' <> o_l o -> o_l o' = Z.of_nat nb /\ ((0 <= o_l o < Z.of_nat nb)%Z /\ m = [RaisedL] \/ (o_f o > 1 \/ o_f o < 0)%Z /\ m = [LoweredL]))).
Proof.
  intros nb o. unfold generate_messages, sanitize. destruct (o_override o) eqn:Ho; [repeat split; intros; congruence|]. cbv zeta.
  destruct ((o_l o <? Z.of_nat nb)%Z && (0 <=? o_l o)%Z) eqn:E1.
  - apply andb_prop in E1. destruct E1 as [A B]. apply Z.ltb_lt in A. apply Z.leb_le in B.
    assert (E2 : ((Z.of_nat nb <? Z.of_nat nb)%Z || (Z.of_nat nb <? 0)%Z) = false) by (apply orb_false_intro; apply Z.ltb_ge; lia).
    rewrite E2, andb_false_r. cbn [app]. split; [reflexivity|]. split; [discriminate|]. intros _. split; [intros E; cbn in E; lia|]. intros _. split; [reflexivity|]. left. auto.
  - destruct (((1 <? o_f o)%Z || (o_f o <? 0)%Z) && ((Z.of_nat nb <? o_l o)%Z || (o_l o <? 0)%Z)) eqn:E2; cbn [app]; (split; [reflexivity|]; split; [discriminate|]; intros _).
    + apply andb_prop in E2. destruct E2 as [A B]. apply orb_prop in A. apply orb_prop in B. rewrite !Z.ltb_lt in A, B. split; [intros E; cbn in E; lia|]. intros _. split; [reflexivity|]. right. split; [lia|reflexivity].
    + split; [|intros E; now contradiction E]. intros _. split; [|reflexivity]. destruct o; reflexivity.
Qed.
Print Assumptions C61_depth_change_is_announced.

(** Two scatterings of the input that isl recognises as equal, anywhere in the list, are announced; nothing else is. *)
Theorem C61_similar_scatterings :
  forall (A : Type) (same : A -> A -> bool) (l : list A),
  (read_messages same l = [Similar] <-> exists i j a b, i < j /\ nth_error l i = Some a /\ nth_error l j = Some b /\ same a b = true) /\
  (read_messages same l <> [Similar] -> read_messages same l = []).
Proof.
  intros A same l. assert (Q : lazy_same same l = true <-> exists i j a b, i < j /\ nth_error l i = Some a /\ nth_error l j = Some b /\ same a b = true).
  { induction l as [|x l IH]; cbn [lazy_same].
    - split; [discriminate|]. intros (i & j & a & b & _ & H & _). destruct i; discriminate H.
    - destruct (existsb (same x) l) eqn:E.
      + split; [intros _|reflexivity]. apply existsb_exists in E. destruct E as (y & Hy & Sy). apply In_nth_error in Hy. destruct Hy as (j & Hj). exists 0, (S j), x, y. repeat split; auto. lia.
      + rewrite IH. split.
        * intros (i & j & a & b & L & H1 & H2 & H3). exists (S i), (S j), a, b. repeat split; auto. lia.
        * intros (i & j & a & b & L & H1 & H2 & H3). destruct j as [|j]; [lia|]. destruct i as [|i].
          -- injection H1 as <-. cbn in H2. apply nth_error_In in H2. exfalso. assert (existsb (same x) l = true); [|congruence]. apply existsb_exists. eauto.
          -- exists i, j, a, b. repeat split; auto. lia. }
  unfold read_messages. destruct l as [|x l].
  - split; [|reflexivity]. rewrite <- Q. split; discriminate.
  - destruct (lazy_same same (x :: l)); (split; [rewrite <- Q; split; (reflexivity || discriminate)|]); intros H; [now contradiction H|reflexivity].
Qed.
Print Assumptions C61_similar_scatterings.

Section Alloc.
Variable P : Poly.
Variable C : Scat P.
Variable fully : smap C -> bool.

Lemma block_scan_same ls : forall k dl ds start sstart dref sref ss,
  match block_scan_m P C k dl ds start sstart dref sref ls ss with
  | Some (rl, rs, k') => block_scan P C dl ds start sstart dref sref ls ss = Some (rl, rs) /\
      k' + length rl = k + S (length dl + length ls) /\ length rs + length dl + length ls = length rl + length ds + length ss /\ length ls <= length ss /\ 1 <= length rs
  | None => block_scan P C dl ds start sstart dref sref ls ss = None
  end.
Proof.
  induction ls as [|l ls IH]; intros k dl ds start sstart dref sref ss; cbn [block_scan_m block_scan].
  - split; [reflexivity|]. rewrite !app_length. cbn [length]. lia.
  - destruct ss as [|s ss]; [reflexivity|]. destruct (lazy_equal P dref (pl_dom P l) && lazy_block P C sref s (ds ++ sstart :: s :: ss)).
    + specialize (IH (S k) dl ds (merge_loop P start l) sstart (pl_dom P l) s ss). destruct (block_scan_m _ _ _ _ _ _ _ _ _ _ _) as [[[rl rs] k']|]; [|exact IH]. destruct IH as (A & B & D & F & G). split; [exact A|]. cbn [length]. lia.
    + specialize (IH k (dl ++ [start]) (ds ++ [sstart]) l s (pl_dom P l) s ss). destruct (block_scan_m _ _ _ _ _ _ _ _ _ _ _) as [[[rl rs] k']|]; [|exact IH]. destruct IH as (A & B & D & F & G). split; [exact A|]. rewrite !app_length in *. cbn [length] in *. lia.
Qed.
Lemma block_same ls ss :
  match program_block_m P C ls ss with
  | Some (rl, rs, m) => program_block P C ls ss = Some (rl, rs) /\ length rl <= length ls /\ length rs + length ls = length rl + length ss /\ (2 <= length ls -> length ls <= length ss) /\ (ss <> [] -> rs <> []) /\
      m = (if length ls - length rl =? 0 then [] else [Blocked (length ls - length rl)])
  | None => program_block P C ls ss = None
  end.
Proof.
  unfold program_block_m, program_block. destruct ls as [|l [|l' ls]].
  - cbn [length]. repeat split; try lia; auto.
  - cbn [length]. repeat split; try lia; auto.
  - destruct ss as [|s ss]; [reflexivity|]. pose proof (block_scan_same (l' :: ls) 0 [] [] l s (pl_dom P l) s ss) as H.
    destruct (block_scan_m _ _ _ _ _ _ _ _ _ _ _) as [[[rl rs] k]|]; [|exact H]. destruct H as (A & B & D & F & G). cbn [length] in *. split; [exact A|]. split; [lia|]. split; [lia|]. split; [lia|]. split; [intros _ ->; cbn in G; lia|].
    replace (S (S (length ls)) - length rl) with k by lia. reflexivity.
Qed.

Lemma runs_length l : length (count_runs l) = length l.
Proof. induction l as [|x l IH]; cbn [count_runs length]; congruence. Qed.
Lemma runs_nonzero l : length (filter (fun x => negb (x =? 0)) (count_runs l)) = length (filter (fun x => negb (x =? 0)) l).
Proof.
  induction l as [|x l IH]; [reflexivity|]. cbn [count_runs filter]. destruct (x =? 0) eqn:E.
  - rewrite E. cbn [negb]. exact IH.
  - apply Nat.eqb_neq in E. assert (E' : (x + leading_nonzero l =? 0) = false) by (apply Nat.eqb_neq; lia). rewrite E'. cbn [negb length]. now rewrite IH.
Qed.
Lemma kinds_nonzero kinds : length (filter (fun x => negb (x =? 0)) (map (fun k : bool => if k then 1 else 0) kinds)) = length (filter (fun k : bool => k) kinds).
Proof. induction kinds as [|[|] kinds IH]; cbn [map filter]; [reflexivity| |exact IH]. change (negb (1 =? 0)) with true. cbn [length]. now rewrite IH. Qed.
Lemma fill_length i : forall ls ss r, fill_scalars P C i ls ss = Some r -> length r = length ls.
Proof.
  induction ls as [|l ls IH]; intros ss r H; cbn [fill_scalars] in H; [injection H as <-; reflexivity|]. destruct ss as [|s ss]; [discriminate|]. destruct (s_scalar C s i); [|discriminate]. destruct (pl_scal P l); [|discriminate].
  destruct (fill_scalars P C i ls ss) as [r'|] eqn:E; [|discriminate]. injection H as <-. cbn [length]. f_equal. eapply IH; eassumption.
Qed.
Lemma extract_from_length kinds : forall n ls ss r rs, extract_from P C kinds n ls ss = Some (r, rs) -> length r = length ls /\ length rs = length ss.
Proof.
  induction n as [|n IH]; intros ls ss r rs H; cbn [extract_from] in H; [injection H as <- <-; auto|]. destruct (nth n kinds false); [|now apply IH in H].
  destruct (fill_scalars P C n ls ss) as [l'|] eqn:E; [|discriminate]. apply IH in H. apply fill_length in E. rewrite map_length in H. destruct H. split; congruence.
Qed.
Lemma extract_same nb ls ss :
  match extract_scalars_m P C nb ls ss with
  | Some (sd, rl, rs, m) => extract_scalars P C nb ls ss = Some (sd, rl, rs) /\ length rl = length ls /\ length rs = length ss /\ length sd = nb /\
      m = (let n := length (filter (fun x => negb (x =? 0)) sd) in if n =? 0 then [] else [Scalar n nb])
  | None => extract_scalars P C nb ls ss = None
  end.
Proof.
  unfold extract_scalars_m. destruct (extract_scalars P C nb ls ss) as [[[sd rl] rs]|] eqn:E; [|reflexivity]. split; [reflexivity|].
  unfold extract_scalars in E. assert (LK : length (scalar_dims P C nb ss) = nb) by (unfold scalar_dims; rewrite map_length, seq_length; reflexivity).
  destruct (existsb (fun k => k) (scalar_dims P C nb ss)).
  - destruct (extract_from P C (scalar_dims P C nb ss) nb _ ss) as [[l' s']|] eqn:F; [|discriminate]. injection E as <- <- <-. apply extract_from_length in F. rewrite map_length in F. destruct F as [F1 F2].
    split; [exact F1|]. split; [exact F2|]. split; [rewrite runs_length, map_length; exact LK|]. cbv zeta. rewrite runs_nonzero, kinds_nonzero. reflexivity.
  - injection E as <- <- <-. split; [reflexivity|]. split; [reflexivity|]. split; [rewrite map_length; exact LK|]. cbv zeta. rewrite kinds_nonzero. reflexivity.
Qed.
Lemma scatter_rest_same n : forall ls ss k,
  match scatter_rest_m P C fully k n ls ss with
  | Some (r, more, k') => scatter_rest P C n ls ss = Some r /\ more = negb (length ls =? length ss) /\ (length ss <= length ls -> k' = k + length (filter (fun s => negb (fully s)) ss))
  | None => scatter_rest P C n ls ss = None
  end.
Proof.
  induction ls as [|l ls IH]; intros [|s ss] k; cbn [scatter_rest_m scatter_rest].
  - split; [reflexivity|]. split; [reflexivity|]. intros _. cbn. lia.
  - split; [reflexivity|]. split; [reflexivity|]. cbn. lia.
  - split; [reflexivity|]. split; [reflexivity|]. cbn. lia.
  - destruct (s_dim C s =? n); [|reflexivity]. specialize (IH ss (if fully s then k else S k)). destruct (scatter_rest_m P C fully _ n ls ss) as [[[r more] k']|]; [|now rewrite IH]. destruct IH as (A & B & D). rewrite A. split; [reflexivity|]. split; [exact B|].
    cbn [length]. intros L. rewrite (D ltac:(lia)). cbn [filter]. destruct (fully s); cbn [negb length]; lia.
Qed.
Lemma scatter_same ls ss :
  match program_scatter_m P C fully ls ss with
  | Some (r, m) => program_scatter P C ls ss = Some r /\
      (ss <> [] -> exists k, m = (if length ls =? length ss then [] else [NoScattering]) ++ (if k =? 0 then [] else [FewConstraints k]) /\ (length ss <= length ls -> k = length (filter (fun s => negb (fully s)) ss)))
  | None => program_scatter P C ls ss = None
  end.
Proof.
  unfold program_scatter_m, program_scatter. destruct ss as [|s ss]; [split; [reflexivity|intros H; now contradiction H]|]. destruct ls as [|l ls]; [reflexivity|].
  pose proof (scatter_rest_same (s_dim C s) (l :: ls) (s :: ss) 0) as H. destruct (scatter_rest_m P C fully 0 (s_dim C s) (l :: ls) (s :: ss)) as [[[r more] k]|]; [|exact H]. destruct H as (A & B & D). split; [exact A|]. intros _. exists k. split; [|exact D].
  rewrite B. destruct (length (l :: ls) =? length (s :: ss)); reflexivity.
Qed.
End Alloc.

Lemma from_length P : forall ds i, length (from_domains P i ds) = length ds.
Proof. induction ds as [|d ds IH]; intros i; cbn [from_domains length]; [reflexivity|]. now rewrite IH. Qed.
Lemma given_length {A B} (l : list (A * option B)) : let ss := flat_map (fun x => match snd x with Some s => [s] | None => [] end) l in
  length ss <= length l /\ (length ss = length l <-> ~ exists a, In (a, None) l).
Proof.
  cbv zeta. induction l as [|[a [b|]] l [IH1 IH2]]; cbn [flat_map snd app length].
  - split; [lia|]. split; [|reflexivity]. intros _ [? []].
  - split; [lia|]. split.
    + intros H (x & [E|Hx]); [discriminate E|]. apply (proj1 IH2); [lia|]. now exists x.
    + intros H. f_equal. apply IH2. intros (x & Hx). apply H. exists x. now right.
  - split; [lia|]. split; [lia|]. intros H. exfalso. apply H. exists a. now left.
Qed.
Lemma given_some {A B} (l : list (A * option B)) : flat_map (fun x => match snd x with Some s => [s] | None => [] end) l <> [] <-> exists a b, In (a, Some b) l.
Proof.
  induction l as [|[a [b|]] l IH]; cbn [flat_map snd app].
  - split; [intros H; now contradiction H|]. intros (? & ? & []).
  - split; [|discriminate]. intros _. exists a, b. now left.
  - rewrite IH. split; intros (x & y & H); exists x, y; [now right|]. destruct H as [H|H]; [discriminate H|exact H].
Qed.

(** the scatterings that are applied: those left by the blocks and without the scalar dimensions taken out *)
Definition used_scatterings (P : Poly) (C : Scat P) (o : alloc_options) (input : list (dom P * option (smap C))) : option (list (smap C)) :=
  let ls := from_domains P 0 (map fst input) in
  match flat_map (fun x => match snd x with Some s => [s] | None => [] end) input with
  | [] => Some []
  | (s :: _) as ss =>
    match (if a_noblocks o then Some (ls, ss) else program_block P C ls ss) with
    | None => None
    | Some (ls1, ss1) => if a_noscalars o then Some ss1 else option_map snd (extract_scalars P C (s_dim C s) ls1 ss1)
    end
  end.
(** Setting up a program.  The messages do not change what is set up.  The user is warned if and only if some
    statements have a scattering and some have not; is told how many scattering dimensions are scalar if there are any;
    how many statements were put together with the one before, if any were; and how many of the scatterings applied do not
    determine the date of an instance (as far as isl's answer [fully] goes), if there are any.  Nothing is said twice. *)
Theorem C61_setup_messages :
  forall (P : Poly) (C : Scat P) (fully : smap C -> bool) (o : alloc_options) (input : list (dom P * option (smap C))),
  match program_alloc_m P C fully o input with
  | None => program_alloc P C o input = None
  | Some (scaldims, ls, m) =>
    program_alloc P C o input = Some (scaldims, ls) /\
    (In NoScattering m <-> (exists d, In (d, None) input) /\ (exists d s, In (d, Some s) input)) /\
    (forall n nb, In (Scalar n nb) m <-> n > 0 /\ n = length (filter (fun x => negb (x =? 0)) scaldims) /\ nb = length scaldims) /\
    (forall k, In (Blocked k) m <-> k > 0 /\ a_noblocks o = false /\ (exists d s, In (d, Some s) input) /\ exists blocks rest,
       program_block P C (from_domains P 0 (map fst input)) (flat_map (fun x => match snd x with Some s => [s] | None => [] end) input) = Some (blocks, rest) /\ k + length blocks = length input) /\
    (forall k, In (FewConstraints k) m <-> k > 0 /\ exists used, used_scatterings P C o input = Some used /\ k = length (filter (fun s => negb (fully s)) used)) /\
    NoDup m
  end.
Proof.
  intros P C fully o input. unfold program_alloc_m, program_alloc, used_scatterings. cbv zeta.
  set (ls := from_domains P 0 (map fst input)). assert (LL : length ls = length input) by (unfold ls; rewrite from_length, map_length; reflexivity).
  pose proof (given_length input) as GL. pose proof (given_some input) as GS. cbv zeta in GL. destruct GL as [GL1 GL2].
  set (ss := flat_map (fun x => match snd x with Some s => [s] | None => [] end) input) in *. clearbody ls. clearbody ss.
  destruct ss as [|s ss0] eqn:Ess.
  { split; [reflexivity|]. assert (NS : ~ exists d s, In (d, Some s) input) by (rewrite <- GS; auto). split; [split; [intros []|intros [_ H]; contradiction]|]. split; [intros n nb; split; [intros []|intros (A & B & _); cbn in B; lia]|].
    split; [intros k; split; [intros []|intros (_ & _ & H & _); contradiction]|].
    split; [intros k; split; [intros []|intros (K & u & E & Q); injection E as <-; cbn in Q; lia]|]. constructor. }
  cbv iota. rewrite <- Ess in GL1, GL2, GS |- *. assert (NE : ss <> []) by (rewrite Ess; discriminate). pose proof (proj1 GS NE) as HasS. set (nb := s_dim C s).
  (* blocks *)
  assert (B : match (if a_noblocks o then Some (ls, ss, []) else program_block_m P C ls ss) with
    | Some (rl, rs, m) => (if a_noblocks o then Some (ls, ss) else program_block P C ls ss) = Some (rl, rs) /\ length rs + length ls = length rl + length ss /\ rs <> [] /\
        (forall x, In x m -> exists k, x = Blocked k) /\ NoDup m /\
        (forall k, In (Blocked k) m <-> k > 0 /\ a_noblocks o = false /\ (exists d s, In (d, Some s) input) /\ exists blocks rest, program_block P C ls ss = Some (blocks, rest) /\ k + length blocks = length input)
    | None => (if a_noblocks o then Some (ls, ss) else program_block P C ls ss) = None end).
  { destruct (a_noblocks o).
    - split; [reflexivity|]. split; [lia|]. split; [exact NE|]. split; [intros x []|]. split; [constructor|]. intros k. split; [intros []|]. intros (_ & H & _). discriminate H.
    - pose proof (block_same P C ls ss) as H. destruct (program_block_m P C ls ss) as [[[rl rs] m]|]; [|exact H]. destruct H as (A & B1 & B2 & B3 & B4 & ->). split; [exact A|]. split; [exact B2|]. split; [exact (B4 NE)|].
      destruct (Nat.eqb_spec (length ls - length rl) 0) as [Z0|Z0].
      + split; [intros x []|]. split; [constructor|]. intros k. split; [intros []|]. intros (K & _ & _ & bl & rs' & Q & E). rewrite A in Q. injection Q as <- <-. lia.
      + split; [intros x [<- |[]]; eauto|]. split; [constructor; [intros []|constructor]|]. intros k. split.
        * intros [E|[]]. injection E as <-. split; [lia|]. split; [reflexivity|]. split; [exact HasS|]. exists rl, rs. split; [exact A|lia].
        * intros (K & _ & _ & bl & rs' & Q & E). rewrite A in Q. injection Q as <- <-. left. f_equal. lia. }
  destruct (if a_noblocks o then Some (ls, ss, []) else program_block_m P C ls ss) as [[[ls1 ss1] m1]|]; [|rewrite B; reflexivity].
  destruct B as (-> & L1 & NE1 & M1 & D1 & K1).
  (* scalar dimensions *)
  assert (X : match (if a_noscalars o then Some (repeat 0 nb, ls1, ss1, []) else extract_scalars_m P C nb ls1 ss1) with
    | Some (sd, rl, rs, m) => (if a_noscalars o then Some (repeat 0 nb, ls1, ss1) else extract_scalars P C nb ls1 ss1) = Some (sd, rl, rs) /\ length rl = length ls1 /\ length rs = length ss1 /\ length sd = nb /\
        m = (let n := length (filter (fun x => negb (x =? 0)) sd) in if n =? 0 then [] else [Scalar n nb])
    | None => (if a_noscalars o then Some (repeat 0 nb, ls1, ss1) else extract_scalars P C nb ls1 ss1) = None end).
  { destruct (a_noscalars o); [|apply extract_same]. split; [reflexivity|]. split; [reflexivity|]. split; [reflexivity|]. split; [apply repeat_length|]. cbv zeta.
    assert (Z0 : filter (fun x => negb (x =? 0)) (repeat 0 nb) = []) by (clear; induction nb as [|k IH]; [reflexivity|exact IH]). now rewrite Z0. }
  destruct (if a_noscalars o then Some (repeat 0 nb, ls1, ss1, []) else extract_scalars_m P C nb ls1 ss1) as [[[[sd ls2] ss2] m2]|]; [|rewrite X; reflexivity].
  destruct X as (EX & L2 & L2' & L3 & ->).
  assert (US : (if a_noscalars o then Some ss1 else option_map snd (extract_scalars P C nb ls1 ss1)) = Some ss2).
  { destruct (a_noscalars o); [now injection EX as _ _ <-|]. rewrite EX. reflexivity. }
  rewrite EX.
  pose proof (scatter_same P C fully ls2 ss2) as T. destruct (program_scatter_m P C fully ls2 ss2) as [[ls3 m3]|]; [|rewrite T; reflexivity]. destruct T as (-> & T).
  destruct T as (k & -> & KT). { intros ->. destruct ss1; [now contradiction NE1|discriminate L2']. }
  destruct (if a_noblocks o then Some ls3 else loop_block P sd ls3) as [ls4|]; [|reflexivity]. split; [reflexivity|].
  assert (EQ : (length ls2 =? length ss2) = true <-> ~ exists d, In (d, None) input).
  { rewrite <- GL2, Nat.eqb_eq. split; lia. }
  cbv zeta. set (n := length (filter (fun x => negb (x =? 0)) sd)).
  assert (NB : forall x, ~ (exists j, x = Blocked j) -> ~ In x m1) by (intros x Hx Hi; apply Hx; now apply M1).
  assert (F1 : forall x, In x (m1 ++ (if n =? 0 then [] else [Scalar n nb]) ++ (if length ls2 =? length ss2 then [] else [NoScattering]) ++ (if k =? 0 then [] else [FewConstraints k])) <->
    In x m1 \/ (n > 0 /\ x = Scalar n nb) \/ ((length ls2 =? length ss2) = false /\ x = NoScattering) \/ (k > 0 /\ x = FewConstraints k)).
  { intros x. rewrite !in_app_iff. destruct (Nat.eqb_spec n 0); destruct (length ls2 =? length ss2); destruct (Nat.eqb_spec k 0); cbn [In]; intuition (try congruence; try lia; auto). }
  specialize (KT ltac:(lia)).
  split; [|split; [|split; [|split]]].
  - rewrite F1. split.
    + intros [H|[(_ & H)|[(H & _)|(_ & H)]]]; try discriminate H; [exfalso; apply (NB NoScattering); [intros (j & E); discriminate E|exact H]|]. split; [|exact HasS].
      destruct (List.in_dec (fun a b : option unit => ltac:(decide equality; destruct a0, u; auto)) None (map (fun x => option_map (fun _ => tt) (snd x)) input)) as [Hi|Hn].
      * apply in_map_iff in Hi. destruct Hi as ([d [q|]] & E & Hi); [discriminate E|]. now exists d.
      * exfalso. assert (Q : (length ls2 =? length ss2) = true); [|congruence]. apply EQ. intros (d & Hd). apply Hn. apply in_map_iff. exists (d, None). auto.
    + intros [H _]. right. right. left. split; [|reflexivity]. destruct (length ls2 =? length ss2) eqn:E; [|reflexivity]. exfalso. now apply (proj1 EQ).
  - intros n' nb'. rewrite F1, L3. split.
    + intros [H|[(H & E)|[(_ & E)|(_ & E)]]]; try discriminate E; [exfalso; apply (NB (Scalar n' nb')); [intros (j & E); discriminate E|exact H]|]. injection E as -> ->. auto.
    + intros (A & -> & ->). right. left. auto.
  - intros k'. rewrite F1, <- K1. split; [|auto]. intros [H|[(H & E)|[(_ & E)|(_ & E)]]]; try discriminate E. exact H.
  - intros k'. rewrite F1, US. split.
    + intros [H|[(_ & E)|[(_ & E)|(H & E)]]]; try discriminate E; [exfalso; apply (NB (FewConstraints k')); [intros (j & E); discriminate E|exact H]|]. injection E as ->. split; [exact H|]. exists ss2. auto.
    + intros (H & u & E & Q). injection E as <-. rewrite <- KT in Q. rewrite Q in H |- *. right. right. right. split; [exact H|reflexivity].
  - assert (ND : forall a b : list message, NoDup a -> NoDup b -> (forall x, In x a -> ~ In x b) -> NoDup (a ++ b)).
    { induction a as [|x a IH]; intros b Ha Hb Hd; [exact Hb|]. inversion_clear Ha as [|? ? H1 H2]. cbn [app]. constructor.
      - rewrite in_app_iff. intros [H|H]; [auto|]. apply (Hd x); cbn [In]; auto.
      - apply IH; auto. intros y Hy. apply Hd. now right. }
    apply ND; [exact D1| |].
    + destruct (n =? 0); destruct (length ls2 =? length ss2); destruct (k =? 0); cbn [app]; repeat (constructor; [cbn [In]; intuition discriminate|]); constructor.
    + intros x Hx. destruct (M1 x Hx) as (j & ->). rewrite !in_app_iff. destruct (n =? 0); destruct (length ls2 =? length ss2); destruct (k =? 0); cbn [In]; intuition discriminate.
Qed.
Print Assumptions C61_setup_messages.

(** A scattering that does not determine the date of every instance is counted, when every statement has a scattering
    and these are used as they are given (no blocks, no scalar extraction): no such message means that all are functions
    (as far as isl's answer [fully] goes). *)
Theorem C61_few_constraints_as_given :
  forall (P : Poly) (C : Scat P) (fully : smap C -> bool) (o : alloc_options) (input : list (dom P * smap C)) scaldims ls m,
  a_noblocks o = true -> a_noscalars o = true ->
  program_alloc_m P C fully o (map (fun x => (fst x, Some (snd x))) input) = Some (scaldims, ls, m) ->
  let bad := length (filter (fun x => negb (fully (snd x))) input) in
  m = if bad =? 0 then [] else [FewConstraints bad].
Proof.
  intros P C fully o input scaldims ls m Hb Hs H. cbv zeta. unfold program_alloc_m in H. cbv zeta in H. rewrite Hb, Hs in H.
  assert (E1 : flat_map (fun x : dom P * option (smap C) => match snd x with Some s => [s] | None => [] end) (map (fun x => (fst x, Some (snd x))) input) = map snd input).
  { clear. induction input as [|[d s] r IH]; cbn; [reflexivity|f_equal; exact IH]. }
  assert (E2 : length (filter (fun x => negb (fully (snd x))) input) = length (filter (fun s => negb (fully s)) (map snd input))).
  { clear. induction input as [|[d s] r IH]; [reflexivity|]. cbn [map filter snd]. destruct (negb (fully s)); cbn [length]; congruence. }
  rewrite E1 in H. rewrite E2. rewrite map_map in H. cbn [fst] in H.
  destruct (map snd input) as [|s ss] eqn:Es; [now injection H as _ _ <-|]. rewrite <- Es in *.
  set (l := from_domains P 0 (map (fun x => fst x) input)) in H. assert (LL : length l = length (map snd input)) by (unfold l; rewrite from_length, !map_length; reflexivity). clearbody l.
  pose proof (scatter_same P C fully l (map snd input)) as T. destruct (program_scatter_m P C fully l (map snd input)) as [[r m3]|]; [|discriminate H]. injection H as _ _ <-. cbn [app].
  destruct T as (_ & T). destruct T as (k & -> & K); [rewrite Es; discriminate|]. rewrite (K ltac:(lia)), LL, Nat.eqb_refl. reflexivity.
Qed.
Print Assumptions C61_few_constraints_as_given.

(** Two statements over 0 <= i <= 1, the second one later than the first by its last date: put together; with a scattering
    for one of them only, a warning; with -l 1 for two scattering dimensions, the depth is changed to 2 and that is said.
    ([fully] says no for the table that gives two dates.) *)
Definition once (s : smap BoxScat) : bool := (length (nodup (list_eq_dec Z.eq_dec) (map snd (tp s))) =? length (tp s)).
Definition sA : smap BoxScat := tab 1 [([0], [0]); ([1], [1])]%Z.
Definition sB : smap BoxScat := tab 1 [([0], [0]); ([1], [0]); ([1], [1])]%Z.
Definition sC : smap BoxScat := tab 2 [([7; 0], [0]); ([7; 1], [1])]%Z.
Definition plain61 : alloc_options := {| a_noblocks := true; a_noscalars := true |}.
Example C61_example :
  option_map snd (program_alloc_m BoxPoly BoxScat once blocks_on [(dA, Some sC); (dA, Some sC)]) = Some [Blocked 1; Scalar 1 2] /\
  option_map snd (program_alloc_m BoxPoly BoxScat once blocks_off [(dA, Some sA); (dA, None)]) = Some [NoScattering] /\
  option_map snd (program_alloc_m BoxPoly BoxScat once plain61 [(dA, Some sA); (dA, Some sB)]) = Some [FewConstraints 1] /\
  option_map snd (program_alloc_m BoxPoly BoxScat once plain61 [(dA, Some sA); (dA, Some sA)]) = Some [] /\
  stderr_of false [NoScattering] = ("[CLooG] WARNING: there is not a scattering for each statement." ++ nl)%string /\
  read_messages Nat.eqb [4; 2; 3; 2] = [Similar] /\ read_messages Nat.eqb [4; 2; 3] = [].
Proof. repeat split; vm_compute; reflexivity. Qed.
Definition o61 (l f : Z) (over : bool) : options :=
  {| o_l := l; o_f := f; o_stop := -1; o_strides := false; o_sh := false; o_otl := true; o_backtrack := false; o_first_unroll := -1; o_fs := None; o_ls := None; o_nosimplify := false; o_override := over |}.
Example C61_depth_example :
  fst (generate_messages 2 (o61 1 1 false)) = [RaisedL] /\ fst (generate_messages 2 (o61 (-1) 1 false)) = [] /\ fst (generate_messages 2 (o61 (-1) 2 false)) = [LoweredL] /\
  fst (generate_messages 2 (o61 2 2 false)) = [] /\ fst (generate_messages 2 (o61 1 3 false)) = [RaisedL] /\ fst (generate_messages 2 (o61 1 1 true)) = [Override].
Proof. repeat split; reflexivity. Qed.
