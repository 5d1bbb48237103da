(** The whole command: the statements that the printed program runs, and the names it uses. *)
From Coq Require Import ZArith List Bool Arith String Sorted Lia.
From Verif Require Import LoopModel LoopSpec LoopKeys ProgramModel ProgramSpec ProgramScalars ProgramBlock ProgramLoopBlock ProgramMain ClastModel ClastSpec CReader PprintSpec
  PropertiesLoop PropertiesProgram ClastEnd FileModel FileSpec EndSpec EndProofs ToolModel ToolSpec.
From Verif Require NamesModel NamesSpec NamesProofs InputModel InputProofs.
Import ListNotations.
Local Open Scope nat_scope.
Local Arguments Nat.ltb : simpl never. Local Arguments Nat.leb : simpl never. Local Arguments Nat.eqb : simpl never. Local Arguments Nat.sub : simpl never.

(** ** the statements of blocks in turn *)
Fixpoint in_turn (q i : list Z) (j : nat) (nums : list nat) : list (list Z * event) :=
  match nums with [] => [] | num :: r => ((q ++ [Z.of_nat j])%list, (num, i)) :: in_turn q i (S j) r end.
Lemma in_turn_in : forall nums q i j p e, In (p, e) (in_turn q i j nums) <-> exists m, nth_error nums m = Some (fst e) /\ snd e = i /\ p = (q ++ [Z.of_nat (j + m)])%list.
Proof.
  induction nums as [|num r IH]; intros q i j p [n v]; cbn [in_turn In fst snd].
  - split; [intros []|]. intros (m & H & _). destruct m; discriminate.
  - rewrite IH. split.
    + intros [E|(m & H1 & H2 & H3)].
      * injection E as <- <- <-. exists 0. rewrite Nat.add_0_r. auto.
      * exists (S m). cbn in *. split; [exact H1|]. split; [exact H2|]. rewrite H3. f_equal. f_equal. lia.
    + intros ([|m] & H1 & H2 & H3); cbn in *.
      * left. injection H1 as ->. rewrite H3, H2, Nat.add_0_r. reflexivity.
      * right. exists m. split; [exact H1|]. split; [exact H2|]. rewrite H3. f_equal. f_equal. lia.
Qed.
Lemma in_turn_sorted : forall nums q i j, StronglySorted lex_lt (map fst (in_turn q i j nums)).
Proof.
  induction nums as [|num r IH]; intros q i j; cbn [in_turn map fst]; constructor; [apply IH|].
  apply Forall_forall. intros p Hp. apply in_map_iff in Hp. destruct Hp as ([p' e] & <- & Hp). apply in_turn_in in Hp. destruct Hp as (m & _ & _ & ->). cbn [fst]. apply lex_last. lia.
Qed.
Lemma sorted_app {A} (R : A -> A -> Prop) a b : StronglySorted R a -> StronglySorted R b -> (forall x y, In x a -> In y b -> R x y) -> StronglySorted R (a ++ b).
Proof.
  intros Ha Hb H. induction Ha as [|x a Ha IH Hx]; [exact Hb|]. cbn. constructor.
  - apply IH. intros y z Hy Hz. apply H; [now right|exact Hz].
  - apply Forall_app. split; [exact Hx|]. apply Forall_forall. intros z Hz. apply H; [now left|exact Hz].
Qed.
Lemma statements_in_turn {P} (Se : Sem P) res n L : runs Se res [] L ->
  exists R : list (list Z * event), StronglySorted lex_lt (map fst R) /\
    (forall p e, In (p, e) R <-> exists q b y j, Exec P Se res [] q b y /\ nth_error (b_stmts b) j = Some (fst e) /\ snd e = skipn n y /\ p = (q ++ [Z.of_nat j])%list) /\
    calls n L = map snd R.
Proof.
  intros [H1 H2]. set (f := fun e : list Z * block * list Z => in_turn (fst (fst e)) (skipn n (snd e)) 0 (b_stmts (snd (fst e)))).
  exists (flat_map f L). split; [|split].
  - clear H2. induction L as [|e L IH]; [constructor|]. cbn [map] in H1. inversion H1 as [|? ? H3 H4]; subst. cbn [flat_map]. rewrite map_app. apply sorted_app.
    + apply in_turn_sorted.
    + apply IH. exact H3.
    + intros x y Hx Hy. apply in_map_iff in Hx. destruct Hx as ([px ex] & <- & Hx). apply in_map_iff in Hy. destruct Hy as ([py ey] & <- & Hy).
      apply in_turn_in in Hx. destruct Hx as (m & _ & _ & ->). apply in_flat_map in Hy. destruct Hy as (e' & He' & Hy). apply in_turn_in in Hy. destruct Hy as (m' & _ & _ & ->).
      cbn [fst]. apply lex_snoc. rewrite Forall_forall in H4. apply H4. apply in_map_iff. exists e'. auto.
  - intros p e. rewrite in_flat_map. split.
    + intros ([[q b] y] & Hq & Hi). apply in_turn_in in Hi. destruct Hi as (m & A & B & C). exists q, b, y, m. split; [apply H2; exact Hq|]. auto.
    + intros (q & b & y & j & A & B & C & D). exists (q, b, y). split; [apply H2; exact A|]. apply in_turn_in. exists j. auto.
  - clear. induction L as [|e L IH]; [reflexivity|]. unfold calls in *. cbn [flat_map]. rewrite map_app, <- IH. f_equal. unfold f. clear.
    generalize 0. induction (b_stmts (snd (fst e))) as [|num r IH]; intro j; [reflexivity|]. cbn [map in_turn]. f_equal. apply IH.
Qed.
Lemma nodup_times (R : list (list Z * event)) : StronglySorted lex_lt (map fst R) -> (forall p p' e, In (p, e) R -> In (p', e) R -> p = p') -> NoDup (map snd R).
Proof.
  induction R as [|[p e] R IH]; intros H1 H2; [constructor|]. cbn [map fst snd] in *. inversion H1 as [|? ? H3 H4]; subst. constructor.
  - intro Hi. apply in_map_iff in Hi. destruct Hi as ([p' e'] & E & Hi). cbn in E. subst e'. assert (p = p') by (eapply H2; [left; reflexivity|right; exact Hi]). subst p'.
    rewrite Forall_forall in H4. apply (lex_irrefl p). apply H4. apply in_map_iff. exists (p, e). auto.
  - apply IH; [exact H3|]. intros q q' e' Hq Hq'. eapply H2; right; eassumption.
Qed.

(** ** the order in which the statements of the input run *)
Section Order.
Variables (P : Poly) (Se : Sem P) (C : Scat P) (rel : ScatSem C).
Hypothesis L : Laws P Se.
Hypothesis CL : ScatLaws P Se C rel.
Variables (ao : alloc_options) (o : options) (fuel : nat) (ctx : dom P) (input : list (dom P * smap C)) (scaldims : list nat) (res : list (loop P)).
Hypothesis Ho : plain_options P Se o.
Hypothesis Hs : o_strides o = false.
Hypothesis Hd : dim P ctx = 0.
Hypothesis Hc : mem Se ctx [] = true.
Hypothesis Hne : input <> [].
Hypothesis Hdt : dated Se rel input.
Hypothesis Hfl : flat_last input.
Hypothesis H : alloc_and_generate P C ao o fuel ctx (all_scattered input) = Some (scaldims, res).

Lemma statement_numbers : forall q b y j num, Exec P Se res [] q b y -> nth_error (b_stmts b) j = Some num -> exists k, num = S k.
Proof.
  intros q b y j num HE Hj. revert H. unfold alloc_and_generate. intro H. destruct (program_alloc P C ao (all_scattered input)) as [[sd ls]|] eqn:Ea; [|discriminate].
  destruct (cloog_program_generate P sd o fuel ctx (map (to_loop P) ls)) as [res'|] eqn:Eg; [|discriminate]. injection H as <- <-.
  destruct (alloc_shape P Se C rel L CL ao input sd ls Hdt Hne Ea) as (Bs & kinds & G & HS).
  assert (Hcount : forall b y, exists ps, NoDup ps /\ List.length ps = input_count Se (map (to_loop P) ls) b y /\ forall p, In p ps <-> Exec P Se res' [] p b y).
  { eapply C01_instances_exactly_once with (kinds := kinds); eauto.
    - eapply shape_statement_loops; eauto.
    - eapply shape_depth_order; eauto.
    - rewrite <- (sh_sd _ _ _ _ _ _ _ _ _ _ _ HS). exact Eg. }
  destruct (exec_in P Se ls res' Hcount q b y HE) as (a & w & Ha & -> & _). cbn in Hj.
  assert (Hin : In num (seq 1 (List.length input))).
  { rewrite <- (all_stmts P Se C rel ao input sd ls Bs kinds G HS). apply in_flat_map. exists w. split; [eapply nth_error_In; eauto|eapply nth_error_In; eauto]. }
  apply in_seq in Hin. exists (num - 1). lia.
Qed.
Lemma program_run : forall Ls, runs Se res [] Ls -> exists T, calls (scanned scaldims) Ls = numbered T /\ each_once Se input T /\
  ((forall p k i d s t p' k' i' d' s' t', nth_error input k = Some (d, s) -> nth_error input k' = Some (d', s') ->
      Runs Se res (scanned scaldims) p k i -> Runs Se res (scanned scaldims) p' k' i' ->
      rel s t i = true -> rel s' t' i' = true -> lex_lt t t' -> lex_lt p p') -> in_order rel input T).
Proof.
  intros Ls HR. destruct (statements_in_turn Se res (scanned scaldims) Ls HR) as (R & R1 & R2 & R3).
  destruct (C01_program_instances_exactly_once P Se C rel L CL ao o fuel ctx input scaldims res Ho Hs Hd Hc Hne Hdt Hfl H) as [O1 O2].
  assert (Hnum : forall p e, In (p, e) R -> exists k, fst e = S k /\ Runs Se res (scanned scaldims) p k (snd e)).
  { intros p e He. apply R2 in He. destruct He as (q & b & y & j & HE & Hj & Hi & Hp). destruct (statement_numbers q b y j _ HE Hj) as (k & Ek). exists k. split; [exact Ek|].
    exists q, b, y, j. rewrite Ek in Hj. auto. }
  set (g := fun x : list Z * event => (fst (snd x) - 1, snd (snd x))).
  exists (map g R). split; [|split; [split|]].
  - rewrite R3. unfold numbered. rewrite map_map. apply map_ext_in. intros [p [num i]] Hin. destruct (Hnum _ _ Hin) as (k & Ek & _). cbn in Ek. subst num. cbn. f_equal. lia.
  - apply NoDup_map_inv with (f := fun e : nat * list Z => (S (fst e), snd e)). rewrite map_map.
    rewrite (map_ext_in _ snd).
    + apply nodup_times; [exact R1|]. intros p p' e He He'. destruct (Hnum _ _ He) as (k & Ek & Rk). destruct (Hnum _ _ He') as (k' & Ek' & Rk'). rewrite Ek in Ek'. injection Ek' as <-.
      destruct (O1 _ _ _ Rk) as (d & s & Hk & Hm). destruct (O2 k d s _ Hk Hm) as (p0 & _ & U). rewrite (U _ Rk), (U _ Rk'). reflexivity.
    + intros [p [num i]] Hin. destruct (Hnum _ _ Hin) as (k & Ek & _). cbn in Ek. subst num. cbn. f_equal. lia.
  - intros k i. split.
    + intros Hin. apply in_map_iff in Hin. destruct Hin as ([p [num v]] & E & Hin). destruct (Hnum _ _ Hin) as (k' & Ek & Rk). cbn in E, Ek, Rk. subst num. injection E as E <-. replace (S k' - 1) with k' in E by lia. subst k'. eapply O1; exact Rk.
    + intros (d & s & Hk & Hm). destruct (O2 k d s i Hk Hm) as (p & (q & b & y & j & A & B & Ei & Ep) & _). apply in_map_iff. exists (p, (S k, i)). split; [unfold g; cbn; f_equal; lia|].
      apply R2. exists q, b, y, j. auto.
  - intros Hord. unfold in_order. apply fop_map. apply sorted_pairs in R1. apply fop_map_inv in R1. eapply fop_in; [|exact R1].
    intros [p [num i]] [p' [num' i']] Hin Hin' Hlt d s t d' s' t' Hk Hk' Ht Ht' Hlex. cbn [fst snd g] in *.
    destruct (Hnum _ _ Hin) as (k & Ek & Rk). destruct (Hnum _ _ Hin') as (k' & Ek' & Rk'). cbn [fst snd] in *. subst num num'. replace (S k - 1) with k in Hk by lia. replace (S k' - 1) with k' in Hk' by lia.
    exact (lex_asym _ _ Hlt (Hord p' k' i' d' s' t' p k i d s t Hk' Hk Rk' Rk Ht' Ht Hlex)).
Qed.
End Order.

(** ** names *)
Section Names.
Import NamesModel NamesSpec NamesProofs InputModel.
Variables D Sc : Type.
Variable read_ctx : string -> option (D * string).
Variable read_dom : nat -> string -> option (D * string).
Variable read_scat : D -> string -> option (Sc * string).
Variables (par_dim dom_dim : D -> nat) (scat_dim : Sc -> nat).
Definition plain_made (s : named (D * option Sc)) : Prop := s = made D Sc dom_dim scat_dim None (fst (d_dom s)) (snd (d_dom s)) 0.
Definition history (np : nat) (ud : udom (D * option Sc)) : Prop := exists h, run (ud_alloc np) h = Some ud /\ forall s, In s (added h) -> plain_made s.
(** the same for statements added with names *)
Definition right_made (s : named (D * option Sc)) : Prop := s = made D Sc dom_dim scat_dim (d_name s) (fst (d_dom s)) (snd (d_dom s)) (d_usr s).
Definition api_history (np : nat) (ud : udom (D * option Sc)) : Prop := exists h, run (ud_alloc np) h = Some ud /\ forall s, In s (added h) -> right_made s.
Lemma history_api np ud : history np ud -> api_history np ud.
Proof. intros (h & H1 & H2). exists h. split; [exact H1|]. intros s Hs. pose proof (H2 s Hs) as M. unfold plain_made in M. unfold right_made. rewrite M at 1. rewrite M at 3 6. reflexivity. Qed.
Lemma history_unnamed np ud : history np ud -> forall s, In s (u_domains ud) -> d_name s = None.
Proof. intros (h & H1 & H2) s Hs. pose proof (run_spec np h) as H. rewrite H1 in H. destruct H as [_ I]. rewrite (I_dom _ _ _ I) in Hs. pose proof (H2 s Hs) as M. unfold plain_made in M. now rewrite M. Qed.
Lemma history_sets np ud t i l ud' : history np ud -> set_names D Sc ud t i l = Some ud' -> history np ud'.
Proof.
  intros (h & H1 & H2) E. rewrite InputProofs.set_names_run in E. match type of E with run _ ?h' = _ => exists (h ++ h')%list end. rewrite run_app, H1. split; [exact E|].
  intros s Hs. rewrite added_app, InputProofs.added_sets, app_nil_r in Hs. auto.
Qed.
Lemma history_sets_opt np ud t l ud' : history np ud -> set_names_opt D Sc ud t l = Some ud' -> history np ud'.
Proof. destruct l as [l|]; cbn; intros H E; [eapply history_sets; eassumption|injection E as <-; exact H]. Qed.
Lemma history_adds np : forall ds ss ud ud', history np ud -> add_domains D Sc dom_dim scat_dim ud ds ss = Some ud' -> history np ud'.
Proof.
  induction ds as [|d ds IH]; intros ss ud ud' H E; cbn in E; [injection E as <-; exact H|].
  destruct (match ss with Some (s :: ss') => (Some s, Some ss') | Some [] => (None, Some []) | None => (None, None) end) as [s ss'].
  destruct (ud_add ud (made D Sc dom_dim scat_dim None d s 0)) as [ud1|] eqn:Ea; [|discriminate]. apply (IH ss' ud1 ud'); [|exact E].
  destruct H as (h & H1 & H2). exists (h ++ [Add (made D Sc dom_dim scat_dim None d s 0)])%list. rewrite run_app, H1. cbn [run step]. rewrite Ea. split; [reflexivity|].
  intros x Hx. rewrite added_app in Hx. apply in_app_or in Hx. destruct Hx as [Hx|[<-|[]]]; [auto|reflexivity].
Qed.
Lemma read_history f lang inp rest : input_read D Sc read_ctx read_dom read_scat par_dim dom_dim scat_dim f = Some (lang, inp, rest) -> history (par_dim (in_ctx D Sc inp)) (in_ud D Sc inp).
Proof.
  unfold input_read. destruct (TextModel.next_line f) as [[[line b] f1]|]; [|discriminate]. destruct (read_ctx f1) as [[ctx f2]|]; [|discriminate].
  destruct (union_domain_read D Sc read_dom read_scat dom_dim scat_dim f2 (par_dim ctx)) as [[ud f3]|] eqn:E; [|discriminate]. intro E'. injection E' as _ <- _. cbn [in_ctx in_ud].
  assert (H0 : history (par_dim ctx) (ud_alloc (par_dim ctx))) by (exists []; split; [reflexivity|intros ? []]).
  unfold union_domain_read in E. destruct (TextModel.names_read_strings f2 _) as [[pars g1]|]; [|discriminate].
  destruct (set_names_opt D Sc (ud_alloc (par_dim ctx)) CLOOG_PARAM pars) as [ud1|] eqn:E1; [|discriminate].
  destruct (TextModel.next_line g1) as [[[line2 b2] g2]|]; [|discriminate]. destruct (TextModel.scan_number line2) as [[z zr]|]; [|discriminate].
  destruct (TextModel.as_int z) as [nd|]; [|discriminate]. destruct (nd <? 0)%Z; [discriminate|].
  destruct (read_domains D read_dom (Z.to_nat nd) (par_dim ctx) g2) as [[ds g3]|]; [|discriminate].
  destruct (TextModel.names_read_strings g3 _) as [[iters g4]|]; [|discriminate].
  destruct (scattering_list_read D Sc read_scat ds g4) as [[ss g5]|]; [|discriminate].
  destruct (add_domains D Sc dom_dim scat_dim ud1 ds ss) as [ud2|] eqn:E2; [|discriminate].
  destruct (set_names_opt D Sc ud2 CLOOG_ITER iters) as [ud3|] eqn:E3; [|discriminate].
  assert (H3 : history (par_dim ctx) ud3).
  { eapply history_sets_opt; [|exact E3]. eapply history_adds; [|exact E2]. eapply history_sets_opt; [|exact E1]. exact H0. }
  destruct ss as [ss|]; [|injection E as <- _; exact H3].
  destruct (TextModel.names_read_strings g5 _) as [[scats g6]|]; [|discriminate].
  destruct (set_names_opt D Sc ud3 CLOOG_SCAT scats) as [ud4|] eqn:E4; [|discriminate]. injection E as <- _. eapply history_sets_opt; [exact H3|exact E4].
Qed.
Lemma table_length (ud : udom (D * option Sc)) t gen l : table ud t gen = Some l -> match u_name ud t with Some tab => List.length l = List.length tab | None => l = gen end.
Proof.
  unfold table. destruct (u_name ud t) as [tab|]; [|intro E; injection E as <-; reflexivity]. revert l. induction tab as [|o tab IH]; intros l E; cbn in E; [injection E as <-; reflexivity|].
  destruct o as [s|]; [|discriminate]. match type of E with match ?X with _ => _ end = _ => destruct X as [l'|]; [|discriminate] end. injection E as <-. cbn. f_equal. apply IH. reflexivity.
Qed.
Lemma program_names_sizes_api np ud nb n : api_history np ud -> program_names ud nb = Some n ->
  List.length (n_parameters n) = np /\ n_nb_scat n = nb /\ (forall s, In s (u_domains ud) -> (dom_dim (fst (d_dom s)) <= List.length (n_iterators n))%nat).
Proof.
  intros (h & H1 & H2) E. pose proof (run_spec np h) as H. rewrite H1 in H. destruct H as [_ I].
  assert (Hl : forall t l first, table ud t (generate_items (u_n ud t) None first) = Some l -> List.length l = u_n ud t).
  { intros t l first Ht. apply table_length in Ht. pose proof (I_tab _ _ _ I t) as T. destruct (u_name ud t) as [tab|].
    - rewrite (I_n _ _ _ I t). destruct T as (_ & _ & T). congruence.
    - subst l. unfold generate_items. rewrite map_length, seq_length. reflexivity. }
  unfold program_names in E.
  destruct (table ud CLOOG_PARAM _) as [p|] eqn:Ep; [|discriminate]. destruct (table ud CLOOG_ITER _) as [i|] eqn:Ei; [|discriminate]. destruct (table ud CLOOG_SCAT _) as [s|] eqn:Es; [|discriminate].
  injection E as <-. cbn [n_parameters n_nb_scat n_iterators]. apply Hl in Ep. apply Hl in Ei. split; [|split; [reflexivity|]].
  - rewrite Ep, (I_n _ _ _ I). reflexivity.
  - intros x Hx. rewrite (I_dom _ _ _ I) in Hx. pose proof (H2 x Hx) as M. unfold right_made in M.
    rewrite Ei, (I_n _ _ _ I). change (sz np (added h) CLOOG_ITER) with (maxs (map d_dim (added h))). replace (dom_dim (fst (d_dom x))) with (d_dim x) by (rewrite M at 1; reflexivity).
    apply (maxs_max (map d_dim (added h))). now apply in_map.
Qed.
Lemma program_names_sizes np ud nb n : history np ud -> program_names ud nb = Some n ->
  List.length (n_parameters n) = np /\ n_nb_scat n = nb /\ (forall s, In s (u_domains ud) -> (dom_dim (fst (d_dom s)) <= List.length (n_iterators n))%nat /\ d_name s = None).
Proof. intros H E. destruct (program_names_sizes_api _ _ _ _ (history_api _ _ H) E) as (A & B & K). repeat split; auto. eapply history_unnamed; eauto. Qed.
Lemma split_sub flags src scat scal : scalar_split flags src = Some (scat, scal) -> (forall x, In x scat -> In x src) /\ (NoDup src -> NoDup scat).
Proof.
  revert src scat scal. induction flags as [|b flags IH]; intros src scat scal E; cbn in E; [injection E as <- _; split; [intros ? []|constructor]|].
  destruct src as [|s src]; [discriminate|]. destruct (scalar_split flags src) as [[a c]|] eqn:Ea; [|discriminate]. destruct (IH _ _ _ Ea) as [I1 I2]. destruct b; injection E as <- _.
  - split; [intros x Hx; right; auto|]. intro N. inversion N; auto.
  - split; [intros x [<-|Hx]; [now left|right; auto]|]. intro N. inversion N as [|? ? N1 N2]; subst. constructor; [|auto]. intro Hx. apply N1. auto.
Qed.
Lemma scalarize_names n flags n' : n_nb_scat n = List.length flags -> scalarize n (List.length flags) (Some flags) = Some n' ->
  n_nb_scat n' = List.length flags - count flags /\ n_iterators n' = n_iterators n /\ n_parameters n' = n_parameters n /\
  (forall x, In x (n_scattering n') -> In x (n_scattering n)) /\ (NoDup (n_scattering n) -> NoDup (n_scattering n')).
Proof.
  intros Hn E. unfold scalarize in E. destruct (List.length flags) as [|m] eqn:El.
  - injection E as <-. repeat split; auto.
  - rewrite <- El in *. destruct (Nat.ltb_spec (List.length flags) (List.length flags)); [lia|]. rewrite firstn_all in E.
    destruct (Nat.eqb_spec (count flags) 0) as [E0|E0]; [injection E as <-; rewrite E0, Nat.sub_0_r; repeat split; auto|].
    destruct (n_nb_scat n <? count flags); [discriminate|]. destruct (scalar_split flags (n_scattering n)) as [[scat scal]|] eqn:Es; [|discriminate].
    destruct (_ <? _); [discriminate|]. injection E as <-. cbn. destruct (split_sub _ _ _ _ Es). rewrite Hn. repeat split; auto.
Qed.
Lemma firstn_sub {A} (l : list A) k : (forall x, In x (firstn k l) -> In x l) /\ (NoDup l -> NoDup (firstn k l)).
Proof.
  revert k. induction l as [|a l IH]; intros [|k]; cbn; (split; [try (intros x []; fail)|try constructor]); auto.
  - intros x [<-|Hx]; [now left|right; eapply (proj1 (IH k)); exact Hx].
  - inversion H as [|? ? N1 N2]; subst. intro Hx. apply N1. exact (proj1 (IH k) a Hx).
  - inversion H as [|? ? N1 N2]; subst. apply (proj2 (IH k)). exact N2.
Qed.
Lemma printed_sub n nm : printed_names n = Some nm -> List.length (nm_scat nm) = n_nb_scat n /\ nm_iter nm = n_iterators n /\ nm_par nm = n_parameters n /\
  (forall x, In x (nm_scat nm) -> In x (n_scattering n)) /\ (NoDup (n_scattering n) -> NoDup (nm_scat nm)).
Proof.
  unfold printed_names. destruct (Nat.ltb_spec (List.length (n_scattering n)) (n_nb_scat n)); [discriminate|]. intro E. injection E as <-. cbn.
  destruct (firstn_sub (n_scattering n) (n_nb_scat n)). split; [apply firstn_length_le; assumption|]. repeat split; auto.
Qed.
End Names.

(** ** what cloog_program_alloc makes *)
Section Alloc.
Variables (P : Poly) (Se : Sem P) (C : Scat P) (rel : ScatSem C).
Hypothesis L : Laws P Se.
Hypothesis CL : ScatLaws P Se C rel.
Lemma shape_dim : forall ao input sd ls Bs kinds G, shape P Se C rel ao input sd ls Bs kinds G -> forall w, In w ls ->
  exists d s, In (d, s) input /\ dim P (pl_dom P w) = nonscalar kinds + dim P d.
Proof.
  intros ao input sd ls Bs kinds G H w Hw. rewrite (sh_ls _ _ _ _ _ _ _ _ _ _ _ H) in Hw. apply in_map_iff in Hw. destruct Hw as (g & <- & Hg).
  destruct (whole_mem P Se C rel L ao input sd ls Bs kinds G H g (fst g) (or_introl eq_refl) Hg) as [_ ->].
  assert (Hf : In (fst g) (flat P G)) by (apply in_flat_map; exists g; split; [exact Hg|left; reflexivity]).
  apply In_nth_error in Hf. destruct Hf as [n Hn]. destruct (same_dates_nth P Se C rel _ _ _ (sh_dates _ _ _ _ _ _ _ _ _ _ _ H)) as [Q1 Q2].
  destruct (nth_error Bs n) as [B|] eqn:EB.
  2:{ apply nth_error_None in EB. assert (n < List.length (flat P G)) by (apply nth_error_Some; congruence). lia. }
  pose proof (sh_inv _ _ _ _ _ _ _ _ _ _ _ H) as Hi. rewrite Forall_forall in Hi. pose proof (nth_error_In _ _ EB) as HB.
  destruct (gi_head _ _ _ _ _ (Hi B HB)) as ([[m d] s] & ms & Em & Ed & _). cbn in Ed. exists d, s. split.
  - assert (Hm : In (m, d, s) (members P C Bs)) by (apply in_flat_map; exists B; split; [exact HB|rewrite Em; left; reflexivity]).
    rewrite (sh_mem _ _ _ _ _ _ _ _ _ _ _ H) in Hm. apply number_nth in Hm. destruct Hm as (j & d' & s' & Hj & E). injection E as _ -> ->. eapply nth_error_In; eauto.
  - destruct (Q2 n B (fst g) EB Hn) as (_ & _ & -> & _). cbn. rewrite Ed. reflexivity.
Qed.
Lemma count_runs_length : forall l, List.length (count_runs l) = List.length l.
Proof. induction l as [|x l IH]; [reflexivity|]. cbn. now rewrite IH. Qed.
Lemma extract_length : forall nb ls ss sd ls' ss', extract_scalars P C nb ls ss = Some (sd, ls', ss') -> List.length sd = nb.
Proof.
  intros nb ls ss sd ls' ss' E. unfold extract_scalars in E.
  assert (Q : List.length (map (fun k : bool => if k then 1 else 0) (scalar_dims P C nb ss)) = nb) by (rewrite map_length; unfold scalar_dims; rewrite map_length, seq_length; reflexivity).
  destruct (existsb _ _).
  - destruct (extract_from P C _ nb _ ss) as [[a b]|]; [|discriminate]. injection E as <- _ _. rewrite count_runs_length. exact Q.
  - injection E as <- _ _. exact Q.
Qed.
Lemma alloc_length : forall ao x sd ls, program_alloc P C ao x = Some (sd, ls) -> List.length sd = nb_scattdims P C x.
Proof.
  intros ao x sd ls E. unfold program_alloc in E. unfold nb_scattdims. destruct (flat_map _ x) as [|s r]; [injection E as <- _; reflexivity|].
  destruct (if a_noblocks ao then _ else _) as [[l1 s1]|]; [|discriminate]. destruct (a_noscalars ao).
  - destruct (program_scatter P C l1 s1); [|discriminate]. destruct (if a_noblocks ao then _ else _); [|discriminate]. injection E as <- _. apply repeat_length.
  - destruct (extract_scalars P C (s_dim C s) l1 s1) as [[[sd' l2] s2]|] eqn:Ee; [|discriminate]. destruct (program_scatter P C l2 s2); [|discriminate]. destruct (if a_noblocks ao then _ else _); [|discriminate].
    injection E as <- _. eapply extract_length; eauto.
Qed.
Lemma flags_count : forall sd, List.length sd - NamesModel.count (map (fun r => negb (r =? 0)) sd) = scanned sd.
Proof.
  intro sd. assert (Q : NamesModel.count (map (fun r => negb (r =? 0)) sd) + scanned sd = List.length sd).
  { unfold NamesModel.count, scanned. induction sd as [|r sd IH]; [reflexivity|]. cbn [map filter List.length]. destruct (r =? 0); cbn [negb]; cbn [List.length]; lia. }
  lia.
Qed.
Lemma blocks_of_nums : forall ns (ls : list (ploop P)), flat_map snd (blocks_of P ns (map (to_loop P) ls)) = flat_map (pl_stmts P) ls.
Proof. intros ns ls. unfold blocks_of. induction ls as [|l ls IH]; [reflexivity|]. cbn [map flat_map]. rewrite flat_map_app, IH. f_equal. cbn. apply app_nil_r. Qed.

Lemma alloc_named_api : forall reserved np ao (ud : udom P C) input nm sd lls,
  api_history (dom P) (smap C) (dim P) (s_dim C) np ud -> statements P C ud = all_scattered input -> input <> [] -> dated Se rel input ->
  (forall n, NamesModel.program_names ud (nb_scattdims P C (all_scattered input)) = Some n -> names_fit reserved n) ->
  tool_alloc P C ao ud = Some (nm, sd, lls) ->
  exists ls, program_alloc P C ao (all_scattered input) = Some (sd, ls) /\ lls = map (to_loop P) ls /\ List.length (nm_scat nm) = scanned sd /\ List.length (nm_par nm) = np /\
    NoDup (FileSpec.all_names nm) /\ well_named reserved nm (blocks_of P (scanned sd) lls) /\ ~ In 0 (flat_map snd (blocks_of P (scanned sd) lls)).
Proof.
  intros reserved np ao ud input nm sd lls HH ES Hne Hdt HN E. unfold tool_alloc in E. rewrite ES in E.
  destruct (NamesModel.program_names ud _) as [n|] eqn:En; [|discriminate]. specialize (HN n eq_refl).
  destruct (program_alloc P C ao (all_scattered input)) as [[sd' ls]|] eqn:Ea; [|discriminate].
  destruct (NamesModel.scalarize n _ _) as [n'|] eqn:Es; [|discriminate]. destruct (printed_names n') as [nm'|] eqn:Ep; [|discriminate]. injection E as <- <- <-.
  exists ls. split; [reflexivity|]. split; [reflexivity|].
  pose proof (alloc_length _ _ _ _ Ea) as Hl. destruct (program_names_sizes_api _ _ _ _ _ _ _ _ HH En) as (Np & Nn & Ni). rewrite <- Hl in Nn, Es.
  assert (LF : List.length (map (fun r => negb (r =? 0)) sd') = List.length sd') by apply map_length. rewrite <- LF in Es, Nn.
  destruct (scalarize_names _ _ _ Nn Es) as (S1 & S2 & S3 & S4 & S5). rewrite LF, flags_count in S1.
  destruct (printed_sub _ _ Ep) as (P1 & P2 & P3 & P4 & P5). rewrite S1 in P1. rewrite S2 in P2. rewrite S3 in P3.
  destruct HN as [ND HI]. unfold NamesSpec.all_names in ND, HI.
  destruct (EndProofs.nodup_app _ _ ND) as (N1 & N2 & N3). destruct (EndProofs.nodup_app _ _ N2) as (N4 & N5 & N6).
  assert (Hall : forall x, In x (FileSpec.all_names nm') -> In x (NamesModel.n_scattering n ++ NamesModel.n_iterators n ++ NamesModel.n_parameters n)%list).
  { intros x Hx. unfold FileSpec.all_names in Hx. rewrite P2, P3 in Hx. apply in_app_or in Hx. apply in_or_app. destruct Hx as [Hx|Hx]; [left; auto|right; exact Hx]. }
  destruct (alloc_shape P Se C rel L CL ao input sd' ls Hdt Hne Ea) as (Bs & kinds & G & HS).
  pose proof (shape_scanned P Se C rel ao input sd' ls Bs kinds G HS) as Hsc. pose proof (all_stmts P Se C rel ao input sd' ls Bs kinds G HS) as Hst.
  assert (N0 : NoDup (NamesModel.n_scattering n')) by auto.
  split; [exact P1|]. split; [congruence|]. split; [|split].
  - unfold FileSpec.all_names. rewrite P2, P3. apply NamesProofs.nodup_app; [auto|exact N2|]. intros x H1 H2. apply (N3 x); auto.
  - constructor.
    + intros x Hx. apply HI, Hall, Hx.
    + auto.
    + rewrite P2. exact N4.
    + rewrite P3. exact N5.
    + intros x Hx. rewrite P3 in Hx. rewrite P2. split; intro Hy; [apply (N3 x); [auto|apply in_or_app; now right]|apply (N6 x); assumption].
    + intros x Hx. apply HI, Hall, Hx.
    + intros d nums Hin. unfold blocks_of in Hin. apply in_flat_map in Hin. destruct Hin as (l & Hl1 & Hin). apply in_map_iff in Hl1. destruct Hl1 as (w & <- & Hw). cbn in Hin. destruct Hin as [Hin|[]]. injection Hin as <- _.
      destruct (shape_dim _ _ _ _ _ _ _ HS w Hw) as (d0 & s0 & H1 & H2). rewrite H2, Hsc, P2.
      assert (In (d0, Some s0) (statements P C ud)) as Hd by (rewrite ES; unfold all_scattered; apply in_map_iff; exists (d0, s0); auto).
      unfold statements in Hd. apply in_map_iff in Hd. destruct Hd as (x & Ex & Hx). pose proof (Ni x Hx) as Hle. rewrite Ex in Hle. cbn in Hle. lia.
    + rewrite blocks_of_nums, Hst. apply seq_NoDup.
  - rewrite blocks_of_nums, Hst. intro Hin. apply in_seq in Hin. lia.
Qed.
Lemma alloc_named : forall reserved np ao (ud : udom P C) input nm sd lls,
  history (dom P) (smap C) (dim P) (s_dim C) np ud -> statements P C ud = all_scattered input -> input <> [] -> dated Se rel input ->
  (forall n, NamesModel.program_names ud (nb_scattdims P C (all_scattered input)) = Some n -> names_fit reserved n) ->
  tool_alloc P C ao ud = Some (nm, sd, lls) ->
  exists ls, program_alloc P C ao (all_scattered input) = Some (sd, ls) /\ lls = map (to_loop P) ls /\ List.length (nm_scat nm) = scanned sd /\ List.length (nm_par nm) = np /\
    NoDup (FileSpec.all_names nm) /\ well_named reserved nm (blocks_of P (scanned sd) lls) /\ ~ In 0 (flat_map snd (blocks_of P (scanned sd) lls)) /\ (forall n, statement_name P C ud n = None).
Proof.
  intros reserved np ao ud input nm sd lls HH ES Hne Hdt HN E.
  destruct (alloc_named_api reserved np ao ud input nm sd lls (history_api _ _ _ _ _ _ HH) ES Hne Hdt HN E) as (ls & A1 & A2 & A3 & A4 & A5 & A6 & A7).
  exists ls. repeat (split; [assumption|]). intro k. unfold statement_name. destruct (nth_error (NamesModel.u_domains ud) (k - 1)) as [x|] eqn:Ex; [|reflexivity]. eapply history_unnamed; [exact HH|]. eapply nth_error_In; eauto.
Qed.
End Alloc.
