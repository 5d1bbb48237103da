(** The names and the calls in the statements made by cloog_clast_create. *)
From Coq Require Import ZArith List Bool Arith String Ascii Permutation Lia.
From Verif Require Import LoopModel LoopSpec LoopCount ClastModel ClastSpec ClastBounds ClastGuards ClastDivs ClastMain PprintModel CReader PprintSpec ClastPrint.
Import ListNotations.
Local Open Scope string_scope.
Local Open Scope Z_scope.
Local Arguments Nat.leb : simpl never.
Local Arguments Nat.eqb : simpl never.
Local Arguments Nat.sub : simpl never.
Local Arguments Z.mul : simpl never.
Local Arguments Z.add : simpl never.

Lemma some_eq {A} (a b : A) : Some a = Some b -> a = b.
Proof. congruence. Qed.
Section Names.
Variables iter_name par_name : nat -> string.
Variable sort_exprs : list expr -> list expr.
Variable sort_eqns : list eqn -> list eqn.
Variable reduce : list (option (eqtype * row)) -> list row -> nat -> list row.
Variable P : Poly.
Variable rows_of : dom P -> list row.
Variable np : nat.
Hypothesis sort_exprs_perm : forall l, Permutation l (sort_exprs l).
Hypothesis sort_eqns_perm : forall l, Permutation l (sort_eqns l).
Hypothesis iter_ident : forall i, ident (iter_name (S i)) = true.
Hypothesis par_ident : forall j, ident (par_name j) = true.
Hypothesis reduce_len : forall eqs rows n, Forall (fun r => List.length (r_co r) = n + np)%nat rows ->
  Forall (fun r => List.length (r_co r) = n + np)%nat (reduce eqs rows n).
Variable D : nat.
Definition good (x : string) : Prop := (exists i, (1 <= i <= D)%nat /\ x = iter_name i) \/ (exists j, (j < np)%nat /\ x = par_name j).
Definition good_expr (e : option expr) : Prop := forall x, In x (opt_vars e) -> good x.

Lemma known_good : forall lo n x, (n <= D)%nat -> known_var iter_name par_name lo n (n + np) x -> good x.
Proof.
  intros lo n x Hn (i & Hi & _ & ->). destruct (Nat.leb_spec i n); [left; exists i; split; [lia|reflexivity]|].
  right. exists (i - n - 1)%nat. split; [lia|reflexivity].
Qed.
Lemma bound_good : forall n r level, (n <= D)%nat -> List.length (r_co r) = (n + np)%nat -> good_expr (bound_from_constraint iter_name par_name n r level).
Proof.
  intros n r level Hn Hr x Hx. destruct (bound_from_constraint iter_name par_name n r level) as [e|] eqn:E; [|destruct Hx].
  eapply (known_good level n); [exact Hn|]. rewrite <- Hr. eapply bound_vars; eassumption.
Qed.
Lemma minmax_good : forall n rows level max guard ne st, (n <= D)%nat -> Forall (fun r => List.length (r_co r) = n + np)%nat rows ->
  good_expr (minmax iter_name par_name sort_exprs n rows level max guard ne st).
Proof.
  intros n rows level max guard ne st Hn HR x Hx. destruct (minmax iter_name par_name sort_exprs n rows level max guard ne st) as [e|] eqn:E; [|destruct Hx].
  destruct (minmax_facts iter_name par_name sort_exprs sort_exprs_perm iter_ident par_ident _ _ _ _ _ _ _ _ E) as [_ V].
  destruct (V x Hx) as (r & Hr & K). rewrite Forall_forall in HR. rewrite (HR r Hr) in K. eapply known_good; eassumption.
Qed.
Lemma variable_good : forall n i x, (n <= D)%nat -> (1 <= i <= n + np)%nat -> In x (vars (variable_expr iter_name par_name n i)) -> good x.
Proof.
  intros n i x Hn Hi Hx. cbn in Hx. destruct Hx as [<-|[]]. destruct (Nat.leb_spec i n); [left; exists i; split; [lia|reflexivity]|].
  right. exists (i - n - 1)%nat. split; [lia|reflexivity].
Qed.
Definition good_eqn (q : eqn) : Prop := forall x, In x (vars (e_lhs q) ++ opt_vars (e_rhs q))%list -> good x.
Lemma guard_dim_good : forall n all level i rows mn mx, (n <= D)%nat -> (1 <= i <= n + np)%nat ->
  Forall (fun r => List.length (r_co r) = n + np)%nat all -> Forall (fun r => List.length (r_co r) = n + np)%nat rows ->
  forall q, In q (guard_dim iter_name par_name sort_exprs n all level i mn mx rows) -> good_eqn q.
Proof.
  intros n all level i rows mn mx Hn Hi HA HR. revert mn mx. induction HR as [|j rows Hj HR IH]; intros mn mx q Hq; [destruct Hq|]. cbn [guard_dim] in Hq.
  destruct (skip_guard n level i j); [now apply (IH mn mx)|]. destruct ((level =? 0)%nat || r_eq j).
  - destruct Hq as [<-|Hq]; [|now apply (IH mn mx)]. intros x Hx. cbn [e_lhs e_rhs vars] in Hx. apply in_app_or in Hx. destruct Hx as [Hx|Hx].
    + eapply variable_good; eassumption.
    + revert Hx. apply bound_good; [exact Hn|]. now rewrite set_coef_len.
  - destruct ((mx && is_lower_bound j (i - 1)) || (mn && is_upper_bound j (i - 1))); [now apply (IH mn mx)|].
    destruct Hq as [<-|Hq]; [|now apply (IH _ _ q Hq)]. intros x Hx. cbn [e_lhs e_rhs vars] in Hx. apply in_app_or in Hx. destruct Hx as [Hx|Hx].
    + eapply variable_good; eassumption.
    + revert Hx. now apply minmax_good.
Qed.

(** *** what is put around a body *)
Definition frame_vars (f : frame) : list string :=
  match f with
  | FGuard qs => flat_map (fun q => vars (e_lhs q) ++ opt_vars (e_rhs q)) qs
  | FAss x e => x :: opt_vars e
  | FBlock => []
  | FFor it lb ub _ => it :: opt_vars lb ++ opt_vars ub
  end%list.
Definition good_frames (fs : list frame) : Prop := forall x, In x (flat_map frame_vars fs) -> good x.
Definition good_stmts (ss : list stmt) : Prop := forall x, In x (flat_map stmt_vars ss) -> good x.
Lemma plug_vars : forall fs body, good_frames fs -> good_stmts body -> good_stmts (plug fs body).
Proof.
  induction fs as [|f fs IH]; intros body F B; [exact B|]. cbn [plug fold_right].
  assert (G : good_stmts (plug fs body)) by (apply IH; [intros x Hx; apply F; cbn [flat_map]; apply in_or_app; now right|exact B]).
  assert (Ff : forall x, In x (frame_vars f) -> good x) by (intros x Hx; apply F; cbn [flat_map]; apply in_or_app; now left).
  intros x Hx. destruct f; cbn [plug1 flat_map stmt_vars frame_vars] in *; rewrite ?app_nil_r in Hx.
  - apply in_app_or in Hx. destruct Hx as [Hx|Hx]; [now apply Ff|now apply G].
  - destruct Hx as [Hx|Hx]; [apply Ff; now left|]. apply in_app_or in Hx. destruct Hx as [Hx|Hx]; [apply Ff; now right|now apply G].
  - now apply G.
  - destruct Hx as [Hx|Hx]; [apply Ff; now left|]. rewrite app_assoc in Hx. apply in_app_or in Hx. destruct Hx as [Hx|Hx]; [apply Ff; now right|now apply G].
Qed.
Lemma plug_calls : forall fs body, flat_map stmt_calls (plug fs body) = flat_map stmt_calls body.
Proof.
  induction fs as [|f fs IH]; intro body; [reflexivity|]. rewrite <- (IH body). cbn [plug fold_right].
  destruct f; cbn [plug1 flat_map stmt_calls]; rewrite ?app_nil_r; reflexivity.
Qed.
Lemma frames_app : forall a b, good_frames a -> good_frames b -> good_frames (a ++ b).
Proof. intros a b A B x Hx. rewrite flat_map_app in Hx. apply in_app_or in Hx. destruct Hx; [now apply A|now apply B]. Qed.
Lemma guard_good : forall n rows level, (n <= D)%nat -> Forall (fun r => List.length (r_co r) = n + np)%nat rows ->
  good_frames (insert_guard iter_name par_name sort_exprs sort_eqns n np rows level).
Proof.
  intros n rows level Hn HR. unfold insert_guard. destruct (guard_eqns iter_name par_name sort_exprs n np rows level) as [|q qs] eqn:G; [intros x []|].
  intros x Hx. cbn [flat_map frame_vars] in Hx. rewrite app_nil_r in Hx. apply in_flat_map in Hx. destruct Hx as (q0 & H0 & Hx).
  assert (I : In q0 (q :: qs)) by (eapply Permutation_in; [apply Permutation_sym, sort_eqns_perm|exact H0]).
  rewrite <- G in I. unfold guard_eqns in I. apply in_flat_map in I. destruct I as (i & Hi & I). apply in_seq in Hi.
  eapply (guard_dim_good n rows level i rows); try eassumption. lia.
Qed.

(** *** the header of a loop *)
Lemma eliminate_len : forall m line is, List.length (fst (eliminate m line is)) = List.length (fst line).
Proof. intros m [co k] [i [[s off]|]]; [|reflexivity]. unfold eliminate. cbn [snd fst]. destruct (s mod m =? 0); [apply set_nth_length|reflexivity]. Qed.
Lemma eliminate_all_len : forall m l line, List.length (fst (fold_left (eliminate m) l line)) = List.length (fst line).
Proof. induction l as [|a l IH]; intro line; [reflexivity|]. cbn [fold_left]. rewrite IH. apply eliminate_len. Qed.
Lemma modulo_good : forall n nfo upper lower level b fs, (n <= D)%nat -> level = n ->
  List.length (r_co upper) = (n + np)%nat -> (forall l, lower = Some l -> List.length (r_co l) = (n + np)%nat) ->
  modulo_guard iter_name par_name reduce n nfo upper lower level = Some (b, fs) -> good_frames fs.
Proof.
  intros n nfo upper lower level b fs Hn -> HU HL H. unfold modulo_guard in H. cbv zeta in H.
  destruct (Z.abs (coef upper (n - 1)) =? 1); [injection H as <- <-; intros x []|].
  match type of H with (if ?c then _ else _) = _ => destruct c; [injection H as <- <-; intros x []|] end.
  match type of H with context [reduce ?e ?r ?l] => pose proof (reduce_len e r l) as RL; destruct (reduce e r l) as [|c rest]; [injection H as <- <-; intros x []|] end.
  assert (HC : List.length (r_co c) = (n + np)%nat).
  { assert (F : Forall (fun r => List.length (r_co r) = n + np)%nat (c :: rest)).
    { apply RL. constructor; [exact HU|]. destruct lower; [|constructor]. constructor; [now apply HL|constructor]. }
    inversion F. assumption. }
  unfold modulo_guard_constraint in H. cbv zeta in H.
  match type of H with context [?m <=? 0] => destruct (m <=? 0); [discriminate|]; set (M := m) in * end.
  match type of H with context [if ?c then _ else _] => destruct c; [injection H as <- <-; intros x []|] end.
  match type of H with context [fold_left (eliminate M) ?l ?i] => pose proof (eliminate_all_len M l i) as EL; destruct (fold_left (eliminate M) l i) as [co2 k2] end.
  cbn [fst] in EL. rewrite map_length, set_nth_length in EL.
  assert (L2 : List.length co2 = (n + np)%nat) by (rewrite EL; destruct (0 <? coef c (n - 1)); rewrite ?map_length; exact HC).
  match type of H with context [match ?t with [] => _ | _ => _ end] => set (terms := t) in * end.
  assert (HT : forall t, In t terms -> forall x, In x (vars t) -> good x).
  { intros t Ht x Hx. unfold terms in Ht. apply in_flat_map in Ht. destruct Ht as (i & Hi & Ht). apply in_seq in Hi.
    destruct (nth (i - 1) co2 0 =? 0); [destruct Ht|]. destruct Ht as [<-|[]]. cbn [vars] in Hx. eapply (variable_good n i); [exact Hn|lia|exact Hx]. }
  destruct terms as [|t ts] eqn:ET; [injection H as <- <-; intros x []|]. injection H as <- <-. intros x Hx.
  cbn [flat_map frame_vars e_lhs e_rhs vars opt_vars] in Hx. rewrite ?app_nil_r in Hx.
  change (vars t ++ flat_map vars (ts ++ (if k2 =? 0 then [] else [ETerm k2 None])))%list with (flat_map vars ((t :: ts) ++ (if k2 =? 0 then [] else [ETerm k2 None])))%list in Hx.
  rewrite flat_map_app in Hx. apply in_app_or in Hx. destruct Hx as [Hx|Hx].
  - apply in_flat_map in Hx. destruct Hx as (u & Hu & Hx). now apply (HT u).
  - destruct (k2 =? 0); destruct Hx.
Qed.
Lemma for_bound_good : forall o a b, good_expr a -> good_expr b -> good_expr (fst (for_bound o a b)) /\ good_expr (snd (for_bound o a b)).
Proof.
  intros o a b A B. unfold for_bound. destruct (co_callable o); cbn [negb]; [|split; assumption].
  destruct a as [a|], b as [b|]; cbn [fst snd]; split; try assumption.
  - intros x Hx. cbn in Hx. rewrite app_nil_r in Hx. now apply A.
  - intros x Hx. cbn in Hx. rewrite app_nil_r in Hx. now apply B.
Qed.
Definition len_ok (n : nat) (e : option (eqtype * row)) : Prop := forall t r, e = Some (t, r) -> List.length (r_co r) = (S n + np)%nat.
Lemma name_good : forall n, (S n <= D)%nat -> good (iter_name (S n)).
Proof. intros n H. left. exists (S n). split; [lia|reflexivity]. Qed.
Lemma for_frame_good : forall o n a b st, (S n <= D)%nat -> good_expr a -> good_expr b ->
  good_frames (let '(a', b') := for_bound o a b in [FFor (iter_name (S n)) a' b' st]).
Proof.
  intros o n a b st Hn A B. destruct (for_bound_good o a b A B) as [A' B']. destruct (for_bound o a b) as [a' b']. cbn [fst snd] in *.
  intros x Hx. cbn [flat_map frame_vars] in Hx. rewrite app_nil_r in Hx. destruct Hx as [<-|Hx]; [now apply name_good|].
  apply in_app_or in Hx. destruct Hx; [now apply A'|now apply B'].
Qed.
Lemma equation_good : forall o n nfo st upper lower fs e, (S n <= D)%nat ->
  List.length (r_co upper) = (S n + np)%nat -> (forall l, lower = Some l -> List.length (r_co l) = (S n + np)%nat) ->
  insert_equation iter_name par_name reduce o (S n) nfo st upper lower (S n) = Some (Some (fs, e)) -> good_frames fs /\ len_ok n e.
Proof.
  intros o n nfo st upper lower fs e Hn HU HL H. unfold insert_equation in H. destruct (co_otl o); cbn [negb] in H.
  - destruct (modulo_guard iter_name par_name reduce (S n) nfo upper lower (S n)) as [[[] mf]|] eqn:MG; [|discriminate|discriminate].
    cbv zeta in H. injection H as <- <-. split.
    + apply frames_app; [eapply modulo_good; [| |exact HU|exact HL|exact MG]; [lia|reflexivity]|].
      destruct (match lower with Some _ => false | None => _ end); [intros x []|]. apply frames_app; [destruct (co_block o); intros x []|].
      intros x Hx. cbn [flat_map frame_vars] in Hx. rewrite app_nil_r in Hx. destruct Hx as [<-|Hx]; [now apply name_good|]. revert Hx. now apply bound_good.
    + intros t r E. destruct lower; [discriminate|]. injection E as _ <-. exact HU.
  - cbv zeta in H.
    match type of H with context [for_bound o ?a ?b] => pose proof (for_frame_good o n a b (stride_of st) Hn) as F; destruct (for_bound o a b) as [e1 e2] end.
    injection H as <- <-. split; [|intros t r E; discriminate]. apply F.
    + destruct lower as [l|]; apply bound_good; try exact Hn; [now apply HL|exact HU].
    + now apply bound_good.
Qed.
Variable o : copts.
Variable ns : nat.
Lemma header_good : forall rs n nfo l st fs e eq, dim P (l_dom P l) = S n -> (S n <= D)%nat ->
  Forall (fun r => List.length (r_co r) = S n + np)%nat (rs (l_dom P l)) ->
  insert_header iter_name par_name sort_exprs reduce P rs o np nfo (S n) l st = Some (Some (fs, e, eq)) -> good_frames fs /\ len_ok n e.
Proof.
  intros rs n nfo l st fs e eq Hd Hn HL H. unfold insert_header in H. rewrite Hd in H.
  replace (negb (S n =? 0)%nat && (S n <=? S n)%nat) with true in H by (symmetry; apply andb_true_iff; split; [reflexivity|apply Nat.leb_refl]).
  pose proof HL as HF. rewrite Forall_forall in HF. destruct (defining_equality (S n) (rs (l_dom P l)) (S n)) as [u|] eqn:DE.
  - unfold defining_equality in DE. apply find_some in DE. destruct DE as [Hin _].
    destruct (insert_equation _ _ _ _ _ _ _ _ _ _) as [[[fs' e']|]|] eqn:IE; [|discriminate|discriminate]. injection H as <- <- <-.
    eapply (equation_good o n); [exact Hn| | |exact IE]; [now apply HF|]. intros l0 E; discriminate.
  - destruct (defining_inequalities (S n) (rs (l_dom P l)) (S n)) as [[u lo]|] eqn:DI.
    + destruct (insert_equation _ _ _ _ _ _ _ _ _ _) as [[[fs' e']|]|] eqn:IE; [|discriminate|discriminate]. injection H as <- <- <-.
      assert (I : In (u, lo) (list_prod (rs (l_dom P l)) (rs (l_dom P l)))).
      { unfold defining_inequalities in DI. destruct (find _ _) as [[u' l']|] eqn:Fi; [|discriminate]. apply find_some in Fi.
        destruct (existsb _ _); [discriminate|]. injection DI as -> ->. apply Fi. }
      apply in_prod_iff in I. destruct I as [I1 I2]. eapply (equation_good o n); [exact Hn| | |exact IE]; [now apply HF|]. intros l0 E. injection E as <-. now apply HF.
    + destruct (insert_for _ _ _ _ _ _ _ _ _) as [[fs'|]|] eqn:IF; [|discriminate|discriminate]. injection H as <- <- <-. split; [|intros t r E; discriminate].
      unfold insert_for in IF. cbv zeta in IF. pose proof (minmax_good (S n) _ (S n) true 0 false st Hn HL) as G1. pose proof (minmax_good (S n) _ (S n) false 0 false None Hn HL) as G2.
      destruct (is_bigger_constant _ _); [discriminate|].
      match type of IF with (if ?c then _ else _) = _ => destruct c; [discriminate|] end. destruct (l_otl P l).
      * injection IF as <-. apply frames_app; [destruct (co_block o); intros x []|]. intros x Hx. cbn [flat_map frame_vars e_lhs e_rhs] in Hx. rewrite ?app_nil_r in Hx.
        destruct Hx as [<-|Hx]; [now apply name_good|]. apply in_app_or in Hx. destruct Hx as [Hx|Hx]; [now apply G1|].
        cbn [vars] in Hx. destruct Hx as [<-|Hx]; [now apply name_good|now apply G2].
      * pose proof (for_frame_good o n _ _ (stride_of st) Hn G1 G2) as F. destruct (for_bound o _ _) as [e1 e2]. injection IF as <-. exact F.
Qed.

(** remainder conditions: the constraint involves no existential dimension but its own *)
Lemma zero_set : forall (l : list Z) k j, nth j l 0 = 0 -> nth j (set_nth l k 0) 0 = 0.
Proof.
  intros l k j H. destruct (Nat.lt_ge_cases k (List.length l)) as [G|G].
  - rewrite (set_nth_nth 0 0) by exact G. now destruct (j =? k)%nat.
  - assert (E : forall (l : list Z) k, (List.length l <= k)%nat -> set_nth l k 0 = l).
    { clear. induction l as [|z l IH]; intros [|k] G; cbn in *; try reflexivity; [lia|]. f_equal. apply IH. lia. }
    now rewrite E.
Qed.
Lemma eliminate_all_zero : forall m j l line, nth j (fst line) 0 = 0 -> nth j (fst (fold_left (eliminate m) l line)) 0 = 0.
Proof.
  intros m j. induction l as [|[i [[s off]|]] l IH]; intros line H; [exact H| |]; cbn [fold_left]; apply IH; [|exact H].
  unfold eliminate. cbn [snd fst]. destruct (s mod m =? 0); [now apply zero_set|exact H].
Qed.
Lemma extra_good : forall n nd nfo u lower i sat fs, (n <= D)%nat -> (n < i <= n + nd)%nat -> List.length (r_co u) = (n + nd + np)%nat ->
  (forall j, (n <= j < n + nd)%nat -> j <> (i - 1)%nat -> coef u j = 0) ->
  modulo_guard iter_name par_name (fun _ rows _ => rows) (n + nd) nfo u lower i = Some (sat, fs) -> good_frames fs.
Proof.
  intros n nd nfo u lower i sat fs Hn Hi HL HZ H. unfold modulo_guard in H. cbv zeta in H.
  destruct (Z.abs (coef u (i - 1)) =? 1); [injection H as <- <-; intros x []|].
  match type of H with (if ?c then _ else _) = _ => destruct c; [injection H as <- <-; intros x []|] end.
  unfold modulo_guard_constraint in H. cbv zeta in H. set (co := if 0 <? coef u (i - 1) then map Z.opp (r_co u) else r_co u) in *.
  assert (LC : List.length co = (n + nd + np)%nat) by (unfold co; destruct (0 <? coef u (i - 1)); rewrite ?map_length; exact HL).
  assert (ZC : forall j, (n <= j < n + nd)%nat -> j <> (i - 1)%nat -> nth j co 0 = 0).
  { intros j Hj Ne. specialize (HZ j Hj Ne). unfold coef in HZ. unfold co. destruct (0 <? nth (i - 1) (r_co u) 0) eqn:E; unfold coef; rewrite E; [|exact HZ]. change 0 with (- 0). rewrite map_nth, HZ. reflexivity. }
  clearbody co. set (M := - nth (i - 1) co 0) in *.
  destruct (Z.leb_spec M 0) as [G|G]; [discriminate|].
  match type of H with context [if ?c then _ else _] => destruct c; [injection H as <- <-; intros x []|] end.
  match type of H with context [fold_left (eliminate M) ?l ?i] => set (L0 := i) in *; set (LL := l) in *; pose proof (fun j => eliminate_all_zero M j LL L0) as EZ; pose proof (eliminate_all_len M LL L0) as EL; destruct (fold_left (eliminate M) LL L0) as [co2 k2] end.
  cbn [fst] in EZ, EL. assert (L2 : List.length co2 = (n + nd + np)%nat) by (rewrite EL; unfold L0; cbn [fst]; rewrite map_length, set_nth_length; exact LC).
  assert (Z2 : forall j, (n <= j < n + nd)%nat -> nth j co2 0 = 0).
  { intros j Hj. apply EZ. unfold L0. cbn [fst]. rewrite (nth_indep _ 0 (0 mod M)) by (rewrite map_length, set_nth_length; lia). rewrite map_nth with (f := fun z => z mod M).
    replace (nth j (set_nth co (i - 1) 0) 0) with 0; [apply Z.mod_0_l; lia|]. symmetry. destruct (Nat.eq_dec j (i - 1)) as [->|Ne]; [|now apply zero_set, ZC].
    rewrite (set_nth_nth 0 0) by lia. now rewrite Nat.eqb_refl. }
  match type of H with context [match ?t with [] => _ | _ => _ end] => set (terms := t) in * end.
  assert (HT : forall t, In t terms -> forall x, In x (vars t) -> good x).
  { intros t Ht x Hx. unfold terms in Ht. apply in_flat_map in Ht. destruct Ht as (j & Hj & Ht). apply in_seq in Hj.
    destruct (Z.eqb_spec (nth (j - 1) co2 0) 0) as [E|E]; [destruct Ht|]. destruct Ht as [<-|[]]. cbn in Hx. destruct Hx as [<-|[]].
    destruct (Nat.leb_spec j (n + nd)) as [J|J].
    - left. exists j. split; [|reflexivity]. destruct (Nat.le_gt_cases j n); [lia|]. exfalso. apply E, Z2. lia.
    - right. exists (j - (n + nd) - 1)%nat. split; [lia|reflexivity]. }
  destruct terms as [|t ts] eqn:ET; [injection H as <- <-; intros x []|]. injection H as <- <-. intros x Hx.
  cbn [flat_map frame_vars e_lhs e_rhs vars opt_vars] in Hx. rewrite ?app_nil_r in Hx.
  change (vars t ++ flat_map vars (ts ++ (if k2 =? 0 then [] else [ETerm k2 None])))%list with (flat_map vars ((t :: ts) ++ (if k2 =? 0 then [] else [ETerm k2 None])))%list in Hx.
  rewrite flat_map_app in Hx. apply in_app_or in Hx. destruct Hx as [Hx|Hx].
  - apply in_flat_map in Hx. destruct Hx as (v & Hv & Hx). now apply (HT v).
  - destruct (k2 =? 0); destruct Hx.
Qed.
Lemma guards_good : forall n nfo rows level guard, (n <= D)%nat -> Forall (fun r => List.length (r_co r) = n + n_divs n np rows + np)%nat rows ->
  insert_guards iter_name par_name sort_exprs sort_eqns n np nfo rows level = Some guard -> good_frames guard.
Proof.
  intros n nfo rows level guard Hn HR HG. destruct (guards_shape _ _ _ _ _ _ _ _ _ _ HG) as (mods & -> & HM). apply frames_app.
  - intros x Hx. apply in_flat_map in Hx. destruct Hx as (f & Hf & Hx). destruct (HM f Hf) as (u & lower & i & sat & fs & U1 & U2 & _ & _ & U4 & U5 & U6).
    rewrite Forall_forall in HR. apply (extra_good n _ nfo u lower i sat fs Hn U2 (HR u U1) U4 U5). apply in_flat_map. exists f. split; [exact U6|exact Hx].
  - apply guard_good; [exact Hn|]. now apply plain_len.
Qed.
(** *** the loops *)
Definition eqs_len (eqs : list (option (eqtype * row))) : Prop := forall t r i, nth_error eqs i = Some (Some (t, r)) -> List.length (r_co r) = (S i + np)%nat.
Lemma eqs_len_snoc : forall eqs e, eqs_len eqs -> len_ok (List.length eqs) e -> eqs_len (eqs ++ [e]).
Proof.
  intros eqs e H He t r i Hn. destruct (Nat.lt_ge_cases i (List.length eqs)).
  - rewrite nth_error_app1 in Hn by lia. now apply (H t r i).
  - rewrite nth_error_app2 in Hn by lia. destruct (i - List.length eqs)%nat eqn:De; [|destruct n; discriminate]. cbn in Hn. injection Hn as Hn.
    replace i with (List.length eqs) by lia. now apply (He t r).
Qed.
Lemma block_good : forall nfo b level, eqs_len (i_eqs nfo) -> (level <= S D)%nat -> good_stmts (insert_block iter_name par_name ns nfo b level).
Proof.
  intros nfo b level HE HL x Hx. destruct b as [b|]; [|destruct Hx]. cbn [insert_block] in Hx. apply in_flat_map in Hx. destruct Hx as (s & Hs & Hx).
  apply in_map_iff in Hs. destruct Hs as (num & <- & _). cbn [stmt_vars] in Hx. apply in_flat_map in Hx. destruct Hx as (e & He & Hx).
  unfold clast_equal in He. apply in_map_iff in He. destruct He as (i & <- & Hi). apply in_seq in Hi.
  destruct (nth i (i_eqs nfo) None) as [[t r]|] eqn:En.
  - assert (Hn : nth_error (i_eqs nfo) i = Some (Some (t, r))).
    { rewrite (nth_error_nth' _ None); [now rewrite En|]. destruct (Nat.lt_ge_cases i (List.length (i_eqs nfo))); [assumption|]. rewrite nth_overflow in En by lia. discriminate. }
    revert Hx. apply bound_good; [lia|]. rewrite (HE t r i Hn). lia.
  - cbn in Hx. destruct Hx as [<-|[]]. left. exists (i + 1)%nat. split; [lia|reflexivity].
Qed.
Lemma block_calls : forall nfo b level c, In c (flat_map stmt_calls (insert_block iter_name par_name ns nfo b level)) ->
  exists b', b = Some b' /\ In (fst c) (b_stmts b') /\ snd c = (level - 1 - ns)%nat.
Proof.
  intros nfo [b|] level c Hc; [|destruct Hc]. exists b. split; [reflexivity|]. cbn [insert_block] in Hc. apply in_flat_map in Hc. destruct Hc as (s & Hs & Hc).
  apply in_map_iff in Hs. destruct Hs as (num & <- & Hnum). cbn [stmt_calls] in Hc. destruct Hc as [<-|[]]. cbn [fst snd]. split; [exact Hnum|].
  unfold clast_equal. now rewrite map_length, seq_length.
Qed.
Variable K : nat -> block -> Prop.
(** no loop is deeper than [D]; the statements and their depths are in [K] *)
Definition node_ok (l : loop P) : Prop := (dim P (l_dom P l) <= D)%nat /\ forall b, l_blk P l = Some b -> K (dim P (l_dom P l)) b.
Definition calls_ok (ss : list stmt) : Prop := forall c, In c (flat_map stmt_calls ss) -> exists d b, K d b /\ In (fst c) (b_stmts b) /\ snd c = (d - ns)%nat.
Notation insert_loop := (insert_loop iter_name par_name sort_exprs sort_eqns reduce P rows_of).
Notation insert_loops := (insert_loops iter_name par_name sort_exprs sort_eqns reduce P rows_of).
Lemma list_good : forall nfo level ls ss, insert_loops o ns np nfo level ls = Some ss ->
  (forall l s, In l ls -> insert_loop o ns np nfo level l = Some s -> good_stmts s /\ calls_ok s) -> good_stmts ss /\ calls_ok ss.
Proof.
  intros nfo level. induction ls as [|l ls IH]; intros ss H HG; cbn [ClastModel.insert_loops] in H.
  - injection H as <-. split; [intros x []|intros c []].
  - destruct (insert_loop o ns np nfo level l) as [s1|] eqn:E1; [|discriminate]. destruct (insert_loops o ns np nfo level ls) as [s2|] eqn:E2; [|discriminate]. injection H as <-.
    destruct (HG l s1 (or_introl eq_refl) E1) as [A1 A2]. destruct (IH s2 eq_refl (fun l0 s0 I => HG l0 s0 (or_intror I))) as [B1 B2]. split.
    + intros x Hx. rewrite flat_map_app in Hx. apply in_app_or in Hx. destruct Hx; [now apply A1|now apply B1].
    + intros c Hc. rewrite flat_map_app in Hc. apply in_app_or in Hc. destruct Hc; [now apply A2|now apply B2].
Qed.
Theorem loop_good : forall l n nfo ss, shaped P rows_of np n l -> each_loop node_ok l -> List.length (i_eqs nfo) = n -> eqs_len (i_eqs nfo) ->
  insert_loop o ns np nfo (S n) l = Some ss -> good_stmts ss /\ calls_ok ss.
Proof.
  induction l as [d ot sst b inner IHl] using (loop_ind' P). intros n nfo ss SH EA LE EO H.
  rewrite insert_loop_np in H. destruct (const_stride P _) as [st|]; [|discriminate]. cbv zeta in H.
  replace (S n =? 0)%nat with false in H by reflexivity.
  destruct (insert_guards _ _ _ _ _ _ _ _ _) as [guard|] eqn:IG; [|discriminate]. cbn [l_dom] in IG. inversion EA as [l0 [ND NK] EI E0]; subst l0.
  inversion SH as [n' l' b' HB HI HD [HR _]|n' l' HB HD [HR _] _ _ _ IN]; subst n' l'; cbn [l_dom l_blk l_inner l_st] in *; rewrite HD in IG.
  - subst b inner. unfold insert_header in H. cbn [l_dom] in H. rewrite HD in H. replace (S n <=? n)%nat with false in H by (symmetry; apply Nat.leb_gt; lia).
    rewrite andb_false_r in H. cbn [ClastModel.insert_loops] in H. apply some_eq in H. subst ss. rewrite !app_nil_r. split.
    + apply plug_vars; [eapply guards_good; [|exact HR|exact IG]; lia|]. apply block_good; [|lia]. cbn [i_eqs]. apply eqs_len_snoc; [exact EO|intros t r E; discriminate].
    + intros c Hc. rewrite plug_calls in Hc. apply block_calls in Hc. destruct Hc as (b0 & Eb & Hb & Hc). injection Eb as <-. exists n, b'.
      split; [rewrite <- HD; now apply NK|]. split; [exact Hb|]. rewrite Hc. f_equal. lia.
  - subst b. destruct (insert_header _ _ _ _ _ _ _ _ _ _ _) as [[[[fs e] eq]|]|] eqn:IHD; [| |discriminate].
    + destruct (ClastModel.insert_loops _ _ _ _ _ _ _ _ _ _ _ _ _) as [body|] eqn:EB; [|discriminate]. apply some_eq in H. subst ss.
      destruct (header_good (flat_rows P rows_of np) n) with (1 := HD) (4 := IHD) as [GF LO]; [lia|unfold flat_rows; cbn [l_dom]; rewrite HD; apply plain_len, HR|].
      destruct (list_good _ _ inner body EB) as [B1 B2].
      { intros l' s' Hl' Hs'. rewrite Forall_forall in IN, IHl, EI. refine (IHl l' Hl' (S n) _ s' (IN l' Hl') (EI l' Hl') _ _ Hs'); cbn [i_eqs].
        - rewrite app_length, LE. cbn. lia.
        - apply eqs_len_snoc; [exact EO|rewrite LE; exact LO]. }
      cbn [insert_block app]. split.
      * apply plug_vars; [apply frames_app; [eapply guards_good; [|exact HR|exact IG]; lia|exact GF]|exact B1].
      * intros c Hc. rewrite plug_calls in Hc. now apply B2.
    + apply some_eq in H. subst ss. split; [|intros c Hc; rewrite plug_calls in Hc; destruct Hc].
      apply plug_vars; [eapply guards_good; [|exact HR|exact IG]; lia|intros x []].
Qed.
Theorem create_good : forall ls ss, Forall (shaped0 P rows_of np) ls ->
  Forall (each_loop node_ok) ls ->
  clast_create iter_name par_name sort_exprs sort_eqns reduce P rows_of o ns np ls = Some ss -> good_stmts ss /\ calls_ok ss.
Proof.
  intros ls ss SH EA H. unfold clast_create in H. eapply list_good; [exact H|]. intros l s Hl Hs. rewrite Forall_forall in SH, EA. destruct (SH l Hl) as (HD & [HR _] & HI). clear H.
  pose proof (EA l Hl) as EAl. inversion EAl as [l0 [ND NK] EI E0]; subst l0.
  rewrite insert_loop_np in Hs. destruct (const_stride P l) as [st|]; [|discriminate]. cbv zeta in Hs. rewrite Nat.eqb_refl in Hs.
  destruct (insert_guards _ _ _ _ _ _ _ _ _) as [guard|] eqn:IG; [|discriminate]. rewrite HD in IG. unfold insert_header in Hs. rewrite Nat.eqb_refl in Hs.
  cbn [negb andb] in Hs. destruct (ClastModel.insert_loops _ _ _ _ _ _ _ _ _ _ _ _ _) as [body|] eqn:EB; [|discriminate]. apply some_eq in Hs. subst s.
  assert (E0 : eqs_len []) by (intros t r i Hn; destruct i; discriminate).
  destruct (list_good _ _ (l_inner P l) body EB) as [B1 B2].
  { intros l' s' Hl' Hs'. rewrite Forall_forall in HI, EI. exact (loop_good l' 0 {| i_eqs := []; i_strides := [] |} s' (HI l' Hl') (EI l' Hl') eq_refl E0 Hs'). }
  rewrite app_nil_r. split.
  - apply plug_vars; [eapply guards_good; [|exact HR|exact IG]; lia|]. intros x Hx. rewrite flat_map_app in Hx. apply in_app_or in Hx.
    destruct Hx as [Hx|Hx]; [|now apply B1]. revert Hx. apply block_good; [exact E0|lia].
  - intros c Hc. rewrite plug_calls, flat_map_app in Hc. apply in_app_or in Hc. destruct Hc as [Hc|Hc]; [|now apply B2].
    apply block_calls in Hc. destruct Hc as (b & Eb & Hb & Hc). exists 0%nat, b. split; [rewrite <- HD; now apply NK|]. split; [exact Hb|]. rewrite Hc. lia.
Qed.
End Names.
