(** The statements made by cloog_clast_create can be printed and read back. *)
From Coq Require Import ZArith List Bool Arith String Ascii Permutation Lia.
From Verif Require Import LoopModel LoopSpec LoopCount ClastModel ClastSpec ClastBounds ClastGuards ClastDivs ClastMain PprintModel CReader PprintSpec.
Import ListNotations.
Local Open Scope string_scope.
Local Open Scope Z_scope.
Local Arguments Nat.leb : simpl never.
Local Arguments Nat.eqb : simpl never.
Local Arguments Nat.sub : simpl never.
Local Arguments Z.mul : simpl never.
Local Arguments Z.add : simpl never.

Section Print.
Variables iter_name par_name : nat -> string.
Variable sort_exprs : list expr -> list expr.
Variable sort_eqns : list eqn -> list eqn.
Variable reduce : list (option (eqtype * row)) -> list row -> nat -> list row.
Variable P : Poly.
Variable rows_of : dom P -> list row.
Variable np : nat.
Hypothesis sort_exprs_perm : forall l, Permutation l (sort_exprs l).
Hypothesis sort_eqns_perm : forall l, Permutation l (sort_eqns l).
Hypothesis iter_ident : forall i, ident (iter_name (S i)) = true.
Hypothesis par_ident : forall j, ident (par_name j) = true.
Hypothesis iter_inj : forall i j, iter_name (S i) = iter_name (S j) -> i = j.
Hypothesis iter_par : forall i j, (j < np)%nat -> iter_name (S i) <> par_name j.
Notation variable_expr := (variable_expr iter_name par_name).
Notation bound_from_constraint := (bound_from_constraint iter_name par_name).
Notation bound_terms := (bound_terms iter_name par_name).
Notation minmax := (minmax iter_name par_name sort_exprs).

(** *** bounds *)
Lemma var_ident : forall n i, (1 <= i)%nat -> ident (if (i <=? n)%nat then iter_name i else par_name (i - n - 1)) = true.
Proof. intros n i H. destruct (i <=? n)%nat; [|apply par_ident]. destruct i; [lia|apply iter_ident]. Qed.
Definition plain_term (lo : nat) (n : nat) (len : nat) (t : expr) : Prop :=
  exists z i, t = ETerm z (Some (variable_expr n i)) /\ z <> 0 /\ (1 <= i <= len)%nat /\ i <> lo.
Lemma plain_printable : forall lo n len t, plain_term lo n len t -> is_term t = true /\ printable LvMul t = true /\ nonzero_term t = true.
Proof.
  intros lo n len t (z & i & -> & Z & I & _). cbn. destruct (Z.eqb_spec z 0); [contradiction|]. cbn [negb]. unfold variable_expr. cbn [is_group].
  rewrite var_ident by lia. now destruct (z =? 1).
Qed.
Lemma terms_plain : forall n r level sign t, sign <> 0 -> In t (bound_terms n r level sign) -> plain_term level n (List.length (r_co r)) t.
Proof.
  intros n r level sign t S H. unfold ClastModel.bound_terms in H. apply in_flat_map in H. destruct H as (i & Hi & H). apply in_seq in Hi.
  destruct (Nat.eqb_spec i level); [destruct H|]. destruct (Z.eqb_spec (coef r (i - 1)) 0); cbn [orb] in H; [destruct H|]. destruct H as [<-|[]].
  exists (sign * coef r (i - 1)), i. repeat split; lia.
Qed.
Lemma sum_printable : forall ts k lo n len, (forall t, In t ts -> plain_term lo n len t) -> ts <> [] -> (forall t, In t k -> nonzero_term t = true /\ printable LvMul t = true) ->
  printable LvAdd (ERed RSum (ts ++ k)) = true /\ (is_group (ERed RSum (ts ++ k)) = false -> printable LvMul (ERed RSum (ts ++ k)) = true).
Proof.
  intros ts k lo n len H NE HK. destruct ts as [|t ts]; [congruence|]. cbn [app].
  destruct (plain_printable _ _ _ _ (H t (or_introl eq_refl))) as (T1 & T2 & T3).
  assert (F : forallb (fun t => nonzero_term t && printable LvMul t) (ts ++ k) = true).
  { apply forallb_forall. intros u Hu. apply in_app_or in Hu. destruct Hu as [Hu|Hu].
    - destruct (plain_printable _ _ _ _ (H u (or_intror Hu))) as (_ & -> & ->). reflexivity.
    - destruct (HK u Hu) as (-> & ->). reflexivity. }
  cbn [printable]. rewrite T1, F. cbn [andb]. split.
  - destruct (ts ++ k)%list; [|now rewrite T2]. rewrite andb_true_r. destruct t; try discriminate T1. cbn [printable above_prim] in *. destruct var; [|apply orb_true_r].
    destruct (is_group e); [exact T2|]. destruct (val =? 1); [|exact T2].
    destruct H with (ETerm val (Some e)) as (z & i & E & _ & I & _); [now left|]. injection E as _ ->. cbn. apply var_ident. lia.
  - intro G. destruct (ts ++ k)%list; [|discriminate G]. now rewrite T2.
Qed.
Lemma const_nonzero : forall z, z <> 0 -> nonzero_term (ETerm z None) = true /\ printable LvMul (ETerm z None) = true.
Proof. intros z H. cbn. split; [|apply orb_true_r]. destruct (Z.eqb_spec z 0); [contradiction|reflexivity]. Qed.
Lemma bound_printable : forall n r level e, bound_from_constraint n r level = Some e -> printable LvAdd e = true.
Proof.
  intros n r level e H. unfold ClastModel.bound_from_constraint in H. set (a := coef r (level - 1)) in *.
  destruct (Z.eqb_spec a 0); [discriminate|]. set (el := bound_terms n r level (- Z.sgn a)) in *. set (num := - Z.sgn a * r_k r) in *.
  assert (HT : forall t, In t el -> plain_term level n (List.length (r_co r)) t).
  { intros t Ht. eapply terms_plain; [|exact Ht]. lia. }
  assert (D : 0 < Z.abs a) by lia. apply Z.ltb_lt in D.
  destruct el as [|t ts] eqn:El.
  - destruct (num =? 0); [injection H as <-; apply orb_true_r|]. destruct (Z.abs a =? 1); [injection H as <-; apply orb_true_r|].
    destruct (r_eq r); [injection H as <-; cbn [printable above_prim is_group]; rewrite D, orb_true_r; reflexivity|].
    destruct (Z.rem num (Z.abs a) =? 0); injection H as <-; apply orb_true_r.
  - set (k := if num =? 0 then [] else [ETerm num None]) in *.
    assert (HK : forall t, In t k -> nonzero_term t = true /\ printable LvMul t = true).
    { unfold k. intros u Hu. destruct (Z.eqb_spec num 0); [destruct Hu|]. destruct Hu as [<-|[]]. now apply const_nonzero. }
    change (t :: ts ++ k)%list with ((t :: ts) ++ k)%list in H.
    destruct (sum_printable (t :: ts) k _ _ _ HT ltac:(discriminate) HK) as [S1 S2].
    set (red := ERed RSum ((t :: ts) ++ k)) in *.
    destruct ((a =? 1) || (a =? -1)); [injection H as <-; exact S1|].
    destruct (r_eq r).
    + injection H as <-. cbn [printable above_prim]. rewrite D. cbn [andb]. destruct (is_group red) eqn:G; [exact S1|now apply S2].
    + injection H as <-. destruct (0 <? a); cbn [printable]; rewrite D; exact S1.
Qed.
(** the variables of a bound *)
Definition known_var (lo n len : nat) (x : string) : Prop :=
  exists i, (1 <= i <= len)%nat /\ i <> lo /\ x = (if (i <=? n)%nat then iter_name i else par_name (i - n - 1)).
Lemma bound_vars : forall n r level e x, bound_from_constraint n r level = Some e -> In x (vars e) -> known_var level n (List.length (r_co r)) x.
Proof.
  intros n r level e x H Hx. unfold ClastModel.bound_from_constraint in H. set (a := coef r (level - 1)) in *.
  destruct (Z.eqb_spec a 0); [discriminate|]. set (el := bound_terms n r level (- Z.sgn a)) in *. set (num := - Z.sgn a * r_k r) in *.
  assert (HT : forall t, In t el -> plain_term level n (List.length (r_co r)) t).
  { intros t Ht. eapply terms_plain; [|exact Ht]. lia. }
  assert (HV : In x (flat_map vars el) -> known_var level n (List.length (r_co r)) x).
  { intro I. apply in_flat_map in I. destruct I as (t & Ht & I). destruct (HT t Ht) as (z & i & -> & _ & Hi & Hl). cbn in I. destruct I as [<-|[]]. now exists i. }
  destruct el as [|t ts] eqn:El.
  - destruct (num =? 0); [injection H as <-; destruct Hx|]. destruct (Z.abs a =? 1); [injection H as <-; destruct Hx|].
    destruct (r_eq r); [injection H as <-; destruct Hx|].
    destruct (Z.rem num (Z.abs a) =? 0); injection H as <-; destruct Hx.
  - set (k := if num =? 0 then [] else [ETerm num None]) in *. apply HV.
    assert (K : In x (vars (ERed RSum (t :: ts ++ k))) -> In x (flat_map vars (t :: ts))).
    { cbn [vars]. change (t :: ts ++ k)%list with ((t :: ts) ++ k)%list. rewrite flat_map_app. intro I. apply in_app_or in I. destruct I as [I|I]; [exact I|].
      unfold k in I. destruct (num =? 0); destruct I. }
    apply K. destruct ((a =? 1) || (a =? -1)); [injection H as <-; exact Hx|]. destruct (r_eq r); injection H as <-; exact Hx.
Qed.
Lemma bound_some : forall n r level, coef r (level - 1) <> 0 -> exists e, bound_from_constraint n r level = Some e.
Proof.
  intros n r level H. unfold ClastModel.bound_from_constraint. destruct (Z.eqb_spec (coef r (level - 1)) 0); [contradiction|].
  destruct (bound_terms n r level (- Z.sgn (coef r (level - 1)))).
  - destruct (- Z.sgn (coef r (level - 1)) * r_k r =? 0); [eexists; reflexivity|]. destruct (Z.abs (coef r (level - 1)) =? 1); [eexists; reflexivity|].
    destruct (r_eq r); [eexists; reflexivity|]. destruct (Z.rem (- Z.sgn (coef r (level - 1)) * r_k r) (Z.abs (coef r (level - 1))) =? 0); eexists; reflexivity.
  - destruct ((coef r (level - 1) =? 1) || (coef r (level - 1) =? -1)); [eexists; reflexivity|]. destruct (r_eq r); eexists; reflexivity.
Qed.
Lemma update_printable : forall e st, printable LvAdd e = true -> printable LvAdd (update_lower_bound e st) = true.
Proof. intros e [[s off]|] H; [|destruct e; exact H]. destruct e as [|v [x|]| |]; try exact H. cbn. apply orb_true_r. Qed.
Lemma update_vars : forall e st x, In x (vars (update_lower_bound e st)) -> In x (vars e).
Proof. intros e [[s off]|] x H; [|destruct e; exact H]. destruct e as [|v [y|]| |]; try exact H. Qed.

Lemma minmax_facts : forall n rows level max guard ne st e, minmax n rows level max guard ne st = Some e ->
  printable LvAdd e = true /\ forall x, In x (vars e) -> exists r, In r rows /\ known_var level n (List.length (r_co r)) x.
Proof.
  intros n rows level max guard ne st e H. unfold ClastModel.minmax in H.
  assert (K : forall valid l, (forall r, In r valid -> In r rows) ->
     fold_right (fun c acc => match acc, bound_from_constraint n c level with Some l, Some e => Some (update_lower_bound e st :: l) | _, _ => None end) (Some []) valid = Some l ->
     List.length l = List.length valid /\ forall e0, In e0 l -> printable LvAdd e0 = true /\
             forall x, In x (vars e0) -> exists r, In r rows /\ known_var level n (List.length (r_co r)) x).
  { clear H. induction valid as [|r rs IH]; intros l V H; cbn [fold_right] in H.
    - injection H as <-. split; [reflexivity|intros ? []].
    - destruct (fold_right _ (Some []) rs) as [l'|]; [|discriminate]. destruct (bound_from_constraint n r level) as [b|] eqn:B; [|discriminate]. injection H as <-.
      destruct (IH l' ltac:(intros; apply V; now right) eq_refl) as [IL IH']. split; [cbn; now rewrite IL|]. intros e0 [<-|He]; [|now apply IH'].
      split; [apply update_printable; eapply bound_printable; exact B|]. intros x Hx. apply update_vars in Hx. exists r. split; [apply V; now left|].
      eapply bound_vars; eassumption. }
  assert (V : forall r, In r (filter (valid_bound level max guard ne) rows) -> In r rows) by (intros r Hr; apply filter_In in Hr; apply Hr).
  destruct (filter (valid_bound level max guard ne) rows) as [|v0 vs]; [discriminate|].
  match type of H with match ?f with _ => _ end = _ => destruct f as [l|] eqn:EF; [|discriminate] end. injection H as <-.
  destruct (K (v0 :: vs) l V EF) as [KL K']. assert (HP : forall e0, In e0 (sort_exprs l) -> In e0 l).
  { intros e0 He. eapply Permutation_in; [apply Permutation_sym, sort_exprs_perm|exact He]. }
  assert (NL : List.length (sort_exprs l) = List.length l) by (apply Permutation_length, Permutation_sym, sort_exprs_perm). cbn in KL. split.
  - assert (FA : forallb (printable LvAdd) (sort_exprs l) = true) by (apply forallb_forall; intros e0 He; apply K', HP, He).
    destruct max, (sort_exprs l) as [|y [|y' ys]]; cbn [List.length] in NL; try lia; cbn [printable]; try exact FA; cbn [forallb] in FA; apply andb_true_iff in FA; apply FA.
  - intros x Hx. cbn [vars] in Hx. apply in_flat_map in Hx. destruct Hx as (e0 & He & Hx). apply (K' e0); [now apply HP|exact Hx].
Qed.
Lemma minmax_some : forall n rows level (max : bool) guard ne st r, In r rows -> valid_bound level max guard ne r = true ->
  exists e, minmax n rows level max guard ne st = Some e.
Proof.
  intros n rows level max guard ne st r Hr V. unfold ClastModel.minmax.
  assert (A : forall rs, (forall r, In r rs -> valid_bound level max guard ne r = true) ->
            exists l, fold_right (fun c acc => match acc, bound_from_constraint n c level with Some l, Some e => Some (update_lower_bound e st :: l) | _, _ => None end) (Some []) rs = Some l).
  { induction rs as [|r0 rs IH]; intro H; [eexists; reflexivity|]. destruct IH as (l & E); [intros; apply H; now right|]. cbn [fold_right]. rewrite E.
    destruct (bound_some n r0 level) as (e & ->); [|eexists; reflexivity]. specialize (H r0 (or_introl eq_refl)). unfold valid_bound in H.
    repeat (apply andb_true_iff in H; destruct H as [H ?]). unfold is_lower_bound, is_upper_bound in H. destruct max; lia. }
  assert (I : In r (filter (valid_bound level max guard ne) rows)) by (apply filter_In; tauto).
  destruct (A (filter (valid_bound level max guard ne) rows)) as (l & E); [intros r0 H0; apply filter_In in H0; apply H0|].
  destruct (filter (valid_bound level max guard ne) rows) as [|v0 vs]; [destruct I|]. rewrite E. eexists. reflexivity.
Qed.

(** *** guards *)
Lemma set_coef_len : forall r v z, List.length (r_co (set_coef r v z)) = List.length (r_co r).
Proof. intros. apply set_nth_length. Qed.
Lemma var_term_printable : forall n i z, (1 <= i)%nat -> printable LvAdd (ETerm z (Some (variable_expr n i))) = true.
Proof. intros n i z H. unfold ClastModel.variable_expr. cbn. rewrite var_ident by exact H. now destruct (z =? 1). Qed.
Lemma guard_dim_printable : forall n all level i rows mn mx, (1 <= i)%nat -> (forall r, In r rows -> In r all) ->
  forallb cond_printable (guard_dim iter_name par_name sort_exprs n all level i mn mx rows) = true.
Proof.
  intros n all level i rows. induction rows as [|j rows IH]; intros mn mx Hi HA; [reflexivity|]. cbn [guard_dim].
  destruct (skip_guard n level i j) eqn:SK; [apply IH; [exact Hi|intros; apply HA; now right]|].
  assert (INV : involves j (i - 1) = true).
  { unfold skip_guard in SK. apply orb_false_iff in SK. destruct SK as [SK _]. apply orb_false_iff in SK. destruct SK as [SK _]. now apply negb_false_iff. }
  assert (LT := involves_lt _ _ INV).
  destruct ((level =? 0)%nat || r_eq j) eqn:LE.
  - cbn [forallb]. rewrite IH by (auto; intros; apply HA; now right). rewrite andb_true_r. unfold cond_printable. cbn [e_lhs e_rhs e_sign].
    rewrite var_term_printable by exact Hi. cbn [andb].
    set (a := coef j (i - 1)). destruct (bound_some n (set_coef j (i - 1) (if a <? 0 then -1 else 1)) i) as (e & E).
    { rewrite set_coef_coef by exact LT. rewrite Nat.eqb_refl. destruct (a <? 0); lia. }
    rewrite E. cbn [opt_ok]. eapply bound_printable. exact E.
  - destruct ((mx && is_lower_bound j (i - 1)) || (mn && is_upper_bound j (i - 1))); [apply IH; [exact Hi|intros; apply HA; now right]|].
    cbn [forallb]. rewrite IH by (auto; intros; apply HA; now right). rewrite andb_true_r. unfold cond_printable. cbn [e_lhs e_rhs e_sign].
    rewrite var_term_printable by exact Hi. cbn [andb].
    destruct (minmax_some n all i (is_lower_bound j (i - 1)) (if (level <=? n)%nat then level else 0%nat) true None j) as (e & E).
    { apply HA. now left. }
    { unfold valid_bound. apply orb_false_iff in LE. destruct LE as [L0 LQ]. rewrite LQ. unfold skip_guard in SK.
      apply orb_false_iff in SK. destruct SK as [SK S3]. apply orb_false_iff in SK. destruct SK as [S1 S2]. rewrite S2. rewrite andb_false_r. cbn [negb andb].
      rewrite !andb_true_r. apply andb_true_iff. split.
      - unfold is_lower_bound, is_upper_bound. unfold involves in INV. destruct (Z.ltb_spec 0 (coef j (i - 1))); [reflexivity|]. lia.
      - rewrite L0 in S3. cbn [negb andb] in S3. destruct (level <=? n)%nat eqn:Ln; cbn [andb] in S3.
        + rewrite S3, andb_false_r. reflexivity.
        + rewrite Nat.eqb_refl. reflexivity. }
    rewrite E. cbn [opt_ok]. eapply minmax_facts. exact E.
Qed.
Variable ostmt : popts.
Variable stmt_name : nat -> option string.
Hypothesis labels_ok : forall num, call_name_ok ostmt stmt_name num = true.
Notation pstmt := (printable_stmt ostmt stmt_name).
Definition deeper (k : nat) (ss : list stmt) : Prop := forall x, In x (flat_map assigned ss) -> exists i, (k <= i)%nat /\ x = iter_name (S i).
Lemma deeper_app : forall k a b, deeper k a -> deeper k b -> deeper k (a ++ b)%list.
Proof. intros k a b A B x H. rewrite flat_map_app in H. apply in_app_or in H. destruct H; [now apply A|now apply B]. Qed.
Lemma deeper_le : forall k k' ss, (k <= k')%nat -> deeper k' ss -> deeper k ss.
Proof. intros k k' ss L D x H. destruct (D x H) as (i & Hi & E). exists i. split; [lia|exact E]. Qed.

(** what is put around a body keeps it printable *)
Definition frame_ok (k : nat) (f : frame) : Prop := forall body, forallb pstmt body = true -> deeper (S k) body ->
  forallb pstmt (plug1 f body) = true.
Lemma guard_frame : forall n rows level body, forallb pstmt body = true ->
  forallb pstmt (plug (insert_guard iter_name par_name sort_exprs sort_eqns n np rows level) body) = true.
Proof.
  intros n rows level body H. unfold insert_guard.
  assert (E : forallb cond_printable (guard_eqns iter_name par_name sort_exprs n np rows level) = true).
  { unfold guard_eqns. apply forallb_forall. intros q Hq. apply in_flat_map in Hq. destruct Hq as (i & Hi & Hq). apply in_seq in Hi.
    pose proof (guard_dim_printable n rows level i rows false false ltac:(lia) ltac:(auto)) as F. rewrite forallb_forall in F. now apply F. }
  destruct (guard_eqns iter_name par_name sort_exprs n np rows level) as [|q qs] eqn:G; [exact H|]. cbn [plug fold_right plug1 forallb printable_stmt]. rewrite andb_true_r.
  pose proof (sort_eqns_perm (q :: qs)) as PM. apply andb_true_iff. split; [|exact H]. apply andb_true_iff. split.
  - apply negb_true_iff, Nat.eqb_neq. rewrite <- (Permutation_length PM). discriminate.
  - apply forallb_forall. intros q0 H0. rewrite forallb_forall in E. apply E. eapply Permutation_in; [apply Permutation_sym, PM|exact H0].
Qed.
Lemma guard_assigned : forall n rows level body, flat_map assigned (plug (insert_guard iter_name par_name sort_exprs sort_eqns n np rows level) body) = flat_map assigned body.
Proof.
  intros. unfold insert_guard. destruct (guard_eqns iter_name par_name sort_exprs n np rows level); [reflexivity|]. cbn [plug fold_right plug1 flat_map assigned]. apply app_nil_r.
Qed.
(** loops *)
Lemma for_ok : forall n lb ub st body, 1 <= st -> printable LvAdd lb = true -> printable LvAdd ub = true ->
  (forall x, In x (vars ub) -> known_var (S n) (S n) (S n + np) x) -> forallb pstmt body = true -> deeper (S n) body ->
  forallb pstmt (plug1 (FFor (iter_name (S n)) (Some lb) (Some ub) st) body) = true /\ deeper n (plug1 (FFor (iter_name (S n)) (Some lb) (Some ub) st) body).
Proof.
  intros n lb ub st body S1 PL PU HV PB D. split.
  - cbn [plug1 forallb printable_stmt opt_ok]. rewrite andb_true_r, iter_ident, PL, PU, PB. cbn [andb]. replace (1 <=? st) with true by lia. rewrite andb_true_r. cbn [andb].
    unfold stable. cbn [opt_vars].
    assert (NM : forall x l, ~ In x l -> negb (mem_str x l) = true).
    { intros x l N. apply negb_true_iff. destruct (mem_str x l) eqn:M; [|reflexivity]. exfalso. apply N. unfold mem_str in M. apply existsb_exists in M.
      destruct M as (y & I & E). apply String.eqb_eq in E. now subst. }
    apply andb_true_iff. split.
    + apply NM. intro I. destruct (HV _ I) as (i & Hi & Ne & E). destruct (Nat.leb_spec i (S n)).
      * destruct i; [lia|]. apply iter_inj in E. lia.
      * symmetry in E. revert E. apply not_eq_sym. apply iter_par. lia.
    + apply forallb_forall. intros x Hx. apply NM. intro I. destruct (D x I) as (i & Hi & E). destruct Hx as [<-|Hx].
      * apply iter_inj in E. lia.
      * destruct (HV _ Hx) as (i' & Hi' & Ne & E'). rewrite E in E'. destruct (Nat.leb_spec i' (S n)).
        -- destruct i'; [lia|]. apply iter_inj in E'. lia.
        -- revert E'. apply iter_par. lia.
  - intros x H. cbn [plug1 flat_map assigned] in H. rewrite app_nil_r in H. destruct H as [<-|H]; [now exists n|].
    destruct (D x H) as (i & Hi & E). exists i. split; [lia|exact E].
Qed.

(** *** the loops *)
Variable o : copts.
Variable ns : nat.
Notation flat := (flat_rows P rows_of np).
(** existential dimensions occur in equalities only *)
Definition divs_simple (n : nat) (rows : list row) : Prop :=
  Forall (fun r => List.length (r_co r) = n + n_divs n np rows + np)%nat rows /\
  Forall (fun r => has_div n (n_divs n np rows) r = true -> r_eq r = true) rows.
(** A loop inside [n] iterators whose own iterator, if it has one, is bounded on both sides or
    given by an equality. *)
Inductive shaped : nat -> loop P -> Prop :=
| Shaped_stmt : forall n l b, l_blk P l = Some b -> l_inner P l = [] -> dim P (l_dom P l) = n ->
    divs_simple n (rows_of (l_dom P l)) -> shaped n l
| Shaped_loop : forall n l, l_blk P l = None -> dim P (l_dom P l) = S n ->
    divs_simple (S n) (rows_of (l_dom P l)) ->
    defining_inequalities (S n) (flat (l_dom P l)) (S n) = None ->
    bounded P flat (l_dom P l) ->
    match l_st P l with Some (s, _, None) => 0 < s | _ => True end ->
    Forall (shaped (S n)) (l_inner P l) -> shaped n l.
Definition eqs_ok (eqs : list (option (eqtype * row))) : Prop := forall t r i, nth_error eqs i = Some (Some (t, r)) -> coef r i <> 0.
Lemma eqs_snoc : forall eqs e, eqs_ok eqs -> (forall t r, e = Some (t, r) -> coef r (List.length eqs) <> 0) -> eqs_ok (eqs ++ [e]).
Proof.
  intros eqs e H He t r i Hn. destruct (Nat.lt_ge_cases i (List.length eqs)).
  - rewrite nth_error_app1 in Hn by lia. now apply (H t r i).
  - rewrite nth_error_app2 in Hn by lia. destruct (i - List.length eqs)%nat eqn:D; [|destruct n; discriminate]. cbn in Hn. injection Hn as Hn.
    replace i with (List.length eqs) by lia. now apply (He t r).
Qed.
Lemma block_printable : forall nfo b level, eqs_ok (i_eqs nfo) -> forallb pstmt (insert_block iter_name par_name ns nfo b level) = true.
Proof.
  intros nfo b level H. unfold insert_block. destruct b as [b|]; [|reflexivity]. apply forallb_forall. intros s Hs. apply in_map_iff in Hs.
  destruct Hs as (num & <- & _). cbn [printable_stmt]. rewrite labels_ok. cbn [andb]. apply forallb_forall. intros e He. unfold clast_equal in He.
  apply in_map_iff in He. destruct He as (i & <- & _). destruct (nth i (i_eqs nfo) None) as [[t r]|] eqn:En.
  - assert (Hn : nth_error (i_eqs nfo) i = Some (Some (t, r))).
    { rewrite (nth_error_nth' _ None); [now rewrite En|]. destruct (Nat.lt_ge_cases i (List.length (i_eqs nfo))); [assumption|]. rewrite nth_overflow in En by lia. discriminate. }
    destruct (bound_some (i + 1) r (i + 1)) as (e & E). { replace (i + 1 - 1)%nat with i by lia. now apply (H t r i). }
    rewrite E. cbn [opt_ok]. eapply bound_printable. exact E.
  - cbn. rewrite Nat.add_1_r. apply iter_ident.
Qed.
Lemma block_assigned : forall nfo b level, flat_map assigned (insert_block iter_name par_name ns nfo b level) = [].
Proof. intros. unfold insert_block. destruct b as [b|]; [|reflexivity]. induction (b_stmts b); [reflexivity|]. cbn. exact IHl. Qed.
(** a modulo guard for an equality *)
Lemma modulo_frame : forall red n nfo upper level b fs, modulo_guard iter_name par_name red n nfo upper None level = Some (b, fs) ->
  fs = [] \/ exists q, fs = [FGuard [q]] /\ cond_printable q = true.
Proof.
  intros red n nfo upper level b fs H. unfold modulo_guard in H. destruct (Z.abs (coef upper (level - 1)) =? 1); [injection H as <- <-; now left|].
  cbn [app] in H. destruct (red _ _ _) as [|c rows]; [injection H as <- <-; now left|].
  unfold modulo_guard_constraint in H. cbv zeta in H.
  match type of H with context [?m <=? 0] => destruct (Z.leb_spec m 0); [discriminate|]; set (M := m) in * end.
  match type of H with context [if ?c then _ else _] => destruct c; [injection H as <- <-; now left|] end.
  match type of H with context [let '(_, _) := ?f in _] => destruct f as [co2 k2] end.
  match type of H with context [match ?t with [] => _ | _ => _ end] => set (terms := t) in * end.
  assert (HT : forall t, In t terms -> plain_term 0 n (List.length co2) t).
  { intros t Ht. unfold terms in Ht. apply in_flat_map in Ht. destruct Ht as (i & Hi & Ht). apply in_seq in Hi.
    destruct (Z.eqb_spec (nth (i - 1) co2 0) 0); [destruct Ht|]. destruct Ht as [<-|[]]. exists (nth (i - 1) co2 0), i. repeat split; lia. }
  destruct terms as [|t ts] eqn:ET; [injection H as <- <-; now left|]. injection H as <- <-. right. eexists. split; [reflexivity|].
  assert (HK : forall t, In t (if k2 =? 0 then [] else [ETerm k2 None]) -> nonzero_term t = true /\ printable LvMul t = true).
  { intros u Hu. destruct (Z.eqb_spec k2 0); [destruct Hu|]. destruct Hu as [<-|[]]. now apply const_nonzero. }
  destruct (sum_printable (t :: ts) _ _ _ _ HT ltac:(discriminate) HK) as [S1 S2].
  unfold cond_printable. cbn [e_lhs e_rhs e_sign]. replace (0 <? M) with true by lia. cbn [andb]. rewrite !Z.eqb_refl, !andb_true_r.
  change (t :: ts ++ (if k2 =? 0 then [] else [ETerm k2 None]))%list with ((t :: ts) ++ (if k2 =? 0 then [] else [ETerm k2 None]))%list.
  destruct (is_group (ERed RSum ((t :: ts) ++ (if k2 =? 0 then [] else [ETerm k2 None])))) eqn:G; [exact S1|now apply S2].
Qed.
Lemma guard1_ok : forall q body n, cond_printable q = true -> forallb pstmt body = true -> deeper n body ->
  forallb pstmt (plug1 (FGuard [q]) body) = true /\ deeper n (plug1 (FGuard [q]) body).
Proof.
  intros q body n Q B D. split.
  - cbn. now rewrite Q, B.
  - intros x H. cbn in H. rewrite app_nil_r in H. now apply D.
Qed.
Lemma ass_ok : forall n e body, opt_ok (printable LvAdd) e = true -> forallb pstmt body = true -> deeper (S n) body ->
  forallb pstmt (plug1 (FAss (iter_name (S n)) e) body) = true /\ deeper n (plug1 (FAss (iter_name (S n)) e) body).
Proof.
  intros n e body E B D. split.
  - cbn [plug1 forallb printable_stmt]. now rewrite iter_ident, E, B.
  - intros x H. cbn [plug1 flat_map assigned] in H. destruct H as [<-|H]; [now exists n|]. destruct (D x H) as (i & Hi & E'). exists i. split; [lia|exact E'].
Qed.
Lemma block1_ok : forall n body, forallb pstmt body = true -> deeper n body -> forallb pstmt (plug1 FBlock body) = true /\ deeper n (plug1 FBlock body).
Proof.
  intros n body B D. split; [cbn; now rewrite B|]. intros x H. cbn in H. rewrite app_nil_r in H. now apply D.
Qed.
(** the header of a loop with an iterator *)
Lemma header_printable : forall rs n nfo st l fs e eq, dim P (l_dom P l) = S n ->
  Forall (fun r => List.length (r_co r) = S n + np)%nat (rs (l_dom P l)) ->
  defining_inequalities (S n) (rs (l_dom P l)) (S n) = None ->
  bounded P rs (l_dom P l) -> 1 <= stride_of st ->
  insert_header iter_name par_name sort_exprs reduce P rs o np nfo (S n) l st = Some (Some (fs, e, eq)) ->
  (forall t r, e = Some (t, r) -> coef r n <> 0) /\
  forall body, forallb pstmt body = true -> deeper (S n) body -> forallb pstmt (plug fs body) = true /\ deeper n (plug fs body).
Proof.
  intros rs n nfo st l fs e eq Hd HL ND HB S1 H. unfold insert_header in H. rewrite Hd in H.
  replace (negb (S n =? 0)%nat && (S n <=? S n)%nat) with true in H by (symmetry; apply andb_true_iff; split; [reflexivity|apply Nat.leb_refl]).
  rewrite Forall_forall in HL. destruct (defining_equality (S n) (rs (l_dom P l)) (S n)) as [u|] eqn:DE.
  - (* an equality *)
    unfold defining_equality in DE. apply find_some in DE. destruct DE as [Hin DE]. apply andb_true_iff in DE. destruct DE as [_ DE].
    unfold last_iterator in DE. apply andb_true_iff in DE. destruct DE as [DE _]. replace (S n - 1)%nat with n in DE by lia.
    assert (CU : coef u n <> 0) by (unfold involves in DE; apply negb_true_iff, Z.eqb_neq in DE; exact DE).
    destruct (bound_some (S n) u (S n)) as (b & B). { now replace (S n - 1)%nat with n by lia. }
    unfold insert_equation in H. destruct (co_otl o); cbn [negb] in H.
    + destruct (modulo_guard iter_name par_name reduce (S n) nfo u None (S n)) as [[[] mf]|] eqn:MG; [| discriminate | discriminate].
      injection H as <- <- <-. split; [intros t r E; injection E as _ <-; exact CU|]. intros body PB D.
      assert (K : forall body, forallb pstmt body = true -> deeper n body -> forallb pstmt (plug mf body) = true /\ deeper n (plug mf body)).
      { intros bd Bd Dd. destruct (modulo_frame _ _ _ _ _ _ _ MG) as [->|(q & -> & Q)]; [split; assumption|]. now apply guard1_ok. }
      rewrite plug_app. apply K; [|].
      * destruct (equal_allow o (equal_type (S n) u (S n)) (S n)); [exact PB|]. rewrite plug_app, B. cbn [plug fold_right].
        destruct (ass_ok n (Some b) body) as [A1 A2]; [eapply bound_printable; exact B|exact PB|exact D|].
        destruct (co_block o); [now apply (block1_ok n)|exact A1].
      * destruct (equal_allow o (equal_type (S n) u (S n)) (S n)); [now apply (deeper_le n (S n)); [lia|]|]. rewrite plug_app, B. cbn [plug fold_right].
        destruct (ass_ok n (Some b) body) as [A1 A2]; [eapply bound_printable; exact B|exact PB|exact D|].
        destruct (co_block o); [now apply block1_ok|exact A2].
    + rewrite B in H. assert (FB : for_bound o (Some b) (Some b) = (Some b, Some b)) by (unfold for_bound; destruct (co_callable o); reflexivity).
      rewrite FB in H. injection H as <- <- <-. split; [intros t r E; discriminate|]. intros body PB D. cbn [plug fold_right]. apply for_ok; try assumption.
      * eapply bound_printable; exact B.
      * eapply bound_printable; exact B.
      * intros x Hx. pose proof (bound_vars _ _ _ _ _ B Hx) as K. now rewrite (HL u Hin) in K.
  - rewrite ND in H. destruct (insert_for iter_name par_name sort_exprs o (S n) (rs (l_dom P l)) st (S n) (l_otl P l)) as [[fs'|]|] eqn:IF; [|discriminate|discriminate].
    injection H as <- <- <-. split; [intros t r E; discriminate|]. intros body PB D. unfold insert_for in IF.
    assert (HE : has_equation P rs (l_dom P l) = false) by (unfold has_equation; rewrite Hd, DE, ND; reflexivity).
    destruct (HB HE) as [BL BU]. rewrite Exists_exists in BL, BU. destruct BL as (rl & Il & Ll). destruct BU as (ru & Iu & Lu).
    rewrite Hd in Ll, Lu. replace (S n - 1)%nat with n in Ll, Lu by lia.
    assert (NE : forall r, In r (rs (l_dom P l)) -> involves r n = true -> r_eq r = false).
    { intros r Hr Iv. destruct (r_eq r) eqn:Rq; [|reflexivity]. exfalso. unfold defining_equality in DE. pose proof (find_none _ _ DE r Hr) as N. cbv beta in N. rewrite Rq in N.
      cbn [andb] in N. unfold last_iterator in N. replace (S n - 1)%nat with n in N by lia. rewrite Iv in N. replace (S n - S n)%nat with 0%nat in N by lia. discriminate N. }
    destruct (minmax_some (S n) (rs (l_dom P l)) (S n) true 0 false st rl Il) as (e1 & E1).
    { unfold valid_bound. replace (S n - 1)%nat with n by lia. rewrite Ll, NE; [reflexivity|exact Il|]. unfold is_lower_bound in Ll. unfold involves. lia. }
    destruct (minmax_some (S n) (rs (l_dom P l)) (S n) false 0 false None ru Iu) as (e2 & E2).
    { unfold valid_bound. replace (S n - 1)%nat with n by lia. rewrite Lu, NE; [reflexivity|exact Iu|]. unfold is_upper_bound in Lu. unfold involves. lia. }
    destruct (minmax_facts _ _ _ _ _ _ _ _ E1) as [P1 V1]. destruct (minmax_facts _ _ _ _ _ _ _ _ E2) as [P2 V2]. rewrite E1, E2 in IF.
    assert (KV : forall x, In x (vars e2) -> known_var (S n) (S n) (S n + np) x).
    { intros x Hx. destruct (V2 x Hx) as (r & Hr & K). now rewrite (HL r Hr) in K. }
    destruct (is_bigger_constant (Some e1) (Some e2)); [discriminate|]. destruct (co_otl o && expr_equal e1 e2); [discriminate|].
    destruct (l_otl P l).
    + injection IF as <-. rewrite plug_app. cbn [plug fold_right].
      set (q := {| e_lhs := ETerm 1 (Some (EName (iter_name (S n)))); e_rhs := Some e2; e_sign := -1 |}).
      assert (Q : cond_printable q = true) by (unfold cond_printable, q; cbn [e_lhs e_rhs printable is_group]; rewrite iter_ident; exact P2).
      destruct (guard1_ok q body (S n) Q PB D) as [G1 G2].
      destruct (ass_ok n (Some e1) _ P1 G1 G2) as [A1 A2].
      destruct (co_block o); [now apply block1_ok|split; [exact A1|exact A2]].
    + assert (FB : for_bound o (Some e1) (Some e2) = (Some e1, Some e2)) by (unfold for_bound; destruct (co_callable o); reflexivity).
      rewrite FB in IF. injection IF as <-. cbn [plug fold_right]. now apply for_ok.
Qed.
Notation insert_loop := (insert_loop iter_name par_name sort_exprs sort_eqns reduce P rows_of).
Notation insert_loops := (insert_loops iter_name par_name sort_exprs sort_eqns reduce P rows_of).
Lemma insert_loop_np : forall nfo level l, insert_loop o ns np nfo level l =
  match const_stride P l with
  | None => None
  | Some st =>
      let nfo1 := if (level =? 0)%nat then nfo else {| i_eqs := i_eqs nfo; i_strides := i_strides nfo ++ [st] |} in
      match insert_guards iter_name par_name sort_exprs sort_eqns (dim P (l_dom P l)) np nfo1 (rows_of (l_dom P l)) level with
      | None => None
      | Some guard =>
      match insert_header iter_name par_name sort_exprs reduce P flat o np nfo1 level l st with
      | None => None
      | Some None => Some (plug guard [])
      | Some (Some (fs, e, equality)) =>
          let nfo2 := if (level =? 0)%nat then nfo1 else {| i_eqs := i_eqs nfo1 ++ [e]; i_strides := i_strides nfo1 |} in
          match insert_loops o ns np nfo2 (S level) (l_inner P l) with
          | None => None
          | Some body => Some (plug (guard ++ fs) (insert_block iter_name par_name ns nfo2 (l_blk P l) (if equality then S level else level) ++ body))
          end
      end
      end
  end.
Proof.
  intros nfo level l. pose proof (insert_loop_eq iter_name par_name sort_exprs sort_eqns reduce P rows_of (repeat 0 np) o ns nfo level l) as E. rewrite repeat_length in E. exact E.
Qed.
Lemma mods_frame : forall mods body k, (forall f, In f mods -> exists q, f = FGuard [q] /\ cond_printable q = true) -> forallb pstmt body = true -> deeper k body ->
  forallb pstmt (plug mods body) = true /\ deeper k (plug mods body).
Proof.
  induction mods as [|f mods IH]; intros body k F B D; [split; assumption|]. cbn [plug fold_right]. fold (plug mods body).
  destruct (F f (or_introl eq_refl)) as (q & -> & Q). destruct (IH body k (fun g Hg => F g (or_intror Hg)) B D) as [B1 D1]. now apply guard1_ok.
Qed.
Lemma guards_frame : forall n nfo rows level guard body k, divs_simple n rows -> insert_guards iter_name par_name sort_exprs sort_eqns n np nfo rows level = Some guard ->
  forallb pstmt body = true -> deeper k body -> forallb pstmt (plug guard body) = true /\ deeper k (plug guard body).
Proof.
  intros n nfo rows level guard body k [HL HE] HG B D. destruct (guards_shape _ _ _ _ _ _ _ _ _ _ HG) as (mods & -> & HM). rewrite plug_app. apply mods_frame.
  - intros f Hf. destruct (HM f Hf) as (u & lower & i & sat & fs & U1 & U2 & U3 & U4 & _ & U5 & U6).
    assert (EU : r_eq u = true). { rewrite Forall_forall in HE. apply HE; [exact U1|]. unfold has_div. apply existsb_exists. exists (i - 1)%nat. split; [apply in_seq; lia|]. unfold involves. apply negb_true_iff, Z.eqb_neq. exact U3. }
    destruct U4 as [->|U4]; [|congruence]. destruct (modulo_frame _ _ _ _ _ _ _ U5) as [->|(q & -> & Q)]; [destruct U6|]. destruct U6 as [<-|[]]. exists q. split; [reflexivity|exact Q].
  - now apply guard_frame.
  - intros x Hx. rewrite guard_assigned in Hx. now apply D.
Qed.
Lemma list_printable : forall nfo level n ls ss, insert_loops o ns np nfo level ls = Some ss ->
  (forall l s, In l ls -> insert_loop o ns np nfo level l = Some s -> forallb pstmt s = true /\ deeper n s) ->
  forallb pstmt ss = true /\ deeper n ss.
Proof.
  intros nfo level n. induction ls as [|l ls IH]; intros ss H HG; cbn [ClastModel.insert_loops] in H.
  - injection H as <-. split; [reflexivity|intros x []].
  - destruct (insert_loop o ns np nfo level l) as [s1|] eqn:E1; [|discriminate]. destruct (insert_loops o ns np nfo level ls) as [s2|] eqn:E2; [|discriminate]. injection H as <-.
    destruct (HG l s1 (or_introl eq_refl) E1) as [A1 A2]. destruct (IH s2 eq_refl (fun l0 s0 I => HG l0 s0 (or_intror I))) as [B1 B2].
    split; [now rewrite forallb_app, A1, B1|now apply deeper_app].
Qed.
Theorem loop_printable : forall l n nfo ss, shaped n l -> List.length (i_eqs nfo) = n -> eqs_ok (i_eqs nfo) ->
  insert_loop o ns np nfo (S n) l = Some ss -> forallb pstmt ss = true /\ deeper n ss.
Proof.
  induction l as [d ot sst b inner IHl] using (loop_ind' P). intros n nfo ss SH LE EO H.
  rewrite insert_loop_np in H. destruct (const_stride P _) as [st|] eqn:CS; [|discriminate]. cbv zeta in H.
  replace (S n =? 0)%nat with false in H by reflexivity.
  destruct (insert_guards _ _ _ _ _ _ _ _ _) as [guard|] eqn:IG; [|discriminate].
  inversion SH as [n' l' b' HB HI HD HR|n' l' HB HD HR ND BD ST IN]; subst n' l'; cbn [l_dom l_blk l_inner l_st] in *.
  - subst b inner. unfold insert_header in H. cbn [l_dom] in H. rewrite HD in H. replace (S n <=? n)%nat with false in H by (symmetry; apply Nat.leb_gt; lia).
    rewrite andb_false_r in H. cbn [ClastModel.insert_loops] in H. injection H as <-. rewrite !app_nil_r.
    assert (BP := fun nfo2 (E : eqs_ok (i_eqs nfo2)) => block_printable nfo2 (Some b') (S n) E).
    cbn [l_dom] in IG. rewrite HD in IG. eapply guards_frame; [exact HR|exact IG| |].
    + apply (BP {| i_eqs := i_eqs nfo ++ [None]; i_strides := [] |}). cbn [i_eqs]. apply eqs_snoc; [exact EO|discriminate].
    + intros x Hx. change (In x (flat_map assigned (insert_block iter_name par_name ns {| i_eqs := i_eqs nfo ++ [None]; i_strides := [] |} (Some b') (S n)))) in Hx. rewrite block_assigned in Hx. destruct Hx.
  - subst b. cbn [l_dom] in IG. rewrite HD in IG. destruct (insert_header _ _ _ _ _ _ _ _ _ _ _) as [[[[fs e] eq]|]|] eqn:IHD; [| |discriminate].
    + destruct (ClastModel.insert_loops _ _ _ _ _ _ _ _ _ _ _ _ _) as [body|] eqn:EB; [|discriminate]. injection H as <-.
      edestruct (header_printable flat n) with (l := Loop P d ot sst None inner) as [EC HF]; [exact HD|unfold flat_rows; cbn [l_dom]; rewrite HD; apply plain_len, HR|exact ND|exact BD| |exact IHD|].
      { unfold const_stride in CS. cbn [l_st] in CS. destruct sst as [[[s off] [lb|]]|]; [discriminate|injection CS as <-; cbn in *; lia|injection CS as <-; cbn; lia]. }
      assert (EO2 : eqs_ok (i_eqs nfo ++ [e])) by (apply eqs_snoc; [exact EO|rewrite LE; exact EC]).
      destruct (list_printable _ _ (S n) inner body EB) as [B1 B2].
      { intros l' s' Hl' Hs'. rewrite Forall_forall in IN, IHl. refine (IHl l' Hl' (S n) _ s' (IN l' Hl') _ _ Hs'); [|exact EO2]. cbn [i_eqs]. rewrite app_length, LE. cbn. lia. }
      rewrite plug_app. destruct (HF body B1 B2) as [F1 F2].
      assert (IB : insert_block iter_name par_name ns {| i_eqs := i_eqs nfo ++ [e]; i_strides := i_strides nfo ++ [st] |} None (if eq then S (S n) else S n) = []) by reflexivity.
      cbn [i_eqs i_strides] in *. cbn [insert_block app]. eapply guards_frame; [exact HR|exact IG|exact F1|exact F2].
    + injection H as <-. eapply guards_frame; [exact HR|exact IG|reflexivity|intros x []].
Qed.
(** the outermost loops *)
Definition shaped0 (l : loop P) : Prop := dim P (l_dom P l) = 0%nat /\ divs_simple 0 (rows_of (l_dom P l)) /\ Forall (shaped 0) (l_inner P l).
Theorem create_printable : forall ls ss, Forall shaped0 ls ->
  clast_create iter_name par_name sort_exprs sort_eqns reduce P rows_of o ns np ls = Some ss -> forallb pstmt ss = true.
Proof.
  intros ls ss SH H. unfold clast_create in H. eapply (list_printable _ _ 0); [exact H|]. intros l s Hl Hs. rewrite Forall_forall in SH. destruct (SH l Hl) as (HD & HR & HI). clear H.
  rewrite insert_loop_np in Hs. destruct (const_stride P l) as [st|]; [|discriminate]. cbv zeta in Hs. rewrite Nat.eqb_refl in Hs.
  destruct (insert_guards _ _ _ _ _ _ _ _ _) as [guard|] eqn:IG; [|discriminate]. rewrite HD in IG. unfold insert_header in Hs. rewrite Nat.eqb_refl in Hs.
  cbn [negb andb] in Hs. destruct (ClastModel.insert_loops _ _ _ _ _ _ _ _ _ _ _ _ _) as [body|] eqn:EB; [|discriminate]. injection Hs as <-.
  assert (E0 : eqs_ok []) by (intros t r i Hn; destruct i; discriminate).
  destruct (list_printable _ _ 0 (l_inner P l) body EB) as [B1 B2].
  { intros l' s' Hl' Hs'. rewrite Forall_forall in HI. exact (loop_printable l' 0 {| i_eqs := []; i_strides := [] |} s' (HI l' Hl') eq_refl E0 Hs'). }
  rewrite app_nil_r. eapply guards_frame; [exact HR|exact IG| |].
  - rewrite forallb_app, B1, andb_true_r. now apply block_printable.
  - intros x Hx. rewrite flat_map_app, block_assigned in Hx. now apply B2.
Qed.
End Print.
