(** The statements made by cloog_clast_create without -strides can be printed in Fortran and read back. *)
From Coq Require Import ZArith List Bool Arith String Ascii Permutation Lia.
From Verif Require Import LoopModel LoopSpec LoopCount ClastModel ClastSpec ClastBounds ClastGuards ClastDivs ClastMain ClastCmp PprintModel CReader PprintSpec PprintStmt FReader FSpec ClastPrint ClastNames.
Import ListNotations.
Local Open Scope string_scope.
Local Open Scope Z_scope.
Local Arguments Nat.leb : simpl never.
Local Arguments Nat.eqb : simpl never.
Local Arguments Nat.sub : simpl never.
Local Arguments Z.mul : simpl never.
Local Arguments Z.add : simpl never.

(** *** the shape of the expressions *)
Fixpoint flat (e : expr) : bool :=
  match e with
  | EName _ | ETerm _ None | ETerm _ (Some (EName _)) => true
  | ETerm _ (Some _) => false
  | EBin _ l _ => flat l
  | ERed _ l => forallb flat l
  end.
Definition opt_flat (e : option expr) : bool := match e with Some e => flat e | None => true end.
Definition flat_eqn (q : eqn) : bool := flat (e_lhs q) && opt_flat (e_rhs q).
Fixpoint flat_stmt (s : stmt) : bool :=
  match s with
  | SAss _ e => opt_flat e
  | SUser _ subs => forallb opt_flat subs
  | SBlock _ => false
  | SFor _ lb ub st b => opt_flat lb && opt_flat ub && (st =? 1) && forallb flat_stmt b
  | SGuard qs b => forallb flat_eqn qs && forallb flat_stmt b
  end.
Definition flat_frame (f : ClastModel.frame) : bool :=
  match f with
  | FGuard qs => forallb flat_eqn qs
  | FAss _ e => opt_flat e
  | FBlock => false
  | FFor _ lb ub st => opt_flat lb && opt_flat ub && (st =? 1)
  end.

(** *** what is printable in C and flat is printable in Fortran *)
Lemma flat_term : forall v x, flat (ETerm v x) = true -> (forall y, In y (vars (ETerm v x)) -> fname y = true) ->
  fprintable PSum (ETerm v x) = true /\ fprintable PSigned (ETerm v x) = true /\ (0 < v -> fprintable PMul (ETerm v x) = true).
Proof.
  intros v [x|] F V.
  - destruct x as [name| | |]; try discriminate F. assert (N : fname name = true) by (apply V; now left). cbn [fprintable is_group mul_ok signed_ok].
    rewrite N. destruct (v =? 1); [now repeat split|]. split; [now destruct (0 <=? v)|]. split; [now destruct (0 <=? v)|]. intro H. destruct (Z.leb_spec 0 v); [reflexivity|lia].
  - cbn [fprintable signed_ok]. split; [apply orb_true_r|]. split; [apply orb_true_r|]. intro H. destruct (Z.leb_spec 0 v); [reflexivity|lia].
Qed.
Lemma flat_fprintable : forall e, flat e = true -> (forall x, In x (vars e) -> fname x = true) ->
  (printable LvAdd e = true -> fprintable PSum e = true) /\ (printable LvMul e = true -> fprintable PSigned e = true /\ fprintable PSum e = true).
Proof.
  induction e as [s|v x IH|t l d IH|t l IH] using expr_ind'; intros F V.
  - cbn [fprintable]. rewrite (V s (or_introl eq_refl)). auto.
  - destruct (flat_term v x F V) as (A & B & _). auto.
  - cbn [flat vars] in F, V. destruct (IH F V) as [I1 I2]. destruct t; cbn [printable fprintable above_prim mul_ok unsigned andb].
    + split; intro H; apply andb_true_iff in H; destruct H as [H1 H2]; rewrite H1, (I1 H2); auto.
    + split; intro H; apply andb_true_iff in H; destruct H as [H1 H2]; rewrite H1, (I1 H2); auto.
    + assert (K : (0 <? d) && printable (if is_group l then LvAdd else LvMul) l = true -> (0 <? d) && true && (if is_group l then fprintable PSum l else fprintable PSigned l) = true).
      { intro H. apply andb_true_iff in H. destruct H as [H1 H2]. rewrite H1. destruct (is_group l); [now apply I1|now apply I2]. }
      split; intro H; specialize (K H); [exact K|]. split; exact K.
    + split; discriminate.
  - cbn [flat vars] in F, V. rewrite forallb_forall in F.
    assert (G : forall x, In x l -> (printable LvAdd x = true -> fprintable PSum x = true) /\ (printable LvMul x = true -> fprintable PSigned x = true /\ fprintable PSum x = true)).
    { intros x Hx. rewrite Forall_forall in IH. apply (IH x Hx); [now apply F|]. intros y Hy. apply V. apply in_flat_map. now exists x. }
    assert (M : t <> RSum -> (printable LvAdd (ERed t l) = true -> fprintable PSum (ERed t l) = true) /\
                 (printable LvMul (ERed t l) = true -> fprintable PSigned (ERed t l) = true /\ fprintable PSum (ERed t l) = true)).
    { intro NT. destruct l as [|x [|y l]]; [destruct t; [congruence| |]; split; discriminate| |].
      - destruct (G x (or_introl eq_refl)) as [G1 G2]. destruct t; [congruence| |]; exact (conj G1 G2).
      - assert (K : forallb (printable LvAdd) (x :: y :: l) = true -> forallb (fprintable PSum) (x :: y :: l) = true).
        { rewrite !forallb_forall. intros H z Hz. apply (proj1 (G z Hz)). now apply H. }
        destruct t; [congruence| |]; (split; [exact K|]); intro H; specialize (K H); split; exact K. }
    destruct t; [|apply M; discriminate|apply M; discriminate]. clear M.
    destruct l as [|x xs]; [split; discriminate|].
    assert (T : forall z, In z (x :: xs) -> is_term z = true -> fprintable PSum z = true /\ fprintable PSigned z = true /\ (nonzero_term z = true ->
              match z with ETerm v _ => fprintable (if 0 <? v then PMul else PSigned) z | _ => false end = true)).
    { intros z Hz Tz. destruct z as [|v w| |]; try discriminate Tz.
      destruct (flat_term v w (F _ Hz)) as (A & B & C); [intros y Hy; apply V; apply in_flat_map; eexists; split; [exact Hz|exact Hy]|].
      split; [exact A|]. split; [exact B|]. intro NZ. destruct (Z.ltb_spec 0 v); [now apply C|exact B]. }
    assert (X : forall ys, (forall y, In y ys -> In y xs) -> forallb (fun t => nonzero_term t && printable LvMul t) ys = true ->
              forallb (fun t => nonzero_term t && match t with ETerm v _ => fprintable (if 0 <? v then PMul else PSigned) t | _ => false end) ys = true).
    { intros ys S H. rewrite forallb_forall in *. intros y Hy. specialize (H y Hy). apply andb_true_iff in H. destruct H as [H _]. rewrite H. cbn [andb].
      apply (T y); [right; now apply S| |exact H]. destruct y; try discriminate H. reflexivity. }
    specialize (X xs (fun y H => H)). split; intro H.
    + cbn [printable] in H. apply andb_true_iff in H. destruct H as [H H2]. apply andb_true_iff in H. destruct H as [H0 H1].
      destruct (T x (or_introl eq_refl) H0) as (A & B & _). cbn [fprintable]. rewrite H0, (X H2), andb_true_r. cbn [andb]. destruct xs; [exact A|]. cbn [sum_ok]. exact B.
    + cbn [printable] in H. apply andb_true_iff in H. destruct H as [H H2]. apply andb_true_iff in H. destruct H as [H0 H1].
      destruct (T x (or_introl eq_refl) H0) as (A & B & _). destruct xs; [|discriminate H1]. cbn [fprintable]. rewrite H0. cbn [andb forallb]. rewrite !andb_true_r. split; assumption.
Qed.
Lemma flat_opt : forall e, opt_flat e = true -> (forall x, In x (opt_vars e) -> fname x = true) -> opt_ok (printable LvAdd) e = true -> opt_ok (fprintable PSum) e = true.
Proof. intros [e|] F V H; [|discriminate]. cbn [opt_flat opt_vars opt_ok] in *. exact (proj1 (flat_fprintable e F V) H). Qed.
Lemma flat_cond : forall q, flat_eqn q = true -> (forall x, In x (vars (e_lhs q) ++ opt_vars (e_rhs q))%list -> fname x = true) ->
  cond_printable q = true -> fcond_printable q = true.
Proof.
  intros [l r s] F V H. unfold flat_eqn, cond_printable, fcond_printable in *. cbn [e_lhs e_rhs e_sign] in *. apply andb_true_iff in F. destruct F as [FL FR].
  assert (VL : forall x, In x (vars l) -> fname x = true) by (intros; apply V; apply in_or_app; now left).
  assert (VR : forall x, In x (opt_vars r) -> fname x = true) by (intros; apply V; apply in_or_app; now right).
  assert (O : printable LvAdd l && opt_ok (printable LvAdd) r = true -> fprintable PSum l && opt_ok (fprintable PSum) r = true).
  { intro K. apply andb_true_iff in K. destruct K as [K1 K2]. rewrite (proj1 (flat_fprintable l FL VL) K1). now apply flat_opt. }
  destruct l as [| |[] l d|]; try exact (O H). clear O. cbn [flat vars] in *. destruct (flat_fprintable l FL VL) as [I1 I2].
  apply andb_true_iff in H. destruct H as [H H4]. apply andb_true_iff in H. destruct H as [H H3]. apply andb_true_iff in H. destruct H as [H1 H2]. rewrite H1, H3, H4.
  rewrite !andb_true_r. cbn [andb]. destruct (is_group l); [now apply I1|now apply I2].
Qed.
Lemma flat_stmt_fprintable : forall po po' stmt_name stmt_name' s, flat_stmt s = true -> (forall x, In x (stmt_vars s) -> fname x = true) ->
  (forall c, In c (stmt_calls s) -> fname (stmt_label po stmt_name (fst c)) = true) ->
  printable_stmt po' stmt_name' s = true -> fprintable_stmt po stmt_name s = true.
Proof.
  intros po po' sn sn' s.
  assert (L : forall b, Forall (fun s => flat_stmt s = true -> (forall x, In x (stmt_vars s) -> fname x = true) -> (forall c, In c (stmt_calls s) -> fname (stmt_label po sn (fst c)) = true) ->
                printable_stmt po' sn' s = true -> fprintable_stmt po sn s = true) b ->
              forallb flat_stmt b = true -> (forall x, In x (flat_map stmt_vars b) -> fname x = true) -> (forall c, In c (flat_map stmt_calls b) -> fname (stmt_label po sn (fst c)) = true) ->
              forallb (printable_stmt po' sn') b = true -> forallb (fprintable_stmt po sn) b = true).
  { intros b H F V C PR. rewrite forallb_forall in *. rewrite Forall_forall in H. intros s0 Hs. apply (H s0 Hs).
    - now apply F.
    - intros x Hx. apply V, in_flat_map. now exists s0.
    - intros c Hc. apply C, in_flat_map. now exists s0.
    - now apply PR. }
  induction s as [x e|num subs|b IH|it lb ub st b IH|qs b IH] using stmt_ind'; intros F V C PR; cbn [flat_stmt stmt_vars stmt_calls printable_stmt fprintable_stmt] in *.
  - apply andb_true_iff in PR. destruct PR as [_ PR]. rewrite (V x (or_introl eq_refl)). cbn [andb]. apply flat_opt; [exact F| |exact PR]. intros y Hy. apply V. now right.
  - apply andb_true_iff in PR. destruct PR as [_ PR]. rewrite (C _ (or_introl eq_refl) : fname (stmt_label po sn num) = true). cbn [andb].
    rewrite forallb_forall in *. intros e He. apply flat_opt; [now apply F| |now apply PR]. intros y Hy. apply V, in_flat_map. now exists e.
  - discriminate.
  - apply andb_true_iff in F. destruct F as [F F4]. apply andb_true_iff in F. destruct F as [F F3]. apply andb_true_iff in F. destruct F as [F1 F2].
    apply andb_true_iff in PR. destruct PR as [PR P6]. apply andb_true_iff in PR. destruct PR as [PR P5]. apply andb_true_iff in PR. destruct PR as [PR P4].
    apply andb_true_iff in PR. destruct PR as [PR P3]. apply andb_true_iff in PR. destruct PR as [P1 P2].
    rewrite (V it (or_introl eq_refl)), F3.
    rewrite (flat_opt lb F1), (flat_opt ub F2); try assumption; [|intros y Hy; apply V; right; apply in_or_app; right; apply in_or_app; now left|intros y Hy; apply V; right; apply in_or_app; now left].
    rewrite (L b IH F4); [|intros y Hy; apply V; right; apply in_or_app; right; apply in_or_app; now right|exact C|exact P6].
    rewrite andb_true_r. cbn [andb]. unfold stable in P5. apply andb_true_iff in P5. destruct P5 as [_ P5]. cbn [forallb] in P5. apply andb_true_iff in P5. apply P5.
  - apply andb_true_iff in F. destruct F as [F1 F2]. apply andb_true_iff in PR. destruct PR as [PR P3]. apply andb_true_iff in PR. destruct PR as [P1 P2]. rewrite P1.
    rewrite (L b IH F2); [|intros y Hy; apply V; apply in_or_app; now right|exact C|exact P3]. rewrite andb_true_r. cbn [andb]. rewrite forallb_forall in *. intros q Hq.
    apply flat_cond; [now apply F1| |now apply P2]. intros y Hy. apply V, in_or_app. left. apply in_flat_map. now exists q.
Qed.

(** *** the statements made *)
Section Flat.
Variables iter_name par_name : nat -> string.
Variable sort_exprs : list expr -> list expr.
Variable sort_eqns : list eqn -> list eqn.
Variable reduce : list (option (eqtype * row)) -> list row -> nat -> list row.
Variable P : Poly.
Variable rows_of : dom P -> list row.
Variable np : nat.
Hypothesis sort_exprs_perm : forall l, Permutation l (sort_exprs l).
Hypothesis sort_eqns_perm : forall l, Permutation l (sort_eqns l).
Lemma bound_flat : forall n r level, opt_flat (bound_from_constraint iter_name par_name n r level) = true.
Proof.
  intros n r level. unfold bound_from_constraint. destruct (_ =? 0); [reflexivity|]. set (k := - Z.sgn _). set (el := bound_terms _ _ _ _ _ _).
  assert (H : forallb flat el = true).
  { apply forallb_forall. intros t Ht. unfold el, bound_terms in Ht. apply in_flat_map in Ht. destruct Ht as (i & _ & Ht). destruct (_ || _); [destruct Ht|]. destruct Ht as [<-|[]]. reflexivity. }
  destruct el as [|t ts].
  - destruct (_ =? 0); [reflexivity|]. destruct (_ =? 1); [reflexivity|]. destruct (r_eq r); [reflexivity|]. destruct (_ =? 0); reflexivity.
  - assert (R : flat (ERed RSum ((t :: ts) ++ (if k * r_k r =? 0 then [] else [ETerm (k * r_k r) None]))) = true).
    { cbn [flat]. rewrite forallb_app, H. now destruct (k * r_k r =? 0). }
    destruct (_ || _); [exact R|]. destruct (r_eq r); exact R.
Qed.
Lemma minmax_flat : forall n rows level max guard ne st, opt_flat (minmax iter_name par_name sort_exprs n rows level max guard ne st) = true.
Proof.
  intros n rows level max guard ne st. unfold minmax. set (valid := filter _ rows). destruct valid as [|v0 vs]; [reflexivity|]. generalize (v0 :: vs). clear v0 vs. intro vs.
  match goal with |- context [fold_right ?f ?i vs] => set (F := f) end.
  assert (K : forall vs l, fold_right F (Some []) vs = Some l -> forallb flat l = true).
  { induction vs0 as [|r rs IH]; intros l H; cbn [fold_right] in H; [injection H as <-; reflexivity|]. unfold F in H at 1. fold F in H.
    destruct (fold_right F (Some []) rs) as [l'|]; [|discriminate]. pose proof (bound_flat n r level) as B. destruct (bound_from_constraint iter_name par_name n r level) as [b|]; [|discriminate].
    injection H as <-. cbn [forallb]. rewrite (IH l' eq_refl), andb_true_r. cbn in B. destruct st as [[s off]|]; [|exact B]. destruct b as [|v [x|]| |]; exact B || reflexivity. }
  destruct (fold_right F (Some []) vs) as [l|] eqn:E; [|reflexivity]. cbn [opt_flat flat]. specialize (K vs l E). rewrite forallb_forall in *.
  intros x Hx. apply K. eapply Permutation_in; [apply Permutation_sym, sort_exprs_perm|exact Hx].
Qed.
Lemma guard_dim_flat : forall n all level i rows mn mx q, In q (guard_dim iter_name par_name sort_exprs n all level i mn mx rows) -> flat_eqn q = true.
Proof.
  intros n all level i. induction rows as [|j rows IH]; intros mn mx q Hq; [destruct Hq|]. cbn [guard_dim] in Hq.
  destruct (skip_guard n level i j); [now apply (IH mn mx)|]. destruct ((level =? 0)%nat || r_eq j).
  - destruct Hq as [<-|Hq]; [|now apply (IH mn mx)]. unfold flat_eqn. cbn [e_lhs e_rhs flat variable_expr andb]. apply bound_flat.
  - destruct ((mx && is_lower_bound j (i - 1)) || (mn && is_upper_bound j (i - 1))); [now apply (IH mn mx)|].
    destruct Hq as [<-|Hq]; [|now apply (IH _ _ q Hq)]. unfold flat_eqn. cbn [e_lhs e_rhs flat variable_expr andb]. apply minmax_flat.
Qed.
Lemma guard_flat : forall n rows level, forallb flat_frame (insert_guard iter_name par_name sort_exprs sort_eqns n np rows level) = true.
Proof.
  intros n rows level. unfold insert_guard. destruct (guard_eqns iter_name par_name sort_exprs n np rows level) as [|q qs] eqn:G; [reflexivity|].
  cbn [forallb flat_frame]. rewrite andb_true_r. apply forallb_forall. intros q0 H0.
  assert (I : In q0 (q :: qs)) by (eapply Permutation_in; [apply Permutation_sym, sort_eqns_perm|exact H0]).
  rewrite <- G in I. unfold guard_eqns in I. apply in_flat_map in I. destruct I as (i & _ & I). eapply guard_dim_flat. exact I.
Qed.
Lemma modulo_flat : forall red n nfo upper lower level b fs, modulo_guard iter_name par_name red n nfo upper lower level = Some (b, fs) -> forallb flat_frame fs = true.
Proof.
  intros red n nfo upper lower level b fs H. unfold modulo_guard in H. cbv zeta in H.
  destruct (Z.abs (coef upper (level - 1)) =? 1); [injection H as <- <-; reflexivity|].
  match type of H with (if ?c then _ else _) = _ => destruct c; [injection H as <- <-; reflexivity|] end.
  match type of H with context [red ?e ?r ?l] => destruct (red e r l) as [|c rest]; [injection H as <- <-; reflexivity|] end.
  unfold modulo_guard_constraint in H. cbv zeta in H.
  match type of H with context [?m <=? 0] => destruct (m <=? 0); [discriminate|]; set (M := m) in * end.
  match type of H with context [if ?c then _ else _] => destruct c; [injection H as <- <-; reflexivity|] end.
  match type of H with context [fold_left (eliminate M) ?l ?i] => destruct (fold_left (eliminate M) l i) as [co2 k2] end.
  match type of H with context [match ?t with [] => _ | _ => _ end] => set (terms := t) in * end.
  assert (HT : forallb flat terms = true).
  { apply forallb_forall. intros t Ht. unfold terms in Ht. apply in_flat_map in Ht. destruct Ht as (i & _ & Ht). destruct (nth (i - 1) co2 0 =? 0); [destruct Ht|]. destruct Ht as [<-|[]]. reflexivity. }
  destruct terms as [|t ts]; [injection H as <- <-; reflexivity|]. injection H as <- <-. cbn [forallb flat_frame]. rewrite !andb_true_r. unfold flat_eqn. cbn [e_lhs e_rhs flat opt_flat].
  rewrite andb_true_r. change (t :: ts ++ (if k2 =? 0 then [] else [ETerm k2 None]))%list with ((t :: ts) ++ (if k2 =? 0 then [] else [ETerm k2 None]))%list.
  rewrite forallb_app, HT. now destruct (k2 =? 0).
Qed.
Variable o : copts.
Variable ns : nat.
Hypothesis no_block : co_block o = false.
Hypothesis no_callable : co_callable o = false.
Lemma for_bound_id : forall a b, for_bound o a b = (a, b).
Proof. intros a b. unfold for_bound. now rewrite no_callable. Qed.
Lemma equation_flat : forall n nfo upper lower level fs e, insert_equation iter_name par_name reduce o n nfo None upper lower level = Some (Some (fs, e)) -> forallb flat_frame fs = true.
Proof.
  intros n nfo upper lower level fs e H. unfold insert_equation in H. destruct (co_otl o); cbn [negb] in H.
  - destruct (modulo_guard iter_name par_name reduce n nfo upper lower level) as [[[] mf]|] eqn:MG; [|discriminate|discriminate].
    cbv zeta in H. injection H as <- <-. rewrite forallb_app, (modulo_flat _ _ _ _ _ _ _ _ MG). cbn [andb].
    destruct (match lower with Some _ => false | None => _ end); [reflexivity|]. rewrite no_block. cbn [app forallb flat_frame]. now rewrite bound_flat.
  - cbv zeta in H. rewrite for_bound_id in H. injection H as <- <-. cbn [forallb flat_frame stride_of]. rewrite bound_flat.
    destruct lower; now rewrite bound_flat.
Qed.
Lemma header_flat : forall rs nfo level l fs e eq, insert_header iter_name par_name sort_exprs reduce P rs o np nfo level l None = Some (Some (fs, e, eq)) -> forallb flat_frame fs = true.
Proof.
  intros rs nfo level l fs e eq H. unfold insert_header in H. destruct (_ && _); [|injection H as <- <- <-; reflexivity].
  destruct (defining_equality _ _ _) as [u|].
  - destruct (insert_equation _ _ _ _ _ _ _ _ _ _) as [[[fs' e']|]|] eqn:IE; [|discriminate|discriminate]. injection H as <- <- <-. eapply equation_flat. exact IE.
  - destruct (defining_inequalities _ _ _) as [[u lo]|].
    + destruct (insert_equation _ _ _ _ _ _ _ _ _ _) as [[[fs' e']|]|] eqn:IE; [|discriminate|discriminate]. injection H as <- <- <-. eapply equation_flat. exact IE.
    + destruct (insert_for _ _ _ _ _ _ _ _ _) as [[fs'|]|] eqn:IF; [|discriminate|discriminate]. injection H as <- <- <-.
      unfold insert_for in IF. cbv zeta in IF. destruct (is_bigger_constant _ _); [discriminate|].
      match type of IF with (if ?c then _ else _) = _ => destruct c; [discriminate|] end. destruct (l_otl P l).
      * injection IF as <-. rewrite no_block. cbn [app forallb flat_frame]. unfold flat_eqn. cbn [e_lhs e_rhs flat]. now rewrite !minmax_flat.
      * rewrite for_bound_id in IF. injection IF as <-. cbn [forallb flat_frame stride_of]. now rewrite !minmax_flat.
Qed.
Lemma guards_flat : forall n nfo rows level guard, insert_guards iter_name par_name sort_exprs sort_eqns n np nfo rows level = Some guard -> forallb flat_frame guard = true.
Proof.
  intros n nfo rows level guard HG. destruct (guards_shape _ _ _ _ _ _ _ _ _ _ HG) as (mods & -> & HM). rewrite forallb_app, guard_flat, andb_true_r.
  apply forallb_forall. intros f Hf. destruct (HM f Hf) as (u & lower & i & sat & fs & _ & _ & _ & _ & _ & U5 & U6). pose proof (modulo_flat _ _ _ _ _ _ _ _ U5) as F. rewrite forallb_forall in F. now apply F.
Qed.
Lemma plug_flat : forall fs body, forallb flat_frame fs = true -> forallb flat_stmt body = true -> forallb flat_stmt (plug fs body) = true.
Proof.
  induction fs as [|f fs IH]; intros body F B; [exact B|]. cbn [forallb] in F. apply andb_true_iff in F. destruct F as [F1 F2]. specialize (IH body F2 B).
  cbn [plug fold_right]. fold (plug fs body). destruct f; cbn [plug1 forallb flat_stmt flat_frame] in *; rewrite ?IH, ?F1; reflexivity || discriminate.
Qed.
Lemma block_flat : forall nfo b level, forallb flat_stmt (insert_block iter_name par_name ns nfo b level) = true.
Proof.
  intros nfo [b|] level; [|reflexivity]. cbn [insert_block]. apply forallb_forall. intros s Hs. apply in_map_iff in Hs. destruct Hs as (num & <- & _). cbn [flat_stmt].
  apply forallb_forall. intros e He. unfold clast_equal in He. apply in_map_iff in He. destruct He as (i & <- & _). destruct (nth i (i_eqs nfo) None) as [[t r]|]; [apply bound_flat|reflexivity].
Qed.
Notation insert_loop := (insert_loop iter_name par_name sort_exprs sort_eqns reduce P rows_of).
Notation insert_loops := (insert_loops iter_name par_name sort_exprs sort_eqns reduce P rows_of).
Lemma list_flat : forall nfo level ls ss, insert_loops o ns np nfo level ls = Some ss ->
  (forall l s, In l ls -> insert_loop o ns np nfo level l = Some s -> forallb flat_stmt s = true) -> forallb flat_stmt ss = true.
Proof.
  intros nfo level. induction ls as [|l ls IH]; intros ss H HG; cbn [ClastModel.insert_loops] in H; [injection H as <-; reflexivity|].
  destruct (insert_loop o ns np nfo level l) as [s1|] eqn:E1; [|discriminate]. destruct (insert_loops o ns np nfo level ls) as [s2|] eqn:E2; [|discriminate]. injection H as <-.
  rewrite forallb_app, (HG l s1 (or_introl eq_refl) E1). apply IH; [reflexivity|]. intros l0 s0 I. apply HG. now right.
Qed.
Lemma loop_flat : forall l nfo level ss, each_loop (fun l => l_st P l = None) l -> insert_loop o ns np nfo level l = Some ss -> forallb flat_stmt ss = true.
Proof.
  induction l as [d ot sst b inner IHl] using (loop_ind' P). intros nfo level ss EA H.
  inversion EA as [l0 ST EI E0]; subst l0. cbn [l_st l_inner] in ST, EI. subst sst.
  rewrite insert_loop_np in H. unfold const_stride in H. cbn [l_st] in H. cbv zeta in H.
  destruct (insert_guards _ _ _ _ _ _ _ _ _) as [guard|] eqn:IG; [|discriminate]. apply guards_flat in IG.
  destruct (insert_header _ _ _ _ _ _ _ _ _ _ _) as [[[[fs e] eq]|]|] eqn:IHD; [| |discriminate].
  - destruct (ClastModel.insert_loops _ _ _ _ _ _ _ _ _ _ _ _ _) as [body|] eqn:EB; [|discriminate]. apply some_eq in H. subst ss.
    apply plug_flat; [rewrite forallb_app, IG; eapply header_flat; exact IHD|]. rewrite forallb_app, block_flat. cbn [andb].
    eapply list_flat; [exact EB|]. intros l' s' Hl' Hs'. cbn [l_inner] in Hl'. rewrite Forall_forall in IHl, EI. exact (IHl l' Hl' _ _ _ (EI l' Hl') Hs').
  - apply some_eq in H. subst ss. apply plug_flat; [exact IG|reflexivity].
Qed.
Theorem create_flat : forall ls ss, Forall (each_loop (fun l => l_st P l = None)) ls ->
  clast_create iter_name par_name sort_exprs sort_eqns reduce P rows_of o ns np ls = Some ss -> forallb flat_stmt ss = true.
Proof.
  intros ls ss F H. unfold clast_create in H. eapply list_flat; [exact H|]. intros l s Hl Hs. rewrite Forall_forall in F. exact (loop_flat l _ _ s (F l Hl) Hs).
Qed.
End Flat.
