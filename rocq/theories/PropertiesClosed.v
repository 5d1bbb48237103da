(** Property C57: with -callable every loop has two bounds, and nothing else changes. *)
From Coq Require Import ZArith List Bool Arith String Lia.
From Verif Require Import LoopModel LoopSpec LoopCount ClastModel ClastSpec ClastMain PprintStmt FilterSpec ClastDivs ClastPrint OptionsModel ToolModel LoopBox ClosedSpec.
Import ListNotations.
Local Open Scope Z_scope.

Definition open_options (o : copts) : copts := {| co_otl := co_otl o; co_fsp := co_fsp o; co_esp := co_esp o; co_block := co_block o; co_callable := false |}.

Section Closed.
Variables iter_name par_name : nat -> string.
Variable sort_exprs : list expr -> list expr.
Variable sort_eqns : list eqn -> list eqn.
Variable reduce : list (option (eqtype * row)) -> list row -> nat -> list row.
Variable P : Poly.
Variable rows_of : dom P -> list row.
Variable np : nat.
Variable o : copts.
Hypothesis HC : co_callable o = true.
Variable ns : nat.
Notation o0 := (open_options o).

Inductive closes_frame : ClastModel.frame -> ClastModel.frame -> Prop :=
| Cf_same f : (forall it lb ub st, f <> FFor it lb ub st) -> closes_frame f f
| Cf_for it lb ub lb' ub' st : bounds_closed lb ub lb' ub' -> closes_frame (FFor it lb ub st) (FFor it lb' ub' st).
Definition same_res {A} (R : A -> A -> Prop) (a b : option A) : Prop := match a, b with Some x, Some y => R x y | None, None => True | _, _ => False end.
Definition fr : list ClastModel.frame * option (eqtype * row) -> _ -> Prop := fun x y => Forall2 closes_frame (fst x) (fst y) /\ snd x = snd y.

Lemma frames_refl : forall fs, (forall it lb ub st, ~ In (FFor it lb ub st) fs) -> Forall2 closes_frame fs fs.
Proof.
  induction fs as [|f fs IH]; intros H; constructor.
  - constructor. intros it lb ub st E. apply (H it lb ub st). left. exact E.
  - apply IH. intros it lb ub st E. apply (H it lb ub st). right. exact E.
Qed.
Lemma bound_closed : forall a b, bounds_closed (fst (for_bound o0 a b)) (snd (for_bound o0 a b)) (fst (for_bound o a b)) (snd (for_bound o a b)).
Proof.
  intros a b. unfold for_bound. rewrite HC. cbn [open_options co_callable negb fst snd].
  destruct a as [l|], b as [u|]; cbn [fst snd bounds_closed].
  - split; reflexivity.
  - split; [reflexivity|]. eexists. split; [reflexivity|]. intros rho. cbn [eval]. destruct (eval rho l) as [z|]; [|reflexivity]. cbn [fold_left red_val]. now rewrite Z.mul_1_l.
  - split; [reflexivity|]. eexists. split; [reflexivity|]. intros rho. cbn [eval]. destruct (eval rho u) as [z|]; [|reflexivity]. cbn [fold_left red_val]. now rewrite Z.mul_1_l.
  - eexists _, _. split; [reflexivity|]. split; [reflexivity|]. intros rho. split; reflexivity.
Qed.
Lemma no_for_mod : forall red n nfo u lower level sat fs, modulo_guard iter_name par_name red n nfo u lower level = Some (sat, fs) -> forall it lb ub st, ~ In (FFor it lb ub st) fs.
Proof.
  intros red n nfo u lower level sat fs H it lb ub st Hin. unfold modulo_guard in H. cbv zeta in H.
  repeat match type of H with (if ?c then _ else _) = _ => destruct c; [injection H as <- <-; destruct Hin|] end.
  match type of H with match ?r with [] => _ | _ => _ end = _ => destruct r as [|c rest]; [injection H as <- <-; destruct Hin|] end.
  unfold modulo_guard_constraint in H. cbv zeta in H.
  match type of H with (if ?c then _ else _) = _ => destruct c; [discriminate|] end.
  repeat match type of H with (if ?c then _ else _) = _ => destruct c; [injection H as <- <-; destruct Hin|] end.
  match type of H with context [fold_left ?f ?l ?i] => destruct (fold_left f l i) as [co2 k2] end.
  match type of H with match ?t with [] => _ | _ => _ end = _ => destruct t end; injection H as <- <-; [destruct Hin|].
  destruct Hin as [E|[]]. discriminate E.
Qed.
Lemma equation_closed : forall n nfo st u lower level,
  same_res (same_res fr) (insert_equation iter_name par_name reduce o0 n nfo st u lower level) (insert_equation iter_name par_name reduce o n nfo st u lower level).
Proof.
  intros n nfo st u lower level. unfold insert_equation. cbn [open_options co_otl co_block]. destruct (negb (co_otl o)).
  - cbv zeta. match goal with |- context [for_bound o0 ?a ?b] => pose proof (bound_closed a b) as B; destruct (for_bound o0 a b), (for_bound o a b) end.
    cbn [fst snd] in B. split; [|reflexivity]. cbn [fst]. constructor; [constructor; exact B|constructor].
  - destruct (modulo_guard _ _ _ _ _ _ _ _) as [[[] mf]|] eqn:E; cbn [same_res]; [|exact Logic.I|exact Logic.I]. split; [|reflexivity]. cbn [fst].
    apply frames_refl. intros it lb ub s Hin. apply in_app_or in Hin as [Hin|Hin]; [exact (no_for_mod _ _ _ _ _ _ _ _ E _ _ _ _ Hin)|].
    change (equal_allow o0) with (equal_allow o) in Hin.
    match type of Hin with In _ (if ?c then _ else _) => destruct c; [destruct Hin|] end. destruct (co_block o); repeat (destruct Hin as [Hin|Hin]; [discriminate|]); destruct Hin.
Qed.
Lemma for_closed : forall n rows st level otl,
  same_res (same_res (Forall2 closes_frame)) (insert_for iter_name par_name sort_exprs o0 n rows st level otl) (insert_for iter_name par_name sort_exprs o n rows st level otl).
Proof.
  intros n rows st level otl. unfold insert_for. cbv zeta. cbn [open_options co_otl co_block]. destruct (is_bigger_constant _ _); [exact Logic.I|].
  match goal with |- context [if ?c then None else _] => destruct c; [exact Logic.I|] end. destruct otl.
  - cbn [same_res]. apply frames_refl. intros it lb ub s Hin. destruct (co_block o); repeat (destruct Hin as [Hin|Hin]; [discriminate|]); destruct Hin.
  - match goal with |- context [for_bound o0 ?a ?b] => pose proof (bound_closed a b) as B; destruct (for_bound o0 a b), (for_bound o a b) end.
    cbn [fst snd] in B. cbn [same_res]. constructor; [constructor; exact B|constructor].
Qed.
Definition hd_same (x y : list ClastModel.frame * option (eqtype * row) * bool) : Prop := fr (fst x) (fst y) /\ snd x = snd y.
Lemma header_closed : forall rs nfo level l st,
  same_res (same_res hd_same) (insert_header iter_name par_name sort_exprs reduce P rs o0 np nfo level l st) (insert_header iter_name par_name sort_exprs reduce P rs o np nfo level l st).
Proof.
  intros rs nfo level l st. unfold insert_header. cbv zeta.
  destruct (negb (level =? 0)%nat && (level <=? dim P (l_dom P l))%nat).
  2: { split; [split; [constructor|reflexivity]|reflexivity]. }
  destruct (defining_equality _ _ _) as [i|].
  { pose proof (equation_closed (dim P (l_dom P l)) nfo st i None level) as E. destruct (insert_equation _ _ _ o0 _ _ _ _ _ _) as [[[f e]|]|], (insert_equation _ _ _ o _ _ _ _ _ _) as [[[f' e']|]|]; cbn [same_res] in *; try tauto. split; [exact E|reflexivity]. }
  destruct (defining_inequalities _ _ _) as [[i j]|].
  { pose proof (equation_closed (dim P (l_dom P l)) nfo st i (Some j) level) as E. destruct (insert_equation _ _ _ o0 _ _ _ _ _ _) as [[[f e]|]|], (insert_equation _ _ _ o _ _ _ _ _ _) as [[[f' e']|]|]; cbn [same_res] in *; try tauto. split; [exact E|reflexivity]. }
  pose proof (for_closed (dim P (l_dom P l)) (rs (l_dom P l)) st level (l_otl P l)) as E.
  destruct (insert_for _ _ _ o0 _ _ _ _ _) as [[f|]|], (insert_for _ _ _ o _ _ _ _ _) as [[f'|]|]; cbn [same_res] in *; try tauto. split; [split; [exact E|reflexivity]|reflexivity].
Qed.
Lemma user_closes : forall nfo b level, Forall2 closes (insert_block iter_name par_name ns nfo b level) (insert_block iter_name par_name ns nfo b level).
Proof. intros nfo [b|] level; cbn [insert_block]; [|constructor]. induction (b_stmts b); cbn [map]; constructor; [constructor|assumption]. Qed.
Lemma plug_closes : forall fs fs', Forall2 closes_frame fs fs' -> forall b b', Forall2 closes b b' -> Forall2 closes (plug fs b) (plug fs' b').
Proof.
  induction 1 as [|f f' fs fs' Hf _ IH]; intros b b' Hb; [exact Hb|]. cbn [plug fold_right]. specialize (IH b b' Hb).
  change (fold_right plug1 b fs) with (plug fs b). change (fold_right plug1 b' fs') with (plug fs' b').
  destruct Hf as [f N|it lb ub lb' ub' st B].
  - destruct f; cbn [plug1].
    + constructor; [|constructor]. constructor. exact IH.
    + constructor; [constructor|exact IH].
    + constructor; [|constructor]. constructor. exact IH.
    + destruct (N _ _ _ _ eq_refl).
  - cbn [plug1]. constructor; [|constructor]. constructor; [exact B|exact IH].
Qed.

Lemma guards_refl : forall n nfo rows level guard, insert_guards iter_name par_name sort_exprs sort_eqns n np nfo rows level = Some guard -> Forall2 closes_frame guard guard.
Proof.
  intros n nfo rows level guard H. apply frames_refl. intros it lb ub st Hin. destruct (guards_shape _ _ _ _ _ _ _ _ _ _ H) as (mods & -> & HM).
  apply in_app_or in Hin as [Hin|Hin].
  - destruct (HM _ Hin) as (u & lower & i & sat & fs & _ & _ & _ & _ & _ & E & Hf). exact (no_for_mod _ _ _ _ _ _ _ _ E _ _ _ _ Hf).
  - unfold insert_guard in Hin. destruct (guard_eqns _ _ _ _ _ _ _); [destruct Hin|]. destruct Hin as [E|[]]. discriminate E.
Qed.
Notation insert_loop := (insert_loop iter_name par_name sort_exprs sort_eqns reduce P rows_of).
Notation insert_loops := (insert_loops iter_name par_name sort_exprs sort_eqns reduce P rows_of).
Lemma loops_closed : forall ls nfo level, Forall (fun l => forall nfo level, same_res (Forall2 closes) (insert_loop o0 ns np nfo level l) (insert_loop o ns np nfo level l)) ls ->
  same_res (Forall2 closes) (insert_loops o0 ns np nfo level ls) (insert_loops o ns np nfo level ls).
Proof.
  induction ls as [|l ls IH]; intros nfo level F; cbn [ClastModel.insert_loops]; [constructor|]. apply Forall_cons_iff in F as [F1 F2].
  specialize (F1 nfo level). specialize (IH nfo level F2).
  destruct (insert_loop o0 _ _ _ _ _), (insert_loop o _ _ _ _ _); cbn [same_res] in *; try tauto.
  destruct (insert_loops o0 _ _ _ _ _), (insert_loops o _ _ _ _ _); cbn [same_res] in *; try tauto. apply Forall2_app; assumption.
Qed.
Lemma loop_closed : forall l nfo level, same_res (Forall2 closes) (insert_loop o0 ns np nfo level l) (insert_loop o ns np nfo level l).
Proof.
  induction l as [d ot sst b inner IHl] using (loop_ind' P). intros nfo level. rewrite !insert_loop_np. destruct (const_stride P _) as [st|]; [|exact Logic.I]. cbv zeta.
  match goal with |- context [insert_guards ?a ?b ?c ?d ?e ?f ?g ?h ?i] => destruct (insert_guards a b c d e f g h i) as [guard|] eqn:EG; [|exact Logic.I] end.
  apply guards_refl in EG.
  match goal with |- context [insert_header _ _ _ _ _ ?rs o0 _ ?n ?lv ?l ?s] => pose proof (header_closed rs n lv l s) as E end.
  destruct (insert_header _ _ _ _ _ _ o0 _ _ _ _ _) as [[[[f e] q]|]|], (insert_header _ _ _ _ _ _ o _ _ _ _ _) as [[[[f' e'] q']|]|]; cbn [same_res] in E |- *; try tauto.
  - destruct E as [[E1 E2] E3]. cbn [fst snd] in E1, E2, E3. subst e' q'.
    match goal with |- context [insert_loops o0 ns np ?n ?lv ?ls] => pose proof (loops_closed ls n lv IHl) as EL; destruct (insert_loops o0 ns np n lv ls), (insert_loops o ns np n lv ls) end; cbn [same_res] in EL |- *; try tauto.
    apply plug_closes; [apply Forall2_app; assumption|]. apply Forall2_app; [apply user_closes|exact EL].
  - apply plug_closes; [exact EG|constructor].
Qed.
Lemma create_closed : forall ls,
  same_res (Forall2 closes) (clast_create iter_name par_name sort_exprs sort_eqns reduce P rows_of o0 ns np ls) (clast_create iter_name par_name sort_exprs sort_eqns reduce P rows_of o ns np ls).
Proof. intros ls. apply loops_closed. apply Forall_forall. intros l _. apply loop_closed. Qed.
End Closed.

(** every loop of a closed program has its bounds *)
Lemma nth_closes : forall ss ss' i s', Forall2 closes ss ss' -> nth_error ss' i = Some s' -> exists s, closes s s'.
Proof. intros ss ss' i s' F. revert i. induction F as [|s t ss ss' H F IH]; intros [|i] E; try discriminate; [injection E as <-; exists s; exact H|exact (IH i E)]. Qed.
Lemma closes_all : forall ss' p s', at_path ss' p s' -> forall ss, Forall2 closes ss ss' -> exists s, closes s s'.
Proof.
  intros ss' p s' H. induction H as [c i s E|c i it lb ub st b p s E _ IH|c i qs b p s E _ IH|c i b p s E _ IH]; intros ss F; [exact (nth_closes _ _ _ _ F E)| | |];
    destruct (nth_closes _ _ _ _ F E) as [t Ht]; inversion Ht; subst; eapply IH; eassumption.
Qed.
(** where the program has bounds, it does the same *)
Lemma iterate_same : forall f g it st k v rho r, (forall rho r, f rho = Some r -> g rho = Some r) -> iterate f it st k v rho = Some r -> iterate g it st k v rho = Some r.
Proof.
  intros f g it st. induction k as [|k IH]; intros v rho r H E; cbn [iterate] in *; [exact E|].
  destruct (f _) as [[rho1 t1]|] eqn:E1; [|discriminate]. rewrite (H _ _ E1). destruct (iterate f _ _ _ _ _) as [[rho2 t2]|] eqn:E2; [|discriminate]. rewrite (IH _ _ _ H E2). exact E.
Qed.
Lemma same_exec_list : forall b, Forall (fun s => forall s' rho r, closes s s' -> exec1 s rho = Some r -> exec1 s' rho = Some r) b ->
  forall b', Forall2 closes b b' -> forall rho r, exec b rho = Some r -> exec b' rho = Some r.
Proof.
  intros b H b' F. induction F as [|s t b b' Hc F IH]; intros rho r E; cbn [exec] in *; [exact E|]. apply Forall_cons_iff in H as [H1 H2].
  destruct (exec1 s rho) as [[rho1 t1]|] eqn:E1; [|discriminate]. rewrite (H1 _ _ _ Hc E1). destruct (exec b rho1) as [[rho2 t2]|] eqn:E2; [|discriminate]. rewrite (IH H2 _ _ E2). exact E.
Qed.
Lemma same_exec1 : forall s s' rho r, closes s s' -> exec1 s rho = Some r -> exec1 s' rho = Some r.
Proof.
  induction s as [y e|n l|b IH|it lb ub st b IH|qs b IH] using stmt_ind'; intros s' rho r H E; inversion H; subst; try exact E; rewrite exec1_eq in E |- *.
  - eapply same_exec_list; eassumption.
  - destruct lb as [l|]; [|discriminate]. destruct ub as [u|]; [|destruct (eval_opt rho (Some l)); discriminate].
    match goal with B : bounds_closed _ _ _ _ |- _ => destruct B as [-> ->] end. destruct (eval_opt rho (Some l)); [|discriminate]. destruct (eval_opt rho (Some u)); [|discriminate].
    destruct (0 <? st); [|discriminate]. eapply iterate_same; [|exact E]. intros rho0 r0. apply same_exec_list; assumption.
  - destruct (all_hold rho qs) as [[]|]; [|exact E|discriminate]. eapply same_exec_list; eassumption.
Qed.

(** ** C57 *)
(** -callable changes the bounds of loops that lack one and nothing else; every loop then has two bounds.
    Without it the bounds are those of the constraints. *)
Theorem C57_callable_closes :
  forall iter_name par_name sort_exprs sort_eqns reduce (P : Poly) (rows_of : dom P -> list row) (o : opts) (ns np : nat) (ls : list (loop P)),
  let create := clast_create iter_name par_name sort_exprs sort_eqns reduce P rows_of in
  let as_they_are := {| co_otl := truth (o F_otl); co_fsp := Z.to_nat (o F_fsp); co_esp := truth (o F_esp); co_block := truth (o F_block); co_callable := false |} in
  match create as_they_are ns np ls, create (clast_options o) ns np ls with
  | Some ss, Some ss' => if truth (o F_callable) then Forall2 closes ss ss' /\ all_closed ss' else ss' = ss
  | None, None => True
  | _, _ => False
  end.
Proof.
  intros iter_name par_name sort_exprs sort_eqns reduce P rows_of o ns np ls create as_they_are.
  destruct (truth (o F_callable)) eqn:C.
  - assert (HC : co_callable (clast_options o) = true) by exact C.
    pose proof (create_closed iter_name par_name sort_exprs sort_eqns reduce P rows_of np (clast_options o) HC ns ls) as H.
    change (open_options (clast_options o)) with as_they_are in H. unfold create.
    destruct (clast_create _ _ _ _ _ _ _ as_they_are _ _ _) as [ss|], (clast_create _ _ _ _ _ _ _ (clast_options o) _ _ _) as [ss'|]; cbn [same_res] in H; try tauto.
    split; [exact H|]. intros p it lb ub st b Hp. destruct (closes_all _ _ _ Hp _ H) as [s Hs]. inversion Hs as [| | | |? ? ? ? ? ? ? ? B]; subst. clear - B.
    destruct lb0 as [l|], ub0 as [u|]; cbn [bounds_closed] in B.
    + destruct B as [-> ->]. split; discriminate.
    + destruct B as [-> (u & -> & _)]. split; discriminate.
    + destruct B as [-> (l & -> & _)]. split; discriminate.
    + destruct B as (l & u & -> & -> & _). split; discriminate.
  - assert (E : clast_options o = as_they_are) by (unfold clast_options, as_they_are; rewrite C; reflexivity). rewrite E. destruct (create as_they_are ns np ls); [reflexivity|exact Logic.I].
Qed.
Print Assumptions C57_callable_closes.

(** A program that runs without -callable does the same with it. *)
Theorem C57_bounded_code_unchanged :
  forall iter_name par_name sort_exprs sort_eqns reduce (P : Poly) (rows_of : dom P -> list row) (o : opts) (ns np : nat) (ls : list (loop P)) ss,
  let create := clast_create iter_name par_name sort_exprs sort_eqns reduce P rows_of in
  create (clast_options (set o F_callable 0)) ns np ls = Some ss ->
  forall rho r, exec ss rho = Some r -> exists ss', create (clast_options o) ns np ls = Some ss' /\ exec ss' rho = Some r.
Proof.
  intros iter_name par_name sort_exprs sort_eqns reduce P rows_of o ns np ls ss create E rho r X.
  pose proof (C57_callable_closes iter_name par_name sort_exprs sort_eqns reduce P rows_of o ns np ls) as H. cbv zeta in H.
  change (create {| co_otl := truth (o F_otl); co_fsp := Z.to_nat (o F_fsp); co_esp := truth (o F_esp); co_block := truth (o F_block); co_callable := false |} ns np ls = Some ss) in E.
  unfold create in *. rewrite E in H. destruct (clast_create _ _ _ _ _ _ _ (clast_options o) _ _ _) as [ss'|]; [|destruct H]. exists ss'. split; [reflexivity|].
  destruct (truth (o F_callable)); [|subst ss'; exact X]. destruct H as [H _]. revert H rho r X. apply same_exec_list. apply Forall_forall. intros s _. apply same_exec1.
Qed.
Print Assumptions C57_bounded_code_unchanged.

(** A loop on i >= 0 with no upper bound: it gets the bound 1000. *)
Definition open_loop : list (loop BoxPoly) := [@Loop BoxPoly ({| bd := 0; bs := [[]] |}) false None None [@Loop BoxPoly ({| bd := 1; bs := [[full]] |}) false None None [@Loop BoxPoly {| bd := 1; bs := [] |} false None (Some {| b_pos := 0; b_stmts := [7%nat]; b_scal := [] |}) []]]].
Definition open_rows (d : bdom) : list row := match bs d with [[_]] => [{| r_eq := false; r_co := [1]; r_k := 0 |}] | _ => [] end.
Definition create57 (o : opts) := clast_create (fun _ => "i"%string) (fun _ => "M"%string) (fun l => l) (fun l => l) (fun _ rows _ => rows) BoxPoly open_rows (clast_options o) 0 0 open_loop.
Example C57_example :
  create57 defaults = Some [SFor "i" (Some (ERed RMax [ETerm 0 None])) None 1 [SUser 7 [Some (ETerm 1 (Some (EName "i")))]]] /\
  create57 (set defaults F_callable 1) = Some [SFor "i" (Some (ERed RMax [ETerm 0 None])) (Some (ERed RSum [ETerm 1000 None; ETerm 1 (Some (ERed RMax [ETerm 0 None]))])) 1 [SUser 7 [Some (ETerm 1 (Some (EName "i")))]]].
Proof. split; vm_compute; reflexivity. Qed.
