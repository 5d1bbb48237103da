(** The files printed with -compilable and -callable are correct, and what they do. *)
From Coq Require Import ZArith List Bool Arith String Ascii Lia.
From Verif Require Import ClastSpec ClastModel PprintModel CReader PprintSpec PprintLex PprintStmt PprintEnd FileModel FileReader FileSpec FileLex FileParse FileText FileRead FileMain FileCall FileRun.
Import ListNotations.
Local Open Scope string_scope.
Local Open Scope Z_scope.
Local Arguments is_keyword : simpl never.

(** *** more names *)
Lemma mem_incl : forall vs vs' x, incl vs vs' -> existsb (String.eqb x) vs = true -> existsb (String.eqb x) vs' = true.
Proof. intros vs vs' x I H. apply existsb_exists in H. destruct H as (y & Hy & E). apply existsb_exists. exists y. split; [now apply I|exact E]. Qed.
Lemma mem_in : forall x l, In x l -> existsb (String.eqb x) l = true.
Proof. intros x l H. apply existsb_exists. exists x. split; [exact H|apply String.eqb_refl]. Qed.
Lemma known_mono : forall vs vs' fs, incl vs vs' -> forall e, known vs fs e = true -> known vs' fs e = true.
Proof.
  intros vs vs' fs I. fix IH 1. intros [x|k|a|op a b|a b c|g l] H; cbn [known] in *.
  - now apply (mem_incl vs).
  - reflexivity.
  - now apply IH.
  - apply andb_true_iff in H. destruct H as [H1 H2]. now rewrite (IH a H1), (IH b H2).
  - apply andb_true_iff in H. destruct H as [H H3]. apply andb_true_iff in H. destruct H as [H1 H2]. now rewrite (IH a H1), (IH b H2), (IH c H3).
  - apply andb_true_iff in H. destruct H as [H1 H2]. apply andb_true_iff. split; [exact H1|]. clear H1. induction l as [|e l IHl]; [reflexivity|]. cbn [forallb] in *. apply andb_true_iff in H2. destruct H2 as [H2 H3].
    now rewrite (IH e H2), (IHl H3).
Qed.
Lemma knowns_mono : forall vs vs' fs l, incl vs vs' -> forallb (known vs fs) l = true -> forallb (known vs' fs) l = true.
Proof. intros vs vs' fs l I H. rewrite forallb_forall in *. intros e He. apply (known_mono vs); auto. Qed.
Lemma known_stmt_mono : forall vs vs' fs ps, incl vs vs' -> forall s, known_stmt vs fs ps s = true -> known_stmt vs' fs ps s = true.
Proof.
  intros vs vs' fs ps I. fix IH 1. intros [x e|g l|b|c b|it lb ub st b] H; cbn [known_stmt] in *.
  - apply andb_true_iff in H. destruct H as [H1 H2]. rewrite (mem_incl vs vs' _ I H1). now apply (known_mono vs).
  - apply andb_true_iff in H. destruct H as [H1 H2]. rewrite H1. now apply (knowns_mono vs).
  - induction b as [|s b IHb]; [reflexivity|]. cbn [forallb] in *. apply andb_true_iff in H. destruct H as [H1 H2]. now rewrite (IH s H1), (IHb H2).
  - apply andb_true_iff in H. destruct H as [H1 H2]. rewrite (known_mono vs vs' fs I _ H1). cbn [andb]. clear H1. induction b as [|s b IHb]; [reflexivity|]. cbn [forallb] in *. apply andb_true_iff in H2. destruct H2 as [H1 H2].
    now rewrite (IH s H1), (IHb H2).
  - apply andb_true_iff in H. destruct H as [H H4]. apply andb_true_iff in H. destruct H as [H H3]. apply andb_true_iff in H. destruct H as [H1 H2].
    rewrite (mem_incl vs vs' _ I H1), (known_mono vs vs' fs I _ H2), (known_mono vs vs' fs I _ H3). cbn [andb]. clear H1 H2 H3. induction b as [|s b IHb]; [reflexivity|]. cbn [forallb] in *. apply andb_true_iff in H4. destruct H4 as [H1 H2].
    now rewrite (IH s H1), (IHb H2).
Qed.

(** *** finding a statement *)
Lemma find_stmt : forall (B : Type) (F : list string * nat -> string * B) l p, (forall q, fst (F q) = s_name (snd q)) -> NoDup (map snd l) -> In p l ->
  find (fun m => String.eqb (fst m) (s_name (snd p))) (map F l) = Some (F p).
Proof.
  intros B F l p E. induction l as [|q l IH]; intros N I; [destruct I|]. cbn [map] in N. inversion N as [|? ? N1 N2]; subst. cbn [map find]. rewrite E.
  destruct (String.eqb_spec (s_name (snd q)) (s_name (snd p))) as [X|X].
  - apply s_inj in X. destruct I as [->|I]; [reflexivity|]. exfalso. apply N1. rewrite X. now apply in_map.
  - destruct I as [->|I]; [congruence|]. now apply IH.
Qed.
Lemma arities_in : forall nm bs g n, callable (call_arities nm bs) g n = true -> exists p, In p (stmts nm bs) /\ g = s_name (snd p) /\ n = List.length (fst p).
Proof. intros nm bs g n H. apply callable_in in H. apply in_map_iff in H. destruct H as (p & E & I). injection E as <- <-. now exists p. Qed.
Lemma stmts_nodup : forall nm bs its n, NoDup (nm_iter nm) -> In (its, n) (stmts nm bs) -> NoDup its.
Proof. intros nm bs its n N H. apply stmts_its in H. destruct H as (d & ns & _ & _ & ->). rewrite <- (firstn_skipn d (nm_iter nm)) in N. exact (nodup_prefix _ _ _ N). Qed.
Lemma stmts_iter : forall nm bs its n x, In (its, n) (stmts nm bs) -> In x its -> In x (nm_iter nm).
Proof. intros nm bs its n x H I. apply stmts_its in H. destruct H as (d & ns & _ & _ & ->). exact (firstn_in _ _ _ _ I). Qed.
Lemma flat_nil : forall A B (F : A -> list B) l, (forall a, F a = []) -> flat_map F l = [].
Proof. intros A B F l H. induction l; [reflexivity|]. cbn. now rewrite H. Qed.
Lemma flat_one : forall A B (F : A -> list B) (G : A -> B) l, (forall a, F a = [G a]) -> flat_map F l = map G l.
Proof. intros A B F G l H. induction l; [reflexivity|]. cbn. now rewrite H, IHl. Qed.
Lemma flat_map_map : forall A B C (F : B -> list C) (G : A -> B) l, flat_map F (map G l) = flat_map (fun a => F (G a)) l.
Proof. intros A B C F G l. induction l; [reflexivity|]. cbn. now rewrite IHl. Qed.

(** *** variables *)
Lemma new_scat_in : forall nm x, In x (new_scat nm) -> In x (nm_scat nm) /\ ~ In x (nm_iter nm).
Proof.
  intros nm x H. apply filter_In in H. destruct H as [H1 H2]. split; [exact H1|]. intro I. apply negb_true_iff in H2. rewrite (mem_in _ _ I) in H2. discriminate.
Qed.
Lemma declared : forall nm x, In x (nm_scat nm ++ nm_iter nm) -> In x (new_scat nm ++ nm_iter nm).
Proof.
  intros nm x H. apply in_or_app. destruct (existsb (String.eqb x) (nm_iter nm)) eqn:E; [right; now apply str_mem|]. left. apply filter_In. apply in_app_or in H. destruct H as [H|H]; [now rewrite E|].
  rewrite (mem_in _ _ H) in E. discriminate.
Qed.
Lemma iter_nodup : forall R nm bs, well_named R nm bs -> NoDup (new_scat nm ++ nm_iter nm).
Proof.
  intros R nm bs W. apply nodup_app; [apply NoDup_filter; exact (wn_scat _ _ _ W)|exact (wn_iter _ _ _ W)|]. intros x H1 H2. apply new_scat_in in H1. tauto.
Qed.
Lemma plain_names : forall l, map fst (map item_var (plain_items l)) = l.
Proof. induction l as [|x l IH]; [reflexivity|]. cbn. f_equal. exact IH. Qed.
Lemma par_names : forall ps i, map fst (map item_var (par_items i ps)) = ps.
Proof. induction ps as [|p ps IH]; intro i; [reflexivity|]. cbn. f_equal. apply IH. Qed.
Lemma all_names_in : forall nm x, In x (new_scat nm ++ nm_iter nm ++ nm_par nm) -> In x (all_names nm).
Proof.
  intros nm x H. unfold all_names. apply in_app_or in H. apply in_or_app. destruct H as [H|H]; [left; now apply new_scat_in in H|now right].
Qed.
Lemma plain_declare : forall f l ds rho, declare f (map item_var (plain_items l) ++ ds)%list rho = declare f ds rho.
Proof. intros f l ds rho. induction l as [|x l IH]; [reflexivity|]. exact IH. Qed.

(** *** compilable files *)
Section Compilable.
Variable k : Z.
Variable nm : names.
Variable bs : blocks.
Variable p : list cstmt.
Hypothesis W : well_named compilable_reserved nm bs.
Notation f := (comp_file k nm bs p).
Notation idx := (seq 1 (List.length (nm_par nm))).
Definition comp_stmts (q : list string * nat) : list mstmt :=
  MInc "total" :: match fst q with [] => [] | its => [MPrintf (fmt its (snd q) ++ newline) (map CVar its)] end.
Lemma base_exprs : flat_map (fun m => match m_params m, m_body m with Some ps, MExpr e => [(m_name m, (ps, e))] | _, _ => [] end) base_macros = program_macros.
Proof. vm_compute. reflexivity. Qed.
Lemma base_objects : flat_map (fun m => match m_params m, m_body m with None, MExpr e => [(m_name m, e)] | _, _ => [] end) base_macros = [].
Proof. vm_compute. reflexivity. Qed.
Lemma base_stmts : flat_map (fun m => match m_params m, m_body m with Some ps, MStmts b => [(m_name m, (ps, b))] | _, _ => [] end) base_macros = [].
Proof. vm_compute. reflexivity. Qed.
Lemma base_stmt_objects : flat_map (fun m => match m_params m, m_body m with None, MStmts b => [(m_name m, b)] | _, _ => [] end) base_macros = [].
Proof. vm_compute. reflexivity. Qed.
Lemma base_macro_names : map m_name base_macros = base_names.
Proof. vm_compute. reflexivity. Qed.
Lemma comp_exprs : expr_macros f = program_macros.
Proof.
  unfold expr_macros. cbn [f_macros comp_file]. rewrite !flat_map_app, base_exprs, !flat_map_map. rewrite (flat_nil _ _ _ idx) by reflexivity. rewrite (flat_nil _ _ _ (stmts nm bs)) by reflexivity. now rewrite app_nil_r.
Qed.
Lemma comp_objects : expr_objects f = map (fun i => (par_name i, int_expr k)) idx.
Proof.
  unfold expr_objects. cbn [f_macros comp_file]. rewrite !flat_map_app, base_objects, !flat_map_map. rewrite (flat_one _ _ _ (fun i => (par_name i, int_expr k)) idx) by reflexivity.
  rewrite (flat_nil _ _ _ (stmts nm bs)) by reflexivity. now rewrite app_nil_r.
Qed.
Lemma comp_stmt_macros : stmt_macros f = map (fun q => (s_name (snd q), (fst q, comp_stmts q))) (stmts nm bs).
Proof.
  unfold stmt_macros. cbn [f_macros comp_file]. rewrite !flat_map_app, base_stmts, !flat_map_map. rewrite (flat_nil _ _ _ idx) by reflexivity.
  rewrite (flat_one _ _ _ (fun q => (s_name (snd q), (fst q, comp_stmts q))) (stmts nm bs)) by reflexivity. reflexivity.
Qed.
Lemma comp_stmt_objects : stmt_objects f = [].
Proof.
  unfold stmt_objects. cbn [f_macros comp_file]. rewrite !flat_map_app, base_stmt_objects, !flat_map_map. rewrite (flat_nil _ _ _ idx) by reflexivity. rewrite (flat_nil _ _ _ (stmts nm bs)) by reflexivity. reflexivity.
Qed.
Lemma comp_variables : variables f = ((new_scat nm ++ nm_iter nm) ++ nm_par nm ++ ["total"])%list.
Proof. unfold variables, comp_file, comp_vars. cbn [f_args f_vars List.app]. rewrite !map_app, !plain_names, par_names. cbn [map fst]. now rewrite <- !app_assoc. Qed.
Lemma par_reserved : forall i, compilable_reserved (par_name i).
Proof. intro i. right. right. exists i. reflexivity. Qed.
Lemma comp_no_object : forall x, In x (all_names nm) -> object_value f x = None.
Proof.
  intros x I. unfold object_value. rewrite comp_objects. destruct (find _ _) as [[y e]|] eqn:E; [|reflexivity]. exfalso. apply find_some in E. destruct E as [H E]. apply in_map_iff in H. destruct H as (i & X & _). injection X as <- <-.
  cbn [fst] in E. apply String.eqb_eq in E. apply (wn_free _ _ _ W x I). rewrite <- E. apply par_reserved.
Qed.
Lemma comp_object : forall i, In i idx -> object_value f (par_name i) = Some (Some k).
Proof.
  intros i I. unfold object_value. rewrite comp_objects, comp_exprs. destruct (find _ _) as [[y e]|] eqn:E.
  - apply find_some in E. destruct E as [H _]. apply in_map_iff in H. destruct H as (j & X & _). injection X as _ <-. f_equal. exact (int_value k (fun _ => None) program_macros).
  - exfalso. pose proof (find_none _ _ E (par_name i, int_expr k) (in_map (fun i => (par_name i, int_expr k)) idx i I)) as X. cbn [fst] in X. now rewrite String.eqb_refl in X.
Qed.
Definition counter (c : nat) (sigma : env) : Prop := sigma "total" = Some (Z.of_nat c).
Definition emit_line (c : call) : list out :=
  match snd c with [] => [] | zs => [Printed (fst c ++ String.concat "" (map (fun z => " " ++ decimal z) zs) ++ newline)] end.
Lemma not_total : forall x, In x (all_names nm) -> "total" <> x.
Proof. intros x I E. apply (wn_free _ _ _ W x I). now left. Qed.
Lemma comp_proc : forall g es zs c rho sigma, callable (call_arities nm bs) g (List.length es) = true -> follows (all_names nm) counter c rho sigma -> values program_macros rho es = Some zs ->
  exists xs b sigma', find (fun m => String.eqb (fst m) g) (stmt_macros f) = Some (g, (xs, b)) /\ List.length xs = List.length es /\
    mrun f (List.combine xs es) b sigma = Some (sigma', emit_line (g, zs)) /\ follows (all_names nm) counter (S c) rho sigma'.
Proof.
  intros g es zs c rho sigma C R V. destruct (arities_in _ _ _ _ C) as ([its n] & I & -> & L). cbn [fst snd] in *. exists its, (comp_stmts (its, n)), (assign sigma "total" (Z.of_nat c + 1)).
  assert (R' : follows (all_names nm) counter (S c) rho (assign sigma "total" (Z.of_nat c + 1))).
  { destruct R as [R1 R2]. split; [|unfold counter; rewrite assign_same; f_equal; lia]. intros x v E. destruct (R1 x v E) as [Ix Ex]. split; [exact Ix|]. rewrite assign_other; [exact Ex|]. intro X. exact (not_total x Ix (eq_sym X)). }
  split; [|split; [now symmetry|split; [|exact R']]].
  - rewrite comp_stmt_macros. exact (find_stmt _ (fun q => (s_name (snd q), (fst q, comp_stmts q))) (stmts nm bs) (its, n) (fun _ => eq_refl) ltac:(rewrite stmts_numbers; exact (wn_once _ _ _ W)) I).
  - pose proof (values_length _ _ _ _ V) as L2. unfold comp_stmts, emit_line. cbn [fst snd mrun mrun1]. destruct R as [R1 R2]. unfold counter in R2. rewrite R2. destruct its as [|x its].
    + destruct zs; [|cbn in L, L2; lia]. reflexivity.
    + cbn [mrun mrun1]. rewrite subst_params; [|exact (stmts_nodup nm bs _ n (wn_iter _ _ _ W) I)|now symmetry].
      rewrite (follow_values f (all_names nm) counter comp_exprs comp_no_object (S c) rho _ es zs R' V). rewrite fmt_format by congruence. destruct zs as [|z zs]; [cbn in L, L2; lia|]. reflexivity.
Qed.
Fixpoint assign_all (ps : list string) (rho : env) : env := match ps with [] => rho | x :: ps' => assign_all ps' (assign rho x k) end.
Lemma par_declare : forall ps i ds rho, (forall j, (i <= j < i + List.length ps)%nat -> object_value f (par_name j) = Some (Some k)) ->
  declare f (map item_var (par_items i ps) ++ ds)%list rho = declare f ds (assign_all ps rho).
Proof.
  induction ps as [|x ps IH]; intros i ds rho H; [reflexivity|]. cbn [par_items map item_var fst snd option_map List.app declare assign_all].
  assert (V : fvalue f rho (CVar (par_name i)) = Some k) by (unfold fvalue, value; cbn [expand cval]; unfold visible; rewrite H by (cbn; lia); reflexivity).
  rewrite V. apply IH. intros j Hj. apply H. cbn [List.length]. lia.
Qed.
Lemma assign_all_in : forall ps rho x, In x ps -> assign_all ps rho x = Some k.
Proof.
  assert (K : forall ps rho x, rho x = Some k -> assign_all ps rho x = Some k).
  { induction ps as [|y ps IH]; intros rho x H; [exact H|]. cbn. apply IH. unfold assign. now destruct (String.eqb y x). }
  induction ps as [|y ps IH]; intros rho x I; [destruct I|]. cbn. destruct I as [-> |I]; [apply K, assign_same|now apply IH].
Qed.
Lemma with_params_repeat : forall ps x v, with_params ps (repeat k (List.length ps)) x = Some v -> In x ps /\ v = k.
Proof.
  induction ps as [|y ps IH]; intros x v H; [discriminate|]. cbn in H. destruct (String.eqb_spec y x) as [->|N].
  - rewrite assign_same in H. injection H as <-. split; [now left|reflexivity].
  - rewrite assign_other in H by congruence. destruct (IH x v H). split; [now right|assumption].
Qed.
Lemma comp_start : exists sigma, declare f (f_vars f) (fun _ => None) = Some sigma /\ follows (all_names nm) counter 0 (with_params (nm_par nm) (repeat k (List.length (nm_par nm)))) sigma.
Proof.
  exists (assign (assign_all (nm_par nm) (fun _ => None)) "total" 0). split.
  - cbn [f_vars comp_file]. unfold comp_vars. rewrite !map_app, <- !app_assoc, !plain_declare. rewrite par_declare; [reflexivity|]. intros j Hj. apply comp_object. apply in_seq. lia.
  - split; [|unfold counter; now rewrite assign_same]. intros x v E. apply with_params_repeat in E. destruct E as [I ->].
    assert (A : In x (all_names nm)) by (unfold all_names; apply in_or_app; right; apply in_or_app; now right). split; [exact A|]. rewrite assign_other by (intro X; exact (not_total x A (eq_sym X))). now apply assign_all_in.
Qed.
Lemma comp_runs : forall rho' t, crun program_macros p (with_params (nm_par nm) (repeat k (List.length (nm_par nm)))) rho' t -> forallb (known_stmt (all_names nm) (arities program_macros) (call_arities nm bs)) p = true ->
  runs f [] (flat_map emit_line t ++ [Printed ("Number of integral points: " ++ decimal (Z.of_nat (List.length t)) ++ "." ++ newline)]).
Proof.
  intros rho' t H K. destruct comp_start as (sigma & D & R). exists (fun _ => None), sigma. split; [reflexivity|]. split; [exact D|].
  destruct (proj2 (proj2 (follow_run f (all_names nm) (call_arities nm bs) counter emit_line comp_exprs comp_no_object
     (fun c s x z I H => eq_trans (assign_other s x z "total" (not_total x I)) H) comp_proc)) p _ _ _ H K 0%nat sigma R) as (sigma' & F & [R1 R2]).
  cbn [f_body comp_file]. eapply frun_body; [exact F|]. apply (B_printf f points_text [CVar "total"] _ sigma' [Z.of_nat (List.length t)]); [|reflexivity|constructor].
  unfold fvalues. cbn [values]. unfold value. cbn [expand cval]. unfold visible.
  assert (T : object_value f "total" = None).
  { unfold object_value. rewrite comp_objects. destruct (find _ _) as [[y e]|] eqn:E; [|reflexivity]. exfalso. apply find_some in E. destruct E as [I E]. apply in_map_iff in I. destruct I as (i & X & _). injection X as <- <-. discriminate E. }
  rewrite T. unfold counter in R2. rewrite R2. reflexivity.
Qed.
Lemma comp_correct : forallb (known_stmt (all_names nm) (arities program_macros) (call_arities nm bs)) p = true -> correct f.
Proof.
  intro K.
  assert (VA : incl (all_names nm) (variables f)).
  { intros x H. rewrite comp_variables. unfold all_names in H. rewrite app_assoc in H. apply in_app_or in H. apply in_or_app. destruct H as [H|H]; [left; now apply declared|right; apply in_or_app; now left]. }
  assert (AV : forall x, In x (variables f) -> In x (all_names nm) \/ x = "total").
  { intros x H. rewrite comp_variables, <- app_assoc in H. apply in_app_or in H. destruct H as [H|H]; [left; apply all_names_in, in_or_app; now left|].
    rewrite app_assoc in H. apply in_app_or in H. destruct H as [H|[<-|[]]]; [left; apply all_names_in, in_or_app; now right|now right]. }
  assert (CE : callable_exprs f = arities program_macros) by (unfold callable_exprs; now rewrite comp_exprs).
  assert (CS : callable_stmts f = call_arities nm bs) by (unfold callable_stmts, call_arities; rewrite comp_stmt_macros, map_map; reflexivity).
  assert (ON : map fst (expr_objects f) = map par_name idx) by (rewrite comp_objects, map_map; reflexivity).
  assert (MN : map m_name (f_macros f) = (map par_name idx ++ base_names ++ map s_name (flat_map snd bs))%list).
  { cbn [f_macros comp_file]. rewrite !map_app, !map_map, base_macro_names, <- (stmts_numbers nm bs), map_map. reflexivity. }
  destruct (wn_idents _ _ _ W) as (IS & II & IP).
  constructor.
  - rewrite comp_variables. apply nodup_app; [exact (iter_nodup _ _ _ W)| |].
    + apply nodup_app; [exact (wn_par _ _ _ W)|repeat constructor; tauto|]. intros x I [<-|[]]. apply (not_total "total"); [|reflexivity]. unfold all_names. apply in_or_app. right. apply in_or_app. now right.
    + intros x I1 I2. apply in_app_or in I2. destruct I2 as [I2|[<-|[]]].
      * destruct (wn_apart _ _ _ W x I2) as [A1 A2]. apply in_app_or in I1. destruct I1 as [I1|I1]; [apply new_scat_in in I1|]; tauto.
      * apply (not_total "total"); [|reflexivity]. apply all_names_in. rewrite app_assoc. apply in_or_app. now left.
  - rewrite MN, <- (comp_names k nm bs). exact (comp_dup_free k nm bs (wn_once _ _ _ W)).
  - intros x I. rewrite comp_stmt_objects, ON. cbn [functions f_externs comp_file map]. destruct (AV x I) as [A | ->].
    + pose proof (wn_free _ _ _ W x A) as NR. split; [|split; [|tauto]].
      * intros [<-|[]]. apply NR. right. now left.
      * intro J. apply in_map_iff in J. destruct J as (i & <- & _). apply NR, par_reserved.
    + split; [|split; [|tauto]]; [intros [X|[]]; discriminate X|]. intro J. apply in_map_iff in J. destruct J as (i & X & _). discriminate X.
  - intros x I. rewrite MN. cbn [f_name functions f_externs comp_file] in I. intro J. apply in_app_or in J. destruct J as [J|J]; [|apply in_app_or in J; destruct J as [J|J]].
    + apply in_map_iff in J. destruct J as (i & <- & _). destruct I as [X|[X|[]]]; discriminate X.
    + destruct I as [<-|[<-|[]]]; cbn in J; intuition discriminate.
    + apply in_map_iff in J. destruct J as (i & <- & _). destruct I as [X|[X|[]]]; discriminate X.
  - cbn [f_macros comp_file]. apply Forall_app. split; [|apply Forall_app; split].
    + apply Forall_forall. intros m Hm. apply in_map_iff in Hm. destruct Hm as (i & <- & _). split; [constructor|]. split; [constructor|]. cbn [par_macro m_body]. unfold int_expr. now destruct (k <? 0).
    + unfold macro_ok. generalize (mstmt_ok f). intro Q.
      assert (BF : Forall (fun m => match m_params m with Some ps => NoDup ps /\ Forall (fun x => is_keyword x = false) ps | None => False end /\ match m_body m with MEmpty => True | MExpr e => known (match m_params m with Some ps => ps | None => [] end) [] e = true | MStmts _ => False end) base_macros).
      { vm_compute. repeat constructor; cbn; intuition discriminate. }
      eapply Forall_impl; [|exact BF]. intros m [B1 B2]. cbv zeta. destruct (m_params m) as [ps|]; [|destruct B1]. destruct B1 as [B0 B1]. split; [exact B0|]. split; [exact B1|]. destruct (m_body m); [exact I|exact B2|destruct B2].
    + apply Forall_forall. intros m Hm. apply in_map_iff in Hm. destruct Hm as ([its n] & <- & Hq). cbn [comp_macro macro_ok m_params m_body fst snd].
      assert (PA : forall x, In x its -> In x (all_names nm)) by (intros x Hx; unfold all_names; apply in_or_app; right; apply in_or_app; left; eapply stmts_iter; eassumption).
      split; [exact (stmts_nodup nm bs its n (wn_iter _ _ _ W) Hq)|]. split; [apply Forall_forall; intros x Hx; apply not_keyword, (wn_ident _ _ _ W); now apply PA|].
      constructor; [|destruct its as [|y its]; constructor; [|constructor]].
      * split; [rewrite comp_variables; apply in_or_app; right; apply in_or_app; right; now left|]. intro Hx. exact (not_total _ (PA _ Hx) eq_refl).
      * cbn [mstmt_ok]. split; [rewrite map_length; exact (fmt_conv (y :: its) n)|]. split; [intro Hx; apply (wn_free _ _ _ W _ (PA _ Hx)); right; now left|].
        apply forallb_forall. intros e He. apply in_map_iff in He. destruct He as (x & <- & Hx). cbn [known]. apply mem_in, in_or_app. now left.
  - rewrite ON, CE. cbn [f_vars comp_file]. unfold comp_vars. rewrite !map_app. repeat rewrite Forall_app. repeat split.
    + unfold plain_items. rewrite map_map. apply Forall_forall. intros d Hd. apply in_map_iff in Hd. destruct Hd as (x & <- & _). exact I.
    + unfold plain_items. rewrite map_map. apply Forall_forall. intros d Hd. apply in_map_iff in Hd. destruct Hd as (x & <- & _). exact I.
    + assert (G : forall ps i, Forall (fun d => match snd d with Some e => known (map par_name (seq i (List.length ps))) (arities program_macros) e = true | None => True end) (map item_var (par_items i ps))).
      { induction ps as [|x ps IHp]; intro i; [constructor|]. cbn [par_items map List.length seq]. constructor.
        - cbn [item_var snd option_map known]. apply mem_in. now left.
        - eapply Forall_impl; [|exact (IHp (S i))]. intros [y [e|]]; cbn [snd]; [|trivial]. apply known_mono. intros z Hz. now right. }
      exact (G (nm_par nm) 1%nat).
    + repeat constructor.
  - cbn [f_body comp_file]. apply Forall_app. split.
    + rewrite forallb_forall in K. apply Forall_forall. intros s Hs. apply in_map_iff in Hs. destruct Hs as (c & <- & Hc). cbn [fstmt_ok]. rewrite CE, CS. apply (known_stmt_mono (all_names nm)); [exact VA|now apply K].
    + constructor; [|constructor; [exact I|constructor]]. cbn [fstmt_ok]. split; [reflexivity|]. cbn [forallb known]. rewrite mem_in; [reflexivity|]. rewrite comp_variables. apply in_or_app. right. apply in_or_app. right. now left.
Qed.
End Compilable.

(** *** callable files *)
Section Callable.
Variable nm : names.
Variable bs : blocks.
Variable body : list fstmt.
Hypothesis W : well_named callable_reserved nm bs.
Hypothesis Z0 : ~ In 0%nat (flat_map snd bs).
Notation f := (call_file nm bs body).
Definition call_stmts (q : list string * nat) : list mstmt := MCall "hash" [CInt (Z.of_nat (snd q))] :: map (fun i => MCall "hash" [CVar i]) (fst q).
Lemma call_exprs : expr_macros f = program_macros.
Proof.
  unfold expr_macros. cbn [f_macros call_file]. rewrite flat_map_app, base_exprs. cbn [flat_map s0_macro m_params m_body List.app]. rewrite flat_map_map. rewrite (flat_nil _ _ _ (stmts nm bs)) by reflexivity. now rewrite app_nil_r.
Qed.
Lemma call_objects : expr_objects f = [].
Proof.
  unfold expr_objects. cbn [f_macros call_file]. rewrite flat_map_app, base_objects. cbn [flat_map s0_macro m_params m_body List.app]. rewrite flat_map_map. now rewrite (flat_nil _ _ _ (stmts nm bs)) by reflexivity.
Qed.
Lemma call_stmt_macros : stmt_macros f = map (fun q => (s_name (snd q), (fst q, call_stmts q))) (stmts nm bs).
Proof.
  unfold stmt_macros. cbn [f_macros call_file]. rewrite flat_map_app, base_stmts. cbn [flat_map s0_macro m_params m_body List.app]. rewrite flat_map_map.
  now rewrite (flat_one _ _ _ (fun q => (s_name (snd q), (fst q, call_stmts q))) (stmts nm bs)) by reflexivity.
Qed.
Lemma call_stmt_objects : stmt_objects f = [("S0", [MCall "hash" [CInt 0]])].
Proof.
  unfold stmt_objects. cbn [f_macros call_file]. rewrite flat_map_app, base_stmt_objects. cbn [flat_map s0_macro m_params m_body m_name List.app]. rewrite flat_map_map. now rewrite (flat_nil _ _ _ (stmts nm bs)) by reflexivity.
Qed.
Lemma call_variables : variables f = (nm_par nm ++ new_scat nm ++ nm_iter nm)%list.
Proof. unfold variables, call_file. cbn [f_args f_vars]. now rewrite !map_app, !plain_names. Qed.
Lemma call_no_object : forall x, In x (all_names nm) -> object_value f x = None.
Proof. intros x _. unfold object_value. now rewrite call_objects. Qed.
Definition any (c : nat) (sigma : env) : Prop := True.
Definition emit_hash (c : call) : list out :=
  match tokens (tail (fst c)) with [TNum z] => map (fun v => Called "hash" [v]) (z :: snd c) | _ => [] end.
Lemma emit_name : forall n zs, emit_hash (s_name n, zs) = map (fun v => Called "hash" [v]) (Z.of_nat n :: zs).
Proof.
  intros n zs. unfold emit_hash. cbn [fst snd s_name append tail]. unfold tokens. pose proof (nat_lex n "" I) as E. rewrite app_nil_s in E. rewrite E. reflexivity.
Qed.
Lemma mrun_hashes : forall m l sigma zs, fvalues f sigma (map (subst m) (map CVar l)) = Some zs ->
  mrun f m (map (fun i => MCall "hash" [CVar i]) l) sigma = Some (sigma, map (fun v => Called "hash" [v]) zs).
Proof.
  intros m l sigma. induction l as [|x l IH]; intros zs V; cbn [map] in *; unfold fvalues in *; cbn [values] in *; [injection V as <-; reflexivity|].
  destruct (value (expr_macros f) (visible f sigma) (subst m (CVar x))) as [z|] eqn:E; [|discriminate]. destruct (values (expr_macros f) (visible f sigma) (map (subst m) (map CVar l))) as [zs'|]; [|discriminate]. injection V as <-.
  specialize (IH zs' eq_refl). cbn [mrun mrun1 map]. unfold fvalues. cbn [values]. rewrite E, IH. reflexivity.
Qed.
Lemma call_proc : forall g es zs c rho sigma, callable (call_arities nm bs) g (List.length es) = true -> follows (all_names nm) any c rho sigma -> values program_macros rho es = Some zs ->
  exists xs b sigma', find (fun m => String.eqb (fst m) g) (stmt_macros f) = Some (g, (xs, b)) /\ List.length xs = List.length es /\
    mrun f (List.combine xs es) b sigma = Some (sigma', emit_hash (g, zs)) /\ follows (all_names nm) any (S c) rho sigma'.
Proof.
  intros g es zs c rho sigma C R V. destruct (arities_in _ _ _ _ C) as ([its n] & J & -> & L). cbn [fst snd] in *. exists its, (call_stmts (its, n)), sigma.
  split; [|split; [now symmetry|split; [|destruct R; now split]]].
  - rewrite call_stmt_macros. exact (find_stmt _ (fun q => (s_name (snd q), (fst q, call_stmts q))) (stmts nm bs) (its, n) (fun _ => eq_refl) ltac:(rewrite stmts_numbers; exact (wn_once _ _ _ W)) J).
  - rewrite emit_name. unfold call_stmts. cbn [fst snd mrun mrun1 map subst]. change (fvalues f sigma [CInt (Z.of_nat n)]) with (Some [Z.of_nat n]).
    cbv beta iota. rewrite (mrun_hashes (List.combine its es) its sigma zs); [reflexivity|]. rewrite subst_params; [|exact (stmts_nodup nm bs _ n (wn_iter _ _ _ W) J)|now symmetry].
    exact (follow_values f (all_names nm) any call_exprs call_no_object c rho sigma es zs R V).
Qed.
Lemma bind_params : forall ps zs rho, NoDup ps -> List.length ps = List.length zs -> exists rho0, bind ps zs rho = Some rho0 /\ (forall x, ~ In x ps -> rho0 x = rho x) /\
  forall x v, with_params ps zs x = Some v -> In x ps /\ rho0 x = Some v.
Proof.
  induction ps as [|p ps IH]; intros [|z zs] rho N L; try discriminate.
  - exists rho. repeat split; try discriminate. 
  - inversion N as [|? ? N1 N2]; subst. injection L as L. destruct (IH zs (assign rho p z) N2 L) as (rho0 & B & O & V). exists rho0. split; [exact B|]. split.
    + intros x Hx. rewrite O by (intro H; apply Hx; now right). apply assign_other. intros ->. apply Hx. now left.
    + intros x v E. cbn [with_params] in E. destruct (String.eqb_spec x p) as [->|X].
      * rewrite assign_same in E. injection E as <-. split; [now left|]. rewrite O by exact N1. apply assign_same.
      * rewrite assign_other in E by exact X. destruct (V x v E). split; [now right|assumption].
Qed.
Lemma call_start : forall zs, List.length (nm_par nm) = List.length zs -> exists rho0, bind (f_args f) zs (fun _ => None) = Some rho0 /\ declare f (f_vars f) rho0 = Some rho0 /\
  follows (all_names nm) any 0 (with_params (nm_par nm) zs) rho0.
Proof.
  intros zs L. destruct (bind_params (nm_par nm) zs (fun _ => None) (wn_par _ _ _ W) L) as (rho0 & B & _ & V). exists rho0. split; [exact B|]. split.
  - cbn [f_vars call_file]. rewrite map_app, plain_declare. rewrite <- (app_nil_r (map item_var (plain_items (nm_iter nm)))). now rewrite plain_declare.
  - split; [|exact I]. intros x v E. destruct (V x v E) as [J X]. split; [|exact X]. unfold all_names. apply in_or_app. right. apply in_or_app. now right.
Qed.
Lemma call_runs : forall p zs rho' t, body = map FStmt p -> List.length (nm_par nm) = List.length zs -> crun program_macros p (with_params (nm_par nm) zs) rho' t ->
  forallb (known_stmt (all_names nm) (arities program_macros) (call_arities nm bs)) p = true -> runs f zs (flat_map emit_hash t).
Proof.
  intros p zs rho' t EB L H K. destruct (call_start zs L) as (sigma & B & D & R). exists sigma, sigma. split; [exact B|]. split; [exact D|].
  destruct (proj2 (proj2 (follow_run f (all_names nm) (call_arities nm bs) any emit_hash call_exprs call_no_object (fun _ _ _ _ _ _ => I) call_proc)) p _ _ _ H K 0%nat sigma R) as (sigma' & F & _).
  cbn [f_body call_file]. rewrite EB in F |- *. pose proof (frun_body _ _ _ _ _ F [] [] (B_end _ sigma')) as X. rewrite !app_nil_r in X. exact X.
Qed.
Lemma call_runs_empty : forall zs, body = [FUse "S0"] -> List.length (nm_par nm) = List.length zs -> runs f zs [Called "hash" [0]].
Proof.
  intros zs EB L. destruct (call_start zs L) as (sigma & B & D & R). exists sigma, sigma. split; [exact B|]. split; [exact D|]. cbn [f_body call_file]. rewrite EB.
  apply (B_use (call_file nm bs [FUse "S0"]) "S0" [] sigma sigma [MCall "hash" [CInt 0]] [Called "hash" [0]] []); [|reflexivity|constructor].
  pose proof call_stmt_objects as X. rewrite EB in X. now rewrite X.
Qed.
Lemma call_correct : forall p, body = map FStmt p \/ body = [FUse "S0"] -> forallb (known_stmt (all_names nm) (arities program_macros) (call_arities nm bs)) p = true -> correct f.
Proof.
  intros p EB K.
  assert (VA : incl (all_names nm) (variables f)).
  { intros x H. rewrite call_variables. unfold all_names in H. rewrite app_assoc in H. apply in_app_or in H. apply in_or_app. destruct H as [H|H]; [right; now apply declared|now left]. }
  assert (AV : forall x, In x (variables f) -> In x (all_names nm)).
  { intros x H. rewrite call_variables in H. apply all_names_in. rewrite app_assoc. apply in_app_or in H. apply in_or_app. tauto. }
  assert (CE : callable_exprs f = arities program_macros) by (unfold callable_exprs; now rewrite call_exprs).
  assert (CS : callable_stmts f = call_arities nm bs) by (unfold callable_stmts, call_arities; rewrite call_stmt_macros, map_map; reflexivity).
  assert (MN : map m_name (f_macros f) = (base_names ++ "S0" :: map s_name (flat_map snd bs))%list).
  { cbn [f_macros call_file]. rewrite map_app, base_macro_names. cbn [map m_name s0_macro]. rewrite map_map, <- (stmts_numbers nm bs), map_map. reflexivity. }
  constructor.
  - rewrite call_variables. apply nodup_app; [exact (wn_par _ _ _ W)|exact (iter_nodup _ _ _ W)|]. intros x I1 I2. destruct (wn_apart _ _ _ W x I1) as [A1 A2]. apply in_app_or in I2. destruct I2 as [I2|I2]; [apply new_scat_in in I2|]; tauto.
  - rewrite MN, <- (call_names nm bs). exact (call_dup_free nm bs (wn_once _ _ _ W) Z0).
  - intros x J. rewrite call_stmt_objects, call_objects. cbn [functions f_externs call_file map fst]. pose proof (wn_free _ _ _ W x (AV x J)) as NR. unfold callable_reserved in NR. split; [|split; [tauto|]].
    + intros [<-|[<-|[]]]; apply NR; tauto.
    + intros [<-|[]]. apply NR; tauto.
  - intros x J. rewrite MN. cbn [f_name functions f_externs call_file] in J. intro X. apply in_app_or in X. destruct X as [X|[X|X]].
    + destruct J as [<-|[<-|[<-|[]]]]; cbn in X; intuition discriminate.
    + subst x. destruct J as [J|[J|[J|[]]]]; discriminate J.
    + apply in_map_iff in X. destruct X as (i & <- & _). destruct J as [J|[J|[J|[]]]]; discriminate J.
  - cbn [f_macros call_file]. apply Forall_app. split; [|constructor].
    + unfold macro_ok. generalize (mstmt_ok f). intro Q.
      assert (BF : Forall (fun m => match m_params m with Some ps => NoDup ps /\ Forall (fun x => is_keyword x = false) ps | None => False end /\ match m_body m with MEmpty => True | MExpr e => known (match m_params m with Some ps => ps | None => [] end) [] e = true | MStmts _ => False end) base_macros).
      { vm_compute. repeat constructor; cbn; intuition discriminate. }
      eapply Forall_impl; [|exact BF]. intros m [B1 B2]. cbv zeta. destruct (m_params m) as [ps|]; [|destruct B1]. destruct B1 as [B0 B1]. split; [exact B0|]. split; [exact B1|]. destruct (m_body m); [exact I|exact B2|destruct B2].
    + split; [constructor|]. split; [constructor|]. cbn [s0_macro m_body m_params]. constructor; [|constructor]. cbn [mstmt_ok]. repeat split; [now left|tauto].
    + apply Forall_forall. intros m Hm. apply in_map_iff in Hm. destruct Hm as ([its n] & <- & Hq). cbn [call_macro macro_ok m_params m_body fst snd].
      assert (PA : forall x, In x its -> In x (all_names nm)) by (intros x Hx; unfold all_names; apply in_or_app; right; apply in_or_app; left; eapply stmts_iter; eassumption).
      assert (NH : ~ In "hash" its) by (intro Hx; apply (wn_free _ _ _ W _ (PA _ Hx)); now left).
      split; [exact (stmts_nodup nm bs its n (wn_iter _ _ _ W) Hq)|]. split; [apply Forall_forall; intros x Hx; apply not_keyword, (wn_ident _ _ _ W); now apply PA|].
      constructor; [cbn [mstmt_ok]; repeat split; [now left|exact NH]|]. apply Forall_forall. intros m Hm. apply in_map_iff in Hm. destruct Hm as (x & <- & Hx). cbn [mstmt_ok]. repeat split; [now left|exact NH|].
      cbn [forallb known]. rewrite mem_in; [reflexivity|]. apply in_or_app. now left.
  - rewrite call_objects. cbn [f_vars call_file]. rewrite map_app. apply Forall_app. split; unfold plain_items; rewrite map_map; apply Forall_forall; intros d Hd; apply in_map_iff in Hd; destruct Hd as (x & <- & _); exact I.
  - cbn [f_body call_file]. destruct EB as [EB|EB]; rewrite EB in CS, CE, VA |- *.
    + rewrite forallb_forall in K. apply Forall_forall. intros s Hs. apply in_map_iff in Hs. destruct Hs as (c & <- & Hc). cbn [fstmt_ok]. rewrite CE, CS. apply (known_stmt_mono (all_names nm)); [exact VA|now apply K].
    + constructor; [|constructor]. cbn [fstmt_ok]. pose proof call_stmt_objects as X. rewrite EB in X. rewrite X. now left.
Qed.
End Callable.

(** *** the files *)
Lemma lines_named : forall o stmt_name t, numbered o stmt_name -> flat_map emit_line (named o stmt_name t) = flat_map instance_line t.
Proof.
  intros o stmt_name t N. unfold named. rewrite flat_map_map. induction t as [|[n zs] t IH]; [reflexivity|]. cbn [flat_map]. rewrite IH. f_equal. unfold emit_line, instance_line. cbn [fst snd]. rewrite (label_number o stmt_name n N).
  destruct zs; [reflexivity|]. unfold s_name. now rewrite app_assoc_s.
Qed.
Lemma hashes_named : forall o stmt_name t, numbered o stmt_name -> flat_map emit_hash (named o stmt_name t) = hashed t.
Proof.
  intros o stmt_name t N. unfold named, hashed. rewrite flat_map_map. induction t as [|[n zs] t IH]; [reflexivity|]. cbn [flat_map]. rewrite IH. f_equal. cbn [fst snd]. rewrite (label_number o stmt_name n N). apply emit_name.
Qed.
Theorem compilable_file : forall o stmt_name nm bs ss, fo_lang o = LangC -> fo_compilable o <> 0 -> header_ok o ->
  well_named compilable_reserved nm bs -> uses_names nm ss -> calls_blocks bs ss ->
  (fo_callable o = true \/ forall n, stmt_name n = None) -> (fo_callable o = false \/ ss <> []) ->
  forallb (printable_stmt {| p_lang := LangC; p_callable := fo_callable o |} stmt_name) ss = true ->
  exists text f, program_pprint o stmt_name nm bs ss = Some text /\ (forall g, reads_file text g <-> g = f) /\ correct f /\ f_name f = "main" /\ f_args f = [] /\ f_externs f = [] /\
    forall rho' t, exec ss (with_params (nm_par nm) (repeat (fo_compilable o) (List.length (nm_par nm)))) = Some (rho', t) -> forall outs, runs f [] outs <-> outs = counted t.
Proof.
  intros o stmt_name nm bs ss LC K H W U C NB NE PR. destruct (read_compilable o stmt_name nm bs ss LC K H W U C NB NE PR) as (text & p & E & R & KN & SM).
  exists text, (comp_file (fo_compilable o) nm bs p). split; [exact E|]. split; [intro g; split; [intro G; exact (reads_file_unique _ _ _ G R)|now intros ->]|].
  split; [exact (comp_correct _ nm bs p W KN)|]. do 3 (split; [reflexivity|]). intros rho' t X outs.
  pose proof (comp_runs (fo_compilable o) nm bs p W _ _ (SM _ _ _ X) KN) as RN. rewrite (lines_named {| p_lang := LangC; p_callable := fo_callable o |} stmt_name t NB) in RN. unfold named in RN. rewrite map_length in RN.
  split; [intro Y; exact (runs_unique _ _ _ _ RN Y)|now intros ->].
Qed.
Theorem callable_file : forall o stmt_name nm bs ss, fo_lang o = LangC -> fo_compilable o = 0 -> fo_callable o = true -> header_ok o ->
  well_named callable_reserved nm bs -> ~ In 0%nat (flat_map snd bs) -> uses_names nm ss -> calls_blocks bs ss ->
  forallb (printable_stmt {| p_lang := LangC; p_callable := true |} stmt_name) ss = true ->
  exists text f, program_pprint o stmt_name nm bs ss = Some text /\ (forall g, reads_file text g <-> g = f) /\ correct f /\ f_name f = "test" /\ f_args f = nm_par nm /\ f_externs f = ["hash"] /\
    forall zs, List.length zs = List.length (nm_par nm) ->
      (ss = [] -> forall outs, runs f zs outs <-> outs = [Called "hash" [0]]) /\
      (ss <> [] -> forall rho' t, exec ss (with_params (nm_par nm) zs) = Some (rho', t) -> forall outs, runs f zs outs <-> outs = hashed t).
Proof.
  intros o stmt_name nm bs ss LC K CA H W Z0 U C PR. destruct (read_callable o stmt_name nm bs ss LC K CA H W Z0 U C PR) as (text & p & E & R & KN & SM).
  set (body := match ss with [] => [FUse "S0"] | _ => map FStmt p end) in *. exists text, (call_file nm bs body). split; [exact E|]. split; [intro g; split; [intro G; exact (reads_file_unique _ _ _ G R)|now intros ->]|].
  split; [apply (call_correct nm bs body W Z0 p); [unfold body; destruct ss; tauto|exact KN]|]. do 3 (split; [reflexivity|]). intros zs L. symmetry in L. split.
  - intros S outs. pose proof (call_runs_empty nm bs body W zs ltac:(unfold body; now rewrite S) L) as RN. split; [intro Y; exact (runs_unique _ _ _ _ RN Y)|now intros ->].
  - intros NS rho' t X outs. pose proof (call_runs nm bs body W p zs _ _ ltac:(unfold body; now destruct ss) L (SM _ _ _ X) KN) as RN.
    rewrite (hashes_named {| p_lang := LangC; p_callable := true |} stmt_name t (or_introl eq_refl)) in RN. split; [intro Y; exact (runs_unique _ _ _ _ RN Y)|now intros ->].
Qed.
