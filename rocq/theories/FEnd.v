(** The program printed in Fortran: it exists, it has one meaning, and no part of it depends on how
    quotients are rounded. *)
From Coq Require Import ZArith List Bool Arith String Ascii QArith Lia.
From Verif Require Import ClastSpec ClastModel ClastCmp PprintModel CReader FReader FReal PprintSpec FSpec PprintLex PprintExpr PprintStmt PprintEnd FParse FExpr FStmt.
Import ListNotations.
Local Open Scope string_scope.
Local Open Scope Z_scope.

(** *** a program has at most one run *)
Scheme frun1_mind := Induction for frun1 Sort Prop
  with floop_mind := Induction for floop Sort Prop
  with frun_mind := Induction for frun Sort Prop.
Combined Scheme frun_mutind from frun1_mind, floop_mind, frun_mind.
Lemma frun_unique rnd :
  (forall s rho rho' t, frun1 rnd s rho rho' t -> forall rho2 t2, frun1 rnd s rho rho2 t2 -> rho2 = rho' /\ t2 = t) /\
  (forall it st b n rho rho' t, floop rnd it st b n rho rho' t -> forall rho2 t2, floop rnd it st b n rho rho2 t2 -> rho2 = rho' /\ t2 = t) /\
  (forall p rho rho' t, frun rnd p rho rho' t -> forall rho2 t2, frun rnd p rho rho2 t2 -> rho2 = rho' /\ t2 = t).
Proof.
  apply frun_mutind.
  - intros x e rho z V rho2 t2 H. inversion H; subst. same_val. auto.
  - intros f es rho zs N V rho2 t2 H. inversion H; subst. same_val. auto.
  - intros c b rho rho' t V H IH rho2 t2 H2. inversion H2; subst; [now apply IH|]. congruence.
  - intros c b rho V rho2 t2 H2. inversion H2; subst; [|auto]. congruence.
  - intros it lb ub st b rho zl zu zs rho' t V1 V2 V3 NZ H IH rho2 t2 H2. inversion H2; subst. repeat same_val. now apply IH.
  - intros it st b rho rho2 t2 H2. inversion H2; subst. auto.
  - intros it st b n rho v rho1 t1 rho2 t2 E H IH E1 H' IH' rho3 t3 H2. inversion H2; subst. same_val.
    match goal with A : frun rnd b rho ?r ?t |- _ => destruct (IH _ _ A) as [-> ->] end.
    match goal with A : floop rnd it st b n _ rho3 _ |- _ => destruct (IH' _ _ A) as [-> ->] end. auto.
  - intros rho rho2 t2 H. inversion H; subst. auto.
  - intros s p rho rho1 t1 rho2 t2 H IH H' IH' rho3 t3 H2. inversion H2; subst.
    match goal with A : frun1 rnd s rho ?r ?t |- _ => destruct (IH _ _ A) as [-> ->] end.
    match goal with A : frun rnd p _ rho3 _ |- _ => destruct (IH' _ _ A) as [-> ->] end. auto.
Qed.

(** *** printable statements are printed *)
Section Defined.
Variable o : popts.
Variable stmt_name : nat -> option string.
Hypothesis langF : p_lang o = LangFortran.
Lemma fopt_defined : forall e, opt_ok (fprintable PSum) e = true -> exists x, pprint_opt LangFortran e = Some x.
Proof. intros [e|] H; [|discriminate]. cbn in H |- *. eapply fprint_defined. exact H. Qed.
Lemma fargs_defined : forall subs close, forallb (opt_ok (fprintable PSum)) subs = true -> exists x, pprint_args o close subs = Some x.
Proof.
  induction subs as [|[e|] subs IH]; intros close H; cbn [forallb opt_ok] in H; [eexists; reflexivity| |discriminate]. apply andb_true_iff in H. destruct H as [H1 H2].
  cbn [pprint_args]. rewrite langF. apply cat_defined; [apply say_defined|]. apply cat_defined; [eapply fprint_defined; exact H1|].
  destruct subs as [|s subs]; [apply say_defined|]. apply cat_defined; [apply say_defined|]. apply cat_defined; [apply say_defined|]. now apply IH.
Qed.
Lemma fbinary_defined : forall l r, fprintable PSum l = true -> exists x, pprint_expr LangFortran (EBin BMod l r) = Some x.
Proof.
  intros l r H. destruct (fprint_defined _ _ H) as (x & E). cbn [pprint_expr]. rewrite E. eexists. reflexivity.
Qed.
Lemma feqn_defined : forall q, fcond_printable q = true -> exists x, pprint_equation LangFortran q = Some x.
Proof.
  intros [l r s] H. unfold pprint_equation. cbn [e_lhs e_rhs e_sign].
  assert (K : (exists x, pprint_expr LangFortran l = Some x) /\ (exists x, pprint_opt LangFortran r = Some x)).
  { unfold fcond_printable in H. cbn [e_lhs e_rhs e_sign] in H. destruct l as [n|v x|[] x d|t xs];
      try (apply andb_true_iff in H; destruct H as [H1 H2]; split; [eapply fprint_defined; exact H1|now apply fopt_defined]).
    do 3 (apply andb_true_iff in H; destruct H as [H ?]). split; [now apply fbinary_defined|].
    destruct r as [[|v [x'|]| |]|]; try discriminate. eexists. reflexivity. }
  destruct K as [K1 K2]. apply cat_defined; [exact K1|]. apply cat_defined; [apply say_defined|exact K2].
Qed.
Lemma fconds_defined : forall qs first, forallb fcond_printable qs = true -> exists x, pprint_conds o first qs = Some x.
Proof.
  induction qs as [|q qs IH]; intros first H; cbn [pprint_conds]; [apply say_defined|]. cbn [forallb] in H. apply andb_true_iff in H. destruct H as [H1 H2]. rewrite langF.
  repeat (apply cat_defined; [first [apply say_defined|now apply feqn_defined]|]). now apply IH.
Qed.
Lemma fstmt_defined : forall s indent, fprintable_stmt o stmt_name s = true -> exists x, pprint_stmt o stmt_name indent s = Some x.
Proof.
  assert (HL : forall ss, Forall (fun s => forall indent, fprintable_stmt o stmt_name s = true -> exists x, pprint_stmt o stmt_name indent s = Some x) ss ->
     forall indent, forallb (fprintable_stmt o stmt_name) ss = true ->
     exists x, (fix pprint_list (indent : nat) (ss : list stmt) : option string :=
        match ss with [] => say "" | s :: ss' => cat (pprint_stmt o stmt_name indent s) (pprint_list indent ss') end) indent ss = Some x).
  { induction 1 as [|s ss H HF IH]; intros indent HP; [apply say_defined|]. cbn [forallb] in HP. apply andb_true_iff in HP. destruct HP as [P1 P2].
    apply cat_defined; [now apply H|now apply IH]. }
  induction s as [x e|num subs|b IH|it lb ub st b IH|qs b IH] using stmt_ind'; intros indent H; cbn [fprintable_stmt] in H; cbn [pprint_stmt]; apply cat_defined; try apply say_defined.
  - apply andb_true_iff in H. destruct H as [_ H]. rewrite langF. unfold pprint_assignment. apply cat_defined; [|apply say_defined].
    apply cat_defined; [apply say_defined|now apply fopt_defined].
  - apply andb_true_iff in H. destruct H as [_ H]. unfold pprint_user. repeat (apply cat_defined; [first [apply say_defined|now apply fargs_defined]|]). apply say_defined.
  - discriminate.
  - do 5 (apply andb_true_iff in H; destruct H as [H ?]). destruct lb as [lb|]; [|discriminate]. destruct ub as [ub|]; [|discriminate]. cbn [opt_ok] in *.
    apply cat_defined; [|repeat (apply cat_defined; [first [apply say_defined|now apply HL]|]); apply say_defined].
    unfold pprint_for_header. rewrite langF. apply cat_defined; [apply say_defined|]. apply cat_defined; [apply cat_defined; [apply say_defined|eapply fprint_defined; eassumption]|].
    apply cat_defined; [apply say_defined|]. apply cat_defined; [eapply fprint_defined; eassumption|].
    apply cat_defined; [destruct (1 <? st); apply say_defined|apply say_defined].
  - do 2 (apply andb_true_iff in H; destruct H as [H ?]). repeat (apply cat_defined; [first [apply say_defined|now apply fconds_defined|now apply HL]|]). apply say_defined.
Qed.
Lemma fprogram_defined : forall indent ss, forallb (fprintable_stmt o stmt_name) ss = true -> exists x, clast_pprint o stmt_name indent ss = Some x.
Proof.
  intros indent ss H. unfold clast_pprint. apply cat_defined; [apply say_defined|]. induction ss as [|s ss IH]; [apply say_defined|].
  cbn [forallb] in H. apply andb_true_iff in H. destruct H as [H1 H2]. apply cat_defined; [now apply fstmt_defined|now apply IH].
Qed.
Lemma fprogram_good : forall rnd, nearest rnd -> forall indent ss text, case_distinct (flat_map stmt_vars ss) -> forallb (fprintable_stmt o stmt_name) ss = true ->
  (p_callable o = false \/ ss <> []) -> clast_pprint o stmt_name indent ss = Some text ->
  exists p, (exists fuel, fparse_body fuel (ftokens text) = Some (p, [])) /\ fsame rnd (flat_map stmt_vars ss) o stmt_name ss p.
Proof.
  intros rnd R indent ss text D PR NE PT.
  pose proof (fprint_stmts_good rnd R (flat_map stmt_vars ss) D o stmt_name langF ss (incl_refl _) PR) as G.
  unfold clast_pprint in PT. apply cat_some in PT. destruct PT as (p1 & q1 & E1 & PT & ->).
  assert (N : p1 = "").
  { unfold say in E1. injection E1 as <-. destruct ss; [|reflexivity]. destruct NE as [->|NE]; [reflexivity|congruence]. }
  rewrite N. cbn [append]. destruct (G _ _ PT) as (ts & p & L & P & S). exists p. split; [|exact S].
  destruct (P [] Logic.I) as [M E]. exists M. unfold ftokens. specialize (L ""). rewrite app_nil_s in L. rewrite L. cbn [flex fflush]. exact E.
Qed.
Theorem fprogram_parse : forall indent ss, forallb (fprintable_stmt o stmt_name) ss = true -> case_distinct (flat_map stmt_vars ss) -> (p_callable o = false \/ ss <> []) ->
  exists text p, clast_pprint o stmt_name indent ss = Some text /\ (forall q, (exists fuel, fparse_body fuel (ftokens text) = Some (q, [])) <-> q = p) /\
  forall rnd rho rho' t rf, nearest rnd -> exec_with small_eval ss rho = Some (rho', t) -> fagree (flat_map stmt_vars ss) rho rf ->
    exists rf', fagree (flat_map stmt_vars ss) rho' rf' /\ forall rf2 t2, frun rnd p rf rf2 t2 <-> rf2 = rf' /\ t2 = fnamed o stmt_name t.
Proof.
  intros indent ss H D N. destruct (fprogram_defined indent ss H) as (text & E).
  destruct (fprogram_good _ nearest_round24 indent ss text D H N E) as (p & (fuel & R) & _).
  assert (U : forall n q, fparse_body n (ftokens text) = Some (q, []) -> q = p).
  { intros n q Q. apply (proj2 (fstmt_mono n)) with (m := (n + fuel)%nat) in Q; [|lia]. apply (proj2 (fstmt_mono fuel)) with (m := (n + fuel)%nat) in R; [|lia]. congruence. }
  exists text, p. split; [exact E|]. split.
  - intro q. split; [intros (n & Q); exact (U n q Q)|]. intros ->. now exists fuel.
  - intros rnd rho rho' t rf RN X A. destruct (fprogram_good rnd RN indent ss text D H N E) as (p' & (fuel' & R') & S).
    apply U in R'. subst p'. destruct (S rho rho' t rf X A) as (rf' & RUN & A'). exists rf'. split; [exact A'|]. intros rf2 t2. split; [|now intros [-> ->]].
    intro C. exact (proj2 (proj2 (frun_unique rnd)) _ _ _ _ RUN _ _ C).
Qed.
Theorem fprogram_text : forall indent ss, forallb (fprintable_stmt o stmt_name) ss = true -> case_distinct (flat_map stmt_vars ss) -> (p_callable o = false \/ ss <> []) ->
  exists text p, clast_pprint o stmt_name indent ss = Some text /\ (forall q, freads text q <-> q = p /\ lines_fit 0 text = true) /\
  forall rnd rho rho' t rf, nearest rnd -> exec_with small_eval ss rho = Some (rho', t) -> fagree (flat_map stmt_vars ss) rho rf ->
    exists rf', fagree (flat_map stmt_vars ss) rho' rf' /\ forall rf2 t2, frun rnd p rf rf2 t2 <-> rf2 = rf' /\ t2 = fnamed o stmt_name t.
Proof.
  intros indent ss H D N. destruct (fprogram_parse indent ss H D N) as (text & p & E & U & RUN). exists text, p. split; [exact E|]. split; [|exact RUN].
  intro q. unfold freads. rewrite U. tauto.
Qed.
End Defined.
