(** The printed program: it exists, and it has one meaning. *)
From Coq Require Import ZArith List Bool Arith String Ascii Permutation Lia.
From Verif Require Import LoopModel LoopSpec LoopCount ClastModel ClastSpec ClastMain PprintModel CReader PprintSpec PprintLex PprintParse PprintExpr PprintStmt ClastPrint.
Import ListNotations.
Local Open Scope string_scope.
Local Open Scope Z_scope.

(** *** a program has at most one run *)
Scheme crun1_mind := Induction for crun1 Sort Prop
  with cloop_mind := Induction for cloop Sort Prop
  with crun_mind := Induction for crun Sort Prop.
Combined Scheme crun_mutind from crun1_mind, cloop_mind, crun_mind.
Ltac same_val := match goal with A : ?x = Some ?a, B : ?x = Some ?b |- _ => rewrite A in B; injection B as B; subst end.
Lemma run_unique ms :
  (forall s rho rho' t, crun1 ms s rho rho' t -> forall rho2 t2, crun1 ms s rho rho2 t2 -> rho2 = rho' /\ t2 = t) /\
  (forall it ub st b rho rho' t, cloop ms it ub st b rho rho' t -> forall rho2 t2, cloop ms it ub st b rho rho2 t2 -> rho2 = rho' /\ t2 = t) /\
  (forall p rho rho' t, crun ms p rho rho' t -> forall rho2 t2, crun ms p rho rho2 t2 -> rho2 = rho' /\ t2 = t).
Proof.
  apply crun_mutind.
  - intros x e rho z V rho2 t2 H. inversion H; subst. same_val. auto.
  - intros f es rho zs N V rho2 t2 H. inversion H; subst. same_val. auto.
  - intros b rho rho' t H IH rho2 t2 H2. inversion H2; subst. now apply IH.
  - intros c b rho rho' t z V NZ H IH rho2 t2 H2. inversion H2; subst; [now apply IH|]. same_val. congruence.
  - intros c b rho V rho2 t2 H2. inversion H2; subst; [|auto]. same_val. congruence.
  - intros it lb ub st b rho z rho' t V H IH rho2 t2 H2. inversion H2; subst. same_val. now apply IH.
  - intros it ub st b rho v u E V L rho2 t2 H2. inversion H2; subst; [auto|]. repeat same_val. lia.
  - intros it ub st b rho v u rho1 t1 v1 rho2 t2 E V L H IH E1 H' IH' rho3 t3 H2. inversion H2; subst; [repeat same_val; lia|].
    match goal with A : crun ms b rho ?r ?t |- _ => destruct (IH _ _ A) as [-> ->] end.
    match goal with A : rho1 it = Some ?w |- _ => lazymatch w with v1 => fail | _ => rewrite E1 in A; injection A as <- end end.
    match goal with A : cloop ms it ub st b _ rho3 _ |- _ => destruct (IH' _ _ A) as [-> ->] end. auto.
  - intros rho rho2 t2 H. inversion H; subst. auto.
  - intros s p rho rho1 t1 rho2 t2 H IH H' IH' rho3 t3 H2. inversion H2; subst.
    match goal with A : crun1 ms s rho ?r ?t |- _ => destruct (IH _ _ A) as [-> ->] end.
    match goal with A : crun ms p _ rho3 _ |- _ => destruct (IH' _ _ A) as [-> ->] end. auto.
Qed.

(** *** printable statements are printed *)
Section Defined.
Variable o : popts.
Variable stmt_name : nat -> option string.
Hypothesis langC : p_lang o = LangC.
Lemma cat_defined : forall a b, (exists x, a = Some x) -> (exists y, b = Some y) -> exists z, cat a b = Some z.
Proof. intros a b (x & ->) (y & ->). eexists. reflexivity. Qed.
Lemma say_defined : forall s, exists x, say s = Some x.
Proof. intro s. eexists. reflexivity. Qed.
Lemma opt_defined : forall e, opt_ok (printable LvAdd) e = true -> exists x, pprint_opt LangC e = Some x.
Proof. intros [e|] H; [|discriminate]. cbn in H |- *. eapply pprint_defined. exact H. Qed.
Lemma args_defined : forall subs close, forallb (opt_ok (printable LvAdd)) subs = true -> exists x, pprint_args o close subs = Some x.
Proof.
  induction subs as [|[e|] subs IH]; intros close H; cbn [forallb opt_ok] in H; [eexists; reflexivity| |discriminate]. apply andb_true_iff in H. destruct H as [H1 H2].
  cbn [pprint_args]. rewrite langC. apply cat_defined; [apply say_defined|]. apply cat_defined; [eapply pprint_defined; exact H1|].
  destruct subs as [|s subs]; [apply say_defined|]. apply cat_defined; [apply say_defined|]. apply cat_defined; [apply say_defined|]. now apply IH.
Qed.
Lemma binary_defined : forall l r, printable (if is_group l then LvAdd else LvMul) l = true -> exists x, pprint_expr LangC (EBin BMod l r) = Some x.
Proof.
  intros l r H. destruct (pprint_defined _ _ H) as (x & E). rewrite pe_mod, E. eexists. reflexivity.
Qed.
Lemma eqn_defined : forall q, cond_printable q = true -> exists x, pprint_equation LangC q = Some x.
Proof.
  intros [l r s] H. unfold pprint_equation. cbn [e_lhs e_rhs e_sign].
  assert (K : (exists x, pprint_expr LangC l = Some x) /\ (exists x, pprint_opt LangC r = Some x)).
  { unfold cond_printable in H. cbn [e_lhs e_rhs e_sign] in H. destruct l as [n|v x|[] x d|t xs];
      try (apply andb_true_iff in H; destruct H as [H1 H2]; split; [eapply pprint_defined; exact H1|now apply opt_defined]).
    do 3 (apply andb_true_iff in H; destruct H as [H ?]). split; [now apply binary_defined|].
    destruct r as [[|v [x'|]| |]|]; try discriminate. eexists. reflexivity. }
  destruct K as [K1 K2]. apply cat_defined; [exact K1|]. apply cat_defined; [apply say_defined|exact K2].
Qed.
Lemma conds_defined : forall qs first, forallb cond_printable qs = true -> exists x, pprint_conds o first qs = Some x.
Proof.
  induction qs as [|q qs IH]; intros first H; cbn [pprint_conds]; [apply say_defined|]. cbn [forallb] in H. apply andb_true_iff in H. destruct H as [H1 H2]. rewrite langC.
  repeat (apply cat_defined; [first [apply say_defined|now apply eqn_defined]|]). now apply IH.
Qed.
Lemma stmt_defined : forall s indent, printable_stmt o stmt_name s = true -> exists x, pprint_stmt o stmt_name indent s = Some x.
Proof.
  assert (HL : forall ss, Forall (fun s => forall indent, printable_stmt o stmt_name s = true -> exists x, pprint_stmt o stmt_name indent s = Some x) ss ->
     forall indent, forallb (printable_stmt o stmt_name) ss = true ->
     exists x, (fix pprint_list (indent : nat) (ss : list stmt) : option string :=
        match ss with [] => say "" | s :: ss' => cat (pprint_stmt o stmt_name indent s) (pprint_list indent ss') end) indent ss = Some x).
  { induction 1 as [|s ss H HF IH]; intros indent HP; [apply say_defined|]. cbn [forallb] in HP. apply andb_true_iff in HP. destruct HP as [P1 P2].
    apply cat_defined; [now apply H|now apply IH]. }
  induction s as [x e|num subs|b IH|it lb ub st b IH|qs b IH] using stmt_ind'; intros indent H; cbn [printable_stmt] in H; cbn [pprint_stmt]; apply cat_defined; try apply say_defined.
  - apply andb_true_iff in H. destruct H as [_ H]. rewrite langC. unfold pprint_assignment. apply cat_defined; [|apply say_defined].
    apply cat_defined; [apply say_defined|now apply opt_defined].
  - apply andb_true_iff in H. destruct H as [_ H]. unfold pprint_user. repeat (apply cat_defined; [first [apply say_defined|now apply args_defined]|]). apply say_defined.
  - repeat (apply cat_defined; [first [apply say_defined|now apply HL]|]). apply say_defined.
  - do 5 (apply andb_true_iff in H; destruct H as [H ?]). destruct lb as [lb|]; [|discriminate]. destruct ub as [ub|]; [|discriminate]. cbn [opt_ok] in *.
    apply cat_defined; [|repeat (apply cat_defined; [first [apply say_defined|now apply HL]|]); apply say_defined].
    unfold pprint_for_header. rewrite langC. apply cat_defined; [apply say_defined|]. apply cat_defined; [apply cat_defined; [apply say_defined|eapply pprint_defined; eassumption]|].
    apply cat_defined; [apply say_defined|]. apply cat_defined; [apply cat_defined; [apply say_defined|eapply pprint_defined; eassumption]|].
    destruct (1 <? st); repeat (apply cat_defined; [apply say_defined|]); apply say_defined.
  - do 2 (apply andb_true_iff in H; destruct H as [H ?]). repeat (apply cat_defined; [first [apply say_defined|now apply conds_defined|now apply HL]|]). apply say_defined.
Qed.
Lemma program_defined : forall indent ss, forallb (printable_stmt o stmt_name) ss = true -> exists x, clast_pprint o stmt_name indent ss = Some x.
Proof.
  intros indent ss H. unfold clast_pprint. apply cat_defined; [apply say_defined|]. induction ss as [|s ss IH]; [apply say_defined|].
  cbn [forallb] in H. apply andb_true_iff in H. destruct H as [H1 H2]. apply cat_defined; [now apply stmt_defined|now apply IH].
Qed.
Theorem program_text : forall indent ss, forallb (printable_stmt o stmt_name) ss = true -> (p_callable o = false \/ ss <> []) ->
  exists text p, clast_pprint o stmt_name indent ss = Some text /\ (forall q, reads text q <-> q = p) /\
  forall rho rho' t, exec ss rho = Some (rho', t) ->
    forall rho2 t2, crun program_macros p rho rho2 t2 <-> rho2 = rho' /\ t2 = named o stmt_name t.
Proof.
  intros indent ss H N. destruct (program_defined indent ss H) as (text & E). destruct (pprint_program_good o stmt_name langC indent ss text H N E) as (p & R & Sm).
  exists text, p. split; [exact E|]. split.
  - intro q. split; [intro Q; exact (reads_unique _ _ _ Q R)|now intros ->].
  - intros rho rho' t X rho2 t2. specialize (Sm rho rho' t X). split; [|now intros [-> ->]]. intro C. exact (proj2 (proj2 (run_unique program_macros)) _ _ _ _ Sm _ _ C).
Qed.
End Defined.

(** *** the loops that clast.c turns into right statements have the shape needed for printing *)
Section Shape.
Variable P : Poly.
Variable Se : Sem P.
Variable rows_of : dom P -> list row.
Variable pv : list Z.
Variable o : copts.
Lemma ready_shaped : forall l spread sts, ready P Se rows_of pv o spread sts l -> no_pairs P rows_of (List.length pv) l -> shaped P rows_of (List.length pv) (List.length spread) l.
Proof.
  induction l as [d ot st b inner IH] using (loop_ind' P). intros spread sts R N. inversion N as [l' N1 NE N2]; subst l'. cbn [l_dom l_inner] in N1, NE, N2. unfold div_equalities in NE.
  inversion R as [sp ss l' b' HB HI HD HS HE HC HV HA|sp ss l' HB HD HE HC HN HA HS HBD HU HI]; subst sp ss l'; cbn [l_blk l_inner l_dom l_st] in *; destruct HE as [HE _].
  - apply (Shaped_stmt _ _ _ _ _ b'); cbn; try assumption. rewrite HD in HE, NE. split; assumption.
  - apply Shaped_loop; cbn [l_blk l_inner l_dom l_st]; try assumption.
    + rewrite HD in HE, NE. split; assumption.
    + now rewrite HD in N1.
    + unfold stride_usable in HS. cbn [l_st] in HS. destruct st as [[[s off] [lb|]]|]; [exact Logic.I|apply HS|exact Logic.I].
    + rewrite Forall_forall in IH, N2, HI |- *. intros l' Hl'. specialize (IH l' Hl' _ _ (HI l' Hl') (N2 l' Hl')). rewrite app_length in IH. cbn [List.length] in IH.
      now rewrite Nat.add_1_r in IH.
Qed.
Lemma ready0_shaped : forall l, ready0 P Se rows_of pv o l -> no_pairs0 P rows_of (List.length pv) l -> shaped0 P rows_of (List.length pv) l.
Proof.
  intros l R [NE N]. inversion R as [l' HD HS HB [HE _] HC HV HI]; subst l'. split; [exact HD|]. unfold div_equalities in NE. rewrite HD in HE, NE. split; [split; assumption|]. rewrite Forall_forall in *. intros l' Hl'.
  apply (ready_shaped l' [] []); [now apply HI|now apply N].
Qed.
End Shape.

(** *** expressions *)
Lemma good_reads : forall vs lv text V, lv = LvAdd \/ lv = LvCmp -> good vs lv text V ->
  exists c, (forall c', reads_expr text c' <-> c' = c) /\ forall rho z, V rho = Some z -> value program_macros rho c = Some z.
Proof.
  intros vs lv text V HL (ts & a & L & F & SH & _ & E).
  assert (R : reads_expr text a).
  { assert (C : conds ts a) by (destruct HL as [-> | ->]; [apply ands_conds, cmps_ands, adds_cmps; exact SH|apply ands_conds, cmps_ands; exact SH]).
    unfold reads_expr. destruct (C [] Logic.I) as [fuel R]. exists fuel. unfold tokens. specialize (L "" Logic.I). rewrite app_nil_s in L. rewrite L. cbn [lex flush]. exact R. }
  exists a. split; [|exact E]. intro c'. split; [intro R'; exact (reads_expr_unique _ _ _ R' R)|now intros ->].
Qed.
Theorem expr_text : forall e, printable LvAdd e = true ->
  exists text c, pprint_expr LangC e = Some text /\ (forall c', reads_expr text c' <-> c' = c) /\
    forall rho z, eval rho e = Some z -> value program_macros rho c = Some z.
Proof.
  intros e PR. destruct (pprint_defined _ _ PR) as (text & E). pose proof (pprint_good (vars e) e LvAdd (incl_refl _) ltac:(tauto) PR text E) as G.
  destruct (good_reads _ _ _ _ (or_introl eq_refl) G) as (c & R & V). now exists text, c.
Qed.
(** the text of a remainder compared with a number *)
Lemma mod_text : forall l m b sign, 0 < m -> printable (if is_group l then LvAdd else LvMul) l = true ->
  exists text c, pprint_equation LangC {| e_lhs := EBin BMod l m; e_rhs := Some (ETerm b None); e_sign := sign |} = Some text /\
    (forall c', reads_expr text c' <-> c' = c) /\
    forall rho x, eval rho l = Some x -> value program_macros rho c = Some (b2z (if sign =? 0 then Z.rem x m =? b else if 0 <? sign then b <=? Z.rem x m else Z.rem x m <=? b)).
Proof.
  intros l m b sign M PR. destruct (binary_defined l m PR) as (sl & El).
  assert (ET : pprint_equation LangC {| e_lhs := EBin BMod l m; e_rhs := Some (ETerm b None); e_sign := sign |} = Some (sl ++ rel_text sign ++ int_text b)).
  { unfold pprint_equation. cbn [e_lhs e_rhs e_sign pprint_opt]. rewrite El. reflexivity. }
  pose proof (good_mod (vars l) l m sl (incl_refl _) M PR El) as G1.
  pose proof (good_rel _ _ _ _ _ sign (mul_add _ _ _ G1) (good_int _ LvAdd b ltac:(tauto))) as G.
  destruct (good_reads _ _ _ _ (or_intror eq_refl) G) as (c & R & V). exists (sl ++ rel_text sign ++ int_text b), c. split; [exact ET|]. split; [exact R|].
  intros rho x X. apply V. rewrite X. cbn [option_map]. reflexivity.
Qed.
