(** The text printed for statements in Fortran is read back as a program that does the same, as long
    as quotients are small. *)
From Coq Require Import ZArith List Bool Arith String Ascii QArith Lia.
From Verif Require Import ClastSpec ClastModel ClastCmp PprintModel CReader FReader FReal PprintSpec FSpec PprintLex PprintExpr PprintStmt FParse FExpr.
Import ListNotations.
Local Open Scope string_scope.
Local Open Scope Z_scope.
Local Arguments Z.mul : simpl never.
Local Arguments Z.add : simpl never.
Local Arguments Z.pow : simpl never.
Local Arguments Nat.leb : simpl never.
Local Arguments Nat.eqb : simpl never.

(** *** executions with small quotients are executions *)
Lemma small_eval_eval : forall e rho z, small_eval rho e = Some z -> eval rho e = Some z.
Proof.
  induction e as [s|v [x|] IH|t l r IH|t l IH] using expr_ind'; intros rho z H.
  - exact H.
  - cbn [small_eval eval] in *. destruct (small_eval rho x) as [y|] eqn:E; [|discriminate]. now rewrite (IH _ _ E).
  - exact H.
  - cbn [small_eval eval] in *. destruct (small_eval rho l) as [y|] eqn:E; [|discriminate]. rewrite (IH _ _ E). destruct (small_quot t y r); [exact H|discriminate].
  - rewrite small_red in H. rewrite eval_red. assert (V : forall zs, svals rho l = Some zs -> vals rho l = Some zs).
    { clear H. induction IH as [|e l He Hl IHl]; intros zs H; [exact H|]. cbn [svals vals] in *. destruct (small_eval rho e) as [y|] eqn:E; [|discriminate].
      destruct (svals rho l) as [ys|]; [|discriminate]. now rewrite (He _ _ E), (IHl ys eq_refl). }
    destruct (svals rho l) as [zs|]; [|discriminate]. now rewrite (V zs eq_refl).
Qed.
Notation sopt := (opt_with small_eval).
Notation sholds := (holds_with small_eval).
Notation sall_hold := (all_hold_with small_eval).
Notation sall := (all_with small_eval).
Notation sexec1 := (exec1_with small_eval).
Notation sexec := (exec_with small_eval).
Lemma sopt_eval : forall e rho z, sopt rho e = Some z -> eval_opt rho e = Some z.
Proof. intros [e|] rho z H; [now apply small_eval_eval|exact H]. Qed.
Lemma sholds_holds : forall q rho b, sholds rho q = Some b -> eqn_holds rho q = Some b.
Proof.
  intros q rho b H. unfold holds_with, eqn_holds in *. destruct (small_eval rho (e_lhs q)) as [x|] eqn:E; [|discriminate].
  destruct (sopt rho (e_rhs q)) as [y|] eqn:E'; [|discriminate]. now rewrite (small_eval_eval _ _ _ E), (sopt_eval _ _ _ E').
Qed.
Lemma sall_hold_hold : forall qs rho b, sall_hold rho qs = Some b -> all_hold rho qs = Some b.
Proof.
  induction qs as [|q qs IH]; intros rho b H; [exact H|]. cbn [all_hold_with all_hold] in *. destruct (sholds rho q) as [x|] eqn:E; [|discriminate].
  destruct (sall_hold rho qs) as [y|] eqn:E'; [|discriminate]. now rewrite (sholds_holds _ _ _ E), (IH _ _ E').
Qed.
Lemma sall_all : forall es rho zs, sall rho es = Some zs -> eval_all rho es = Some zs.
Proof.
  induction es as [|e es IH]; intros rho zs H; [exact H|]. cbn [all_with eval_all] in *. destruct (sopt rho e) as [x|] eqn:E; [|discriminate].
  destruct (sall rho es) as [y|] eqn:E'; [|discriminate]. now rewrite (sopt_eval _ _ _ E), (IH _ _ E').
Qed.
Lemma sexec1_eq : forall s rho, sexec1 s rho =
  match s with
  | SAss x e => match sopt rho e with Some v => Some (assign rho x v, []) | None => None end
  | SUser num subs => match sall rho subs with Some vs => Some (rho, [(num, vs)]) | None => None end
  | SBlock body => sexec body rho
  | SFor it lb ub step body =>
      match sopt rho lb, sopt rho ub with
      | Some l, Some u => if 0 <? step then iterate (sexec body) it step (trip_count l u step) l rho else None
      | _, _ => None
      end
  | SGuard qs th => match sall_hold rho qs with Some true => sexec th rho | Some false => Some (rho, []) | None => None end
  end.
Proof. destruct s; reflexivity. Qed.
Definition widens (f g : env -> option (env * list event)) : Prop := forall rho r, f rho = Some r -> g rho = Some r.
Lemma iterate_widens : forall f g it step k v, widens f g -> widens (iterate f it step k v) (iterate g it step k v).
Proof.
  intros f g it step k v W. revert v. induction k as [|k IH]; intros v rho r H; [exact H|]. cbn [iterate] in *.
  destruct (f (assign rho it v)) as [[r1 t1]|] eqn:E; [|discriminate]. rewrite (W _ _ E).
  destruct (iterate f it step k (v + step) r1) as [[r2 t2]|] eqn:E2; [|discriminate]. now rewrite (IH _ _ _ E2).
Qed.
Lemma sexecs_exec : forall b, Forall (fun s => widens (sexec1 s) (exec1 s)) b -> widens (sexec b) (exec b).
Proof.
  induction 1 as [|s b Hs Hb IH]; intros rho r H; [exact H|]. cbn [exec_with exec] in *. destruct (sexec1 s rho) as [[r1 t1]|] eqn:E; [|discriminate].
  rewrite (Hs _ _ E). destruct (sexec b r1) as [[r2 t2]|] eqn:E2; [|discriminate]. now rewrite (IH _ _ E2).
Qed.
Lemma sexec1_exec : forall s, widens (sexec1 s) (exec1 s).
Proof.
  induction s as [y e|n l|b IH|it lb ub st b IH|qs b IH] using stmt_ind'; intros rho r H; rewrite sexec1_eq in H; rewrite exec1_eq.
  - destruct (sopt rho e) as [z|] eqn:E; [|discriminate]. now rewrite (sopt_eval _ _ _ E).
  - destruct (sall rho l) as [z|] eqn:E; [|discriminate]. now rewrite (sall_all _ _ _ E).
  - now apply sexecs_exec.
  - destruct (sopt rho lb) as [zl|] eqn:E1; [|discriminate]. destruct (sopt rho ub) as [zu|] eqn:E2; [|discriminate].
    rewrite (sopt_eval _ _ _ E1), (sopt_eval _ _ _ E2). destruct (0 <? st); [|discriminate]. eapply iterate_widens; [|exact H]. now apply sexecs_exec.
  - destruct (sall_hold rho qs) as [x|] eqn:E; [|discriminate]. rewrite (sall_hold_hold _ _ _ E). destruct x; [now apply sexecs_exec|exact H].
Qed.
Lemma sexec_exec : forall b rho r, sexec b rho = Some r -> exec b rho = Some r.
Proof. intro b. apply sexecs_exec. induction b; constructor; [apply sexec1_exec|assumption]. Qed.

Lemma fspaces_closed : forall n, fclosed (spaces n) [].
Proof. induction n; intro r; [reflexivity|]. cbn [spaces append]. change (flex FNone (String " " (spaces n ++ r))) with (flex FNone (spaces n ++ r)). apply IHn. Qed.
Lemma agree_assign : forall vs rho rf x z, case_distinct vs -> In x vs -> fagree vs rho rf -> fagree vs (assign rho x z) (assign rf (lower x) z).
Proof.
  intros vs rho rf x z CD IX A y w IY H. unfold assign in *. destruct (String.eqb_spec x y) as [->|N].
  - injection H as <-. now rewrite String.eqb_refl.
  - destruct (String.eqb_spec (lower x) (lower y)) as [E|_]; [exfalso; apply N, CD; assumption|]. now apply A.
Qed.

Section Names.
Variable rnd : Q -> Q.
Hypothesis rounds : nearest rnd.
Variable vs : list string.
Hypothesis distinct : case_distinct vs.
Notation vgood := (FExpr.vgood rnd vs).
Notation fgood := (FExpr.fgood rnd vs).

(** *** conditions *)
Definition frel_op (sign : Z) : fop := if sign =? 0 then FEq else if 0 <? sign then FGe else FLe.
Lemma frel_closed : forall sign, fclosed (rel_text sign) [FOp (frel_op sign)].
Proof. intro sign. unfold rel_text, frel_op. destruct (sign =? 0); [intro r; reflexivity|]. destruct (0 <? sign); intro r; reflexivity. Qed.
Lemma frel_cmp : forall sign, fcmp_op (frel_op sign) = Some (rel_bin sign).
Proof. intro sign. unfold rel_bin, frel_op. destruct (sign =? 0); [reflexivity|]. destruct (0 <? sign); reflexivity. Qed.
Lemma vgood_rel : forall s V s' W sign, fgood FLvSum s V -> fgood FLvSum s' W ->
  vgood FLvCmp (s ++ rel_text sign ++ s')
    (fun rho => match V rho, W rho with
                | Some a, Some b => Some (VLog (if sign =? 0 then a =? b else if 0 <? sign then b <=? a else a <=? b))
                | _, _ => None end).
Proof.
  intros s V s' W sign (ts & a & L & F & P & E) (ts' & a' & L' & F' & P' & E').
  exists (ts ++ FOp (frel_op sign) :: ts')%list, (FBin (rel_bin sign) a a'). split; [|split; [|split]].
  - apply flexes_app; [exact L| | |].
    + unfold rel_text. destruct (sign =? 0); [discriminate|]. destruct (0 <? sign); discriminate.
    + unfold rel_text. destruct (sign =? 0); [split; reflexivity|]. destruct (0 <? sign); split; reflexivity.
    + apply (fclosed_lexes_app _ [FOp (frel_op sign)]); [apply frel_closed|exact L'].
  - now apply first_app.
  - apply fcmp_cmps; [exact P|apply frel_cmp|exact P'].
  - intros rho rf v H A. destruct (V rho) as [x|] eqn:Ev; [|discriminate]. destruct (W rho) as [y|] eqn:Ew; [|discriminate].
    apply (f_equal (fun o => match o with Some v => v | None => v end)) in H. cbn beta iota in H. subst v.
    specialize (E rho rf (VInt x)). rewrite Ev in E. specialize (E' rho rf (VInt y)). rewrite Ew in E'. cbn [feval]. rewrite (E eq_refl A), (E' eq_refl A).
    unfold rel_bin. destruct (sign =? 0); [reflexivity|]. destruct (0 <? sign); reflexivity.
Qed.
Definition log_val (b : option bool) : option fvalue := option_map VLog b.
(** MOD *)
Lemma fgood_mod : forall s V d, fgood FLvSum s V -> 0 < d -> fgood FLvPrim ("MOD(" ++ s ++ ", " ++ int_text d ++ ")") (fun rho => option_map (fun x => Z.rem x d) (V rho)).
Proof.
  intros s V d (ts & a & L & F & P & E) D. destruct (fgood_num rnd vs d ltac:(lia)) as (ts' & a' & L' & F' & P' & E').
  exists (FId "mod" :: FOp FLpar :: ts ++ FOp FComma :: ts' ++ [FOp FRpar])%list, (FCall "mod" [a; a']). split; [|split; [reflexivity|split]].
  - apply fclosed_lexes. apply (fclosed_app "MOD(" [FId "mod"; FOp FLpar]); [intro r; reflexivity|].
    apply flexes_closed_app; [exact L|discriminate|split; reflexivity|]. apply (fclosed_app ", " [FOp FComma]); [intro r; reflexivity|].
    apply flexes_closed_app; [exact L'|discriminate|split; reflexivity|apply frpar_closed].
  - apply fcall_prims; [reflexivity|]. intro rest. rewrite <- app_assoc. cbn [app]. rewrite <- app_assoc. cbn [app].
    assert (C : fconds ts' a') by (apply fsums_conds, fmuls_sums, fprims_muls, P').
    apply fargs_cons; [now apply fsums_conds| |now apply fargs_one].
    pose proof (fconds_no_rpar _ _ C) as N. destruct ts' as [|[| |[]| |] u]; first [exact I|destruct N].
  - intros rho rf v H A. destruct (V rho) as [x|] eqn:Ev; [|discriminate]. injection H as <-.
    specialize (E rho rf (VInt x)). rewrite Ev in E. cbn [feval]. rewrite (E eq_refl A), (E' rho rf _ eq_refl A).
    unfold fcall_meaning. cbn [String.eqb Ascii.eqb Bool.eqb]. destruct (Z.eqb_spec d 0); [lia|reflexivity].
Qed.
Lemma fgood_eqn : forall q s, incl (vars (e_lhs q) ++ opt_vars (e_rhs q)) vs -> fcond_printable q = true -> pprint_equation LangFortran q = Some s ->
  vgood FLvCmp s (fun rho => log_val (sholds rho q)).
Proof.
  intros q s IV C PT. assert (IL : incl (vars (e_lhs q)) vs) by (intros x Hx; apply IV, in_or_app; now left).
  assert (IR : incl (opt_vars (e_rhs q)) vs) by (intros x Hx; apply IV, in_or_app; now right). clear IV. unfold pprint_equation in PT. apply cat_some in PT. destruct PT as (sl & q1 & El & PT & ->).
  apply cat_some in PT. destruct PT as (sr & q2 & Er & PT & ->). injection Er as <-. fold (rel_text (e_sign q)).
  assert (N : fgood FLvSum sl (fun rho => small_eval rho (e_lhs q)) -> fgood FLvSum q2 (fun rho => sopt rho (e_rhs q)) ->
              vgood FLvCmp (sl ++ rel_text (e_sign q) ++ q2) (fun rho => log_val (sholds rho q))).
  { intros G1 G2. eapply vgood_ext; [|apply vgood_rel; [exact G1|exact G2]]. intros rho z. unfold holds_with, log_val.
    destruct (small_eval rho (e_lhs q)); [|intro; discriminate]. destruct (sopt rho (e_rhs q)); [tauto|intro; discriminate]. }
  unfold fcond_printable in C.
  assert (M : (exists l r, e_lhs q = EBin BMod l r) \/ ((fprintable PSum (e_lhs q) && opt_ok (fprintable PSum) (e_rhs q)) = true)).
  { destruct (e_lhs q) as [| |[] l r|]; try (now right). left. now exists l, r. }
  destruct M as [(l & r & El')|C'].
  - clear N. rewrite El' in *. apply andb_true_iff in C. destruct C as [C C0]. apply andb_true_iff in C. destruct C as [C Sg].
    apply andb_true_iff in C. destruct C as [R PR]. destruct (e_rhs q) as [[|v [x|]| |]|] eqn:Rq; try discriminate.
    assert (v = 0) by lia. subst v. cbn [pprint_opt pprint_expr] in PT. injection PT as <-.
    assert (Sg' : e_sign q = 0) by lia. rewrite Sg'. cbn [pprint_expr binary_text] in El.
    apply cat_some in El. destruct El as (m1 & r1 & M1 & El & ->). injection M1 as <-.
    apply cat_some in El. destruct El as (sx & r2 & M2 & El & ->). injection El as <-.
    pose proof (fprint_good rnd rounds vs l PSum IL PR sx M2) as G. cbn [pgood] in G.
    pose proof (fprim_sum rnd vs _ _ (fgood_mod sx _ r G ltac:(lia))) as G1. pose proof (fprim_sum rnd vs _ _ (fgood_num rnd vs 0 ltac:(lia))) as G2.
    eapply vgood_ext; [|exact (vgood_rel _ _ _ _ 0 G1 G2)].
    intros rho z. cbn beta. unfold holds_with, log_val. rewrite El', Rq, Sg'. cbn [small_eval opt_with small_quot].
    destruct (small_eval rho l); [|intro; discriminate]. cbn [option_map bin_val]. rewrite rem_zero by lia. tauto.
  - apply andb_true_iff in C'. destruct C' as [C1 C2]. apply N.
    + exact (fprint_good rnd rounds vs _ PSum IL C1 _ El).
    + destruct (e_rhs q) as [e|]; [|discriminate]. exact (fprint_good rnd rounds vs _ PSum IR C2 _ PT).
Qed.
Definition eqn_vars (q : eqn) : list string := (vars (e_lhs q) ++ opt_vars (e_rhs q))%list.
Lemma fgood_conds : forall o qs, p_lang o = LangFortran -> forall s, incl (flat_map eqn_vars qs) vs -> forallb fcond_printable qs = true -> qs <> [] ->
  pprint_conds o true qs = Some s -> vgood FLvAnd s (fun rho => log_val (sall_hold rho qs)).
Proof.
  intros o qs LC.
  (* the conditions after the first *)
  assert (KK : forall qs s V t, incl (flat_map eqn_vars qs) vs -> forallb fcond_printable qs = true -> pprint_conds o false qs = Some t -> vgood FLvAnd s (fun rho => log_val (V rho)) ->
              vgood FLvAnd (s ++ t) (fun rho => log_val (match V rho, sall_hold rho qs with Some a, Some b => Some (a && b)%bool | _, _ => None end))).
  { induction qs0 as [|q qs' IH]; intros s V t IV C PT G; cbn [pprint_conds] in PT.
    - injection PT as <-. rewrite app_nil_s. eapply vgood_ext; [|exact G]. intros rho z. cbn [all_hold_with]. destruct (V rho) as [b|]; [|intro; discriminate].
      now rewrite andb_true_r.
    - cbn [forallb] in C. apply andb_true_iff in C. destruct C as [C Cs].
      apply cat_some in PT. destruct PT as (p1 & q1 & E1 & PT & ->). injection E1 as <-.
      apply cat_some in PT. destruct PT as (p2 & q2 & E2 & PT & ->). injection E2 as <-. rewrite LC in PT.
      apply cat_some in PT. destruct PT as (sq & q3 & Eq & PT & ->).
      apply cat_some in PT. destruct PT as (p4 & q4 & E4 & PT & ->). injection E4 as <-.
      unfold and_text. rewrite LC. cbn [flat_map] in IV.
      assert (IQ : incl (eqn_vars q) vs) by (intros x Hx; apply IV, in_or_app; now left).
      assert (IVs : incl (flat_map eqn_vars qs') vs) by (intros x Hx; apply IV, in_or_app; now right).
      pose proof (fgood_eqn q sq IQ C Eq) as GQ.
      assert (G1 : vgood FLvAnd (s ++ " .AND. (" ++ sq ++ ")") (fun rho => log_val (match V rho, sholds rho q with Some a, Some b => Some (a && b)%bool | _, _ => None end))).
      { assert (GP : vgood FLvPrim ("(" ++ sq ++ ")") (fun rho => log_val (sholds rho q))) by (apply fgood_paren, fcmp_and, GQ).
        destruct GP as (ts & a & L & F & P & E). destruct G as (ts0 & a0 & L0 & F0 & P0 & E0).
        exists (ts0 ++ FOp FAnd :: ts)%list, (FBin CAnd a0 a). split; [|split; [|split]].
        - change (" .AND. (" ++ sq ++ ")") with (" .AND. " ++ ("(" ++ sq ++ ")")). apply flexes_app; [exact L0|discriminate|split; reflexivity|].
          apply (fclosed_lexes_app " .AND. " [FOp FAnd]); [intro r; reflexivity|exact L].
        - now apply first_app.
        - apply fand_ands; [exact P0|]. now apply fsums_cmps, fmuls_sums, fprims_muls.
        - intros rho rf v H A. destruct (V rho) as [b|] eqn:Ev; [|discriminate]. destruct (sholds rho q) as [b'|] eqn:Eh; [|discriminate].
          injection H as <-. specialize (E0 rho rf (VLog b)). rewrite Ev in E0. specialize (E rho rf (VLog b')). rewrite Eh in E.
          cbn [feval]. now rewrite (E0 eq_refl A), (E eq_refl A). }
      specialize (IH _ _ _ IVs Cs PT G1). repeat rewrite app_assoc_s in *; cbn [append] in *; repeat rewrite app_assoc_s in *.
      eapply vgood_ext; [|exact IH]. intros rho z. cbn [all_hold_with]. destruct (V rho) as [a|]; [|intro; discriminate]. destruct (sholds rho q) as [b|]; [|intro; discriminate].
      destruct (sall_hold rho qs') as [c|]; [|intro; discriminate]. now rewrite andb_assoc. }
  intros s IV C NE PT. destruct qs as [|q qs]; [congruence|]. cbn [pprint_conds] in PT. cbn [forallb] in C. apply andb_true_iff in C. destruct C as [C Cs].
  apply cat_some in PT. destruct PT as (p1 & q1 & E1 & PT & ->). injection E1 as <-.
  apply cat_some in PT. destruct PT as (p2 & q2 & E2 & PT & ->). injection E2 as <-. rewrite LC in PT.
  apply cat_some in PT. destruct PT as (sq & q3 & Eq & PT & ->).
  apply cat_some in PT. destruct PT as (p4 & q4 & E4 & PT & ->). injection E4 as <-.
  cbn [flat_map] in IV.
  assert (IQ : incl (eqn_vars q) vs) by (intros x Hx; apply IV, in_or_app; now left).
  assert (IVs : incl (flat_map eqn_vars qs) vs) by (intros x Hx; apply IV, in_or_app; now right).
  pose proof (fgood_eqn q sq IQ C Eq) as GQ.
  assert (GA : vgood FLvAnd ("(" ++ sq ++ ")") (fun rho => log_val (sholds rho q))) by (apply fcmp_and, fsum_cmp, fprim_sum, fgood_paren, fcmp_and, GQ).
  specialize (KK _ _ _ _ IVs Cs PT GA). repeat rewrite app_assoc_s in *; cbn [append] in *; repeat rewrite app_assoc_s in *. cbn [append] in *. exact KK.
Qed.

(** *** arguments *)
Section User.
Variable o : popts.
Variable stmt_name : nat -> option string.
Hypothesis LC : p_lang o = LangFortran.
Lemma fgood_args : forall subs s, incl (flat_map opt_vars subs) vs -> forallb (opt_ok (fprintable PSum)) subs = true -> pprint_args o false subs = Some s ->
  exists ts es, fclosed (s ++ ")") ts /\ (subs <> [] -> fno_rpar ts) /\ (forall rest, fpargs (ts ++ rest)%list (es, rest)) /\
    forall rho rf zs, sall rho subs = Some zs -> fagree vs rho rf -> fints rnd rf es = Some zs.
Proof.
  induction subs as [|e subs IH]; intros s IV C PT.
  - injection PT as <-. exists [FOp FRpar], []. split; [apply frpar_closed|split; [congruence|split]].
    + intro rest. apply fargs_nil.
    + intros rho rf zs H _. injection H as <-. reflexivity.
  - cbn [forallb] in C. apply andb_true_iff in C. destruct C as [C Cs]. destruct e as [e|]; [|discriminate]. cbn [opt_ok] in C. cbn [flat_map opt_vars] in IV.
    assert (IE : incl (vars e) vs) by (intros x Hx; apply IV, in_or_app; now left).
    assert (IVs : incl (flat_map opt_vars subs) vs) by (intros x Hx; apply IV, in_or_app; now right). clear IV.
    cbn [pprint_args] in PT. rewrite LC in PT. cbn [orb] in PT.
    apply cat_some in PT. destruct PT as (p1 & q1 & E1 & PT & ->). injection E1 as <-.
    apply cat_some in PT. destruct PT as (se & q2 & Ee & PT & ->).
    assert (G : fgood FLvAnd ((if parentheses_are_safer e then "(" else "") ++ se ++ (if parentheses_are_safer e then ")" else "")) (fun rho => small_eval rho e)).
    { assert (G0 : fgood FLvSum se (fun rho => small_eval rho e)) by exact (fprint_good rnd rounds vs e PSum IE C se Ee).
      destruct (parentheses_are_safer e); [apply fcmp_and, fsum_cmp, fprim_sum, fgood_paren_sum, G0|]. cbn [append]. rewrite app_nil_s. now apply fcmp_and, fsum_cmp. }
    assert (FI : forall a, (forall rho rf v, option_map VInt (small_eval rho e) = Some v -> fagree vs rho rf -> feval rnd rf a = Some v) ->
               forall rho rf z, small_eval rho e = Some z -> fagree vs rho rf -> fint rnd rf a = Some z).
    { intros a H rho rf z Ez A. unfold fint. rewrite (H rho rf (VInt z)); [reflexivity|now rewrite Ez|exact A]. }
    destruct subs as [|e' subs].
    + injection PT as <-. destruct G as (ts & a & L & F & P & E). exists (ts ++ [FOp FRpar])%list, [a]. split; [|split; [|split]].
      * apply flexes_closed_app; [exact L|discriminate|split; reflexivity|apply frpar_closed].
      * intros _. pose proof (fconds_no_rpar _ _ (fands_conds _ _ P)) as N. destruct ts as [|[| |[]| |] t]; first [exact I | destruct N].
      * intro rest. rewrite <- app_assoc. now apply fargs_one, fands_conds.
      * intros rho rf zs H A. cbn [all_with opt_with] in H. destruct (small_eval rho e) as [z|] eqn:Ez; [|discriminate]. injection H as <-.
        cbn [fints]. now rewrite (FI a E _ _ _ Ez A).
    + apply cat_some in PT. destruct PT as (p3 & q3 & E3 & PT & ->). injection E3 as <-.
      apply cat_some in PT. destruct PT as (p4 & q4 & E4 & PT & ->). injection E4 as <-.
      destruct (IH _ IVs Cs PT) as (ts' & es & L' & NR & P' & E'). destruct G as (ts & a & L & F & P & E).
      exists (ts ++ FOp FComma :: ts')%list, (a :: es). split; [|split; [|split]].
      * replace (((if parentheses_are_safer e then "(" else "") ++ se ++ (if parentheses_are_safer e then ")" else "") ++ "," ++ q4) ++ ")")
          with (((if parentheses_are_safer e then "(" else "") ++ se ++ (if parentheses_are_safer e then ")" else "")) ++ "," ++ (q4 ++ ")"))
          by (rewrite !app_assoc_s; reflexivity).
        apply flexes_closed_app; [exact L|discriminate|split; reflexivity|]. apply (fclosed_app "," [FOp FComma]); [apply fcomma_closed|exact L'].
      * intros _. pose proof (fconds_no_rpar _ _ (fands_conds _ _ P)) as N. destruct ts as [|[| |[]| |] t]; first [exact I | destruct N].
      * intro rest. rewrite <- app_assoc. cbn [app]. apply fargs_cons; [now apply fands_conds| |apply P'].
        specialize (NR ltac:(discriminate)). destruct ts' as [|[| |[]| |] t]; first [exact I | destruct NR].
      * intros rho rf zs H A. cbn [all_with opt_with] in H. destruct (small_eval rho e) as [z|] eqn:Ez; [|discriminate].
        change (match sopt rho e', sall rho subs with Some z, Some zs => Some (z :: zs) | _, _ => None end) with (sall rho (e' :: subs)) in H.
        destruct (sall rho (e' :: subs)) as [zs'|] eqn:Es; [|discriminate]. injection H as <-. cbn [fints]. now rewrite (FI a E _ _ _ Ez A), (E' _ _ _ Es A).
Qed.

(** *** statements *)
Definition fpstmt ts (r : fstmt * list ftoken) : Prop := exists N, fparse_stmt N ts = Some r.
Definition fpbody ts (r : list fstmt * list ftoken) : Prop := exists N, fparse_body N ts = Some r.
Definition fstarts (ts : list ftoken) : Prop := match ts with FId x :: _ => String.eqb x "end" = false | _ => False end.
Definition fends (ts : list ftoken) : Prop := match ts with [] => True | FId x :: _ => x = "end" | _ => False end.
Definition fsame1 (s : stmt) (c : fstmt) : Prop := forall rho rho' t rf, sexec1 s rho = Some (rho', t) -> fagree vs rho rf ->
  exists rf', frun1 rnd c rf rf' (fnamed o stmt_name t) /\ fagree vs rho' rf'.
Definition fsame (ss : list stmt) (p : list fstmt) : Prop := forall rho rho' t rf, sexec ss rho = Some (rho', t) -> fagree vs rho rf ->
  exists rf', frun rnd p rf rf' (fnamed o stmt_name t) /\ fagree vs rho' rf'.
Definition fgood_stmt (s : stmt) : Prop := forall indent text, pprint_stmt o stmt_name indent s = Some text ->
  exists ts c, fclosed text ts /\ fstarts ts /\ (forall rest, fpstmt (ts ++ rest)%list (c, rest)) /\ fsame1 s c.
Definition fgood_stmts (ss : list stmt) : Prop := forall indent text, pprint_stmts o stmt_name indent ss = Some text ->
  exists ts p, fclosed text ts /\ (forall rest, fends rest -> fpbody (ts ++ rest)%list (p, rest)) /\ fsame ss p.
Lemma fnamed_app : forall a b, fnamed o stmt_name (a ++ b) = (fnamed o stmt_name a ++ fnamed o stmt_name b)%list.
Proof. intros. apply map_app. Qed.
Lemma fgood_list : forall ss, Forall fgood_stmt ss -> fgood_stmts ss.
Proof.
  induction 1 as [|s ss Hs Hss IH]; intros indent text PT; cbn [pprint_stmts] in PT.
  - injection PT as <-. exists [], []. split; [apply fclosed_nil|split].
    + intros rest R. exists 1%nat. cbn [app fparse_body]. destruct rest as [|[x| | | |] rest]; try (destruct R; fail); [reflexivity|]. cbn [fends] in R. subst x. reflexivity.
    + intros rho rho' t rf H A. injection H as <- <-. exists rf. split; [constructor|exact A].
  - apply cat_some in PT. destruct PT as (s1 & s2 & E1 & E2 & ->).
    destruct (Hs _ _ E1) as (ts & c & L & N & P & S). destruct (IH _ _ E2) as (ts' & p & L' & P' & S').
    exists (ts ++ ts')%list, (c :: p). split; [now apply fclosed_app|split].
    + intros rest R. destruct (P' rest R) as [M Q']. destruct (P (ts' ++ rest)%list) as [K Q].
      exists (Datatypes.S (K + M)). rewrite <- app_assoc. cbn [fparse_body].
      rewrite (proj1 (fstmt_mono K) _ _ (K + M)%nat ltac:(lia) Q), (proj2 (fstmt_mono M) _ _ (K + M)%nat ltac:(lia) Q').
      destruct ts as [|[x| | | |] t]; try (destruct N; fail). cbn [fstarts] in N. cbn [app]. rewrite N. reflexivity.
    + intros rho rho' t rf H A. cbn [exec_with] in H. destruct (sexec1 s rho) as [[r1 t1]|] eqn:X1; [|discriminate].
      destruct (sexec ss r1) as [[r2 t2]|] eqn:X2; [|discriminate]. injection H as <- <-. rewrite fnamed_app.
      destruct (S _ _ _ _ X1 A) as (rf1 & R1 & A1). destruct (S' _ _ _ _ X2 A1) as (rf2 & R2 & A2). exists rf2. split; [econstructor; eassumption|exact A2].
Qed.
Lemma count_one : forall l u, iteration_count l u 1 = trip_count l u 1.
Proof.
  intros l u. unfold iteration_count, trip_count. rewrite Z.quot_1_r. destruct (Z.ltb_spec u l); [lia|]. rewrite Z.div_1_r. lia.
Qed.
Lemma floop_runs : forall it body p k v rho rho' t rf, In it vs ->
  fsame body p -> ~ In it (flat_map assigned body) -> fagree vs rho rf -> iterate (sexec body) it 1 k v rho = Some (rho', t) ->
  exists rf', floop rnd (lower it) 1 p k (assign rf (lower it) v) rf' (fnamed o stmt_name t) /\ fagree vs rho' rf'.
Proof.
  intros it body p k. induction k as [|k IH]; intros v rho rho' t rf II SB N A H; cbn [iterate] in H.
  - injection H as <- <-. exists (assign rf (lower it) v). split; [constructor|now apply agree_assign].
  - destruct (sexec body (assign rho it v)) as [[r1 t1]|] eqn:E1; [|discriminate].
    destruct (iterate (sexec body) it 1 k (v + 1) r1) as [[r2 t2]|] eqn:E2; [|discriminate]. injection H as <- <-. rewrite fnamed_app.
    destruct (SB _ _ _ (assign rf (lower it) v) E1) as (rf1 & R1 & A1); [now apply agree_assign|].
    destruct (IH _ _ _ _ rf1 II SB N A1 E2) as (rf2 & R2 & A2). exists rf2. split; [|exact A2].
    eapply F_more with (v := v) (rho1 := rf1); [unfold assign; now rewrite String.eqb_refl|exact R1| |exact R2].
    apply A1; [exact II|]. rewrite (exec_frame _ _ _ _ it (sexec_exec _ _ _ E1) N). unfold assign. now rewrite String.eqb_refl.
Qed.
Lemma do_parse : forall it lb ub ts1 ts2 p tsb,
  not_name it = false -> fsums ts1 lb -> fsums ts2 ub ->
  (forall rest, fends rest -> fpbody (tsb ++ rest)%list (p, rest)) ->
  forall rest, fpstmt ((FId "do" :: FId it :: FOp FAssign :: ts1 ++ FOp FComma :: ts2 ++ FEol :: tsb ++ [FId "end"; FId "do"; FEol]) ++ rest)%list (FDo it lb ub None p, rest).
Proof.
  intros it lb ub ts1 ts2 p tsb K P1 P2 PB rest.
  set (R2 := (FEol :: tsb ++ FId "end" :: FId "do" :: FEol :: rest)%list).
  set (R1 := (FOp FComma :: ts2 ++ R2)%list).
  destruct (P1 R1 (lb, R1) eq_refl (fpadd_stop lb R1 eq_refl)) as [N1 E1].
  destruct (P2 R2 (ub, R2) I (fpadd_stop ub R2 I)) as [N2 E2].
  destruct (PB (FId "end" :: FId "do" :: FEol :: rest) eq_refl) as [N3 E3].
  exists (S (N1 + N2 + N3)).
  replace ((FId "do" :: FId it :: FOp FAssign :: ts1 ++ FOp FComma :: ts2 ++ FEol :: tsb ++ [FId "end"; FId "do"; FEol]) ++ rest)%list
    with (FId "do" :: FId it :: FOp FAssign :: ts1 ++ R1)%list
    by (unfold R1, R2; cbn [app]; rewrite <- ?app_assoc; cbn [app]; rewrite <- ?app_assoc; cbn [app]; rewrite <- ?app_assoc; cbn [app]; reflexivity).
  cbn [fparse_stmt]. change (String.eqb "do" "if") with false. change (String.eqb "do" "do") with true. cbn iota. rewrite K.
  rewrite (proj1 (ffuel_mono N1) _ _ _ (N1 + N2 + N3)%nat ltac:(lia) E1). unfold R1.
  rewrite (proj1 (ffuel_mono N2) _ _ _ (N1 + N2 + N3)%nat ltac:(lia) E2). unfold R2.
  rewrite (proj2 (fstmt_mono N3) _ _ (N1 + N2 + N3)%nat ltac:(lia) E3). reflexivity.
Qed.
Lemma then_parse : forall c ts p tsb, fconds ts c -> (forall rest, fends rest -> fpbody (tsb ++ rest)%list (p, rest)) ->
  forall rest, fpstmt ((FId "if" :: FOp FLpar :: ts ++ FOp FRpar :: FId "then" :: FEol :: tsb ++ [FId "end"; FId "if"; FEol]) ++ rest)%list (FWhen c p, rest).
Proof.
  intros c ts p tsb P PB rest. destruct (P (FOp FRpar :: FId "then" :: FEol :: tsb ++ FId "end" :: FId "if" :: FEol :: rest)%list eq_refl) as [N1 E1].
  destruct (PB (FId "end" :: FId "if" :: FEol :: rest) eq_refl) as [N3 E3]. exists (S (N1 + N3)).
  replace ((FId "if" :: FOp FLpar :: ts ++ FOp FRpar :: FId "then" :: FEol :: tsb ++ [FId "end"; FId "if"; FEol]) ++ rest)%list
    with (FId "if" :: FOp FLpar :: ts ++ FOp FRpar :: FId "then" :: FEol :: tsb ++ FId "end" :: FId "if" :: FEol :: rest)%list
    by (cbn [app]; rewrite <- ?app_assoc; cbn [app]; rewrite <- ?app_assoc; reflexivity).
  cbn [fparse_stmt]. change (String.eqb "if" "if") with true. cbn iota.
  rewrite (proj1 (ffuel_mono N1) _ _ _ (N1 + N3)%nat ltac:(lia) E1). change (String.eqb "then" "then") with true. cbn iota.
  rewrite (proj2 (fstmt_mono N3) _ _ (N1 + N3)%nat ltac:(lia) E3). reflexivity.
Qed.
Lemma fname_words : forall x, fname x = true -> not_name (lower x) = false /\ String.eqb (lower x) "if" = false /\ String.eqb (lower x) "do" = false /\ String.eqb (lower x) "end" = false.
Proof.
  intros x H. destruct (fname_facts x H) as [K _]. split; [exact K|].
  repeat split; apply String.eqb_neq; intro E; rewrite E in K; discriminate K.
Qed.
Lemma assign_lexes : forall s ts, flexes s ts -> first_in fexpr_char s -> flexes ("=" ++ s) (FOp FAssign :: ts).
Proof.
  intros s ts L F r S. cbn [append]. rewrite flex_sign; [now rewrite L|tauto|]. apply first_fapart; [tauto|]. now apply first_app.
Qed.
Lemma fint_of : forall (a : fexpr) e, (forall rho rf v, option_map VInt (small_eval rho e) = Some v -> fagree vs rho rf -> feval rnd rf a = Some v) ->
  forall rho rf z, small_eval rho e = Some z -> fagree vs rho rf -> fint rnd rf a = Some z.
Proof. intros a e H rho rf z Ez A. unfold fint. rewrite (H rho rf (VInt z)); [reflexivity|now rewrite Ez|exact A]. Qed.
Theorem fprint_stmt_good : forall s, incl (stmt_vars s) vs -> fprintable_stmt o stmt_name s = true -> fgood_stmt s.
Proof.
  induction s as [x e|n l|b IH|it lb ub st b IH|qs b IH] using stmt_ind'; intros IV PR indent text PT; cbn [fprintable_stmt stmt_vars] in PR, IV.
  - (* assignment *)
    apply andb_true_iff in PR. destruct PR as [Ix PR]. destruct e as [e|]; [|discriminate]. cbn [opt_ok] in PR.
    cbn [pprint_stmt] in PT. apply cat_some in PT. destruct PT as (p1 & q1 & E1 & PT & ->). injection E1 as <-. rewrite LC in PT.
    unfold pprint_assignment in PT. apply cat_some in PT. destruct PT as (p2 & q2 & PT & E2 & ->). injection E2 as <-.
    apply cat_some in PT. destruct PT as (p3 & se & E3 & Ee & ->). injection E3 as <-. cbn [pprint_opt] in Ee.
    destruct (fprint_good rnd rounds vs e PSum ltac:(intros y Hy; apply IV; now right) PR se Ee) as (ts & a & L & F & P & E).
    destruct (fname_words x Ix) as (Ka & Kb & Kc & Kd).
    exists (FId (lower x) :: FOp FAssign :: ts ++ [FEol])%list, (FSet (lower x) a). split; [|split; [exact Kd|split]].
    + rewrite <- (app_nil_l (FId (lower x) :: _)). apply fclosed_app; [apply fspaces_closed|]. rewrite !app_assoc_s.
      apply (flexes_closed_app x [FId (lower x)]); [now apply flex_name|discriminate|split; reflexivity|].
      apply (fclosed_app " = " [FOp FAssign]); [intro r; reflexivity|]. unfold end_of_stmt. rewrite LC.
      apply flexes_closed_app; [exact L|discriminate|split; reflexivity|]. intro r. reflexivity.
    + intro rest. destruct (fsums_conds _ _ P (FEol :: rest) I) as [N E'].
      exists (Datatypes.S N). cbn [app fparse_stmt]. rewrite Kb, Kc, Ka, <- app_assoc. cbn [app]. now rewrite E'.
    + intros rho rho' t rf H A. rewrite sexec1_eq in H. cbn [opt_with] in H. destruct (small_eval rho e) as [z|] eqn:Ez; [|discriminate]. injection H as <- <-.
      exists (assign rf (lower x) z). split; [constructor; exact (fint_of a e E _ _ _ Ez A)|]. apply agree_assign; [exact distinct|apply IV; now left|exact A].
  - (* call *)
    apply andb_true_iff in PR. destruct PR as [Ix PR].
    cbn [pprint_stmt] in PT. apply cat_some in PT. destruct PT as (p1 & q1 & E1 & PT & ->). injection E1 as <-. unfold pprint_user in PT.
    apply cat_some in PT. destruct PT as (p2 & q2 & E2 & PT & ->). injection E2 as <-.
    apply cat_some in PT. destruct PT as (sa & q3 & Ea & PT & ->). injection PT as <-.
    destruct (fgood_args l sa IV PR Ea) as (ts & es & L & _ & P & E). set (f := stmt_label o stmt_name n) in *.
    destruct (fname_words f Ix) as (Ka & Kb & Kc & Kd).
    exists (FId (lower f) :: FOp FLpar :: ts ++ [FEol])%list, (FLine (lower f) es). split; [|split; [exact Kd|split]].
    + rewrite <- (app_nil_l (FId (lower f) :: _)). apply fclosed_app; [apply fspaces_closed|]. rewrite !app_assoc_s.
      apply (flexes_closed_app f [FId (lower f)]); [now apply flex_name|discriminate|split; reflexivity|].
      apply (fclosed_app "(" [FOp FLpar]); [apply flpar_closed|]. change (fclosed (sa ++ (")" ++ end_of_stmt o)) (ts ++ [FEol])%list). rewrite <- app_assoc_s. apply fclosed_app; [exact L|].
      unfold end_of_stmt. rewrite LC. intro r. reflexivity.
    + intro rest. destruct (P (FEol :: rest)) as [N E']. exists (Datatypes.S N). cbn [app fparse_stmt].
      rewrite Kb, Kc, Ka, <- app_assoc. cbn [app]. now rewrite E'.
    + intros rho rho' t rf H A. rewrite sexec1_eq in H. destruct (sall rho l) as [zs|] eqn:Ez; [|discriminate]. injection H as <- <-.
      exists rf. split; [|exact A]. cbn [fnamed map fst snd]. fold f. constructor; [apply (fname_facts f Ix)|exact (E _ _ _ Ez A)].
  - (* block *) discriminate PR.
  - (* loop *)
    do 5 (apply andb_true_iff in PR; destruct PR as [PR ?]).
    match goal with H : forallb (fprintable_stmt o stmt_name) b = true |- _ => rename H into PB end.
    match goal with H : negb (mem_str it (flat_map assigned b)) = true |- _ => rename H into ST end.
    match goal with H : (st =? 1) = true |- _ => apply Z.eqb_eq in H; subst st end.
    match goal with H : opt_ok _ lb = true |- _ => rename H into PL end.
    match goal with H : opt_ok _ ub = true |- _ => rename H into PU end. rename PR into Ix.
    assert (G : fgood_stmts b).
    { apply fgood_list. rewrite forallb_forall in PB. rewrite Forall_forall in *. intros s Hs. apply IH; [exact Hs| |now apply PB].
      intros x Hx. apply IV. right. apply in_or_app. right. apply in_or_app. right. apply in_flat_map. now exists s. }
    destruct lb as [lb|]; [|discriminate]. destruct ub as [ub|]; [|discriminate]. cbn [opt_ok] in *.
    cbn [pprint_stmt] in PT. rewrite list_eq in PT. apply cat_some in PT. destruct PT as (p1 & q1 & E1 & PT & ->). injection E1 as <-.
    apply cat_some in PT. destruct PT as (sh & q2 & Eh & PT & ->).
    apply cat_some in PT. destruct PT as (sb & q3 & Eb & PT & ->). injection PT as <-. rewrite LC.
    destruct (G _ _ Eb) as (tsb & p & L & P & S).
    unfold pprint_for_header in Eh. rewrite LC in Eh. change (1 <? 1) with false in Eh. cbn iota in Eh.
    apply cat_some in Eh. destruct Eh as (h1 & r1 & X1 & Eh & ->). injection X1 as <-.
    apply cat_some in Eh. destruct Eh as (h2 & r2 & X2 & Eh & ->).
    apply cat_some in X2. destruct X2 as (h3 & sl & X3 & El & ->). injection X3 as <-.
    apply cat_some in Eh. destruct Eh as (h4 & r4 & X4 & Eh & ->). injection X4 as <-.
    apply cat_some in Eh. destruct Eh as (su & r5 & Eu & Eh & ->). injection Eh as <-.
    destruct (fprint_good rnd rounds vs lb PSum ltac:(intros y Hy; apply IV; right; apply in_or_app; now left) PL sl El) as (ts1 & a1 & L1 & F1 & P1 & V1).
    destruct (fprint_good rnd rounds vs ub PSum ltac:(intros y Hy; apply IV; right; apply in_or_app; right; apply in_or_app; now left) PU su Eu) as (ts2 & a2 & L2 & F2 & P2 & V2).
    exists (FId "do" :: FId (lower it) :: FOp FAssign :: ts1 ++ FOp FComma :: ts2 ++ FEol :: tsb ++ [FId "end"; FId "do"; FEol])%list, (FDo (lower it) a1 a2 None p).
    split; [|split; [reflexivity|split]].
    + rewrite <- (app_nil_l (FId "do" :: _)). apply fclosed_app; [apply fspaces_closed|]. rewrite !app_assoc_s.
      apply (fclosed_app "DO " [FId "do"]); [intro r; reflexivity|].
      apply (flexes_closed_app it [FId (lower it)]); [now apply flex_name|discriminate|split; reflexivity|].
      rewrite <- (app_assoc_s "=" sl).
      apply (flexes_closed_app _ (FOp FAssign :: ts1)); [now apply assign_lexes|discriminate|split; reflexivity|].
      apply (fclosed_app ", " [FOp FComma]); [intro r; reflexivity|].
      apply flexes_closed_app; [exact L2|discriminate|split; reflexivity|].
      apply (fclosed_app ("" ++ newline) [FEol]); [intro r; reflexivity|]. apply fclosed_app; [exact L|].
      rewrite <- (app_nil_l [FId "end"; FId "do"; FEol]). apply fclosed_app; [apply fspaces_closed|]. intro r. reflexivity.
    + apply do_parse; try assumption. apply (fname_words it Ix).
    + intros rho rho' t rf H A. rewrite sexec1_eq in H. cbn [opt_with] in H. destruct (small_eval rho lb) as [zl|] eqn:Zl; [|discriminate].
      destruct (small_eval rho ub) as [zu|] eqn:Zu; [|discriminate]. change (0 <? 1) with true in H. cbn iota in H.
      apply negb_true_iff in ST.
      assert (NA : ~ In it (flat_map assigned b)) by (intro Hin; apply mem_str_in in Hin; congruence).
      destruct (floop_runs it b p _ zl rho rho' t rf (IV it (or_introl eq_refl)) S NA A H) as (rf' & R & A').
      exists rf'. split; [|exact A'].
      eapply F_do with (zs := 1); [exact (fint_of a1 lb V1 _ _ _ Zl A)|exact (fint_of a2 ub V2 _ _ _ Zu A)|reflexivity|discriminate|]. rewrite count_one. exact R.
  - (* guard *)
    apply andb_true_iff in PR. destruct PR as [PR PB]. apply andb_true_iff in PR. destruct PR as [NE PC]. apply negb_true_iff, Nat.eqb_neq in NE.
    assert (G : fgood_stmts b).
    { apply fgood_list. rewrite forallb_forall in PB. rewrite Forall_forall in *. intros s Hs. apply IH; [exact Hs| |now apply PB].
      intros x Hx. apply IV, in_or_app. right. apply in_flat_map. now exists s. }
    cbn [pprint_stmt] in PT. rewrite list_eq in PT. apply cat_some in PT. destruct PT as (p1 & q1 & E1 & PT & ->). injection E1 as <-. rewrite LC in PT.
    apply cat_some in PT. destruct PT as (p2 & q2 & E2 & PT & ->). injection E2 as <-.
    apply cat_some in PT. destruct PT as (p3 & q3 & E3 & PT & ->). injection E3 as <-.
    apply cat_some in PT. destruct PT as (sc & q4 & Ec & PT & ->).
    apply cat_some in PT. destruct PT as (p5 & q5 & E5 & PT & ->). injection E5 as <-.
    apply cat_some in PT. destruct PT as (p6 & q6 & E6 & PT & ->). injection E6 as <-.
    apply cat_some in PT. destruct PT as (sb & q7 & Eb & PT & ->). injection PT as <-.
    destruct (G _ _ Eb) as (tsb & p & L & P & S).
    assert (NE' : qs <> []) by (intros ->; apply NE; reflexivity).
    assert (IQ : incl (flat_map eqn_vars qs) vs) by (intros x Hx; apply IV, in_or_app; now left).
    pose proof (fgood_conds o qs LC sc IQ PC NE' Ec) as GA.
    (* the condition with its parentheses *)
    set (par := negb (List.length qs <=? 1)%nat) in *.
    assert (GC : exists ts c, flexes ((if par then "(" else "") ++ sc ++ (if par then ")" else "")) (FOp FLpar :: ts ++ [FOp FRpar]) /\ fconds ts c /\
                   forall rho rf bb, sall_hold rho qs = Some bb -> fagree vs rho rf -> feval rnd rf c = Some (VLog bb)).
    { unfold par. destruct (Nat.leb_spec (List.length qs) 1); cbn [negb].
      - (* one condition: its own parentheses *)
        destruct qs as [|q [|q' qs]]; [congruence| |simpl in *; lia]. cbn [pprint_conds] in Ec.
        apply cat_some in Ec. destruct Ec as (c1 & d1 & X1 & Ec & ->). injection X1 as <-. apply cat_some in Ec. destruct Ec as (c2 & d2 & X2 & Ec & ->). injection X2 as <-.
        rewrite LC in Ec. apply cat_some in Ec. destruct Ec as (sq & d3 & Eq & Ec & ->). injection Ec as <-.
        cbn [forallb] in PC. apply andb_true_iff in PC. destruct (fgood_eqn q sq ltac:(intros x Hx; apply IQ; cbn [flat_map]; apply in_or_app; now left) (proj1 PC) Eq) as (ts & a & LL & F & PP & E).
        exists ts, a. split; [|split].
        + cbn [append]. try rewrite !app_nil_s. apply fclosed_lexes. apply (fclosed_app "(" [FOp FLpar]); [apply flpar_closed|].
          apply flexes_closed_app; [exact LL|discriminate|split; reflexivity|]. intro r. reflexivity.
        + now apply fands_conds, fcmps_ands.
        + intros rho rf bb Hb A. cbn [all_hold_with] in Hb. destruct (sholds rho q) as [b0|] eqn:Eh; [|discriminate]. injection Hb as <-. rewrite andb_true_r.
          apply (E rho); [now rewrite Eh|exact A].
      - destruct GA as (ts & a & LL & F & PP & E). exists ts, a. split; [|split].
        + apply fclosed_lexes. apply (fclosed_app "(" [FOp FLpar]); [apply flpar_closed|].
          apply flexes_closed_app; [exact LL|discriminate|split; reflexivity|]. intro r. reflexivity.
        + now apply fands_conds.
        + intros rho rf bb Hb A. apply (E rho); [now rewrite Hb|exact A]. }
    destruct GC as (ts & c & LL & PP & E).
    exists (FId "if" :: FOp FLpar :: ts ++ FOp FRpar :: FId "then" :: FEol :: tsb ++ [FId "end"; FId "if"; FEol])%list, (FWhen c p).
    split; [|split; [reflexivity|split]].
    + rewrite <- (app_nil_l (FId "if" :: _)). apply fclosed_app; [apply fspaces_closed|].
      apply (fclosed_app "IF " [FId "if"]); [intro r; reflexivity|].
      match goal with |- fclosed ?x _ =>
        replace x with (((if par then "(" else "") ++ sc ++ (if par then ")" else "")) ++ ((" THEN" ++ newline) ++ (sb ++ (spaces indent ++ ("END IF" ++ newline)))))
          by (try rewrite LC; repeat (rewrite app_assoc_s; cbn [append]); reflexivity) end.
      replace (FOp FLpar :: ts ++ FOp FRpar :: FId "then" :: FEol :: tsb ++ [FId "end"; FId "if"; FEol])%list
        with ((FOp FLpar :: ts ++ [FOp FRpar]) ++ [FId "then"; FEol] ++ tsb ++ [] ++ [FId "end"; FId "if"; FEol])%list by (cbn [app]; rewrite <- !app_assoc; reflexivity).
      apply flexes_closed_app; [exact LL|discriminate|split; reflexivity|].
      apply fclosed_app; [intro r; reflexivity|]. apply fclosed_app; [exact L|].
      apply fclosed_app; [apply fspaces_closed|]. intro r. reflexivity.
    + now apply then_parse.
    + intros rho rho' t rf H A. rewrite sexec1_eq in H. destruct (sall_hold rho qs) as [[]|] eqn:Ah; [| |discriminate].
      * destruct (S _ _ _ _ H A) as (rf' & R & A'). exists rf'. split; [eapply F_then; [exact (E _ _ _ Ah A)|exact R]|exact A'].
      * injection H as <- <-. exists rf. split; [apply F_skip; exact (E _ _ _ Ah A)|exact A].
Qed.
Theorem fprint_stmts_good : forall ss, incl (flat_map stmt_vars ss) vs -> forallb (fprintable_stmt o stmt_name) ss = true -> fgood_stmts ss.
Proof.
  intros ss IV PR. apply fgood_list. rewrite forallb_forall in PR. rewrite Forall_forall. intros s Hs. apply fprint_stmt_good; [|now apply PR].
  intros x Hx. apply IV, in_flat_map. now exists s.
Qed.
End User.
End Names.
