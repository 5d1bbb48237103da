(** The text printed for statements in C is read back as a program that does the same. *)
From Coq Require Import ZArith List Bool Arith String Ascii Lia.
From Verif Require Import ClastSpec ClastModel ClastCmp PprintModel CReader PprintSpec PprintLex PprintParse PprintExpr.
Import ListNotations.
Local Open Scope string_scope.
Local Open Scope Z_scope.
Local Arguments Z.mul : simpl never.
Local Arguments Z.add : simpl never.
Local Arguments Nat.leb : simpl never.
Local Arguments Nat.eqb : simpl never.

Section StmtInd.
Variable Q : stmt -> Prop.
Hypothesis Hass : forall x e, Q (SAss x e).
Hypothesis Huser : forall n l, Q (SUser n l).
Hypothesis Hblock : forall b, Forall Q b -> Q (SBlock b).
Hypothesis Hfor : forall it lb ub st b, Forall Q b -> Q (SFor it lb ub st b).
Hypothesis Hguard : forall qs b, Forall Q b -> Q (SGuard qs b).
Fixpoint stmt_ind' (s : stmt) : Q s :=
  let fix all (l : list stmt) : Forall Q l := match l with [] => Forall_nil _ | s :: l' => Forall_cons s (stmt_ind' s) (all l') end in
  match s with
  | SAss x e => Hass x e
  | SUser n l => Huser n l
  | SBlock b => Hblock b (all b)
  | SFor it lb ub st b => Hfor it lb ub st b (all b)
  | SGuard qs b => Hguard qs b (all b)
  end.
End StmtInd.

(** *** the executable semantics, unfolded *)
Lemma exec1_eq : forall s rho, exec1 s rho =
  match s with
  | SAss x e => match eval_opt rho e with Some v => Some (assign rho x v, []) | None => None end
  | SUser num subs => match eval_all rho subs with Some vs => Some (rho, [(num, vs)]) | None => None end
  | SBlock body => exec body rho
  | SFor it lb ub step body =>
      match eval_opt rho lb, eval_opt rho ub with
      | Some l, Some u => if 0 <? step then iterate (exec body) it step (trip_count l u step) l rho else None
      | _, _ => None
      end
  | SGuard qs th => match all_hold rho qs with Some true => exec th rho | Some false => Some (rho, []) | None => None end
  end.
Proof. destruct s; reflexivity. Qed.

(** *** what an expression depends on, what a statement changes *)
Lemma eval_agree : forall e rho rho', (forall x, In x (vars e) -> rho x = rho' x) -> eval rho e = eval rho' e.
Proof.
  induction e as [s|v [x|] IH|t l r IH|t l IH] using expr_ind'; intros rho rho' A.
  - cbn. apply A. now left.
  - cbn [eval]. now rewrite (IH rho rho' A).
  - reflexivity.
  - cbn [eval]. now rewrite (IH rho rho' A).
  - rewrite !eval_red. assert (E : vals rho l = vals rho' l); [|now rewrite E].
    cbn [vars] in A. induction IH as [|e l He Hl IHl]; [reflexivity|]. cbn [vals flat_map] in *.
    rewrite (He rho rho'), IHl; [reflexivity| |]; intros x Hx; apply A; apply in_or_app; tauto.
Qed.
Lemma iterate_frame : forall body it step x k v rho rho' t, (forall r r' t, body r = Some (r', t) -> r' x = r x) -> it <> x ->
  iterate body it step k v rho = Some (rho', t) -> rho' x = rho x.
Proof.
  intros body it step x k v rho rho' t B N. revert v rho rho' t. induction k as [|k IH]; intros v rho rho' t H; cbn [iterate] in H.
  - injection H as <- _. unfold assign. destruct (String.eqb_spec it x); [congruence|reflexivity].
  - destruct (body (assign rho it v)) as [[r1 t1]|] eqn:E1; [|discriminate].
    destruct (iterate body it step k (v + step) r1) as [[r2 t2]|] eqn:E2; [|discriminate]. injection H as <- _.
    rewrite (IH _ _ _ _ E2), (B _ _ _ E1). unfold assign. destruct (String.eqb_spec it x); [congruence|reflexivity].
Qed.
Definition frame (s : stmt) : Prop := forall rho rho' t x, exec1 s rho = Some (rho', t) -> ~ In x (assigned s) -> rho' x = rho x.
Lemma frames : forall b, Forall frame b -> forall rho rho' t x, exec b rho = Some (rho', t) -> ~ In x (flat_map assigned b) -> rho' x = rho x.
Proof.
  induction 1 as [|s b Hs Hb IH]; intros rho rho' t x E N; cbn [exec flat_map] in *.
  - injection E as <- _. reflexivity.
  - destruct (exec1 s rho) as [[r1 t1]|] eqn:E1; [|discriminate]. destruct (exec b r1) as [[r2 t2]|] eqn:E2; [|discriminate]. injection E as <- _.
    rewrite (IH _ _ _ x E2), (Hs _ _ _ x E1); [reflexivity| |]; intro I; apply N, in_or_app; tauto.
Qed.
Lemma frame_all : forall s, frame s.
Proof.
  induction s as [y e|n l|b IH|it lb ub st b IH|qs b IH] using stmt_ind'; intros rho rho' t x E N; rewrite exec1_eq in E; cbn [assigned] in N.
  - destruct (eval_opt rho e); [|discriminate]. injection E as <- _. unfold assign. destruct (String.eqb_spec y x); [|reflexivity]. subst. exfalso. apply N. now left.
  - destruct (eval_all rho l); [|discriminate]. injection E as <- _. reflexivity.
  - eapply frames; eassumption.
  - destruct (eval_opt rho lb); [|discriminate]. destruct (eval_opt rho ub); [|discriminate]. destruct (0 <? st); [|discriminate].
    eapply iterate_frame; [|intro Hq; apply N; left; exact Hq|exact E]. intros r r' t' E'. eapply frames; [exact IH|exact E'|].
    intro I. apply N. now right.
  - destruct (all_hold rho qs) as [[]|]; [eapply frames; eassumption|injection E as <- _; reflexivity|discriminate].
Qed.
Lemma exec_frame : forall b rho rho' t x, exec b rho = Some (rho', t) -> ~ In x (flat_map assigned b) -> rho' x = rho x.
Proof. intros b. apply frames. induction b; constructor; [apply frame_all|assumption]. Qed.
Lemma mem_str_in : forall x l, mem_str x l = true <-> In x l.
Proof.
  intros x l. unfold mem_str. rewrite existsb_exists. split.
  - intros (y & I & E). apply String.eqb_eq in E. now subst.
  - intro I. exists x. split; [exact I|apply String.eqb_refl].
Qed.

(** *** strings *)
Lemma spaces_closed : forall n, closed (spaces n) [].
Proof. induction n; intro r; [reflexivity|]. cbn [spaces append]. change (lex LNone (String " " (spaces n ++ r))) with (lex LNone (spaces n ++ r)). apply IHn. Qed.
Lemma newline_closed : closed newline [].
Proof. intro r. reflexivity. Qed.
Lemma lexes_closed_app' : forall s ts c s' ts', lexes s ts -> is_idchar c = false -> closed (String c s') ts' -> closed (s ++ String c s') (ts ++ ts')%list.
Proof. intros s ts c s' ts' H N H'. apply lexes_closed_app; [exact H|discriminate|exact N|exact H']. Qed.

Section Names.
(** variables that can be used *)
Variable vs : list string.
Notation good := (PprintExpr.good vs).
(** *** conditions *)
Definition rel_text (sign : Z) : string := if sign =? 0 then " == " else if 0 <? sign then " >= " else " <= ".
Definition rel_op (sign : Z) : op := if sign =? 0 then OEq else if 0 <? sign then OGe else OLe.
Definition rel_bin (sign : Z) : binop := if sign =? 0 then CEq else if 0 <? sign then CGe else CLe.
Lemma rel_closed : forall sign, closed (rel_text sign) [TOp (rel_op sign)].
Proof. intro sign. unfold rel_text, rel_op. destruct (sign =? 0); [intro r; reflexivity|]. destruct (0 <? sign); intro r; reflexivity. Qed.
Lemma rel_cmp : forall sign, cmp_op (rel_op sign) = Some (rel_bin sign).
Proof. intro sign. unfold rel_bin, rel_op. destruct (sign =? 0); [reflexivity|]. destruct (0 <? sign); reflexivity. Qed.
Lemma good_rel : forall s V s' W sign, good LvAdd s V -> good LvAdd s' W ->
  good LvCmp (s ++ rel_text sign ++ s')
    (fun rho => match V rho, W rho with
                | Some a, Some b => Some (b2z (if sign =? 0 then a =? b else if 0 <? sign then b <=? a else a <=? b))
                | _, _ => None end).
Proof.
  intros s V s' W sign (ts & a & L & F & P & K & E) (ts' & a' & L' & F' & P' & K' & E').
  exists (ts ++ TOp (rel_op sign) :: ts')%list, (COp (rel_bin sign) a a'). split5.
  - apply lexes_app; [exact L| | |].
    + unfold rel_text. destruct (sign =? 0); [discriminate|]. destruct (0 <? sign); discriminate.
    + unfold rel_text. destruct (sign =? 0); [reflexivity|]. destruct (0 <? sign); reflexivity.
    + apply (closed_lexes_app _ [TOp (rel_op sign)]); [apply rel_closed|exact L'].
  - now apply first_app.
  - apply cmp_cmps; [exact P|apply rel_cmp|exact P'].
  - intros rho z H. destruct (V rho) as [x|] eqn:Ev; [|discriminate]. destruct (W rho) as [y|] eqn:Ew; [|discriminate].
    injection H as <-. specialize (E _ _ Ev). specialize (E' _ _ Ew). unfold value in *. unfold rel_bin.
    destruct (sign =? 0); [|destruct (0 <? sign)]; cbn [expand cval]; rewrite E, E'; reflexivity.
Qed.
Definition bool_val (b : option bool) : option Z := option_map b2z b.
Lemma rem_zero : forall x d, 0 < d -> (Z.rem x d =? 0) = (x mod d =? 0).
Proof.
  intros x d D. assert (H : Z.rem x d = 0 <-> x mod d = 0).
  { rewrite Z.rem_divide, Z.mod_divide by lia. tauto. }
  destruct (Z.eqb_spec (Z.rem x d) 0), (Z.eqb_spec (x mod d) 0); tauto.
Qed.
(** the text of a remainder *)
Lemma pe_mod : forall l r, pe (EBin BMod l r) = cat (say (if is_group l then "(" else "")) (cat (pe l) (say ((if is_group l then ")%" else "%") ++ int_text r))).
Proof. intros l r. cbn [pprint_expr binary_text]. destruct (is_group l); cbn [cat say]; destruct (pe l); cbn [cat say]; try reflexivity; now rewrite !app_nil_s. Qed.
Lemma good_mod : forall l r s, incl (vars l) vs -> 0 < r -> printable (if is_group l then LvAdd else LvMul) l = true -> pe (EBin BMod l r) = Some s ->
  good LvMul s (fun rho => option_map (fun x => Z.rem x r) (eval rho l)).
Proof.
  intros l r s IV R PR PT. rewrite pe_mod in PT.
  apply cat_some in PT. destruct PT as (p1 & q1 & E1 & PT & ->). injection E1 as <-.
  apply cat_some in PT. destruct PT as (sx & q2 & Ex & PT & ->). injection PT as <-. destruct (is_group l).
  - assert (G : good LvMul ("(" ++ sx ++ ")") (fun rho => eval rho l)).
    { apply prim_lv; [tauto|]. apply good_paren, add_cond. apply (pprint_good vs l LvAdd); tauto. }
    apply (good_rem vs _ _ r) in G; [|lia]. rewrite !app_assoc_s in G. exact G.
  - cbn [append]. apply good_rem; [|exact R]. apply (pprint_good vs l LvMul); tauto.
Qed.
Lemma good_eqn : forall q s, incl (vars (e_lhs q) ++ opt_vars (e_rhs q)) vs -> cond_printable q = true -> pprint_equation LangC q = Some s -> good LvCmp s (fun rho => bool_val (eqn_holds rho q)).
Proof.
  intros q s IV C PT. assert (IL : incl (vars (e_lhs q)) vs) by (intros x Hx; apply IV, in_or_app; now left).
  assert (IR : incl (opt_vars (e_rhs q)) vs) by (intros x Hx; apply IV, in_or_app; now right). clear IV. unfold pprint_equation in PT. apply cat_some in PT. destruct PT as (sl & q1 & El & PT & ->).
  apply cat_some in PT. destruct PT as (sr & q2 & Er & PT & ->). injection Er as <-. fold (rel_text (e_sign q)).
  assert (N : good LvAdd sl (fun rho => eval rho (e_lhs q)) -> good LvAdd q2 (fun rho => eval_opt rho (e_rhs q)) ->
              good LvCmp (sl ++ rel_text (e_sign q) ++ q2) (fun rho => bool_val (eqn_holds rho q))).
  { intros G1 G2. eapply good_ext; [|apply good_rel; [exact G1|exact G2]]. intros rho z. unfold eqn_holds, bool_val.
    destruct (eval rho (e_lhs q)); [|intro; discriminate]. destruct (eval_opt rho (e_rhs q)); [tauto|intro; discriminate]. }
  unfold cond_printable in C.
  assert (M : (exists l r, e_lhs q = EBin BMod l r) \/ ((printable LvAdd (e_lhs q) && opt_ok (printable LvAdd) (e_rhs q)) = true)).
  { destruct (e_lhs q) as [| |[] l r|]; try (now right). left. now exists l, r. }
  destruct M as [(l & r & El')|C'].
  - clear N. rewrite El' in *. apply andb_true_iff in C. destruct C as [C C0]. apply andb_true_iff in C. destruct C as [C Sg].
    apply andb_true_iff in C. destruct C as [R PR]. destruct (e_rhs q) as [[|v [x|]| |]|] eqn:Rq; try discriminate.
    assert (v = 0) by lia. subst v. cbn [pprint_opt pprint_expr] in PT. injection PT as <-.
    assert (Sg' : e_sign q = 0) by lia. rewrite Sg'.
    eapply good_ext; [|apply good_rel; [apply mul_add; eapply (good_mod l r); [exact IL| |exact PR|exact El]; lia|apply (good_int vs LvAdd 0); tauto]].
    intros rho z. cbn beta. unfold eqn_holds, bool_val. rewrite El', Rq, Sg'. cbn [eval eval_opt].
    destruct (eval rho l); [|intro; discriminate]. cbn [option_map bin_val]. rewrite rem_zero by lia. tauto.
  - apply andb_true_iff in C'. destruct C' as [C1 C2]. apply N.
    + apply (pprint_good vs _ LvAdd); tauto.
    + destruct (e_rhs q) as [e|]; [|discriminate]. apply (pprint_good vs _ LvAdd); tauto.
Qed.
Lemma good_conds : forall o qs, p_lang o = LangC -> forall s, incl (flat_map (fun q => vars (e_lhs q) ++ opt_vars (e_rhs q))%list qs) vs -> forallb cond_printable qs = true -> qs <> [] ->
  pprint_conds o true qs = Some s -> good LvAnd s (fun rho => bool_val (all_hold rho qs)) /\ ((1 = List.length qs)%nat -> good LvPrim s (fun rho => bool_val (all_hold rho qs))).
Proof.
  intros o qs LC.
  (* the conditions after the first *)
  assert (KK : forall qs s V t, incl (flat_map (fun q => vars (e_lhs q) ++ opt_vars (e_rhs q))%list qs) vs -> forallb cond_printable qs = true -> pprint_conds o false qs = Some t -> good LvAnd s (fun rho => bool_val (V rho)) ->
              good LvAnd (s ++ t) (fun rho => bool_val (match V rho, all_hold rho qs with Some a, Some b => Some (a && b)%bool | _, _ => None end))).
  { induction qs0 as [|q qs' IH]; intros s V t IV C PT G; cbn [pprint_conds] in PT.
    - injection PT as <-. rewrite app_nil_s. eapply good_ext; [|exact G]. intros rho z. cbn [all_hold]. destruct (V rho) as [b|]; [|intro; discriminate].
      now rewrite andb_true_r.
    - cbn [forallb] in C. apply andb_true_iff in C. destruct C as [C Cs].
      apply cat_some in PT. destruct PT as (p1 & q1 & E1 & PT & ->). injection E1 as <-.
      apply cat_some in PT. destruct PT as (p2 & q2 & E2 & PT & ->). injection E2 as <-. rewrite LC in PT.
      apply cat_some in PT. destruct PT as (sq & q3 & Eq & PT & ->).
      apply cat_some in PT. destruct PT as (p4 & q4 & E4 & PT & ->). injection E4 as <-.
      unfold and_text. rewrite LC. cbn [flat_map] in IV.
      assert (IQ : incl (vars (e_lhs q) ++ opt_vars (e_rhs q)) vs) by (intros x Hx; apply IV, in_or_app; now left).
      assert (IVs : incl (flat_map (fun q => vars (e_lhs q) ++ opt_vars (e_rhs q))%list qs') vs) by (intros x Hx; apply IV, in_or_app; now right).
      pose proof (good_eqn q sq IQ C Eq) as GQ.
      assert (G1 : good LvAnd (s ++ " && (" ++ sq ++ ")") (fun rho => bool_val (match V rho, eqn_holds rho q with Some a, Some b => Some (a && b)%bool | _, _ => None end))).
      { assert (GP : good LvPrim ("(" ++ sq ++ ")") (fun rho => bool_val (eqn_holds rho q))).
        { apply good_paren. destruct GQ as (ts & a & L & F & P & K & E). exists ts, a. split5; try assumption. now apply ands_conds, cmps_ands. }
        destruct GP as (ts & a & L & F & P & K & E). destruct G as (ts0 & a0 & L0 & F0 & P0 & K0 & E0).
        exists (ts0 ++ TOp OAnd :: ts)%list, (COp CAnd a0 a). split5.
        - change (" && (" ++ sq ++ ")") with (" && " ++ ("(" ++ sq ++ ")")). apply lexes_app; [exact L0|discriminate|reflexivity|].
          apply (closed_lexes_app " && " [TOp OAnd]); [intro r; reflexivity|exact L].
        - now apply first_app.
        - apply and_ands; [exact P0|]. now apply adds_cmps, muls_adds, uns_muls, prims_uns.
        - intros rho z H. destruct (V rho) as [b|] eqn:Ev; [|discriminate]. destruct (eqn_holds rho q) as [b'|] eqn:Eh; [|discriminate].
          injection H as <-. specialize (E0 rho (b2z b)). rewrite Ev in E0. specialize (E0 eq_refl). specialize (E rho (b2z b')). rewrite Eh in E. specialize (E eq_refl).
          unfold value in *. cbn [expand cval]. rewrite E0, E, !b2z_test. destruct b, b'; reflexivity. }
      specialize (IH _ _ _ IVs Cs PT G1). repeat rewrite app_assoc_s in *; cbn [append] in *; repeat rewrite app_assoc_s in *.
      eapply good_ext; [|exact IH]. intros rho z. cbn [all_hold]. destruct (V rho) as [a|]; [|intro; discriminate]. destruct (eqn_holds rho q) as [b|]; [|intro; discriminate].
      destruct (all_hold rho qs') as [c|]; [|intro; discriminate]. now rewrite andb_assoc. }
  intros s IV C NE PT. destruct qs as [|q qs]; [congruence|]. cbn [pprint_conds] in PT. cbn [forallb] in C. apply andb_true_iff in C. destruct C as [C Cs].
  apply cat_some in PT. destruct PT as (p1 & q1 & E1 & PT & ->). injection E1 as <-.
  apply cat_some in PT. destruct PT as (p2 & q2 & E2 & PT & ->). injection E2 as <-. rewrite LC in PT.
  apply cat_some in PT. destruct PT as (sq & q3 & Eq & PT & ->).
  apply cat_some in PT. destruct PT as (p4 & q4 & E4 & PT & ->). injection E4 as <-.
  cbn [flat_map] in IV.
  assert (IQ : incl (vars (e_lhs q) ++ opt_vars (e_rhs q)) vs) by (intros x Hx; apply IV, in_or_app; now left).
  assert (IVs : incl (flat_map (fun q => vars (e_lhs q) ++ opt_vars (e_rhs q))%list qs) vs) by (intros x Hx; apply IV, in_or_app; now right).
  pose proof (good_eqn q sq IQ C Eq) as GQ.
  assert (GP : good LvPrim ("(" ++ sq ++ ")") (fun rho => bool_val (eqn_holds rho q))).
  { apply good_paren. destruct GQ as (ts & a & L & F & P & K & E). exists ts, a. split5; try assumption. now apply ands_conds, cmps_ands. }
  assert (GA : good LvAnd ("(" ++ sq ++ ")") (fun rho => bool_val (eqn_holds rho q))).
  { destruct GP as (ts & a & L & F & P & K & E). exists ts, a. split5; try assumption.
    now apply cmps_ands, adds_cmps, muls_adds, uns_muls, prims_uns. }
  split.
  - specialize (KK _ _ _ _ IVs Cs PT GA). rename KK into K. repeat rewrite app_assoc_s in *; cbn [append] in *; repeat rewrite app_assoc_s in *. cbn [append] in *. exact K.
  - intro L1. destruct qs; [|discriminate]. cbn [pprint_conds] in PT. injection PT as <-. cbn [append]. cbn [append] in GP. try rewrite app_nil_s.
    eapply good_ext; [|exact GP]. intros rho z. cbn [all_hold]. destruct (eqn_holds rho q) as [b|]; [|intro; discriminate]. now rewrite andb_true_r.
Qed.

(** *** arguments *)
Section User.
Variable o : popts.
Variable stmt_name : nat -> option string.
Hypothesis LC : p_lang o = LangC.
Lemma good_args : forall subs s, incl (flat_map opt_vars subs) vs -> forallb (opt_ok (printable LvAdd)) subs = true -> pprint_args o false subs = Some s ->
  exists ts es, closed (s ++ ")") ts /\ (subs <> [] -> no_rpar ts) /\ (forall rest, pargs (ts ++ rest)%list (es, rest)) /\
    (List.length es = List.length subs /\ forallb (known vs FS) es = true) /\
    forall rho zs, eval_all rho subs = Some zs -> values MS rho es = Some zs.
Proof.
  induction subs as [|e subs IH]; intros s IV C PT.
  - injection PT as <-. exists [TOp ORpar], []. split; [apply rpar_closed|split; [congruence|split; [|split]]].
    + intro rest. apply args_nil.
    + split; reflexivity.
    + intros rho zs H. injection H as <-. reflexivity.
  - cbn [forallb] in C. apply andb_true_iff in C. destruct C as [C Cs]. destruct e as [e|]; [|discriminate]. cbn [opt_ok] in C. cbn [flat_map opt_vars] in IV.
    assert (IE : incl (vars e) vs) by (intros x Hx; apply IV, in_or_app; now left).
    assert (IVs : incl (flat_map opt_vars subs) vs) by (intros x Hx; apply IV, in_or_app; now right). clear IV.
    cbn [pprint_args] in PT. rewrite LC in PT. cbn [orb] in PT.
    apply cat_some in PT. destruct PT as (p1 & q1 & E1 & PT & ->). injection E1 as <-.
    apply cat_some in PT. destruct PT as (se & q2 & Ee & PT & ->).
    assert (G : good LvCond ((if parentheses_are_safer e then "(" else "") ++ se ++ (if parentheses_are_safer e then ")" else "")) (fun rho => eval rho e)).
    { assert (G0 : good LvCond se (fun rho => eval rho e)) by (apply add_cond, (pprint_good vs e LvAdd); tauto).
      destruct (parentheses_are_safer e); [apply add_cond, mul_add, un_mul, prim_un, good_paren, G0|]. cbn [append]. now rewrite app_nil_s. }
    destruct subs as [|e' subs].
    + injection PT as <-. destruct G as (ts & a & L & F & P & K & E). exists (ts ++ [TOp ORpar])%list, [a]. split; [|split; [|split; [|split]]].
      * apply lexes_closed_app; [exact L|discriminate|reflexivity|apply rpar_closed].
      * intros _. pose proof (conds_no_rpar _ _ P) as N. destruct ts as [|[| |[]| |] t]; first [exact Logic.I | destruct N].
      * intro rest. rewrite <- app_assoc. now apply args_one.
      * split; [reflexivity|]. cbn [forallb]. now rewrite K.
      * intros rho zs H. cbn [eval_all eval_opt] in H. destruct (eval rho e) as [z|] eqn:Ez; [|discriminate]. injection H as <-.
        cbn [values]. now rewrite (E _ _ Ez).
    + apply cat_some in PT. destruct PT as (p3 & q3 & E3 & PT & ->). injection E3 as <-.
      apply cat_some in PT. destruct PT as (p4 & q4 & E4 & PT & ->). injection E4 as <-.
      destruct (IH _ IVs Cs PT) as (ts' & es & L' & NR & P' & (KL & K') & E'). destruct G as (ts & a & L & F & P & K & E).
      exists (ts ++ TOp OComma :: ts')%list, (a :: es). split; [|split; [|split; [|split]]].
      * replace (((if parentheses_are_safer e then "(" else "") ++ se ++ (if parentheses_are_safer e then ")" else "") ++ "," ++ q4) ++ ")")
          with (((if parentheses_are_safer e then "(" else "") ++ se ++ (if parentheses_are_safer e then ")" else "")) ++ "," ++ (q4 ++ ")"))
          by (rewrite !app_assoc_s; reflexivity).
        apply lexes_closed_app; [exact L|discriminate|reflexivity|]. apply (closed_app "," [TOp OComma]); [apply comma_closed|exact L'].
      * intros _. pose proof (conds_no_rpar _ _ P) as N. destruct ts as [|[| |[]| |] t]; first [exact Logic.I | destruct N].
      * intro rest. rewrite <- app_assoc. cbn [app]. apply args_cons; [exact P| |apply P'].
        specialize (NR ltac:(discriminate)). destruct ts' as [|[| |[]| |] t]; first [exact Logic.I | destruct NR].
      * split; [cbn [List.length] in *; now rewrite KL|]. cbn [forallb]. now rewrite K, K'.
      * intros rho zs H. cbn [eval_all eval_opt] in H. destruct (eval rho e) as [z|] eqn:Ez; [|discriminate].
        change (match eval_opt rho e', eval_all rho subs with Some z, Some zs => Some (z :: zs) | _, _ => None end) with (eval_all rho (e' :: subs)) in H.
        destruct (eval_all rho (e' :: subs)) as [zs'|] eqn:Es; [|discriminate]. injection H as <-. cbn [values]. now rewrite (E _ _ Ez), (E' _ _ Es).
Qed.

(** *** statements *)
Definition pstmt ts (r : cstmt * list token) : Prop := exists N, parse_stmt N ts = Some r.
Definition pbody ts (r : list cstmt * list token) : Prop := exists N, parse_body N ts = Some r.
Definition no_rbrace (ts : list token) : Prop := match ts with TOp ORbrace :: _ => False | [] => False | _ => True end.
Definition same1 (s : stmt) (c : cstmt) : Prop := forall rho rho' t, exec1 s rho = Some (rho', t) -> crun1 MS c rho rho' (named o stmt_name t).
Definition same (ss : list stmt) (p : list cstmt) : Prop := forall rho rho' t, exec ss rho = Some (rho', t) -> crun MS p rho rho' (named o stmt_name t).
(** statements that can be called, with their numbers of arguments *)
Variable cs : list (nat * nat).
Notation PS := (map (fun c => (stmt_label o stmt_name (fst c), snd c)) cs).
Definition good_stmt (s : stmt) : Prop := forall indent text, pprint_stmt o stmt_name indent s = Some text ->
  exists ts c, closed text ts /\ no_rbrace ts /\ (forall rest, pstmt (ts ++ rest)%list (c, rest)) /\ known_stmt vs FS PS c = true /\ same1 s c.
Definition good_stmts (ss : list stmt) : Prop := forall indent text, pprint_stmts o stmt_name indent ss = Some text ->
  exists ts p, closed text ts /\ (forall rest, pbody (ts ++ TOp ORbrace :: rest)%list (p, rest)) /\ forallb (known_stmt vs FS PS) p = true /\ same ss p.

Lemma call_in : forall n k, In (n, k) cs -> callable PS (stmt_label o stmt_name n) k = true.
Proof.
  intros n k H. unfold callable. apply existsb_exists. exists (stmt_label o stmt_name n, k). split; [|cbn [fst snd]; now rewrite String.eqb_refl, Nat.eqb_refl].
  apply in_map_iff. now exists (n, k).
Qed.
Lemma named_app : forall a b, named o stmt_name (a ++ b) = (named o stmt_name a ++ named o stmt_name b)%list.
Proof. intros. apply map_app. Qed.
Lemma good_list : forall ss, Forall good_stmt ss -> good_stmts ss.
Proof.
  induction 1 as [|s ss Hs Hss IH]; intros indent text PT; cbn [pprint_stmts] in PT.
  - injection PT as <-. exists [], []. split; [apply closed_nil|split; [|split; [reflexivity|]]].
    + intro rest. exists 1%nat. reflexivity.
    + intros rho rho' t H. injection H as <- <-. constructor.
  - apply cat_some in PT. destruct PT as (s1 & s2 & E1 & E2 & ->).
    destruct (Hs _ _ E1) as (ts & c & L & N & P & K1 & S). destruct (IH _ _ E2) as (ts' & p & L' & P' & K2 & S').
    exists (ts ++ ts')%list, (c :: p). split; [now apply closed_app|split; [|split; [cbn [forallb]; now rewrite K1, K2|]]].
    + intro rest. destruct (P' rest) as [M Q']. destruct (P (ts' ++ TOp ORbrace :: rest)%list) as [K Q].
      exists (Datatypes.S (K + M)). rewrite <- app_assoc. cbn [parse_body].
      rewrite (proj1 (stmt_mono K) _ _ (K + M)%nat ltac:(lia) Q), (proj2 (stmt_mono M) _ _ (K + M)%nat ltac:(lia) Q').
      destruct ts as [|[| |[]| |] t]; first [reflexivity | destruct N].
    + intros rho rho' t H. cbn [exec] in H. destruct (exec1 s rho) as [[r1 t1]|] eqn:X1; [|discriminate].
      destruct (exec ss r1) as [[r2 t2]|] eqn:X2; [|discriminate]. injection H as <- <-. rewrite named_app. econstructor; [eapply S; eassumption|eapply S'; eassumption].
Qed.
Lemma list_eq : forall indent ss,
  (fix pprint_list (indent : nat) (ss : list stmt) : option string :=
    match ss with [] => say "" | s :: ss' => cat (pprint_stmt o stmt_name indent s) (pprint_list indent ss') end) indent ss = pprint_stmts o stmt_name indent ss.
Proof. intros indent ss. induction ss as [|s ss IH]; [reflexivity|]. cbn [pprint_stmts]. rewrite <- IH. reflexivity. Qed.

Lemma trip_more : forall v u step k, 0 < step -> trip_count v u step = S k -> v <= u /\ trip_count (v + step) u step = k.
Proof.
  intros v u step k D H. unfold trip_count in *. destruct (Z.ltb_spec u v); [discriminate|]. split; [lia|].
  assert (Q : 0 <= (u - v) / step) by (apply Z.div_pos; lia).
  destruct (Z.ltb_spec u (v + step)).
  - rewrite (Z.div_small (u - v) step) in H by lia. simpl in H. lia.
  - replace (u - (v + step)) with ((u - v) + (-1) * step) by lia. rewrite Z.div_add by lia. lia.
Qed.
Lemma trip_none : forall v u step, 0 < step -> trip_count v u step = O -> u < v.
Proof.
  intros v u step D H. unfold trip_count in H. destruct (Z.ltb_spec u v); [assumption|].
  assert (Q : 0 <= (u - v) / step) by (apply Z.div_pos; lia). lia.
Qed.
Lemma loop_runs : forall it ub u step body p cu k v rho rho' t,
  0 < step -> trip_count v u step = k -> same body p ->
  (forall r z, eval r ub = Some z -> value MS r cu = Some z) ->
  ~ In it (vars ub) -> ~ In it (flat_map assigned body) -> (forall x, In x (vars ub) -> ~ In x (flat_map assigned body)) ->
  eval rho ub = Some u ->
  iterate (exec body) it step k v rho = Some (rho', t) ->
  cloop MS it cu step p (assign rho it v) rho' (named o stmt_name t).
Proof.
  intros it ub u step body p cu k. induction k as [|k IH]; intros v rho rho' t D TC SB VU N1 N2 N3 EU H; cbn [iterate] in H.
  - injection H as <- <-. eapply R_stop with (v := v) (u := u).
    + unfold assign. now rewrite String.eqb_refl.
    + apply VU. rewrite <- EU. apply eval_agree. intros x Hx. unfold assign. destruct (String.eqb_spec it x); [subst; contradiction|reflexivity].
    + eapply trip_none; eassumption.
  - destruct (exec body (assign rho it v)) as [[r1 t1]|] eqn:E1; [|discriminate].
    destruct (iterate (exec body) it step k (v + step) r1) as [[r2 t2]|] eqn:E2; [|discriminate]. injection H as <- <-.
    apply trip_more in TC; [|exact D]. destruct TC as [LE TC]. rewrite named_app.
    assert (EU' : eval (assign rho it v) ub = Some u).
    { rewrite <- EU. apply eval_agree. intros x Hx. unfold assign. destruct (String.eqb_spec it x); [subst; contradiction|reflexivity]. }
    eapply R_more with (v := v) (u := u) (rho1 := r1) (v1 := v).
    + unfold assign. now rewrite String.eqb_refl.
    + now apply VU.
    + exact LE.
    + now apply SB.
    + rewrite (exec_frame _ _ _ _ it E1 N2). unfold assign. now rewrite String.eqb_refl.
    + apply IH; try assumption. rewrite <- EU'. apply eval_agree. intros x Hx. apply (exec_frame _ _ _ _ x E1). now apply N3.
Qed.
Lemma for_parse : forall it lb ub ts1 ts2 (inc : list token) z p tsb,
  is_keyword it = false -> conds ts1 lb -> adds ts2 ub ->
  (inc = [TOp OInc] /\ z = 1 \/ inc = [TOp OAddEq; TNum z]) ->
  (forall rest, pbody (tsb ++ TOp ORbrace :: rest)%list (p, rest)) ->
  forall rest, pstmt ((TId "for" :: TOp OLpar :: TId it :: TOp OAssign :: ts1 ++ TOp OSemi :: TId it :: TOp OLe :: ts2 ++ TOp OSemi :: TId it ::
                       inc ++ TOp ORpar :: TOp OLbrace :: tsb ++ [TOp ORbrace]) ++ rest)%list (CFor it lb ub z p, rest).
Proof.
  intros it lb ub ts1 ts2 inc z p tsb K P1 P2 HI PB rest.
  set (R2 := (TOp OSemi :: TId it :: inc ++ TOp ORpar :: TOp OLbrace :: tsb ++ TOp ORbrace :: rest)%list).
  set (R1 := (TOp OSemi :: TId it :: TOp OLe :: ts2 ++ R2)%list).
  destruct (P1 R1 eq_refl) as [N1 E1].
  destruct (P2 R2 (ub, R2) eq_refl (padd_stop ub R2 eq_refl)) as [N2 E2].
  destruct (PB rest) as [N3 E3].
  exists (S (N1 + N2 + N3)).
  replace ((TId "for" :: TOp OLpar :: TId it :: TOp OAssign :: ts1 ++ TOp OSemi :: TId it :: TOp OLe :: ts2 ++ TOp OSemi :: TId it ::
            inc ++ TOp ORpar :: TOp OLbrace :: tsb ++ [TOp ORbrace]) ++ rest)%list
    with (TId "for" :: TOp OLpar :: TId it :: TOp OAssign :: ts1 ++ R1)%list
    by (unfold R1, R2; cbn [app]; rewrite <- !app_assoc; cbn [app]; rewrite <- !app_assoc; cbn [app]; rewrite <- !app_assoc; cbn [app];
        rewrite <- !app_assoc; reflexivity).
  cbn [parse_stmt]. change (String.eqb "for" "if") with false. change (String.eqb "for" "for") with true. cbn iota. rewrite K.
  rewrite (proj1 (fuel_mono N1) _ _ _ (N1 + N2 + N3)%nat ltac:(lia) E1). unfold R1.
  rewrite (proj1 (fuel_mono N2) _ _ _ (N1 + N2 + N3)%nat ltac:(lia) E2). unfold R2. rewrite String.eqb_refl. cbn [andb].
  destruct HI as [[-> ->]| ->]; cbn [app]; rewrite (proj2 (stmt_mono N3) _ _ (N1 + N2 + N3)%nat ltac:(lia) E3); reflexivity.
Qed.
Lemma if_parse : forall c ts p tsb, conds ts c -> (forall rest, pbody (tsb ++ TOp ORbrace :: rest)%list (p, rest)) ->
  forall rest, pstmt ((TId "if" :: TOp OLpar :: ts ++ TOp ORpar :: TOp OLbrace :: tsb ++ [TOp ORbrace]) ++ rest)%list (CWhen c p, rest).
Proof.
  intros c ts p tsb P PB rest. destruct (P (TOp ORpar :: TOp OLbrace :: tsb ++ TOp ORbrace :: rest)%list eq_refl) as [N1 E1].
  destruct (PB rest) as [N3 E3]. exists (S (N1 + N3)).
  replace ((TId "if" :: TOp OLpar :: ts ++ TOp ORpar :: TOp OLbrace :: tsb ++ [TOp ORbrace]) ++ rest)%list
    with (TId "if" :: TOp OLpar :: ts ++ TOp ORpar :: TOp OLbrace :: tsb ++ TOp ORbrace :: rest)%list
    by (cbn [app]; rewrite <- !app_assoc; cbn [app]; rewrite <- !app_assoc; reflexivity).
  cbn [parse_stmt]. change (String.eqb "if" "if") with true. cbn iota.
  rewrite (proj1 (fuel_mono N1) _ _ _ (N1 + N3)%nat ltac:(lia) E1), (proj2 (stmt_mono N3) _ _ (N1 + N3)%nat ltac:(lia) E3). reflexivity.
Qed.
Lemma ident_facts : forall x, ident x = true -> is_keyword x = false /\ String.eqb x "if" = false /\ String.eqb x "for" = false.
Proof.
  intros x I. unfold ident in I. apply andb_true_iff in I. destruct I as [_ I]. apply negb_true_iff in I. split; [exact I|].
  split; apply String.eqb_neq; intros ->; discriminate I.
Qed.
Lemma not_macro : forall f, is_macro f = false -> find (fun m : string * (list string * cexpr) => String.eqb (fst m) f) MS = None.
Proof.
  intros f H. unfold is_macro in H. cbn [existsb] in H. repeat (apply orb_false_iff in H; destruct H as [? H]).
  assert (E : exists a b c d, MS = [("floord", a); ("ceild", b); ("max", c); ("min", d)]) by (do 4 eexists; vm_compute; reflexivity).
  destruct E as (a & b & c & d & ->). cbn [find fst]. rewrite (String.eqb_sym "floord"), (String.eqb_sym "ceild"), (String.eqb_sym "max"), (String.eqb_sym "min").
  now rewrite H0, H1, H2, H3.
Qed.
Theorem pprint_stmt_good : forall s, incl (stmt_vars s) vs -> incl (stmt_calls s) cs -> printable_stmt o stmt_name s = true -> good_stmt s.
Proof.
  induction s as [x e|n l|b IH|it lb ub st b IH|qs b IH] using stmt_ind'; intros IV IC PR indent text PT; cbn [printable_stmt stmt_vars stmt_calls] in PR, IV, IC.
  - (* assignment *)
    apply andb_true_iff in PR. destruct PR as [I PR]. destruct e as [e|]; [|discriminate]. cbn [opt_ok] in PR.
    cbn [pprint_stmt] in PT. apply cat_some in PT. destruct PT as (p1 & q1 & E1 & PT & ->). injection E1 as <-. rewrite LC in PT.
    unfold pprint_assignment in PT. apply cat_some in PT. destruct PT as (p2 & q2 & PT & E2 & ->). injection E2 as <-.
    apply cat_some in PT. destruct PT as (p3 & se & E3 & Ee & ->). injection E3 as <-. cbn [pprint_opt] in Ee.
    destruct (pprint_good vs e LvAdd ltac:(intros y Hy; apply IV; now right) ltac:(tauto) PR se Ee) as (ts & a & L & F & P & K & E).
    exists (TId x :: TOp OAssign :: ts ++ [TOp OSemi])%list, (CAssign x a). split; [|split; [exact Logic.I|split; [|split; [cbn [known_stmt]; now rewrite K, (str_in x vs (IV x (or_introl eq_refl)))|]]]].
    + rewrite <- (app_nil_l (TId x :: _)). apply closed_app; [apply spaces_closed|]. rewrite !app_assoc_s.
      apply (lexes_closed_app x [TId x]); [now apply lex_ident|discriminate|reflexivity|].
      apply (closed_app " = " [TOp OAssign]); [intro r; reflexivity|]. unfold end_of_stmt. rewrite LC.
      apply lexes_closed_app; [exact L|discriminate|reflexivity|]. intro r. reflexivity.
    + intro rest. destruct (adds_conds _ _ P (TOp OSemi :: rest) eq_refl) as [N E'].
      exists (Datatypes.S N). cbn [app parse_stmt]. destruct (ident_facts x I) as (Ka & Kb & Kc). rewrite Kb, Kc, Ka, <- app_assoc. cbn [app]. now rewrite E'.
    + intros rho rho' t H. rewrite exec1_eq in H. cbn [eval_opt] in H. destruct (eval rho e) as [z|] eqn:Ez; [|discriminate]. injection H as <- <-.
      constructor. now apply E.
  - (* call *)
    apply andb_true_iff in PR. destruct PR as [CN PR]. unfold call_name_ok in CN. apply andb_true_iff in CN. destruct CN as [I NM]. apply negb_true_iff in NM.
    cbn [pprint_stmt] in PT. apply cat_some in PT. destruct PT as (p1 & q1 & E1 & PT & ->). injection E1 as <-. unfold pprint_user in PT.
    apply cat_some in PT. destruct PT as (p2 & q2 & E2 & PT & ->). injection E2 as <-.
    apply cat_some in PT. destruct PT as (sa & q3 & Ea & PT & ->). injection PT as <-.
    destruct (good_args l sa IV PR Ea) as (ts & es & L & _ & P & (KL & KE) & E). set (f := stmt_label o stmt_name n) in *.
    exists (TId f :: TOp OLpar :: ts ++ [TOp OSemi])%list, (CProc f es). split; [|split; [exact Logic.I|split; [|split; [cbn [known_stmt]; rewrite KE, KL, andb_true_r; apply call_in, IC; now left|]]]].
    + rewrite <- (app_nil_l (TId f :: _)). apply closed_app; [apply spaces_closed|]. rewrite !app_assoc_s.
      apply (lexes_closed_app f [TId f]); [now apply lex_ident|discriminate|reflexivity|].
      apply (closed_app "(" [TOp OLpar]); [apply lpar_closed|]. change (closed (sa ++ (")" ++ end_of_stmt o)) (ts ++ [TOp OSemi])%list). rewrite <- app_assoc_s. apply closed_app; [exact L|].
      unfold end_of_stmt. rewrite LC. intro r. reflexivity.
    + intro rest. destruct (P (TOp OSemi :: rest)) as [N E']. exists (Datatypes.S N). cbn [app parse_stmt].
      destruct (ident_facts f I) as (K & K1 & K2). rewrite K1, K2, K, <- app_assoc. cbn [app]. now rewrite E'.
    + intros rho rho' t H. rewrite exec1_eq in H. destruct (eval_all rho l) as [zs|] eqn:Ez; [|discriminate]. injection H as <- <-.
      cbn [named map fst snd]. fold f. constructor; [now apply not_macro|now apply E].
  - (* block *)
    assert (G : good_stmts b).
    { apply good_list. rewrite forallb_forall in PR. rewrite Forall_forall in *. intros s Hs. apply IH; [exact Hs| | |now apply PR].
      - intros x Hx. apply IV, in_flat_map. now exists s.
      - intros x Hx. apply IC, in_flat_map. now exists s. }
    cbn [pprint_stmt] in PT. rewrite list_eq in PT. apply cat_some in PT. destruct PT as (p1 & q1 & E1 & PT & ->). injection E1 as <-.
    apply cat_some in PT. destruct PT as (p2 & q2 & E2 & PT & ->). injection E2 as <-.
    apply cat_some in PT. destruct PT as (sb & q3 & Eb & PT & ->). injection PT as <-.
    destruct (G _ _ Eb) as (ts & p & L & P & K & S).
    exists (TOp OLbrace :: ts ++ [TOp ORbrace])%list, (CBlock p). split; [|split; [exact Logic.I|split; [|split; [exact K|]]]].
    + rewrite <- (app_nil_l (TOp OLbrace :: _)). apply closed_app; [apply spaces_closed|].
      apply (closed_app ("{" ++ newline) [TOp OLbrace]); [intro r; reflexivity|]. apply closed_app; [exact L|].
      rewrite <- (app_nil_l [TOp ORbrace]). apply closed_app; [apply spaces_closed|]. intro r. reflexivity.
    + intro rest. destruct (P rest) as [N E']. exists (Datatypes.S N). cbn [app parse_stmt]. rewrite <- app_assoc. cbn [app]. now rewrite E'.
    + intros rho rho' t H. rewrite exec1_eq in H. constructor. now apply S.
  - (* loop *)
    do 5 (apply andb_true_iff in PR; destruct PR as [PR ?]).
    match goal with H : forallb (printable_stmt o stmt_name) b = true |- _ => rename H into PB end.
    match goal with H : stable it ub b = true |- _ => rename H into ST end.
    match goal with H : (1 <=? st) = true |- _ => rename H into SP end.
    match goal with H : opt_ok _ lb = true |- _ => rename H into PL end.
    match goal with H : opt_ok _ ub = true |- _ => rename H into PU end. rename PR into I.
    assert (G : good_stmts b).
    { apply good_list. rewrite forallb_forall in PB. rewrite Forall_forall in *. intros s Hs. apply IH; [exact Hs| | |now apply PB].
      - intros x Hx. apply IV. right. apply in_or_app. right. apply in_or_app. right. apply in_flat_map. now exists s.
      - intros x Hx. apply IC, in_flat_map. now exists s. }
    destruct lb as [lb|]; [|discriminate]. destruct ub as [ub|]; [|discriminate]. cbn [opt_ok] in *.
    cbn [pprint_stmt] in PT. rewrite list_eq in PT. apply cat_some in PT. destruct PT as (p1 & q1 & E1 & PT & ->). injection E1 as <-.
    apply cat_some in PT. destruct PT as (sh & q2 & Eh & PT & ->).
    apply cat_some in PT. destruct PT as (sb & q3 & Eb & PT & ->). injection PT as <-. rewrite LC.
    destruct (G _ _ Eb) as (tsb & p & L & P & KB & S).
    unfold pprint_for_header in Eh. rewrite LC in Eh.
    apply cat_some in Eh. destruct Eh as (h1 & r1 & X1 & Eh & ->). injection X1 as <-.
    apply cat_some in Eh. destruct Eh as (h2 & r2 & X2 & Eh & ->).
    apply cat_some in X2. destruct X2 as (h3 & sl & X3 & El & ->). injection X3 as <-.
    apply cat_some in Eh. destruct Eh as (h4 & r4 & X4 & Eh & ->). injection X4 as <-.
    apply cat_some in Eh. destruct Eh as (h5 & r5 & X5 & Eh & ->).
    apply cat_some in X5. destruct X5 as (h6 & su & X6 & Eu & ->). injection X6 as <-.
    destruct (pprint_good vs lb LvAdd ltac:(intros y Hy; apply IV; right; apply in_or_app; now left) ltac:(tauto) PL sl El) as (ts1 & a1 & L1 & F1 & P1 & K1 & V1).
    destruct (pprint_good vs ub LvAdd ltac:(intros y Hy; apply IV; right; apply in_or_app; right; apply in_or_app; now left) ltac:(tauto) PU su Eu) as (ts2 & a2 & L2 & F2 & P2 & K2 & V2).
    assert (HI : exists inc, closed r5 (TOp OSemi :: TId it :: inc ++ [TOp ORpar; TOp OLbrace])%list /\ sep r5 /\ r5 <> "" /\
                             (inc = [TOp OInc] /\ st = 1 \/ inc = [TOp OAddEq; TNum st])).
    { destruct (Z.ltb_spec 1 st).
      - apply cat_some in Eh. destruct Eh as (h7 & r7 & X7 & Eh & ->). injection X7 as <-.
        apply cat_some in Eh. destruct Eh as (h8 & r8 & X8 & Eh & ->). injection X8 as <-. injection Eh as <-.
        exists [TOp OAddEq; TNum st]. split; [|split; [reflexivity|split; [discriminate|now right]]].
        match goal with |- closed ?x _ => replace x with (";" ++ (it ++ ("+=" ++ (int_text st ++ (") {" ++ newline)))))
          by (cbn [append]; repeat (rewrite app_assoc_s; cbn [append]); reflexivity) end.
        apply (closed_app ";" [TOp OSemi]); [intro r; reflexivity|].
        apply (lexes_closed_app it [TId it]); [now apply lex_ident|discriminate|reflexivity|].
        apply (closed_app "+=" [TOp OAddEq]); [intro r; reflexivity|].
        destruct (int_nonneg st ltac:(lia)) as (dl & T & E). rewrite T. rewrite <- E at 1.
        apply (lexes_closed_app _ [TNum (Z.of_uint dl)]); [apply lex_uint|discriminate|reflexivity|]. intro r. reflexivity.
      - injection Eh as <-. exists [TOp OInc]. split; [|split; [reflexivity|split; [discriminate|left; split; [reflexivity|lia]]]].
        match goal with |- closed ?x _ => replace x with (";" ++ (it ++ ("++) {" ++ newline)))
          by (cbn [append]; repeat (rewrite app_assoc_s; cbn [append]); reflexivity) end.
        apply (closed_app ";" [TOp OSemi]); [intro r; reflexivity|].
        apply (lexes_closed_app it [TId it]); [now apply lex_ident|discriminate|reflexivity|]. intro r. reflexivity. }
    destruct HI as (inc & LI & SI & NI & CI).
    exists (TId "for" :: TOp OLpar :: TId it :: TOp OAssign :: ts1 ++ TOp OSemi :: TId it :: TOp OLe :: ts2 ++ TOp OSemi :: TId it ::
                       inc ++ TOp ORpar :: TOp OLbrace :: tsb ++ [TOp ORbrace])%list, (CFor it a1 a2 st p).
    split; [|split; [exact Logic.I|split; [|split; [cbn [known_stmt]; now rewrite K1, K2, KB, (str_in it vs (IV it (or_introl eq_refl)))|]]]].
    + rewrite <- (app_nil_l (TId "for" :: _)). apply closed_app; [apply spaces_closed|]. rewrite !app_assoc_s.
      apply (closed_app "for (" [TId "for"; TOp OLpar]); [intro r; reflexivity|].
      apply (lexes_closed_app it [TId it]); [now apply lex_ident|discriminate|reflexivity|].
      assert (LE : lexes ("=" ++ sl) (TOp OAssign :: ts1)).
      { intros r Sr. cbn [append]. rewrite lex_assign; [now rewrite L1|]. apply first_apart_minus; [tauto|]. now apply first_app. }
      rewrite <- (app_assoc_s "=" sl).
      apply (lexes_closed_app _ (TOp OAssign :: ts1)); [exact LE|discriminate|reflexivity|].
      apply (closed_app ";" [TOp OSemi]); [intro r; reflexivity|].
      apply (lexes_closed_app it [TId it]); [now apply lex_ident|discriminate|reflexivity|].
      apply (closed_app "<=" [TOp OLe]); [intro r; reflexivity|].
      apply lexes_closed_app; [exact L2|destruct r5; [congruence|discriminate]|destruct r5; [congruence|exact SI]|].
      replace (TOp OSemi :: TId it :: inc ++ TOp ORpar :: TOp OLbrace :: tsb ++ [TOp ORbrace])%list
        with ((TOp OSemi :: TId it :: inc ++ [TOp ORpar; TOp OLbrace]) ++ tsb ++ [] ++ [TOp ORbrace])%list
        by (cbn [app]; rewrite <- !app_assoc; reflexivity).
      apply closed_app; [exact LI|]. apply closed_app; [exact L|]. apply closed_app; [apply spaces_closed|]. intro r. reflexivity.
    + apply for_parse; try assumption; [apply (ident_facts it I)|now apply adds_conds].
    + intros rho rho' t H. rewrite exec1_eq in H. cbn [eval_opt] in H. destruct (eval rho lb) as [zl|] eqn:Zl; [|discriminate].
      destruct (eval rho ub) as [zu|] eqn:Zu; [|discriminate]. destruct (Z.ltb_spec 0 st); [|discriminate].
      unfold stable in ST. apply andb_true_iff in ST. destruct ST as [N1 N2]. cbn [opt_vars] in *. apply negb_true_iff in N1.
      rewrite forallb_forall in N2.
      assert (NI2 : forall x, In x (it :: vars ub) -> ~ In x (flat_map assigned b)).
      { intros x Hx Hin. specialize (N2 x Hx). apply negb_true_iff in N2. apply mem_str_in in Hin. congruence. }
      eapply R_for; [apply V1; exact Zl|]. eapply loop_runs; try eassumption.
      * reflexivity.
      * intro Hin. apply mem_str_in in Hin. congruence.
      * apply NI2. now left.
      * intros x Hx. apply NI2. now right.
  - (* guard *)
    apply andb_true_iff in PR. destruct PR as [PR PB]. apply andb_true_iff in PR. destruct PR as [NE PC]. apply negb_true_iff, Nat.eqb_neq in NE.
    assert (G : good_stmts b).
    { apply good_list. rewrite forallb_forall in PB. rewrite Forall_forall in *. intros s Hs. apply IH; [exact Hs| | |now apply PB].
      - intros x Hx. apply IV, in_or_app. right. apply in_flat_map. now exists s.
      - intros x Hx. apply IC, in_flat_map. now exists s. }
    cbn [pprint_stmt] in PT. rewrite list_eq in PT. apply cat_some in PT. destruct PT as (p1 & q1 & E1 & PT & ->). injection E1 as <-. rewrite LC in PT.
    apply cat_some in PT. destruct PT as (p2 & q2 & E2 & PT & ->). injection E2 as <-.
    apply cat_some in PT. destruct PT as (p3 & q3 & E3 & PT & ->). injection E3 as <-.
    apply cat_some in PT. destruct PT as (sc & q4 & Ec & PT & ->).
    apply cat_some in PT. destruct PT as (p5 & q5 & E5 & PT & ->). injection E5 as <-.
    apply cat_some in PT. destruct PT as (p6 & q6 & E6 & PT & ->). injection E6 as <-.
    apply cat_some in PT. destruct PT as (sb & q7 & Eb & PT & ->). injection PT as <-.
    destruct (G _ _ Eb) as (tsb & p & L & P & KB & S).
    assert (NE' : qs <> []) by (intros ->; apply NE; reflexivity).
    assert (IQ : incl (flat_map (fun q => vars (e_lhs q) ++ opt_vars (e_rhs q))%list qs) vs) by (intros x Hx; apply IV, in_or_app; now left).
    destruct (good_conds o qs LC sc IQ PC NE' Ec) as [GA GP].
    (* the condition with its parentheses *)
    set (par := negb (List.length qs <=? 1)%nat) in *.
    assert (GC : exists ts c, lexes ((if par then "(" else "") ++ sc ++ (if par then ")" else "")) (TOp OLpar :: ts ++ [TOp ORpar]) /\ conds ts c /\ known vs FS c = true /\
                   forall rho bb, all_hold rho qs = Some bb -> value MS rho c = Some (b2z bb)).
    { unfold par. destruct (Nat.leb_spec (List.length qs) 1); cbn [negb].
      - (* one condition: its own parentheses *)
        destruct qs as [|q [|q' qs]]; [congruence| |simpl in *; lia]. cbn [pprint_conds] in Ec.
        apply cat_some in Ec. destruct Ec as (c1 & d1 & X1 & Ec & ->). injection X1 as <-. apply cat_some in Ec. destruct Ec as (c2 & d2 & X2 & Ec & ->). injection X2 as <-.
        rewrite LC in Ec. apply cat_some in Ec. destruct Ec as (sq & d3 & Eq & Ec & ->). injection Ec as <-.
        cbn [forallb] in PC. apply andb_true_iff in PC. destruct (good_eqn q sq ltac:(intros x Hx; apply IQ; cbn [flat_map]; apply in_or_app; now left) (proj1 PC) Eq) as (ts & a & LL & F & PP & K & E).
        exists ts, a. split; [|split; [|split; [exact K|]]].
        + cbn [append]. try rewrite !app_nil_s. apply closed_lexes. apply (closed_app "(" [TOp OLpar]); [apply lpar_closed|].
          apply lexes_closed_app; [exact LL|discriminate|reflexivity|]. intro r. reflexivity.
        + now apply ands_conds, cmps_ands.
        + intros rho bb Hb. cbn [all_hold] in Hb. destruct (eqn_holds rho q) as [b0|] eqn:Eh; [|discriminate]. injection Hb as <-. rewrite andb_true_r.
          apply E. now rewrite Eh.
      - destruct GA as (ts & a & LL & F & PP & K & E). exists ts, a. split; [|split; [|split; [exact K|]]].
        + apply closed_lexes. apply (closed_app "(" [TOp OLpar]); [apply lpar_closed|].
          apply lexes_closed_app; [exact LL|discriminate|reflexivity|]. intro r. reflexivity.
        + now apply ands_conds.
        + intros rho bb Hb. apply E. now rewrite Hb. }
    destruct GC as (ts & c & LL & PP & KC & E).
    exists (TId "if" :: TOp OLpar :: ts ++ TOp ORpar :: TOp OLbrace :: tsb ++ [TOp ORbrace])%list, (CWhen c p).
    split; [|split; [exact Logic.I|split; [|split; [cbn [known_stmt]; now rewrite KC, KB|]]]].
    + rewrite <- (app_nil_l (TId "if" :: _)). apply closed_app; [apply spaces_closed|].
      apply (closed_app "if " [TId "if"]); [intro r; reflexivity|].
      match goal with |- closed ?x _ =>
        replace x with (((if par then "(" else "") ++ sc ++ (if par then ")" else "")) ++ (" {" ++ (newline ++ (sb ++ (spaces indent ++ ("}" ++ newline))))))
          by (try rewrite LC; repeat (rewrite app_assoc_s; cbn [append]); reflexivity) end.
      replace (TOp OLpar :: ts ++ TOp ORpar :: TOp OLbrace :: tsb ++ [TOp ORbrace])%list
        with ((TOp OLpar :: ts ++ [TOp ORpar]) ++ [TOp OLbrace] ++ [] ++ tsb ++ [] ++ [TOp ORbrace])%list by (cbn [app]; rewrite <- !app_assoc; reflexivity).
      apply lexes_closed_app; [exact LL|discriminate|reflexivity|].
      apply closed_app; [intro r; reflexivity|]. apply closed_app; [apply newline_closed|]. apply closed_app; [exact L|].
      apply closed_app; [apply spaces_closed|]. intro r. reflexivity.
    + now apply if_parse.
    + intros rho rho' t H. rewrite exec1_eq in H. destruct (all_hold rho qs) as [[]|] eqn:Ah; [| |discriminate].
      * eapply R_then; [apply (E _ _ Ah)|discriminate|now apply S].
      * injection H as <- <-. apply R_skip. exact (E _ _ Ah).
Qed.
Theorem pprint_stmts_good : forall ss, incl (flat_map stmt_vars ss) vs -> incl (flat_map stmt_calls ss) cs -> forallb (printable_stmt o stmt_name) ss = true -> good_stmts ss.
Proof.
  intros ss IV IC PR. apply good_list. rewrite forallb_forall in PR. rewrite Forall_forall. intros s Hs. apply pprint_stmt_good; [| |now apply PR].
  - intros x Hx. apply IV, in_flat_map. now exists s.
  - intros x Hx. apply IC, in_flat_map. now exists s.
Qed.
End User.
End Names.
Theorem pprint_program_good : forall o stmt_name, p_lang o = LangC -> forall indent ss text, forallb (printable_stmt o stmt_name) ss = true -> (p_callable o = false \/ ss <> []) ->
  clast_pprint o stmt_name indent ss = Some text -> exists p, reads text p /\ same o stmt_name ss p.
Proof.
  intros o stmt_name LC indent ss text PR NE PT.
  pose proof (pprint_stmts_good (flat_map stmt_vars ss) o stmt_name LC (flat_map stmt_calls ss) ss (incl_refl _) (incl_refl _) PR) as G.
  unfold clast_pprint in PT. apply cat_some in PT. destruct PT as (p1 & q1 & E1 & PT & ->).
  assert (N : p1 = "").
  { unfold say in E1. injection E1 as <-. destruct ss; [|reflexivity]. destruct NE as [->|NE]; [reflexivity|congruence]. }
  rewrite N. cbn [append]. destruct (G _ _ PT) as (ts & p & L & P & _ & S). exists p. split; [|exact S].
  unfold reads. destruct (P []) as [M E]. exists M. unfold tokens. specialize (L ""). rewrite app_nil_s in L. rewrite L. cbn [lex flush]. now rewrite app_nil_r.
Qed.
