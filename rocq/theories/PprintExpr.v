(** The text printed for an expression in C has the value of the expression. *)
From Coq Require Import ZArith List Bool Arith String Ascii Lia.
From Verif Require Import ClastSpec ClastModel ClastCmp PprintModel CReader PprintSpec PprintLex PprintParse.
Import ListNotations.
Local Open Scope string_scope.
Local Open Scope Z_scope.
Local Arguments Z.mul : simpl never.
Local Arguments Z.add : simpl never.
Local Arguments Nat.leb : simpl never.

Notation MS := program_macros.
Definition shape (lv : level) : list token -> cexpr -> Prop :=
  match lv with LvPrim => prims | LvUn => uns | LvMul => muls | LvAdd => adds | LvCmp => cmps | LvAnd => ands | LvCond => conds end.
Definition first_ok (lv : level) (s : string) : Prop := first_in (match lv with LvPrim => prim_char | _ => expr_char end) s.
Notation FS := (arities program_macros).
Notation pe := (pprint_expr LangC).
Ltac known_parts := solve [cbn [known forallb]; repeat match goal with K : known _ _ _ = true |- _ => rewrite K; clear K end; reflexivity].
Ltac split5 := split; [|split; [try reflexivity|split; [|split; [try known_parts|]]]].
Section Good.
(** names that can be used *)
Variable vs : list string.
(** [s] is an expression of level [lv] with the value [V], and all its names can be used *)
Definition good (lv : level) (s : string) (V : env -> option Z) : Prop :=
  exists ts a, lexes s ts /\ first_ok lv s /\ shape lv ts a /\ known vs FS a = true /\ forall rho z, V rho = Some z -> value MS rho a = Some z.

Lemma prim_expr_char : forall c, prim_char c = true -> expr_char c = true.
Proof. intros c H. unfold prim_char, expr_char in *. apply orb_true_iff in H. apply orb_true_iff. destruct H as [->|H]; [now left|now right]. Qed.
Lemma first_expr : forall lv s, first_ok lv s -> first_in expr_char s.
Proof. intros [] s H; try exact H. eapply first_weaken; [apply prim_expr_char|exact H]. Qed.
Lemma prim_un : forall s V, good LvPrim s V -> good LvUn s V.
Proof. intros s V (ts & a & L & F & P & K & E). exists ts, a. split5; try assumption; [now apply (first_expr LvPrim)|now apply prims_uns]. Qed.
Lemma un_mul : forall s V, good LvUn s V -> good LvMul s V.
Proof. intros s V (ts & a & L & F & P & K & E). exists ts, a. split5; try assumption. now apply uns_muls. Qed.
Lemma mul_add : forall s V, good LvMul s V -> good LvAdd s V.
Proof. intros s V (ts & a & L & F & P & K & E). exists ts, a. split5; try assumption. now apply muls_adds. Qed.
Lemma add_cond : forall s V, good LvAdd s V -> good LvCond s V.
Proof. intros s V (ts & a & L & F & P & K & E). exists ts, a. split5; try assumption. now apply adds_conds. Qed.
Lemma prim_lv : forall lv s V, (lv = LvPrim \/ lv = LvMul \/ lv = LvAdd) -> good LvPrim s V -> good lv s V.
Proof. intros lv s V [->|[-> | ->]] G; [exact G|now apply un_mul, prim_un|now apply mul_add, un_mul, prim_un]. Qed.
Lemma un_lv : forall lv s V, (lv = LvMul \/ lv = LvAdd) -> good LvUn s V -> good lv s V.
Proof. intros lv s V [-> | ->] G; [now apply un_mul|now apply mul_add, un_mul]. Qed.
Lemma mul_lv : forall lv s V, (lv = LvMul \/ lv = LvAdd) -> good LvMul s V -> good lv s V.
Proof. intros lv s V [-> | ->] G; [exact G|now apply mul_add]. Qed.
Lemma good_ext : forall lv s V W, (forall rho z, W rho = Some z -> V rho = Some z) -> good lv s V -> good lv s W.
Proof. intros lv s V W H (ts & a & L & F & P & K & E). exists ts, a. split5; try assumption. intros rho z Hz. apply E, H, Hz. Qed.

Lemma str_in : forall x l, In x l -> existsb (String.eqb x) l = true.
Proof. intros x l H. apply existsb_exists. exists x. split; [exact H|apply String.eqb_refl]. Qed.
Lemma good_ident : forall s, ident s = true -> In s vs -> good LvPrim s (fun rho => rho s).
Proof.
  intros s I Hin. apply str_in in Hin. exists [TId s], (CVar s). split5.
  - now apply lex_ident.
  - eapply first_weaken; [|apply ident_first, I]. intros c H. unfold prim_char, is_idchar. rewrite H. reflexivity.
  - unfold ident in I. apply andb_true_iff in I. apply var_prims. now apply negb_true_iff.
  - exact Hin.
  - intros rho z H. exact H.
Qed.
Lemma good_num : forall z, 0 <= z -> good LvPrim (int_text z) (fun _ => Some z).
Proof.
  intros z H. destruct (int_nonneg z H) as (l & T & E). exists [TNum z], (CInt z). rewrite T. split5.
  - rewrite <- E. apply lex_uint.
  - eapply first_weaken; [|apply uint_first]. intros c D. unfold prim_char, is_idchar. rewrite D, orb_true_r. reflexivity.
  - apply num_prims.
  - intros rho v Hv. exact Hv.
Qed.
(** - in front of a primary expression *)
Lemma good_neg : forall s V, good LvPrim s V -> good LvUn ("-" ++ s) (fun rho => option_map Z.opp (V rho)).
Proof.
  intros s V (ts & a & L & F & P & K & E). exists (TOp OMinus :: ts), (CNeg a). split5.
  - intros r S. cbn [append]. rewrite lex_minus; [now rewrite L|]. apply first_apart; [reflexivity|]. now apply first_app.
  - apply neg_uns, prims_uns, P.
  - intros rho z H. destruct (V rho) as [v|] eqn:Ev; [|discriminate]. injection H as <-. unfold value in *. cbn [expand cval]. now rewrite (E _ _ Ev).
Qed.
Lemma good_negnum : forall z, z < 0 -> good LvUn (int_text z) (fun _ => Some z).
Proof.
  intros z H. destruct (int_neg z H) as (l & T & E). destruct (int_nonneg (- z) ltac:(lia)) as (l' & T' & E').
  rewrite T. eapply good_ext with (V := fun rho => option_map Z.opp (Some (- z))).
  - intros rho v Hv. injection Hv as <-. cbn. f_equal. lia.
  - apply good_neg. exists [TNum (- z)], (CInt (- z)). split5.
    + rewrite <- E. apply lex_uint.
    + eapply first_weaken; [|apply uint_first]. intros c D. unfold prim_char, is_idchar. rewrite D, orb_true_r. reflexivity.
    + apply num_prims.
    + intros rho v Hv. exact Hv.
Qed.
Lemma good_int : forall lv z, (lv = LvMul \/ lv = LvAdd) -> good lv (int_text z) (fun _ => Some z).
Proof.
  intros lv z L. destruct (Z_lt_le_dec z 0).
  - apply un_lv; [exact L|]. now apply good_negnum.
  - apply prim_lv; [tauto|]. now apply good_num.
Qed.
(** products with a number *)
Definition times (z : Z) (V : env -> option Z) : env -> option Z := fun rho => option_map (Z.mul z) (V rho).
Lemma sep_char : forall c r, is_idchar c = false -> sep (String c r).
Proof. intros; assumption. Qed.
Lemma good_times : forall lv z s V, (lv = LvMul \/ lv = LvAdd) -> good LvPrim s V -> good lv (int_text z ++ "*" ++ s) (times z V).
Proof.
  intros lv z s V Hl G.
  assert (U : exists t, good LvUn t (fun _ => Some z) /\ t = int_text z).
  { exists (int_text z). split; [|reflexivity]. destruct (Z_lt_le_dec z 0); [now apply good_negnum|now apply prim_un, good_num]. }
  destruct U as (t & (ts1 & a1 & L1 & F1 & P1 & K1 & E1) & Et). rewrite <- Et.
  destruct G as (ts & a & L & F & P & K & E). apply mul_lv; [exact Hl|].
  exists (ts1 ++ TOp OStar :: ts)%list, (COp CMul a1 a). split5.
  - apply lexes_app; [exact L1|discriminate|reflexivity|].
    intros r S. cbn [append]. rewrite lex_star; [now rewrite L|]. apply first_apart; [reflexivity|]. now apply first_app.
  - now apply first_app.
  - apply mul_muls; [now apply uns_muls|reflexivity|now apply prims_uns].
  - intros rho v H. unfold times in H. destruct (V rho) as [x|] eqn:Ev; [|discriminate]. injection H as <-.
    specialize (E _ _ Ev). specialize (E1 rho z eq_refl). unfold value in *. cbn [expand cval]. now rewrite E1, E.
Qed.
(** parentheses *)
Lemma lpar_closed : closed "(" [TOp OLpar].
Proof. intro r. reflexivity. Qed.
Lemma rpar_closed : closed ")" [TOp ORpar].
Proof. intro r. reflexivity. Qed.
Lemma comma_closed : closed "," [TOp OComma].
Proof. intro r. reflexivity. Qed.
Lemma good_paren : forall s V, good LvCond s V -> good LvPrim ("(" ++ s ++ ")") V.
Proof.
  intros s V (ts & a & L & F & P & K & E). exists (TOp OLpar :: ts ++ [TOp ORpar])%list, a. split5.
  - apply closed_lexes. apply (closed_app "(" [TOp OLpar]); [apply lpar_closed|].
    apply lexes_closed_app; [exact L|discriminate|reflexivity|apply rpar_closed].
  - now apply paren_prims.
  - exact E.
Qed.
(** macro calls with two arguments *)
Lemma good_call2 : forall f s1 V1 s2 V2 V, ident f = true -> callable FS f 2 = true -> good LvCond s1 V1 -> good LvCond s2 V2 ->
  (forall rho z, V rho = Some z -> exists x y, V1 rho = Some x /\ V2 rho = Some y /\
     forall a1 a2, value MS rho a1 = Some x -> value MS rho a2 = Some y -> value MS rho (CCall f [a1; a2]) = Some z) ->
  good LvPrim (f ++ "(" ++ s1 ++ "," ++ s2 ++ ")") V.
Proof.
  intros f s1 V1 s2 V2 V I HF (ts1 & a1 & L1 & F1 & P1 & K1 & E1) (ts2 & a2 & L2 & F2 & P2 & K2 & E2) H.
  exists (TId f :: TOp OLpar :: ts1 ++ TOp OComma :: ts2 ++ [TOp ORpar])%list, (CCall f [a1; a2]). split5.
  - apply closed_lexes. apply (lexes_closed_app f [TId f]); [now apply lex_ident|discriminate|reflexivity|].
    apply (closed_app "(" [TOp OLpar]); [apply lpar_closed|].
    apply lexes_closed_app; [exact L1|discriminate|reflexivity|].
    apply (closed_app "," [TOp OComma]); [apply comma_closed|].
    apply lexes_closed_app; [exact L2|discriminate|reflexivity|apply rpar_closed].
  - apply first_app. eapply first_weaken; [|apply ident_first, I]. intros c D. unfold prim_char, is_idchar. rewrite D. reflexivity.
  - unfold ident in I. apply andb_true_iff in I. apply call2_prims; [now apply negb_true_iff|exact P1|exact P2].
  - cbn [known forallb List.length]. now rewrite HF, K1, K2.
  - intros rho z Hz. destruct (H _ _ Hz) as (x & y & Hx & Hy & Hv). apply Hv; [now apply E1|now apply E2].
Qed.
(** the macros *)
Lemma floor_trunc : forall n d, 0 < d -> (if n <? 0 then - (Z.quot (- n + d - 1) d) else Z.quot n d) = n / d.
Proof.
  intros n d D. destruct (Z.ltb_spec n 0).
  - rewrite Z.quot_div_nonneg by lia.
    assert (n = d * (n / d) + n mod d) by (apply Z.div_mod; lia). pose proof (Z.mod_pos_bound n d D).
    assert ((- n + d - 1) / d = - (n / d)); [|lia].
    symmetry. apply (Z.div_unique _ _ _ (d - 1 - n mod d)); [left; lia|]. lia.
  - now rewrite Z.quot_div_nonneg by lia.
Qed.
Lemma ceil_trunc : forall n d, 0 < d -> (if n <? 0 then - (Z.quot (- n) d) else Z.quot (n + d - 1) d) = - (- n / d).
Proof.
  intros n d D. destruct (Z.ltb_spec n 0).
  - now rewrite Z.quot_div_nonneg by lia.
  - rewrite Z.quot_div_nonneg by lia.
    assert (- n = d * (- n / d) + (- n) mod d) by (apply Z.div_mod; lia). pose proof (Z.mod_pos_bound (- n) d D).
    symmetry. apply (Z.div_unique _ _ _ (d - 1 - (- n) mod d)); [left; lia|]. lia.
Qed.
Lemma b2z_test : forall b : bool, (b2z b =? 0) = negb b.
Proof. intros []; reflexivity. Qed.
Lemma d_test : forall d, 0 < d -> (d =? 0) = false.
Proof. intros. apply Z.eqb_neq. lia. Qed.
Lemma value_floord : forall rho a1 a2 x d, value MS rho a1 = Some x -> value MS rho a2 = Some d -> 0 < d ->
  value MS rho (CCall "floord" [a1; a2]) = Some (x / d).
Proof.
  intros rho a1 a2 x d H1 H2 D. unfold value in *.
  transitivity (cval rho (CIf (COp CLt (expand MS a1) (CInt 0))
     (CNeg (COp CDiv (COp CSub (COp CAdd (CNeg (expand MS a1)) (expand MS a2)) (CInt 1)) (expand MS a2)))
     (COp CDiv (expand MS a1) (expand MS a2)))); [reflexivity|].
  cbn [cval]. rewrite H1, H2. cbn [bin_meaning]. rewrite b2z_test, (d_test d D), <- (floor_trunc x d D). now destruct (x <? 0).
Qed.
Lemma value_ceild : forall rho a1 a2 x d, value MS rho a1 = Some x -> value MS rho a2 = Some d -> 0 < d ->
  value MS rho (CCall "ceild" [a1; a2]) = Some (- ((- x) / d)).
Proof.
  intros rho a1 a2 x d H1 H2 D. unfold value in *.
  transitivity (cval rho (CIf (COp CLt (expand MS a1) (CInt 0))
     (CNeg (COp CDiv (CNeg (expand MS a1)) (expand MS a2)))
     (COp CDiv (COp CSub (COp CAdd (expand MS a1) (expand MS a2)) (CInt 1)) (expand MS a2)))); [reflexivity|].
  cbn [cval]. rewrite H1, H2. cbn [bin_meaning]. rewrite b2z_test, (d_test d D), <- (ceil_trunc x d D). now destruct (x <? 0).
Qed.
Lemma value_max : forall rho a1 a2 x y, value MS rho a1 = Some x -> value MS rho a2 = Some y ->
  value MS rho (CCall "max" [a1; a2]) = Some (Z.max x y).
Proof.
  intros rho a1 a2 x y H1 H2. unfold value in *.
  transitivity (cval rho (CIf (COp CGt (expand MS a1) (expand MS a2)) (expand MS a1) (expand MS a2))); [reflexivity|].
  cbn [cval]. rewrite H1, H2. cbn [bin_meaning]. rewrite b2z_test. destruct (Z.ltb_spec y x); cbn [negb]; f_equal; lia.
Qed.
Lemma value_min : forall rho a1 a2 x y, value MS rho a1 = Some x -> value MS rho a2 = Some y ->
  value MS rho (CCall "min" [a1; a2]) = Some (Z.min x y).
Proof.
  intros rho a1 a2 x y H1 H2. unfold value in *.
  transitivity (cval rho (CIf (COp CLt (expand MS a1) (expand MS a2)) (expand MS a1) (expand MS a2))); [reflexivity|].
  cbn [cval]. rewrite H1, H2. cbn [bin_meaning]. rewrite b2z_test. destruct (Z.ltb_spec x y); cbn [negb]; f_equal; lia.
Qed.
Lemma good_floord : forall s V d, good LvAdd s V -> 0 < d ->
  good LvPrim ("floord(" ++ s ++ "," ++ int_text d ++ ")") (fun rho => option_map (fun x => x / d) (V rho)).
Proof.
  intros s V d G D. change ("floord(" ++ s ++ "," ++ int_text d ++ ")") with ("floord" ++ "(" ++ s ++ "," ++ int_text d ++ ")").
  eapply good_call2; [reflexivity|reflexivity|apply add_cond, G|apply add_cond, (good_int LvAdd); tauto|].
  intros rho z H. destruct (V rho) as [x|]; [|discriminate]. injection H as <-. exists x, d. repeat split.
  intros a1 a2 H1 H2. now apply value_floord.
Qed.
Lemma good_ceild : forall s V d, good LvAdd s V -> 0 < d ->
  good LvPrim ("ceild(" ++ s ++ "," ++ int_text d ++ ")") (fun rho => option_map (fun x => - ((- x) / d)) (V rho)).
Proof.
  intros s V d G D. change ("ceild(" ++ s ++ "," ++ int_text d ++ ")") with ("ceild" ++ "(" ++ s ++ "," ++ int_text d ++ ")").
  eapply good_call2; [reflexivity|reflexivity|apply add_cond, G|apply add_cond, (good_int LvAdd); tauto|].
  intros rho z H. destruct (V rho) as [x|]; [|discriminate]. injection H as <-. exists x, d. repeat split.
  intros a1 a2 H1 H2. now apply value_ceild.
Qed.
(** quotients and remainders *)
Lemma good_quot : forall s V d, good LvMul s V -> 0 < d -> good LvMul (s ++ "/" ++ int_text d) (fun rho => option_map (fun x => Z.quot x d) (V rho)).
Proof.
  intros s V d (ts & a & L & F & P & K & E) D. destruct (good_num d ltac:(lia)) as (ts' & a' & L' & F' & P' & K' & E').
  exists (ts ++ TOp OSlash :: ts')%list, (COp CDiv a a'). split5.
  - apply lexes_app; [exact L|discriminate|reflexivity|].
    intros r S. cbn [append]. rewrite lex_slash; [now rewrite L'|]. apply first_apart; [reflexivity|]. now apply first_app.
  - now apply first_app.
  - apply mul_muls; [exact P|reflexivity|now apply prims_uns].
  - intros rho z H. destruct (V rho) as [x|] eqn:Ev; [|discriminate]. injection H as <-.
    specialize (E _ _ Ev). specialize (E' rho d eq_refl). unfold value in *. cbn [expand cval]. rewrite E, E'. cbn [bin_meaning]. now rewrite (d_test d D).
Qed.
Lemma good_rem : forall s V d, good LvMul s V -> 0 < d -> good LvMul (s ++ "%" ++ int_text d) (fun rho => option_map (fun x => Z.rem x d) (V rho)).
Proof.
  intros s V d (ts & a & L & F & P & K & E) D. destruct (good_num d ltac:(lia)) as (ts' & a' & L' & F' & P' & K' & E').
  exists (ts ++ TOp OPercent :: ts')%list, (COp CMod a a'). split5.
  - apply lexes_app; [exact L|discriminate|reflexivity|].
    intros r S. cbn [append]. rewrite lex_percent; [now rewrite L'|]. apply first_apart; [reflexivity|]. now apply first_app.
  - now apply first_app.
  - apply mul_muls; [exact P|reflexivity|now apply prims_uns].
  - intros rho z H. destruct (V rho) as [x|] eqn:Ev; [|discriminate]. injection H as <-.
    specialize (E _ _ Ev). specialize (E' rho d eq_refl). unfold value in *. cbn [expand cval]. rewrite E, E'. cbn [bin_meaning]. now rewrite (d_test d D).
Qed.
(** sums *)
Definition plus (V W : env -> option Z) : env -> option Z :=
  fun rho => match V rho, W rho with Some x, Some y => Some (x + y) | _, _ => None end.
Lemma good_plus : forall s V s' W, good LvAdd s V -> good LvMul s' W -> good LvAdd (s ++ "+" ++ s') (plus V W).
Proof.
  intros s V s' W (ts & a & L & F & P & K & E) (ts' & a' & L' & F' & P' & K' & E').
  exists (ts ++ TOp OPlus :: ts')%list, (COp CAdd a a'). split5.
  - apply lexes_app; [exact L|discriminate|reflexivity|].
    intros r S. cbn [append]. rewrite lex_plus; [now rewrite L'|]. apply first_apart_minus; [tauto|]. now apply first_app.
  - now apply first_app.
  - apply add_adds; [exact P|reflexivity|exact P'].
  - intros rho z H. unfold plus in H. destruct (V rho) as [x|] eqn:Ev; [|discriminate]. destruct (W rho) as [y|] eqn:Ew; [|discriminate].
    injection H as <-. specialize (E _ _ Ev). specialize (E' _ _ Ew). unfold value in *. cbn [expand cval]. now rewrite E, E'.
Qed.
Lemma good_minus : forall s V s' W, good LvAdd s V -> good LvMul s' W -> first_in prim_char s' ->
  good LvAdd (s ++ "-" ++ s') (plus V (fun rho => option_map Z.opp (W rho))).
Proof.
  intros s V s' W (ts & a & L & F & P & K & E) (ts' & a' & L' & F' & P' & K' & E') FP.
  exists (ts ++ TOp OMinus :: ts')%list, (COp CSub a a'). split5.
  - apply lexes_app; [exact L|discriminate|reflexivity|].
    intros r S. cbn [append]. rewrite lex_minus; [now rewrite L'|]. apply first_apart; [reflexivity|]. now apply first_app.
  - now apply first_app.
  - apply add_adds; [exact P|reflexivity|exact P'].
  - intros rho z H. unfold plus in H. destruct (V rho) as [x|] eqn:Ev; [|discriminate]. destruct (W rho) as [y|] eqn:Ew; [|discriminate].
    injection H as <-. specialize (E _ _ Ev). specialize (E' _ _ Ew). unfold value in *. cbn [expand cval]. rewrite E, E'. reflexivity.
Qed.

(** ** All expressions *)
Fixpoint sum_tail (ts : list expr) : option string :=
  match ts with
  | [] => say ""
  | t :: ts' => match t with ETerm v _ => cat (say (if 0 <? v then "+" else "")) (cat (pe t) (sum_tail ts')) | _ => None end
  end.
Fixpoint opens (name : string) (xs : list expr) : string := match xs with [] => "" | _ :: xs' => (name ++ "(") ++ opens name xs' end.
Fixpoint mm_tail (xs : list expr) : option string :=
  match xs with [] => say "" | y :: xs' => cat (say ",") (cat (pe y) (cat (say ")") (mm_tail xs'))) end.
Fixpoint vals (rho : env) (l : list expr) : option (list Z) :=
  match l with
  | [] => Some []
  | e :: l' => match eval rho e, vals rho l' with Some z, Some zs => Some (z :: zs) | _, _ => None end
  end.
Lemma eval_red : forall rho t l, eval rho (ERed t l) = match vals rho l with Some (z :: zs) => Some (fold_left (red_val t) zs z) | _ => None end.
Proof.
  intros rho t l. cbn [eval]. match goal with |- match ?f l with _ => _ end = _ => assert (E : f l = vals rho l) end.
  { induction l as [|e l IH]; [reflexivity|]. cbn [vals]. rewrite <- IH. reflexivity. }
  rewrite E. reflexivity.
Qed.
Lemma pe_sum : forall t ts, pe (ERed RSum (t :: ts)) = match t with ETerm _ _ => cat (pe t) (sum_tail ts) | _ => None end.
Proof.
  intros t ts. cbn [pprint_expr]. match goal with |- match t with ETerm _ _ => cat ?x (?f ts) | _ => _ end = _ => assert (E : forall l, f l = sum_tail l) end.
  { induction l as [|e l IH]; [reflexivity|]. cbn [sum_tail]. rewrite <- IH. reflexivity. }
  now rewrite E.
Qed.
Definition mm_name (t : red_type) : string := match t with RMax => "max" | _ => "min" end.
Lemma pe_mm : forall t x y xs, t <> RSum -> pe (ERed t (x :: y :: xs)) = cat (say (opens (mm_name t) (y :: xs))) (cat (pe x) (mm_tail (y :: xs))).
Proof.
  intros t x y xs N. destruct t; [congruence| |]; cbn [pprint_expr];
  match goal with |- cat (say (append ?q (?g xs))) (cat ?p (cat ?u (cat ?v (cat ?w (?f xs))))) = cat (say (opens ?nm _)) _ =>
    assert (E : forall l, f l = mm_tail l) by (induction l as [|e l IH]; [reflexivity|cbn [mm_tail]; rewrite <- IH; reflexivity]);
    assert (E' : forall l, g l = opens nm l) by (induction l as [|e l IH]; [reflexivity|cbn [opens]; rewrite <- IH; reflexivity]) end.
  all: rewrite E; rewrite E'; reflexivity.
Qed.
Lemma cat_some : forall a b s, cat a b = Some s -> exists x y, a = Some x /\ b = Some y /\ s = x ++ y.
Proof. intros [x|] [y|] s H; try discriminate. injection H as <-. now exists x, y. Qed.
Lemma opens_comm : forall name xs, opens name xs ++ (name ++ "(") = (name ++ "(") ++ opens name xs.
Proof. induction xs as [|x xs IH]; [now rewrite app_nil_s|]. cbn [opens]. rewrite !app_assoc_s in *. now rewrite IH. Qed.

(** a term after another one *)
Lemma good_term_tail : forall s V v var t, good LvAdd s V -> v <> 0 -> printable LvMul (ETerm v var) = true ->
  (forall x, var = Some x -> forall lv, (lv = LvPrim \/ lv = LvMul \/ lv = LvAdd) -> printable lv x = true ->
     forall s, pe x = Some s -> good lv s (fun rho => eval rho x)) ->
  pe (ETerm v var) = Some t ->
  good LvAdd (s ++ (if 0 <? v then "+" else "") ++ t) (plus V (fun rho => eval rho (ETerm v var))).
Proof.
  intros s V v var t G NZ PR IH PT.
  destruct var as [x|].
  - (* with a variable *)
    cbn [pprint_expr] in PT. apply cat_some in PT. destruct PT as (p1 & q1 & E1 & PT & ->). injection E1 as <-.
    apply cat_some in PT. destruct PT as (p2 & q2 & E2 & PT & ->). injection E2 as <-.
    apply cat_some in PT. destruct PT as (sx & q3 & Ex & PT & ->). injection PT as <-.
    specialize (IH x eq_refl). cbn [printable] in PR.
    (* the text of the variable, in parentheses or not *)
    set (tx := (if is_group x then "(" else "") ++ sx ++ (if is_group x then ")" else "")).
    assert (GX : v <> 1 -> good LvPrim tx (fun rho => eval rho x)).
    { intro N1. unfold tx. destruct (is_group x).
      - apply andb_true_iff in PR. destruct PR as [_ PR]. apply good_paren, add_cond. apply IH; tauto.
      - destruct (Z.eqb_spec v 1); [lia|]. cbn [append]. rewrite app_nil_s. apply IH; [tauto| |exact Ex]. apply andb_true_iff in PR. apply PR. }
    assert (GM : v = 1 -> good LvMul tx (fun rho => eval rho x)).
    { intros ->. unfold tx. destruct (is_group x).
      - apply andb_true_iff in PR. destruct PR as [_ PR]. apply prim_lv; [tauto|]. apply good_paren, add_cond. apply IH; tauto.
      - cbn [append]. rewrite app_nil_s. apply IH; tauto. }
    fold tx. destruct (Z.ltb_spec 0 v).
    + destruct (Z.eqb_spec v 1).
      * subst v. cbn [append].
        eapply good_ext; [|apply good_plus; [exact G|now apply GM]].
        intros rho z. unfold plus. cbn [eval]. destruct (V rho); [|intro; discriminate]. destruct (eval rho x); [|intro; discriminate].
        intro H0. injection H0 as <-; try reflexivity; f_equal; lia.
      * destruct (Z.eqb_spec v (-1)); [lia|]. rewrite app_assoc_s.
        eapply good_ext; [|apply good_plus; [exact G|apply (good_times LvMul v _ (fun rho => eval rho x)); [tauto|now apply GX]]].
        intros rho z. unfold plus, times. cbn [eval]. destruct (V rho); [|intro; discriminate]. destruct (eval rho x); [|intro; discriminate]. tauto.
    + destruct (Z.eqb_spec v 1); [lia|]. destruct (Z.eqb_spec v (-1)).
      * subst v. cbn [append]. change (s ++ String "-" tx) with (s ++ "-" ++ tx).
        assert (GX' := GX ltac:(lia)).
        eapply good_ext; [|apply good_minus; [exact G|apply prim_lv; [tauto|exact GX']|destruct GX' as (? & ? & _ & F & _); exact F]].
        intros rho z. unfold plus. cbn [eval]. destruct (V rho); [|intro; discriminate]. destruct (eval rho x); [|intro; discriminate].
        cbn [option_map]. intro H0. injection H0 as <-; try reflexivity; f_equal; lia.
      * destruct (int_neg v ltac:(lia)) as (l & T & E). destruct (int_nonneg (- v) ltac:(lia)) as (l' & T' & E').
        assert (TT : int_text v = "-" ++ int_text (- v)).
        { unfold int_text. destruct v; [lia|lia|reflexivity]. }
        rewrite TT. cbn [append]. rewrite app_assoc_s.
        change (s ++ String "-" (int_text (- v) ++ "*" ++ tx)) with (s ++ "-" ++ (int_text (- v) ++ "*" ++ tx)).
        eapply good_ext; [|apply good_minus; [exact G|apply (good_times LvMul (- v) _ (fun rho => eval rho x)); [tauto|now apply GX]|]].
        -- intros rho z. unfold plus, times. cbn [eval]. destruct (V rho); [|intro; discriminate]. destruct (eval rho x); [|intro; discriminate].
           cbn [option_map]. intro H0. injection H0 as <-; try reflexivity; f_equal; lia.
        -- apply first_app. destruct (good_num (- v) ltac:(lia)) as (? & ? & _ & F & _). exact F.
  - cbn [pprint_expr] in PT. injection PT as <-. destruct (Z.ltb_spec 0 v).
    + eapply good_ext; [|apply good_plus; [exact G|apply (good_int LvMul v); tauto]]. intros rho z H'. exact H'.
    + assert (TT : int_text v = "-" ++ int_text (- v)) by (unfold int_text; destruct v; [lia|lia|reflexivity]).
      rewrite TT. cbn [append]. change (s ++ String "-" (int_text (- v))) with (s ++ "-" ++ int_text (- v)).
      eapply good_ext; [|apply good_minus; [exact G|apply (good_int LvMul (- v)); tauto|]].
      * intros rho z. unfold plus. cbn [eval]. destruct (V rho); [|intro; discriminate]. cbn [option_map]. intro H0. injection H0 as <-; try reflexivity; f_equal; lia.
      * destruct (good_num (- v) ltac:(lia)) as (? & ? & _ & F & _). exact F.
Qed.
(** a term on its own *)
Lemma good_term : forall lv v var t, (lv = LvPrim \/ lv = LvMul \/ lv = LvAdd) -> printable lv (ETerm v var) = true ->
  (forall x, var = Some x -> forall lv, (lv = LvPrim \/ lv = LvMul \/ lv = LvAdd) -> printable lv x = true ->
     forall s, pe x = Some s -> good lv s (fun rho => eval rho x)) ->
  pe (ETerm v var) = Some t -> good lv t (fun rho => eval rho (ETerm v var)).
Proof.
  intros lv v var t Hl PR IH PT. destruct var as [x|].
  - cbn [pprint_expr] in PT. apply cat_some in PT. destruct PT as (p1 & q1 & E1 & PT & ->). injection E1 as <-.
    apply cat_some in PT. destruct PT as (p2 & q2 & E2 & PT & ->). injection E2 as <-.
    apply cat_some in PT. destruct PT as (sx & q3 & Ex & PT & ->). injection PT as <-.
    specialize (IH x eq_refl). cbn [printable] in PR.
    set (tx := (if is_group x then "(" else "") ++ sx ++ (if is_group x then ")" else "")).
    assert (GX : v <> 1 -> good LvPrim tx (fun rho => eval rho x)).
    { intro N1. unfold tx. destruct (is_group x).
      - apply andb_true_iff in PR. destruct PR as [_ PR]. apply good_paren, add_cond. apply IH; tauto.
      - destruct (Z.eqb_spec v 1); [lia|]. cbn [append]. rewrite app_nil_s. apply IH; [tauto| |exact Ex]. apply andb_true_iff in PR. apply PR. }
    assert (GM : v = 1 -> good lv tx (fun rho => eval rho x)).
    { intros ->. unfold tx. destruct (is_group x).
      - apply andb_true_iff in PR. destruct PR as [_ PR]. apply prim_lv; [tauto|]. apply good_paren, add_cond. apply IH; tauto.
      - cbn [append]. rewrite app_nil_s. apply IH; tauto. }
    assert (AB : v <> 1 -> lv = LvMul \/ lv = LvAdd).
    { intro N1. destruct Hl as [->|Hl]; [|exact Hl]. exfalso. cbn [above_prim] in PR. destruct (Z.eqb_spec v 1); [lia|].
      destruct (is_group x); discriminate. }
    fold tx. destruct (Z.eqb_spec v 1).
    + subst v. eapply good_ext; [|now apply GM]. intros rho z. cbn [eval]. destruct (eval rho x); [|intro; discriminate].
      intro H0. injection H0 as <-; try reflexivity; f_equal; lia.
    + destruct (Z.eqb_spec v (-1)).
      * subst v. eapply good_ext; [|apply un_lv; [now apply AB|apply good_neg, GX; lia]].
        intros rho z. cbn [eval]. destruct (eval rho x); [|intro; discriminate]. cbn [option_map]. intro H0. injection H0 as <-; try reflexivity; f_equal; lia.
      * rewrite app_assoc_s. eapply good_ext; [|apply (good_times lv v _ (fun rho => eval rho x)); [now apply AB|now apply GX]].
        intros rho z. unfold times. cbn [eval]. destruct (eval rho x); [|intro; discriminate]. tauto.
  - cbn [pprint_expr] in PT. injection PT as <-. cbn [printable] in PR. apply orb_true_iff in PR. destruct PR as [PR|PR].
    + apply prim_lv; [exact Hl|]. apply good_num. lia.
    + apply (good_int lv v). destruct Hl as [->|Hl]; [discriminate PR|exact Hl].
Qed.

Lemma fold_plus : forall zs z z', fold_left (red_val RSum) zs (z + z') = z + fold_left (red_val RSum) zs z'.
Proof. induction zs as [|y zs IH]; intros z z'; [reflexivity|]. cbn [fold_left]. unfold red_val at 2 4. rewrite <- Z.add_assoc. apply IH. Qed.
Definition pe_good (e : expr) : Prop := forall lv, (lv = LvPrim \/ lv = LvMul \/ lv = LvAdd) -> printable lv e = true ->
  forall s, pe e = Some s -> good lv s (fun rho => eval rho e).
Definition pe_good' (e : expr) : Prop := pe_good e /\ forall v x, e = ETerm v (Some x) -> pe_good x.
Lemma sum_good : forall ts s V t, Forall pe_good' ts -> forallb (fun t => nonzero_term t && printable LvMul t) ts = true ->
  good LvAdd s V -> sum_tail ts = Some t ->
  good LvAdd (s ++ t) (fun rho => match V rho, vals rho ts with Some z, Some zs => Some (fold_left (red_val RSum) zs z) | _, _ => None end).
Proof.
  induction ts as [|e ts IH]; intros s V t FA PX G ST.
  - injection ST as <-. rewrite app_nil_s. eapply good_ext; [|exact G]. intros rho z. cbn [vals]. destruct (V rho); [tauto|intro; discriminate].
  - inversion FA as [|? ? F1 F2]; subst. cbn [forallb] in PX. apply andb_true_iff in PX. destruct PX as [PX PXs].
    apply andb_true_iff in PX. destruct PX as [NZ PE]. destruct e as [|v var| |]; try discriminate NZ. cbn [sum_tail] in ST.
    apply cat_some in ST. destruct ST as (p1 & q1 & E1 & ST & ->). injection E1 as <-.
    apply cat_some in ST. destruct ST as (s1 & s2 & E1 & ST & ->).
    assert (NZ' : v <> 0) by (cbn in NZ; apply negb_true_iff, Z.eqb_neq in NZ; exact NZ).
    assert (G' : good LvAdd (s ++ (if 0 <? v then "+" else "") ++ s1) (plus V (fun rho => eval rho (ETerm v var)))).
    { eapply good_term_tail; try eassumption. intros x ->. exact (proj2 F1 v x eq_refl). }
    rewrite <- !app_assoc_s. specialize (IH _ _ _ F2 PXs G' ST). rewrite !app_assoc_s in *.
    eapply good_ext; [|exact IH]. intros rho z. unfold plus. cbn [vals]. destruct (V rho) as [z0|]; [|intro; discriminate].
    destruct (eval rho (ETerm v var)) as [z1|]; [|intro; discriminate]. destruct (vals rho ts) as [zs|]; [|intro; discriminate]. tauto.
Qed.
Lemma mm_good : forall t, t <> RSum -> forall xs s V u, Forall pe_good' xs -> forallb (printable LvAdd) xs = true ->
  xs <> [] -> good LvCond s V -> mm_tail xs = Some u ->
  good LvPrim (opens (mm_name t) xs ++ s ++ u)
    (fun rho => match V rho, vals rho xs with Some z, Some zs => Some (fold_left (red_val t) zs z) | _, _ => None end).
Proof.
  intros t T. induction xs as [|y xs IH]; intros s V u FA PX NE G MT; [congruence|].
  inversion FA as [|? ? F1 F2]; subst. cbn [forallb] in PX. apply andb_true_iff in PX. destruct PX as [PY PXs].
  cbn [mm_tail] in MT. apply cat_some in MT. destruct MT as (p1 & q1 & E1 & MT & ->). injection E1 as <-.
  apply cat_some in MT. destruct MT as (sy & q2 & Ey & MT & ->).
  apply cat_some in MT. destruct MT as (p2 & q3 & E2 & MT & ->). injection E2 as <-.
  assert (GY : good LvCond sy (fun rho => eval rho y)) by (apply add_cond, (proj1 F1 LvAdd); tauto).
  assert (G2 : good LvPrim (mm_name t ++ "(" ++ s ++ "," ++ sy ++ ")")
                 (fun rho => match V rho, eval rho y with Some a, Some b => Some (red_val t a b) | _, _ => None end)).
  { eapply good_call2; [destruct t; reflexivity|destruct t; reflexivity|exact G|exact GY|]. intros rho z H.
    destruct (V rho) as [a|]; [|discriminate]. destruct (eval rho y) as [b|]; [|discriminate]. injection H as <-. exists a, b.
    split; [reflexivity|split; [reflexivity|]]. intros a1 a2 H1 H2. destruct t; [congruence| |]; [now apply value_min|now apply value_max]. }
  cbn [opens]. rewrite <- opens_comm.
  destruct xs as [|x xs].
  - injection MT as <-. cbn [opens append]. rewrite app_assoc_s. cbn [append]. cbn [append] in G2.
    eapply good_ext; [|exact G2]. intros rho z. cbn [vals]. destruct (V rho); [|intro; discriminate]. destruct (eval rho y); [|intro; discriminate]. tauto.
  - assert (GC : good LvCond (mm_name t ++ "(" ++ s ++ "," ++ sy ++ ")")
                 (fun rho => match V rho, eval rho y with Some a, Some b => Some (red_val t a b) | _, _ => None end))
      by (apply add_cond, mul_add, un_mul, prim_un, G2).
    specialize (IH _ _ _ F2 PXs ltac:(discriminate) GC MT). rewrite !app_assoc_s in *. cbn [append] in *.
    eapply good_ext; [|exact IH]. intros rho z. cbn [vals]. destruct (V rho); [|intro; discriminate]. destruct (eval rho y); [|intro; discriminate].
    destruct (eval rho x); [|intro; discriminate]. destruct (vals rho xs); [|intro; discriminate]. tauto.
Qed.
Lemma pprint_good' : forall e, incl (vars e) vs -> pe_good' e.
Proof.
  induction e as [s|v [x|] IH|t l r IH|t l IH] using expr_ind'; intro IV; cbn [vars] in IV; try specialize (IH IV).
  - split; [|discriminate]. intros lv Hl PR text PT. injection PT as <-. apply prim_lv; [exact Hl|]. apply good_ident; [exact PR|apply IV; now left].
  - split; [|intros w y Ey; injection Ey as _ <-; exact (proj1 IH)]. intros lv Hl PR text PT.
    eapply good_term; try eassumption. intros y Ey. injection Ey as <-. exact (proj1 IH).
  - split; [|discriminate]. intros lv Hl PR text PT. eapply good_term; try eassumption. intros y Ey. discriminate.
  - split; [|discriminate]. destruct IH as [IH _]. intros lv Hl PR text PT. destruct t; cbn [printable] in PR; cbn [pprint_expr binary_text] in PT.
    + apply andb_true_iff in PR. destruct PR as [D PR].
      apply cat_some in PT. destruct PT as (p1 & q1 & E1 & PT & ->). injection E1 as <-.
      apply cat_some in PT. destruct PT as (sx & q2 & Ex & PT & ->). injection PT as <-.
      apply prim_lv; [exact Hl|].
      eapply good_ext; [|apply good_floord; [apply (IH LvAdd); [tauto|exact PR|exact Ex]|lia]].
      intros rho z. cbn [eval]. destruct (eval rho l); [tauto|intro; discriminate].
    + apply andb_true_iff in PR. destruct PR as [D PR].
      apply cat_some in PT. destruct PT as (p1 & q1 & E1 & PT & ->). injection E1 as <-.
      apply cat_some in PT. destruct PT as (sx & q2 & Ex & PT & ->). injection PT as <-.
      apply prim_lv; [exact Hl|].
      eapply good_ext; [|apply good_ceild; [apply (IH LvAdd); [tauto|exact PR|exact Ex]|lia]].
      intros rho z. cbn [eval]. destruct (eval rho l); [tauto|intro; discriminate].
    + apply andb_true_iff in PR. destruct PR as [D PR]. apply andb_true_iff in D. destruct D as [AB D].
      assert (Hl' : lv = LvMul \/ lv = LvAdd) by (destruct Hl as [->|Hl]; [discriminate AB|exact Hl]).
      apply mul_lv; [exact Hl'|].
      destruct (is_group l).
      * apply cat_some in PT. destruct PT as (p1 & q1 & E1 & PT & ->). injection E1 as <-.
        apply cat_some in PT. destruct PT as (sx & q2 & Ex & PT & ->). injection PT as <-. rewrite app_nil_s.
        assert (G : good LvMul ("(" ++ sx ++ ")") (fun rho => eval rho l)).
        { apply prim_lv; [tauto|]. apply good_paren, add_cond. apply (IH LvAdd); tauto. }
        apply (good_quot _ _ r) in G; [|lia]. rewrite !app_assoc_s in G.
        eapply good_ext; [|exact G]. intros rho z. cbn [eval]. destruct (eval rho l); [tauto|intro; discriminate].
      * apply cat_some in PT. destruct PT as (p1 & q1 & E1 & PT & ->). injection E1 as <-.
        apply cat_some in PT. destruct PT as (sx & q2 & Ex & PT & ->). injection PT as <-. rewrite app_nil_s. cbn [append].
        assert (G : good LvMul sx (fun rho => eval rho l)) by (apply IH; tauto).
        apply (good_quot _ _ r) in G; [|lia].
        eapply good_ext; [|exact G]. intros rho z. cbn [eval]. destruct (eval rho l); [tauto|intro; discriminate].
    + discriminate.
  - split; [|discriminate]. intros lv Hl PR text PT.
    assert (IH' : Forall pe_good' l).
    { rewrite Forall_forall in *. intros e He. apply IH; [exact He|]. intros x Hx. apply IV, in_flat_map. now exists e. }
    clear IH. rename IH' into IH.
    destruct l as [|x xs]; [destruct t; discriminate PR|]. inversion IH as [|? ? IHx IHxs]; subst.
    destruct (match t with RSum => true | _ => false end) eqn:TS.
    + destruct t; try discriminate. rewrite pe_sum in PT. cbn [printable] in PR.
      apply andb_true_iff in PR. destruct PR as [PR PX]. apply andb_true_iff in PR. destruct PR as [IT PR].
      destruct x as [|v var| |]; try discriminate IT. apply cat_some in PT. destruct PT as (s1 & s2 & E1 & PT & ->).
      destruct xs as [|y ys].
      { injection PT as <-. rewrite app_nil_s. eapply good_ext; [|apply (proj1 IHx lv Hl PR _ E1)].
        intros rho z. rewrite eval_red. cbn [vals]. destruct (eval rho (ETerm v var)); [|intro; discriminate]. tauto. }
      apply andb_true_iff in PR. destruct PR as [SL PR].
      assert (lv = LvAdd) by (destruct lv; try discriminate; reflexivity). subst lv.
      assert (G1 : good LvAdd s1 (fun rho => eval rho (ETerm v var))) by (apply mul_add, (proj1 IHx LvMul); tauto).
      eapply good_ext; [|eapply sum_good; eassumption]. intros rho z. rewrite eval_red. cbn [vals].
      destruct (eval rho (ETerm v var)); [|intro; discriminate]. destruct (eval rho y); [|intro; discriminate].
      destruct (vals rho ys); [tauto|intro; discriminate].
    + assert (T : t <> RSum) by (intros ->; discriminate). destruct xs as [|y ys].
      { assert (PT' : pe x = Some text) by (destruct t; [congruence|exact PT|exact PT]).
        assert (PR' : printable lv x = true) by (destruct t; [congruence|exact PR|exact PR]).
        eapply good_ext; [|apply (proj1 IHx lv Hl PR' _ PT')].
        intros rho z. rewrite eval_red. cbn [vals]. destruct (eval rho x); [|intro; discriminate]. tauto. }
      rewrite pe_mm in PT by exact T. apply cat_some in PT. destruct PT as (p1 & q1 & E1 & PT & ->). injection E1 as <-.
      apply cat_some in PT. destruct PT as (s1 & s2 & E1 & PT & ->).
      assert (PR' : forallb (printable LvAdd) (x :: y :: ys) = true) by (destruct t; [congruence|exact PR|exact PR]).
      change (forallb (printable LvAdd) (x :: y :: ys)) with (printable LvAdd x && forallb (printable LvAdd) (y :: ys)) in PR'.
      apply andb_true_iff in PR'. destruct PR' as [PX PXs].
      assert (G1 : good LvCond s1 (fun rho => eval rho x)) by (apply add_cond, (proj1 IHx LvAdd); tauto).
      apply prim_lv; [exact Hl|].
      eapply good_ext; [|eapply (mm_good t T (y :: ys) s1 _ s2); try eassumption; discriminate]. intros rho z. rewrite eval_red. cbn [vals].
      destruct (eval rho x); [|intro; discriminate]. destruct (eval rho y); [|intro; discriminate].
      destruct (vals rho ys); [tauto|intro; discriminate].
Qed.
Theorem pprint_good : forall e lv, incl (vars e) vs -> (lv = LvPrim \/ lv = LvMul \/ lv = LvAdd) -> printable lv e = true ->
  forall s, pe e = Some s -> good lv s (fun rho => eval rho e).
Proof. intros e lv IV. exact (proj1 (pprint_good' e IV) lv). Qed.
End Good.
(** printable expressions are printed *)
Lemma pprint_defined : forall e lv, printable lv e = true -> exists s, pe e = Some s.
Proof.
  induction e as [s|v [x|] IH|t l r IH|t l IH] using expr_ind'; intros lv PR.
  - now exists s.
  - cbn [printable] in PR. assert (P : exists lv, printable lv x = true).
    { destruct (is_group x); [apply andb_true_iff in PR; exists LvAdd; apply PR|]. destruct (v =? 1); [now exists lv|].
      apply andb_true_iff in PR. exists LvPrim. apply PR. }
    destruct P as (lv' & P). destruct (IH lv' P) as (s & E). cbn [pprint_expr]. rewrite E. cbn [cat say]. eexists. reflexivity.
  - eexists. reflexivity.
  - assert (P : exists lv, printable lv l = true).
    { destruct t; cbn [printable] in PR; try discriminate; apply andb_true_iff in PR; destruct PR as [_ PR]; eauto. }
    destruct P as (lv' & P). destruct (IH lv' P) as (s & E). cbn [pprint_expr]. destruct (binary_text LangC t (is_group l)) as [[? ?] ?].
    rewrite E. cbn [cat say]. eexists. reflexivity.
  - destruct l as [|x xs]; [destruct t; discriminate PR|]. inversion IH as [|? ? IHx IHxs]; subst.
    destruct (match t with RSum => true | _ => false end) eqn:TS.
    + destruct t; try discriminate. rewrite pe_sum. cbn [printable] in PR.
      apply andb_true_iff in PR. destruct PR as [PR PX]. apply andb_true_iff in PR. destruct PR as [IT PR].
      destruct x as [|v var| |]; try discriminate IT.
      assert (P : exists s, pe (ETerm v var) = Some s).
      { destruct xs; [eapply IHx; exact PR|]. apply andb_true_iff in PR. eapply IHx, PR. }
      destruct P as (s & ->).
      assert (K : exists s, sum_tail xs = Some s).
      { clear - IHxs PX. induction xs as [|e xs IH']; [eexists; reflexivity|]. inversion IHxs; subst. cbn [forallb] in PX.
        apply andb_true_iff in PX. destruct PX as [P1 P2]. apply andb_true_iff in P1. destruct P1 as [N P1]. destruct (IH' P2 H2) as (s & E).
        destruct (H1 _ P1) as (s' & E'). destruct e; try discriminate. cbn [sum_tail]. rewrite E, E'. eexists. reflexivity. }
      destruct K as (s' & ->). eexists. reflexivity.
    + assert (T : t <> RSum) by (intros ->; discriminate). destruct xs as [|y ys].
      { assert (PR' : printable lv x = true) by (destruct t; [congruence|exact PR|exact PR]).
        destruct (IHx _ PR') as (s & E). exists s. destruct t; [congruence|exact E|exact E]. }
      rewrite pe_mm by exact T.
      assert (PR' : forallb (printable LvAdd) (x :: y :: ys) = true) by (destruct t; [congruence|exact PR|exact PR]).
      change (forallb (printable LvAdd) (x :: y :: ys)) with (printable LvAdd x && forallb (printable LvAdd) (y :: ys)) in PR'.
      apply andb_true_iff in PR'. destruct PR' as [PX PXs]. destruct (IHx _ PX) as (s & ->).
      assert (K : exists s, mm_tail (y :: ys) = Some s).
      { clear - IHxs PXs. induction (y :: ys) as [|e xs IH']; [eexists; reflexivity|]. inversion IHxs; subst. cbn [forallb] in PXs.
        apply andb_true_iff in PXs. destruct PXs as [P1 P2]. destruct (IH' H2 P2) as (s & E).
        destruct (H1 _ P1) as (s' & E'). cbn [mm_tail]. rewrite E, E'. eexists. reflexivity. }
      destruct K as (s' & ->). eexists. reflexivity.
Qed.
