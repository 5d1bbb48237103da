(** The text printed for an expression in Fortran has the value of the expression, as long as its
    quotients are small. *)
From Coq Require Import ZArith List Bool Arith String Ascii QArith Qround Qabs Lia Lqa.
From Verif Require Import ClastSpec ClastModel ClastCmp PprintModel CReader FReader FReal PprintSpec FSpec PprintLex PprintExpr FParse.
Import ListNotations.
Local Open Scope string_scope.
Local Open Scope Z_scope.
Local Arguments Z.mul : simpl never.
Local Arguments Z.add : simpl never.
Local Arguments Z.pow : simpl never.
Local Arguments Nat.leb : simpl never.

Notation pf := (pprint_expr LangFortran).
Definition fshape (lv : flevel) : list ftoken -> fexpr -> Prop :=
  match lv with FLvPrim => fprims | FLvMul => fmuls | FLvSum => fsums | FLvCmp => fcmps | FLvAnd => fands end.
Definition ffirst (lv : flevel) : ascii -> bool := match lv with FLvPrim | FLvMul => fprim_char | _ => fexpr_char end.

(** reals *)
Lemma near_arg : forall q q' r, (q == q')%Q -> near q r -> near q' r.
Proof. intros q q' r E [S N]. split; [exact S|]. intros s Hs. specialize (N s Hs). now rewrite E in N. Qed.
Lemma rounded_quot : forall rnd x d, nearest rnd -> 0 < d -> Z.abs x + d <= 2 ^ 24 ->
  Qeq_bool (rnd (inject_Z d)) 0 = false /\ near (inject_Z x / inject_Z d) (rnd (rnd (inject_Z x) / rnd (inject_Z d))%Q).
Proof.
  intros rnd x d N D B. pose proof (near_self _ _ (single_int x ltac:(lia)) (N (inject_Z x))) as Ex.
  pose proof (near_self _ _ (single_int d ltac:(lia)) (N (inject_Z d))) as Ed. split.
  - destruct (Qeq_bool (rnd (inject_Z d)) 0) eqn:Z; [|reflexivity]. apply Qeq_bool_iff in Z. rewrite Ed in Z. change 0%Q with (inject_Z 0) in Z.
    rewrite inject_Z_injective in Z. lia.
  - apply (near_arg (rnd (inject_Z x) / rnd (inject_Z d))); [now rewrite Ex, Ed|]. apply N.
Qed.

Section Good.
Variable rnd : Q -> Q.
Hypothesis rounds : nearest rnd.
(** names that can be used *)
Variable vs : list string.
(** [s] is an expression of level [lv] with the value [V] *)
Definition vgood (lv : flevel) (s : string) (V : env -> option fvalue) : Prop :=
  exists ts a, flexes s ts /\ first_in (ffirst lv) s /\ fshape lv ts a /\
    forall rho rf v, V rho = Some v -> fagree vs rho rf -> feval rnd rf a = Some v.
Definition fgood (lv : flevel) (s : string) (V : env -> option Z) : Prop := vgood lv s (fun rho => option_map VInt (V rho)).
Lemma vgood_ext : forall lv s V W, (forall rho z, W rho = Some z -> V rho = Some z) -> vgood lv s V -> vgood lv s W.
Proof. intros lv s V W H (ts & a & L & F & P & E). exists ts, a. repeat split; try assumption. intros rho rf z Hz. apply E, H, Hz. Qed.
Lemma fgood_ext : forall lv s V W, (forall rho z, W rho = Some z -> V rho = Some z) -> fgood lv s V -> fgood lv s W.
Proof.
  intros lv s V W H. apply vgood_ext. intros rho v Hv. destruct (W rho) as [z|] eqn:Ez; [|discriminate]. now rewrite (H _ _ Ez).
Qed.
Lemma char_weaken : forall c, fprim_char c = true -> fexpr_char c = true.
Proof. intros c H. unfold fexpr_char. now rewrite H. Qed.
Lemma ffirst_expr : forall lv s, first_in (ffirst lv) s -> first_in fexpr_char s.
Proof. intros [] s H; try exact H; (eapply first_weaken; [apply char_weaken|exact H]). Qed.
Lemma fprim_mul : forall s V, vgood FLvPrim s V -> vgood FLvMul s V.
Proof. intros s V (ts & a & L & F & P & E). exists ts, a. repeat split; try assumption. now apply fprims_muls. Qed.
Lemma fmul_sum : forall s V, vgood FLvMul s V -> vgood FLvSum s V.
Proof. intros s V (ts & a & L & F & P & E). exists ts, a. repeat split; try assumption; [now apply (ffirst_expr FLvMul)|now apply fmuls_sums]. Qed.
Lemma fsum_cmp : forall s V, vgood FLvSum s V -> vgood FLvCmp s V.
Proof. intros s V (ts & a & L & F & P & E). exists ts, a. repeat split; try assumption. now apply fsums_cmps. Qed.
Lemma fcmp_and : forall s V, vgood FLvCmp s V -> vgood FLvAnd s V.
Proof. intros s V (ts & a & L & F & P & E). exists ts, a. repeat split; try assumption. now apply fcmps_ands. Qed.
Lemma fprim_sum : forall s V, vgood FLvPrim s V -> vgood FLvSum s V.
Proof. intros s V H. now apply fmul_sum, fprim_mul. Qed.
(** a product with a sign *)
Definition sgood (s : string) (V : env -> option Z) : Prop :=
  fgood FLvMul s V \/ exists s' W, s = "-" ++ s' /\ fgood FLvMul s' W /\ forall rho z, V rho = Some z -> W rho = Some (- z).
Definition pgood (lv : plv) : string -> (env -> option Z) -> Prop :=
  match lv with PPrim => fgood FLvPrim | PMul => fgood FLvMul | PSigned => sgood | PSum => fgood FLvSum end.
Lemma minus_closed : fclosed "-" [FOp FMinus].
Proof. intro r. reflexivity. Qed.
Lemma plus_closed : fclosed "+" [FOp FPlus].
Proof. intro r. reflexivity. Qed.
Lemma flpar_closed : fclosed "(" [FOp FLpar].
Proof. intro r. reflexivity. Qed.
Lemma frpar_closed : fclosed ")" [FOp FRpar].
Proof. intro r. reflexivity. Qed.
Lemma fcomma_closed : fclosed "," [FOp FComma].
Proof. intro r. reflexivity. Qed.
Lemma signed_sum : forall s V, sgood s V -> fgood FLvSum s V.
Proof.
  intros s V [G|(s' & W & -> & (ts & a & L & F & P & E) & H)]; [now apply fmul_sum|].
  exists (FOp FMinus :: ts)%list, (FNeg a). split; [|split; [reflexivity|split]].
  - apply (fclosed_lexes_app "-" [FOp FMinus]); [apply minus_closed|exact L].
  - now apply fneg_sums.
  - intros rho rf v Hv A. destruct (V rho) as [z|] eqn:Ez; [|discriminate]. injection Hv as <-. cbn [feval].
    specialize (E rho rf (VInt (- z))). rewrite (H _ _ Ez) in E. rewrite (E eq_refl A). now rewrite Z.opp_involutive.
Qed.
Lemma prim_p : forall lv s V, fgood FLvPrim s V -> pgood lv s V.
Proof. intros [] s V G; [exact G|now apply fprim_mul|left; now apply fprim_mul|now apply fprim_sum]. Qed.
Lemma mul_p : forall lv s V, mul_ok lv = true -> fgood FLvMul s V -> pgood lv s V.
Proof. intros [] s V H G; [discriminate|exact G|now left|now apply fmul_sum]. Qed.
Lemma signed_p : forall lv s V, signed_ok lv = true -> sgood s V -> pgood lv s V.
Proof. intros [] s V H G; [discriminate|discriminate|exact G|now apply signed_sum]. Qed.
Lemma sgood_ext : forall s V W, (forall rho z, W rho = Some z -> V rho = Some z) -> sgood s V -> sgood s W.
Proof.
  intros s V W H [G|(s' & U & -> & G & HU)]; [left; eapply fgood_ext; eassumption|]. right. exists s', U. split; [reflexivity|]. split; [exact G|]. intros rho z Hz. apply HU, H, Hz.
Qed.
Lemma pgood_ext : forall lv s V W, (forall rho z, W rho = Some z -> V rho = Some z) -> pgood lv s V -> pgood lv s W.
Proof. intros [] s V W H; cbn [pgood]; try (now apply fgood_ext); now apply sgood_ext. Qed.
Lemma pgood_sum : forall lv s V, pgood lv s V -> fgood FLvSum s V.
Proof. intros [] s V G; [now apply fprim_sum|now apply fmul_sum|now apply signed_sum|exact G]. Qed.
(** "-" in front of a product *)
Lemma sgood_neg : forall s V W, fgood FLvMul s W -> (forall rho z, V rho = Some z -> W rho = Some (- z)) -> sgood ("-" ++ s) V.
Proof. intros s V W G H. right. now exists s, W. Qed.
Lemma sgood_minus : forall s V, sgood ("-" ++ s) V -> exists W, fgood FLvMul s W /\ forall rho z, V rho = Some z -> W rho = Some (- z).
Proof.
  intros s V [(ts & a & L & F & _)|(s' & W & E & G & H)]; [discriminate F|]. injection E as <-. now exists W.
Qed.

Lemma fname_facts : forall s, fname s = true -> not_name (lower s) = false /\ is_intrinsic (lower s) = false.
Proof. intros s I. unfold fname in I. apply andb_true_iff in I. destruct I as [I I2]. apply andb_true_iff in I. destruct I as [_ I1]. split; now apply negb_true_iff. Qed.
Lemma good_name : forall s, fname s = true -> In s vs -> fgood FLvPrim s (fun rho => rho s).
Proof.
  intros s I Hin. exists [FId (lower s)], (FVar (lower s)). split; [now apply flex_name|split; [|split]].
  - eapply first_weaken; [|apply name_first, I]. intros c H. unfold ffirst, fprim_char, is_namechar. now rewrite H.
  - apply fvar_prims. apply (fname_facts s I).
  - intros rho rf v H A. destruct (rho s) as [z|] eqn:Ez; [|discriminate]. injection H as <-. cbn [feval]. now rewrite (A s z Hin Ez).
Qed.
Lemma fgood_num : forall z, 0 <= z -> fgood FLvPrim (int_text z) (fun _ => Some z).
Proof.
  intros z H. destruct (int_nonneg z H) as (l & T & E). exists [FNum z], (FInt z). rewrite T. split; [|split; [|split]].
  - rewrite <- E. apply flex_uint.
  - eapply first_weaken; [|apply uint_first]. intros c D. unfold ffirst, fprim_char, is_namechar. now rewrite D, orb_true_r.
  - apply fnum_prims.
  - intros rho rf v Hv _. exact Hv.
Qed.
Lemma neg_text : forall v, v < 0 -> int_text v = "-" ++ int_text (- v).
Proof. intros v H. unfold int_text. destruct v; [lia|lia|reflexivity]. Qed.
Lemma sgood_int : forall z, sgood (int_text z) (fun _ => Some z).
Proof.
  intro z. destruct (Z_lt_le_dec z 0).
  - rewrite neg_text by exact l. eapply (sgood_neg _ _ (fun _ => Some (- z))); [apply fprim_mul, fgood_num; lia|]. intros rho x H. now injection H as <-.
  - left. now apply fprim_mul, fgood_num.
Qed.
Lemma star_lexes : forall s ts, flexes s ts -> first_in fexpr_char s -> flexes ("*" ++ s) (FOp FStar :: ts).
Proof.
  intros s ts L F r S. cbn [append]. rewrite flex_sign; [now rewrite L|tauto|]. apply first_fapart; [tauto|]. now apply first_app.
Qed.
Lemma slash_lexes : forall s ts, flexes s ts -> first_in fexpr_char s -> flexes ("/" ++ s) (FOp FSlash :: ts).
Proof.
  intros s ts L F r S. cbn [append]. rewrite flex_sign; [now rewrite L|tauto|]. apply first_fapart; [tauto|]. now apply first_app.
Qed.
Lemma fgood_times : forall z s V, 0 <= z -> fgood FLvPrim s V -> fgood FLvMul (int_text z ++ "*" ++ s) (fun rho => option_map (Z.mul z) (V rho)).
Proof.
  intros z s V Hz (ts & a & L & F & P & E). destruct (fgood_num z Hz) as (ts1 & a1 & L1 & F1 & P1 & E1).
  exists (ts1 ++ FOp FStar :: ts)%list, (FBin CMul a1 a). split; [|split; [|split]].
  - apply flexes_app; [exact L1|discriminate|split; reflexivity|]. apply star_lexes; [exact L|now apply (ffirst_expr FLvPrim)].
  - now apply first_app.
  - apply fmul_muls; [now apply fprims_muls|reflexivity|exact P].
  - intros rho rf v H A. destruct (V rho) as [x|] eqn:Ev; [|discriminate]. injection H as <-. cbn [feval].
    rewrite (E1 rho rf _ eq_refl A). specialize (E rho rf (VInt x)). rewrite Ev in E. now rewrite (E eq_refl A).
Qed.
Lemma fgood_paren : forall s V, vgood FLvAnd s V -> vgood FLvPrim ("(" ++ s ++ ")") V.
Proof.
  intros s V (ts & a & L & F & P & E). exists (FOp FLpar :: ts ++ [FOp FRpar])%list, a. split; [|split; [reflexivity|split; [|exact E]]].
  - apply fclosed_lexes. apply (fclosed_app "(" [FOp FLpar]); [apply flpar_closed|].
    apply flexes_closed_app; [exact L|discriminate|split; reflexivity|apply frpar_closed].
  - now apply fparen_prims, fands_conds.
Qed.
Lemma fgood_paren_sum : forall s V, fgood FLvSum s V -> fgood FLvPrim ("(" ++ s ++ ")") V.
Proof. intros s V G. now apply fgood_paren, fcmp_and, fsum_cmp. Qed.
(** quotients *)
Lemma fgood_quot : forall s V d, fgood FLvMul s V -> 0 < d -> fgood FLvMul (s ++ "/" ++ int_text d) (fun rho => option_map (fun x => Z.quot x d) (V rho)).
Proof.
  intros s V d (ts & a & L & F & P & E) D. destruct (fgood_num d ltac:(lia)) as (ts' & a' & L' & F' & P' & E').
  exists (ts ++ FOp FSlash :: ts')%list, (FBin CDiv a a'). split; [|split; [|split]].
  - apply flexes_app; [exact L|discriminate|split; reflexivity|]. apply slash_lexes; [exact L'|now apply (ffirst_expr FLvPrim)].
  - now apply first_app.
  - apply fmul_muls; [exact P|reflexivity|exact P'].
  - intros rho rf v H A. destruct (V rho) as [x|] eqn:Ev; [|discriminate]. injection H as <-. cbn [feval].
    rewrite (E' rho rf _ eq_refl A). specialize (E rho rf (VInt x)). rewrite Ev in E. rewrite (E eq_refl A). cbn [fbin_meaning].
    destruct (Z.eqb_spec d 0); [lia|reflexivity].
Qed.
Lemma sgood_quot : forall s V d, sgood s V -> 0 < d -> sgood (s ++ "/" ++ int_text d) (fun rho => option_map (fun x => Z.quot x d) (V rho)).
Proof.
  intros s V d [G|(s' & W & -> & G & H)] D; [left; now apply fgood_quot|]. cbn [append].
  change (String "-" (s' ++ "/" ++ int_text d)) with ("-" ++ (s' ++ "/" ++ int_text d)).
  eapply sgood_neg; [apply fgood_quot; [exact G|exact D]|]. intros rho z Hz. cbn beta in *. destruct (V rho) as [x|] eqn:Ev; [|discriminate].
  injection Hz as <-. rewrite (H _ _ Ev). cbn [option_map]. now rewrite Z.quot_opp_l by lia.
Qed.
(** FLOOR and CEILING *)
Definition round_name (t : bin_type) : string := match t with BFdiv => "FLOOR" | _ => "CEILING" end.
Lemma fgood_round : forall t s V d, (t = BFdiv \/ t = BCdiv) -> fgood FLvSum s V -> 0 < d ->
  fgood FLvPrim (round_name t ++ "(REAL(" ++ s ++ ")/REAL(" ++ int_text d ++ "))")
    (fun rho => match V rho with Some x => if small_quot t x d then Some (bin_val t x d) else None | None => None end).
Proof.
  intros t s V d T (ts & a & L & F & P & E) D. destruct (fgood_num d ltac:(lia)) as (ts' & a' & L' & F' & P' & E').
  exists (FId (lower (round_name t)) :: FOp FLpar :: (FId "real" :: FOp FLpar :: ts ++ [FOp FRpar]) ++ FOp FSlash :: (FId "real" :: FOp FLpar :: ts' ++ [FOp FRpar]) ++ [FOp FRpar])%list,
    (FCall (lower (round_name t)) [FBin CDiv (FCall "real" [a]) (FCall "real" [a'])]). split; [|split; [|split]].
  - apply fclosed_lexes.
    replace (FId (lower (round_name t)) :: FOp FLpar :: (FId "real" :: FOp FLpar :: ts ++ [FOp FRpar]) ++ FOp FSlash :: (FId "real" :: FOp FLpar :: ts' ++ [FOp FRpar]) ++ [FOp FRpar])%list
      with ([FId (lower (round_name t)); FOp FLpar; FId "real"; FOp FLpar] ++ ts ++ [FOp FRpar; FOp FSlash; FId "real"; FOp FLpar] ++ ts' ++ [FOp FRpar; FOp FRpar])%list
      by (cbn [app]; rewrite <- ?app_assoc; cbn [app]; rewrite <- ?app_assoc; reflexivity).
    rewrite <- (app_assoc_s (round_name t)).
    apply fclosed_app; [destruct T as [-> | ->]; intro r; reflexivity|].
    apply flexes_closed_app; [exact L|discriminate|split; reflexivity|].
    apply (fclosed_app ")/REAL(" [FOp FRpar; FOp FSlash; FId "real"; FOp FLpar]); [intro r; reflexivity|].
    apply flexes_closed_app; [exact L'|discriminate|split; reflexivity|]. intro r. reflexivity.
  - destruct T as [-> | ->]; reflexivity.
  - assert (R : forall ts a, fsums ts a -> fprims (FId "real" :: FOp FLpar :: ts ++ [FOp FRpar])%list (FCall "real" [a])).
    { intros us b Q. apply fcall_prims; [reflexivity|]. intro rest. rewrite <- app_assoc. cbn [app]. apply fargs_one. now apply fsums_conds. }
    apply fcall_prims; [destruct T as [-> | ->]; reflexivity|]. intro rest.
    rewrite <- app_assoc. cbn [app]. rewrite <- app_assoc. cbn [app].
    assert (M : fmuls ((FId "real" :: FOp FLpar :: ts ++ [FOp FRpar]) ++ FOp FSlash :: FId "real" :: FOp FLpar :: ts' ++ [FOp FRpar])%list (FBin CDiv (FCall "real" [a]) (FCall "real" [a']))).
    { apply fmul_muls; [now apply fprims_muls, R|reflexivity|]. apply R. now apply fmuls_sums, fprims_muls. }
    pose proof (fargs_one _ _ rest (fsums_conds _ _ (fmuls_sums _ _ M))) as Q. revert Q. cbn [app]. rewrite <- ?app_assoc. cbn [app]. rewrite <- ?app_assoc. cbn [app]. exact (fun x => x).
  - intros rho rf v H A. cbn beta in H. destruct (V rho) as [x|] eqn:Ev; [|discriminate].
    destruct (small_quot t x d) eqn:SQ; [|discriminate]. injection H as <-.
    specialize (E rho rf (VInt x)). rewrite Ev in E. specialize (E eq_refl A). specialize (E' rho rf _ eq_refl A).
    cbn [feval]. rewrite E, E'.
    assert (B : Z.abs x + d <= 2 ^ 24) by (destruct T as [-> | ->]; cbn [small_quot] in SQ; lia).
    destruct (rounded_quot rnd x d rounds D B) as [NZ NR].
    change (fcall_meaning rnd "real" [VInt x]) with (Some (VReal (rnd (inject_Z x)))).
    change (fcall_meaning rnd "real" [VInt d]) with (Some (VReal (rnd (inject_Z d)))). cbn [fbin_meaning]. rewrite NZ.
    destruct T as [-> | ->].
    + change (Some (VInt (Qfloor (rnd (rnd (inject_Z x) / rnd (inject_Z d))%Q))) = Some (VInt (x / d))). now rewrite (floor_small x d _ D B NR).
    + change (Some (VInt (Qceiling (rnd (rnd (inject_Z x) / rnd (inject_Z d))%Q))) = Some (VInt (- ((- x) / d)))). now rewrite (ceiling_small x d _ D B NR).
Qed.
(** sums *)
Lemma fgood_plus : forall s V s' W, fgood FLvSum s V -> fgood FLvMul s' W -> fgood FLvSum (s ++ "+" ++ s') (plus V W).
Proof.
  intros s V s' W (ts & a & L & F & P & E) (ts' & a' & L' & F' & P' & E').
  exists (ts ++ FOp FPlus :: ts')%list, (FBin CAdd a a'). split; [|split; [|split]].
  - apply flexes_app; [exact L|discriminate|split; reflexivity|]. apply (fclosed_lexes_app "+" [FOp FPlus]); [apply plus_closed|exact L'].
  - now apply first_app.
  - apply fadd_sums; [exact P|reflexivity|exact P'].
  - intros rho rf v H A. unfold plus in H. destruct (V rho) as [x|] eqn:Ev; [|discriminate]. destruct (W rho) as [y|] eqn:Ew; [|discriminate]. injection H as <-.
    specialize (E rho rf (VInt x)). rewrite Ev in E. specialize (E' rho rf (VInt y)). rewrite Ew in E'. cbn [feval]. now rewrite (E eq_refl A), (E' eq_refl A).
Qed.
Lemma fgood_minus : forall s V s' W U, fgood FLvSum s V -> fgood FLvMul s' W -> (forall rho z, U rho = Some z -> W rho = Some (- z)) ->
  fgood FLvSum (s ++ "-" ++ s') (plus V U).
Proof.
  intros s V s' W U (ts & a & L & F & P & E) (ts' & a' & L' & F' & P' & E') HU.
  exists (ts ++ FOp FMinus :: ts')%list, (FBin CSub a a'). split; [|split; [|split]].
  - apply flexes_app; [exact L|discriminate|split; reflexivity|]. apply (fclosed_lexes_app "-" [FOp FMinus]); [apply minus_closed|exact L'].
  - now apply first_app.
  - apply fadd_sums; [exact P|reflexivity|exact P'].
  - intros rho rf v H A. unfold plus in H. destruct (V rho) as [x|] eqn:Ev; [|discriminate]. destruct (U rho) as [y|] eqn:Ew; [|discriminate]. injection H as <-.
    specialize (E rho rf (VInt x)). rewrite Ev in E. specialize (E' rho rf (VInt (- y))). rewrite (HU _ _ Ew) in E'. cbn [feval].
    rewrite (E eq_refl A), (E' eq_refl A). cbn [fbin_meaning]. now replace (x - - y) with (x + y) by lia.
Qed.

(** ** All expressions *)
Fixpoint fsum_tail (ts : list expr) : option string :=
  match ts with
  | [] => say ""
  | t :: ts' => match t with ETerm v _ => cat (say (if 0 <? v then "+" else "")) (cat (pf t) (fsum_tail ts')) | _ => None end
  end.
Fixpoint fmm_tail (xs : list expr) : option string :=
  match xs with [] => say "" | y :: xs' => cat (say ",") (cat (pf y) (fmm_tail xs')) end.
Fixpoint svals (rho : env) (l : list expr) : option (list Z) :=
  match l with
  | [] => Some []
  | e :: l' => match small_eval rho e, svals rho l' with Some z, Some zs => Some (z :: zs) | _, _ => None end
  end.
Lemma small_red : forall rho t l, small_eval rho (ERed t l) = match svals rho l with Some (z :: zs) => Some (fold_left (red_val t) zs z) | _ => None end.
Proof.
  intros rho t l. cbn [small_eval]. match goal with |- match ?f l with _ => _ end = _ => assert (E : f l = svals rho l) end.
  { induction l as [|e l IH]; [reflexivity|]. cbn [svals]. rewrite <- IH. reflexivity. }
  rewrite E. reflexivity.
Qed.
Lemma pf_sum : forall t ts, pf (ERed RSum (t :: ts)) = match t with ETerm _ _ => cat (pf t) (fsum_tail ts) | _ => None end.
Proof.
  intros t ts. cbn [pprint_expr]. match goal with |- match t with ETerm _ _ => cat ?x (?f ts) | _ => _ end = _ => assert (E : forall l, f l = fsum_tail l) end.
  { induction l as [|e l IH]; [reflexivity|]. cbn [fsum_tail]. rewrite <- IH. reflexivity. }
  now rewrite E.
Qed.
Definition fmm_name (t : red_type) : string := match t with RMax => "MAX" | _ => "MIN" end.
Lemma pf_mm : forall t x y xs, t <> RSum ->
  pf (ERed t (x :: y :: xs)) = cat (say (fmm_name t ++ "(")) (cat (pf x) (cat (fmm_tail (y :: xs)) (say ")"))).
Proof.
  intros t x y xs N.
  assert (A : forall a b c d, cat a (cat b (cat c d)) = cat (cat a (cat b c)) d) by (intros [a|] [b|] [c|] [d|]; try reflexivity; cbn [cat]; now rewrite !app_assoc_s).
  destruct t; [congruence| |]; cbn [pprint_expr];
  match goal with |- context [cat (pf y) (?f xs)] => assert (E : forall l, f l = fmm_tail l) by (induction l as [|e l IH]; [reflexivity|cbn [fmm_tail]; rewrite <- IH; reflexivity]) end;
  rewrite E; reflexivity.
Qed.

(** a term *)
Definition pf_good (e : expr) : Prop := forall lv, fprintable lv e = true -> forall s, pf e = Some s -> pgood lv s (fun rho => small_eval rho e).
Lemma good_term : forall lv v var t, fprintable lv (ETerm v var) = true -> (forall x, var = Some x -> pf_good x) ->
  pf (ETerm v var) = Some t ->
  pgood lv t (fun rho => small_eval rho (ETerm v var)) /\ (v < 0 -> exists t', t = "-" ++ t').
Proof.
  intros lv v var t PR IH PT. destruct var as [x|].
  - cbn [pprint_expr] in PT. apply cat_some in PT. destruct PT as (p1 & q1 & E1 & PT & ->). injection E1 as <-.
    apply cat_some in PT. destruct PT as (p2 & q2 & E2 & PT & ->). injection E2 as <-.
    apply cat_some in PT. destruct PT as (sx & q3 & Ex & PT & ->). injection PT as <-.
    specialize (IH x eq_refl). cbn [fprintable] in PR.
    set (tx := (if is_group x then "(" else "") ++ sx ++ (if is_group x then ")" else "")).
    assert (GX : v <> 1 -> fgood FLvPrim tx (fun rho => small_eval rho x)).
    { intro N1. unfold tx. destruct (is_group x).
      - apply andb_true_iff in PR. destruct PR as [_ PR]. apply fgood_paren_sum. now apply (IH PSum).
      - destruct (Z.eqb_spec v 1); [lia|]. cbn [append]. rewrite app_nil_s. apply andb_true_iff in PR. now apply (IH PPrim). }
    assert (GM : v = 1 -> pgood lv tx (fun rho => small_eval rho x)).
    { intros ->. unfold tx. destruct (is_group x).
      - apply andb_true_iff in PR. destruct PR as [_ PR]. apply prim_p. apply fgood_paren_sum. now apply (IH PSum).
      - cbn [append]. rewrite app_nil_s. now apply IH. }
    assert (OM : v <> 1 -> 0 <= v -> mul_ok lv = true).
    { intros N1 N0. destruct (Z.eqb_spec v 1); [lia|]. replace (0 <=? v) with true in PR by lia. destruct (is_group x).
      - apply andb_true_iff in PR. destruct PR as [PR _]. cbn [orb andb] in PR. destruct lv; [discriminate PR|reflexivity|reflexivity|reflexivity].
      - apply andb_true_iff in PR. apply PR. }
    assert (OS : v < 0 -> signed_ok lv = true).
    { intros N0. destruct (Z.eqb_spec v 1); [lia|]. replace (0 <=? v) with false in PR by lia. destruct (is_group x).
      - apply andb_true_iff in PR. destruct PR as [PR _]. cbn [orb andb] in PR. exact PR.
      - apply andb_true_iff in PR. apply PR. }
    fold tx. destruct (Z.eqb_spec v 1) as [->|N1].
    + split; [|lia]. cbn [append]. eapply pgood_ext; [|now apply GM]. intros rho z. cbn [small_eval]. destruct (small_eval rho x); [|intro; discriminate].
      intro H0. injection H0 as <-. f_equal. lia.
    + specialize (GX N1). destruct (Z.eqb_spec v (-1)) as [->|N2].
      * split; [|intros _; now exists tx]. apply signed_p; [apply OS; lia|]. eapply sgood_neg; [apply fprim_mul, GX|].
        intros rho z. cbn [small_eval]. destruct (small_eval rho x); [|intro; discriminate]. intro H0. injection H0 as <-. f_equal. lia.
      * rewrite app_assoc_s. destruct (Z_lt_le_dec v 0).
        -- rewrite neg_text by exact l. cbn [append]. split; [|intros _; now exists (int_text (- v) ++ "*" ++ tx)].
           apply signed_p; [now apply OS|].
           change (String "-" (int_text (- v) ++ String "*" tx)) with ("-" ++ (int_text (- v) ++ "*" ++ tx)).
           eapply sgood_neg; [apply (fgood_times (- v)); [lia|exact GX]|].
           intros rho z. cbn beta. cbn [small_eval]. destruct (small_eval rho x); [|intro; discriminate]. intro H0. injection H0 as <-. cbn [option_map]. f_equal. lia.
        -- split; [|lia]. apply mul_p; [now apply OM|]. eapply fgood_ext; [|apply (fgood_times v); [exact l|exact GX]].
           intros rho z. cbn beta. cbn [small_eval]. destruct (small_eval rho x); [|intro; discriminate]. tauto.
  - cbn [pprint_expr] in PT. injection PT as <-. cbn [fprintable] in PR. destruct (Z_lt_le_dec v 0).
    + split; [|intros _; rewrite neg_text by exact l; now exists (int_text (- v))]. apply signed_p; [|apply sgood_int].
      replace (0 <=? v) with false in PR by lia. exact PR.
    + split; [|lia]. apply prim_p. now apply fgood_num.
Qed.
Lemma term_tail : forall s V v var t, fgood FLvSum s V -> v <> 0 ->
  fprintable (if 0 <? v then PMul else PSigned) (ETerm v var) = true -> (forall x, var = Some x -> pf_good x) -> pf (ETerm v var) = Some t ->
  fgood FLvSum (s ++ (if 0 <? v then "+" else "") ++ t) (plus V (fun rho => small_eval rho (ETerm v var))).
Proof.
  intros s V v var t G NZ PR IH PT. destruct (good_term _ v var t PR IH PT) as [GT NG]. destruct (Z.ltb_spec 0 v).
  - cbn [pgood] in GT. now apply fgood_plus.
  - destruct (NG ltac:(lia)) as (t' & ->). cbn [pgood] in GT. destruct (sgood_minus _ _ GT) as (W & GW & HW). cbn [append].
    change (String "-" t') with ("-" ++ t'). eapply fgood_minus; eassumption.
Qed.
Definition pf_good' (e : expr) : Prop := pf_good e /\ forall v x, e = ETerm v (Some x) -> pf_good x.
Lemma fsum_good : forall ts s V t, Forall pf_good' ts ->
  forallb (fun t => nonzero_term t && match t with ETerm v _ => fprintable (if 0 <? v then PMul else PSigned) t | _ => false end) ts = true ->
  fgood FLvSum s V -> fsum_tail ts = Some t ->
  fgood FLvSum (s ++ t) (fun rho => match V rho, svals rho ts with Some z, Some zs => Some (fold_left (red_val RSum) zs z) | _, _ => None end).
Proof.
  induction ts as [|e ts IH]; intros s V t FA PX G ST.
  - injection ST as <-. rewrite app_nil_s. eapply fgood_ext; [|exact G]. intros rho z. cbn [svals]. destruct (V rho); [tauto|intro; discriminate].
  - inversion FA as [|? ? F1 F2]; subst. cbn [forallb] in PX. apply andb_true_iff in PX. destruct PX as [PX PXs].
    apply andb_true_iff in PX. destruct PX as [NZ PE]. destruct e as [|v var| |]; try discriminate NZ. cbn [fsum_tail] in ST.
    apply cat_some in ST. destruct ST as (p1 & q1 & E1 & ST & ->). injection E1 as <-.
    apply cat_some in ST. destruct ST as (s1 & s2 & E1 & ST & ->).
    assert (NZ' : v <> 0) by (cbn in NZ; apply negb_true_iff, Z.eqb_neq in NZ; exact NZ).
    assert (G' : fgood FLvSum (s ++ (if 0 <? v then "+" else "") ++ s1) (plus V (fun rho => small_eval rho (ETerm v var)))).
    { eapply term_tail; try eassumption. intros x ->. exact (proj2 F1 v x eq_refl). }
    rewrite <- ?app_assoc_s. specialize (IH _ _ _ F2 PXs G' ST). rewrite !app_assoc_s in *.
    eapply fgood_ext; [|exact IH]. intros rho z. unfold plus. cbn [svals]. destruct (V rho) as [z0|]; [|intro; discriminate].
    destruct (small_eval rho (ETerm v var)) as [z1|]; [|intro; discriminate]. destruct (svals rho ts) as [zs|]; [|intro; discriminate]. tauto.
Qed.
(** the arguments of MIN and MAX *)
Fixpoint fevals (rf : env) (l : list fexpr) : option (list fvalue) :=
  match l with
  | [] => Some []
  | e :: l' => match feval rnd rf e, fevals rf l' with Some v, Some vs => Some (v :: vs) | _, _ => None end
  end.
Lemma feval_call : forall rf f l, feval rnd rf (FCall f l) = match fevals rf l with Some vs => fcall_meaning rnd f vs | None => None end.
Proof.
  intros rf f l. cbn [feval]. match goal with |- match ?g l with _ => _ end = _ => assert (E : g l = fevals rf l) end.
  { induction l as [|e l IH]; [reflexivity|]. cbn [fevals]. rewrite <- IH. reflexivity. }
  now rewrite E.
Qed.
Lemma mm_args : forall xs t, Forall pf_good' xs -> forallb (fprintable PSum) xs = true -> fmm_tail xs = Some t ->
  forall s V, fgood FLvSum s V ->
  exists ts es, fclosed (s ++ t ++ ")") ts /\ fno_rpar ts /\ (forall rest, fpargs (ts ++ rest)%list (es, rest)) /\
    forall rho rf z zs, V rho = Some z -> svals rho xs = Some zs -> fagree vs rho rf -> fevals rf es = Some (map VInt (z :: zs)).
Proof.
  assert (NR : forall ts a rest, fconds ts a -> fno_rpar (ts ++ rest)%list).
  { intros ts a rest H. pose proof (fconds_no_rpar _ _ H) as N. destruct ts as [|[| |[]| |] u]; first [exact I|destruct N]. }
  induction xs as [|y xs IH]; intros t FA PX MT s V (ts & a & L & F & P & E).
  - injection MT as <-. exists (ts ++ [FOp FRpar])%list, [a]. split; [|split; [|split]].
    + cbn [append]. apply flexes_closed_app; [exact L|discriminate|split; reflexivity|apply frpar_closed].
    + eapply NR. apply fsums_conds, P.
    + intro rest. rewrite <- app_assoc. cbn [app]. apply fargs_one. now apply fsums_conds.
    + intros rho rf z zs Hz Hs A. cbn [svals] in Hs. injection Hs as <-. cbn [fevals map].
      specialize (E rho rf (VInt z)). rewrite Hz in E. now rewrite (E eq_refl A).
  - inversion FA as [|? ? F1 F2]; subst. cbn [forallb] in PX. apply andb_true_iff in PX. destruct PX as [PY PXs].
    cbn [fmm_tail] in MT. apply cat_some in MT. destruct MT as (p1 & q1 & E1 & MT & ->). injection E1 as <-.
    apply cat_some in MT. destruct MT as (sy & q2 & Ey & MT & ->).
    destruct (IH _ F2 PXs MT sy _ (proj1 F1 PSum PY _ Ey)) as (ts' & es & L' & N' & P' & E').
    exists (ts ++ FOp FComma :: ts')%list, (a :: es). split; [|split; [|split]].
    + replace (s ++ ("," ++ sy ++ q2) ++ ")") with (s ++ "," ++ (sy ++ q2 ++ ")")) by (cbn [append]; now rewrite !app_assoc_s).
      apply flexes_closed_app; [exact L|discriminate|split; reflexivity|]. apply (fclosed_app "," [FOp FComma]); [apply fcomma_closed|exact L'].
    + eapply NR. apply fsums_conds, P.
    + intro rest. rewrite <- app_assoc. cbn [app]. apply fargs_cons; [now apply fsums_conds| |apply P'].
      destruct ts' as [|[| |[]| |] u]; first [exact I|destruct N'].
    + intros rho rf z zs Hz Hs A. cbn [svals] in Hs. destruct (small_eval rho y) as [zy|] eqn:Zy; [|discriminate]. destruct (svals rho xs) as [zs'|] eqn:Zs; [|discriminate].
      injection Hs as <-. cbn [fevals]. specialize (E rho rf (VInt z)). rewrite Hz in E. rewrite (E eq_refl A), (E' rho rf zy zs' Zy Zs A). reflexivity.
Qed.
Lemma all_ints_map : forall l, all_ints (map VInt l) = Some l.
Proof. induction l as [|z l IH]; [reflexivity|]. cbn [map all_ints]. now rewrite IH. Qed.
Lemma mm_good : forall t x y ys s1 s2, t <> RSum -> pf_good' x -> Forall pf_good' (y :: ys) -> forallb (fprintable PSum) (x :: y :: ys) = true ->
  pf x = Some s1 -> fmm_tail (y :: ys) = Some s2 ->
  fgood FLvPrim (fmm_name t ++ "(" ++ s1 ++ s2 ++ ")") (fun rho => small_eval rho (ERed t (x :: y :: ys))).
Proof.
  intros t x y ys s1 s2 T IHx IHys PR E1 E2. change (forallb (fprintable PSum) (x :: y :: ys)) with (fprintable PSum x && forallb (fprintable PSum) (y :: ys))%bool in PR.
  apply andb_true_iff in PR. destruct PR as [PX PXs].
  destruct (mm_args (y :: ys) s2 IHys PXs E2 s1 _ (proj1 IHx PSum PX _ E1)) as (ts & es & L & N & P & E).
  exists (FId (lower (fmm_name t)) :: FOp FLpar :: ts)%list, (FCall (lower (fmm_name t)) es). split; [|split; [|split]].
  - apply fclosed_lexes. rewrite <- (app_assoc_s (fmm_name t)).
    apply (fclosed_app _ [FId (lower (fmm_name t)); FOp FLpar]); [destruct t; intro r; reflexivity|exact L].
  - destruct t; reflexivity.
  - apply fcall_prims; [destruct t; reflexivity|exact P].
  - intros rho rf v H A. rewrite small_red in H. cbn [svals] in H. destruct (small_eval rho x) as [zx|] eqn:Zx; [|discriminate].
    change (match small_eval rho y with Some z => match svals rho ys with Some zs => Some (z :: zs) | None => None end | None => None end) with (svals rho (y :: ys)) in H.
    destruct (svals rho (y :: ys)) as [zs|] eqn:Zs; [|discriminate]. injection H as <-. rewrite feval_call, (E rho rf zx zs Zx Zs A).
    assert (NE : exists z1 zs1, zs = z1 :: zs1).
    { cbn [svals] in Zs. destruct (small_eval rho y) as [z1|]; [|discriminate]. destruct (svals rho ys) as [zs1|]; [|discriminate]. injection Zs as <-. now exists z1, zs1. }
    destruct NE as (z1 & zs1 & ->).
    destruct t; [congruence| |]; unfold fcall_meaning; cbn [lower fmm_name]; cbn - [map all_ints fold_left]; rewrite all_ints_map; reflexivity.
Qed.
Lemma fprint_good' : forall e, incl (vars e) vs -> pf_good' e.
Proof.
  induction e as [s|v [x|] IH|t l r IH|t l IH] using expr_ind'; intro IV; cbn [vars] in IV; try specialize (IH IV).
  - split; [|discriminate]. intros lv PR text PT. injection PT as <-. apply prim_p. apply good_name; [exact PR|apply IV; now left].
  - split; [|intros w y Ey; injection Ey as _ <-; exact (proj1 IH)]. intros lv PR text PT.
    eapply good_term; try eassumption. intros y Ey. injection Ey as <-. exact (proj1 IH).
  - split; [|discriminate]. intros lv PR text PT. eapply good_term; try eassumption. intros y Ey. discriminate.
  - split; [|discriminate]. destruct IH as [IH _]. intros lv PR text PT.
    assert (RD : (t = BFdiv \/ t = BCdiv) -> fprintable lv (EBin t l r) = true -> pf (EBin t l r) = Some text -> pgood lv text (fun rho => small_eval rho (EBin t l r))).
    { intros T PR' PT'. apply prim_p.
      assert (PP : 0 < r /\ fprintable PSum l = true) by (destruct T as [-> | ->]; cbn [fprintable] in PR'; apply andb_true_iff in PR'; split; [lia|apply PR'|lia|apply PR']).
      destruct PP as [D PL].
      assert (TX : exists sx, pf l = Some sx /\ text = round_name t ++ "(REAL(" ++ sx ++ ")/REAL(" ++ int_text r ++ "))").
      { destruct T as [-> | ->]; cbn [pprint_expr binary_text] in PT'; apply cat_some in PT'; destruct PT' as (p1 & q1 & E1 & PT' & ->); injection E1 as <-;
          apply cat_some in PT'; destruct PT' as (sx & q2 & Ex & PT' & ->); injection PT' as <-; exists sx; (split; [exact Ex|reflexivity]). }
      destruct TX as (sx & Ex & ->). apply (fgood_round t sx (fun rho => small_eval rho l) r T); [now apply (IH PSum)|exact D]. }
    destruct t; [apply RD; tauto|apply RD; tauto| |discriminate PR].
    cbn [fprintable] in PR. cbn [pprint_expr binary_text] in PT.
    apply andb_true_iff in PR. destruct PR as [D PR]. apply andb_true_iff in D. destruct D as [D MO].
    assert (EX : forall s, pgood lv s (fun rho => option_map (fun x => Z.quot x r) (small_eval rho l)) -> pgood lv s (fun rho => small_eval rho (EBin BDiv l r))).
    { intros s0. apply pgood_ext. intros rho z. cbn [small_eval small_quot bin_val]. destruct (small_eval rho l); [tauto|intro; discriminate]. }
    destruct (is_group l).
    + apply cat_some in PT. destruct PT as (p1 & q1 & E1 & PT & ->). injection E1 as <-.
      apply cat_some in PT. destruct PT as (sx & q2 & Ex & PT & ->). injection PT as <-. rewrite app_nil_s. apply EX.
      assert (G : fgood FLvMul ("(" ++ sx ++ ")") (fun rho => small_eval rho l)) by (apply fprim_mul, fgood_paren_sum; now apply (IH PSum)).
      apply (fgood_quot _ _ r) in G; [|lia]. rewrite !app_assoc_s in G. apply mul_p; [exact MO|exact G].
    + apply cat_some in PT. destruct PT as (p1 & q1 & E1 & PT & ->). injection E1 as <-.
      apply cat_some in PT. destruct PT as (sx & q2 & Ex & PT & ->). injection PT as <-. rewrite app_nil_s. cbn [append]. apply EX.
      destruct lv; [discriminate MO| | |].
      * apply (fgood_quot _ _ r); [|lia]. exact (IH PMul PR _ Ex).
      * apply (sgood_quot _ _ r); [|lia]. exact (IH PSigned PR _ Ex).
      * apply signed_sum, (sgood_quot _ _ r); [|lia]. exact (IH PSigned PR _ Ex).
  - split; [|discriminate]. intros lv PR text PT.
    assert (IH' : Forall pf_good' l).
    { rewrite Forall_forall in *. intros e He. apply IH; [exact He|]. intros x Hx. apply IV, in_flat_map. now exists e. }
    clear IH. rename IH' into IH.
    destruct l as [|x xs]; [destruct t; discriminate PR|]. pose proof (proj1 (Forall_cons_iff _ _ _) IH) as [IHx IHxs].
    destruct (match t with RSum => true | _ => false end) eqn:TS.
    + destruct t; try discriminate. rewrite pf_sum in PT. cbn [fprintable] in PR.
      apply andb_true_iff in PR. destruct PR as [PR PX]. apply andb_true_iff in PR. destruct PR as [IT PR].
      destruct x as [|v var| |]; try discriminate IT. apply cat_some in PT. destruct PT as (s1 & s2 & E1 & PT & ->).
      destruct xs as [|y ys].
      { injection PT as <-. rewrite app_nil_s. eapply pgood_ext; [|apply (proj1 IHx lv PR _ E1)].
        intros rho z. rewrite small_red. cbn [svals]. destruct (small_eval rho (ETerm v var)); [|intro; discriminate]. tauto. }
      apply andb_true_iff in PR. destruct PR as [SL PR].
      assert (lv = PSum) by (destruct lv; try discriminate; reflexivity). subst lv. cbn [pgood].
      assert (G1 : fgood FLvSum s1 (fun rho => small_eval rho (ETerm v var))) by (apply signed_sum; exact (proj1 IHx PSigned PR _ E1)).
      eapply fgood_ext; [|eapply fsum_good; eassumption]. intros rho z. rewrite small_red. cbn [svals].
      destruct (small_eval rho (ETerm v var)); [|intro; discriminate]. destruct (small_eval rho y); [|intro; discriminate].
      destruct (svals rho ys); [tauto|intro; discriminate].
    + assert (T : t <> RSum) by (intros ->; discriminate). destruct xs as [|y ys].
      { assert (PT' : pf x = Some text) by (destruct t; [congruence|exact PT|exact PT]).
        assert (PR' : fprintable lv x = true) by (destruct t; [congruence|exact PR|exact PR]).
        eapply pgood_ext; [|apply (proj1 IHx lv PR' _ PT')].
        intros rho z. rewrite small_red. cbn [svals]. destruct (small_eval rho x); [|intro; discriminate]. tauto. }
      rewrite pf_mm in PT by exact T. apply cat_some in PT. destruct PT as (p1 & q1 & E1 & PT & ->). injection E1 as <-.
      apply cat_some in PT. destruct PT as (s1 & s2 & E1 & PT & ->). apply cat_some in PT. destruct PT as (s3 & s4 & E3 & E4 & ->). injection E4 as <-.
      assert (PR' : forallb (fprintable PSum) (x :: y :: ys) = true) by (destruct t; [congruence|exact PR|exact PR]).
      apply prim_p. rewrite app_assoc_s. now apply mm_good.
Qed.
Theorem fprint_good : forall e lv, incl (vars e) vs -> fprintable lv e = true -> forall s, pf e = Some s -> pgood lv s (fun rho => small_eval rho e).
Proof. intros e lv IV. exact (proj1 (fprint_good' e IV) lv). Qed.
End Good.
(** printable expressions are printed *)
Lemma fprint_defined : forall e lv, fprintable lv e = true -> exists s, pf e = Some s.
Proof.
  induction e as [s|v [x|] IH|t l r IH|t l IH] using expr_ind'; intros lv PR.
  - now exists s.
  - cbn [fprintable] in PR. assert (P : exists lv, fprintable lv x = true).
    { destruct (is_group x); [apply andb_true_iff in PR; exists PSum; apply PR|]. destruct (v =? 1); [now exists lv|].
      apply andb_true_iff in PR. exists PPrim. apply PR. }
    destruct P as (lv' & P). destruct (IH lv' P) as (s & E). cbn [pprint_expr]. rewrite E. cbn [cat say]. eexists. reflexivity.
  - eexists. reflexivity.
  - assert (P : exists lv, fprintable lv l = true).
    { destruct t; cbn [fprintable] in PR; try discriminate; apply andb_true_iff in PR; destruct PR as [_ PR]; eauto. destruct (is_group l); eauto. }
    destruct P as (lv' & P). destruct (IH lv' P) as (s & E). cbn [pprint_expr]. destruct (binary_text LangFortran t (is_group l)) as [[? ?] ?].
    rewrite E. cbn [cat say]. eexists. reflexivity.
  - destruct l as [|x xs]; [destruct t; discriminate PR|]. pose proof (proj1 (Forall_cons_iff _ _ _) IH) as [IHx IHxs].
    destruct (match t with RSum => true | _ => false end) eqn:TS.
    + destruct t; try discriminate. rewrite pf_sum. cbn [fprintable] in PR.
      apply andb_true_iff in PR. destruct PR as [PR PX]. apply andb_true_iff in PR. destruct PR as [IT PR].
      destruct x as [|v var| |]; try discriminate IT.
      assert (P : exists s, pf (ETerm v var) = Some s).
      { destruct xs; [eapply IHx; exact PR|]. apply andb_true_iff in PR. eapply IHx, PR. }
      destruct P as (s & ->).
      assert (K : exists s, fsum_tail xs = Some s).
      { clear - IHxs PX. induction xs as [|e xs IH']; [eexists; reflexivity|]. inversion IHxs; subst. cbn [forallb] in PX.
        apply andb_true_iff in PX. destruct PX as [P1 P2]. apply andb_true_iff in P1. destruct P1 as [N P1]. destruct (IH' P2 H2) as (s & E).
        destruct e; try discriminate. destruct (H1 _ P1) as (s' & E'). cbn [fsum_tail]. rewrite E, E'. eexists. reflexivity. }
      destruct K as (s' & ->). eexists. reflexivity.
    + assert (T : t <> RSum) by (intros ->; discriminate). destruct xs as [|y ys].
      { assert (PR' : fprintable lv x = true) by (destruct t; [congruence|exact PR|exact PR]).
        destruct (IHx _ PR') as (s & E). exists s. destruct t; [congruence|exact E|exact E]. }
      rewrite pf_mm by exact T.
      assert (PR' : forallb (fprintable PSum) (x :: y :: ys) = true) by (destruct t; [congruence|exact PR|exact PR]).
      change (forallb (fprintable PSum) (x :: y :: ys)) with (fprintable PSum x && forallb (fprintable PSum) (y :: ys))%bool in PR'.
      apply andb_true_iff in PR'. destruct PR' as [PX PXs]. destruct (IHx _ PX) as (s & ->).
      assert (K : exists s, fmm_tail (y :: ys) = Some s).
      { clear - IHxs PXs. induction (y :: ys) as [|e xs IH']; [eexists; reflexivity|]. inversion IHxs; subst. cbn [forallb] in PXs.
        apply andb_true_iff in PXs. destruct PXs as [P1 P2]. destruct (IH' H2 P2) as (s & E).
        destruct (H1 _ P1) as (s' & E'). cbn [fmm_tail]. rewrite E, E'. eexists. reflexivity. }
      destruct K as (s' & ->). eexists. reflexivity.
Qed.
