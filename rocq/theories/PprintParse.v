(** The reader: more fuel never hurts, and how its levels of precedence fit together. *)
From Coq Require Import ZArith List Bool Arith String Ascii Lia.
From Verif Require Import ClastSpec ClastModel PprintModel CReader PprintSpec PprintLex.
Import ListNotations.
Local Open Scope string_scope.
Local Open Scope Z_scope.


Lemma fuel_mono : forall n,
  (forall lv ts r m, (n <= m)%nat -> parse n lv ts = Some r -> parse m lv ts = Some r) /\
  (forall acc ts r m, (n <= m)%nat -> parse_and n acc ts = Some r -> parse_and m acc ts = Some r) /\
  (forall acc ts r m, (n <= m)%nat -> parse_add n acc ts = Some r -> parse_add m acc ts = Some r) /\
  (forall acc ts r m, (n <= m)%nat -> parse_mul n acc ts = Some r -> parse_mul m acc ts = Some r) /\
  (forall ts r m, (n <= m)%nat -> parse_args n ts = Some r -> parse_args m ts = Some r).
Proof.
  induction n as [|n (IH1 & IH2 & IH3 & IH4 & IH5)].
  { repeat split; intros; discriminate. }
  assert (A1 : forall lv ts m, (n <= m)%nat -> parse m lv ts = parse n lv ts \/ parse n lv ts = None).
  { intros lv ts m L. destruct (parse n lv ts) eqn:E; [left|now right]. eapply IH1; eauto. }
  assert (A5 : forall ts m, (n <= m)%nat -> parse_args m ts = parse_args n ts \/ parse_args n ts = None).
  { intros ts m L. destruct (parse_args n ts) eqn:E; [left|now right]. eapply IH5; eauto. }
  repeat split; intros.
  - destruct m as [|m]; [lia|]. assert (L : (n <= m)%nat) by lia. destruct lv; cbn [parse] in *.
    + destruct (A1 LvAnd ts m L) as [E|E]; rewrite E in *; [|discriminate].
      destruct (parse n LvAnd ts) as [[c [|[| |[]| |] ts1]]|]; try assumption.
      destruct (A1 LvCond ts1 m L) as [E'|E']; rewrite E' in *; [|discriminate].
      destruct (parse n LvCond ts1) as [[e [|[| |[]| |] ts2]]|]; try assumption.
      destruct (A1 LvCond ts2 m L) as [E2|E2]; rewrite E2 in *; [|discriminate]. assumption.
    + destruct (A1 LvCmp ts m L) as [E|E]; rewrite E in *; [|discriminate].
      destruct (parse n LvCmp ts) as [[e ts1]|]; [|assumption]. now apply IH2.
    + destruct (A1 LvAdd ts m L) as [E|E]; rewrite E in *; [|discriminate].
      destruct (parse n LvAdd ts) as [[e [|[| |o| |] ts1]]|]; try assumption.
      destruct (cmp_op o); [|assumption].
      destruct (A1 LvAdd ts1 m L) as [E'|E']; rewrite E' in *; [|discriminate]. assumption.
    + destruct (A1 LvMul ts m L) as [E|E]; rewrite E in *; [|discriminate].
      destruct (parse n LvMul ts) as [[e ts1]|]; [|assumption]. now apply IH3.
    + destruct (A1 LvUn ts m L) as [E|E]; rewrite E in *; [|discriminate].
      destruct (parse n LvUn ts) as [[e ts1]|]; [|assumption]. now apply IH4.
    + destruct ts as [|[| |o| |] ts1]; try (now apply IH1). destruct o; try (now apply IH1).
      destruct (A1 LvUn ts1 m L) as [E|E]; rewrite E in *; [|discriminate]. assumption.
    + destruct ts as [|[x|z|o| |] ts1]; try assumption.
      * destruct ts1 as [|[x'|z'|o'| |] ts2]; try assumption. destruct o'; try assumption.
        destruct (is_keyword x); [assumption|].
        destruct (A5 ts2 m L) as [E|E]; rewrite E in *; [|discriminate]. assumption.
      * destruct o; try assumption.
        destruct (A1 LvCond ts1 m L) as [E|E]; rewrite E in *; [|discriminate]. assumption.
  - destruct m as [|m]; [lia|]. assert (L : (n <= m)%nat) by lia. cbn [parse_and] in *.
    destruct ts as [|[x|z|o| |] ts1]; try assumption. destruct o; try assumption.
    destruct (A1 LvCmp ts1 m L) as [E|E]; rewrite E in *; [|discriminate].
    destruct (parse n LvCmp ts1) as [[f ts2]|]; [|assumption]. now apply IH2.
  - destruct m as [|m]; [lia|]. assert (L : (n <= m)%nat) by lia. cbn [parse_add] in *.
    destruct ts as [|[x|z|o| |] ts1]; try assumption. destruct (add_op o); [|assumption].
    destruct (A1 LvMul ts1 m L) as [E|E]; rewrite E in *; [|discriminate].
    destruct (parse n LvMul ts1) as [[f ts2]|]; [|assumption]. now apply IH3.
  - destruct m as [|m]; [lia|]. assert (L : (n <= m)%nat) by lia. cbn [parse_mul] in *.
    destruct ts as [|[x|z|o| |] ts1]; try assumption. destruct (mul_op o); [|assumption].
    destruct (A1 LvUn ts1 m L) as [E|E]; rewrite E in *; [|discriminate].
    destruct (parse n LvUn ts1) as [[f ts2]|]; [|assumption]. now apply IH4.
  - destruct m as [|m]; [lia|]. assert (L : (n <= m)%nat) by lia. cbn [parse_args] in *.
    assert (G : forall X Y : option (list cexpr * list token),
              (match ts with TOp ORpar :: ts1 => Some ([], ts1) | _ => X end = Some r) -> (X = Some r -> Y = Some r) ->
              match ts with TOp ORpar :: ts1 => Some ([], ts1) | _ => Y end = Some r).
    { intros X Y HX HY. destruct ts as [|[x|z|o| |] ts1]; try (now apply HY). destruct o; try (now apply HY). exact HX. }
    eapply G; [eassumption|]. clear H0 G. intro H0.
    destruct (A1 LvCond ts m L) as [E|E]; rewrite E in *; [|discriminate].
    destruct (parse n LvCond ts) as [[e [|[x|z|o| |] ts1]]|]; try assumption. destruct o; try assumption.
    destruct (A5 ts1 m L) as [E'|E'].
    + rewrite E'. assumption.
    + rewrite E' in H0. destruct ts1 as [|[x|z|o| |] ts2]; try discriminate. destruct o; discriminate.
Qed.
Lemma stmt_mono : forall n,
  (forall ts r m, (n <= m)%nat -> parse_stmt n ts = Some r -> parse_stmt m ts = Some r) /\
  (forall ts r m, (n <= m)%nat -> parse_body n ts = Some r -> parse_body m ts = Some r).
Proof.
  induction n as [|n (IH1 & IH2)].
  { repeat split; intros; discriminate. }
  destruct (fuel_mono n) as (IP & _ & _ & _ & IA).
  assert (A1 : forall lv ts m, (n <= m)%nat -> parse m lv ts = parse n lv ts \/ parse n lv ts = None).
  { intros lv ts m L. destruct (parse n lv ts) eqn:E; [left|now right]. eapply IP; eauto. }
  assert (A5 : forall ts m, (n <= m)%nat -> parse_args m ts = parse_args n ts \/ parse_args n ts = None).
  { intros ts m L. destruct (parse_args n ts) eqn:E; [left|now right]. eapply IA; eauto. }
  assert (AB : forall ts m, (n <= m)%nat -> parse_body m ts = parse_body n ts \/ parse_body n ts = None).
  { intros ts m L. destruct (parse_body n ts) eqn:E; [left|now right]. eapply IH2; eauto. }
  assert (AS : forall ts m, (n <= m)%nat -> parse_stmt m ts = parse_stmt n ts \/ parse_stmt n ts = None).
  { intros ts m L. destruct (parse_stmt n ts) eqn:E; [left|now right]. eapply IH1; eauto. }
  split; intros ts r m Lm H; (destruct m as [|m]; [lia|]); assert (L : (n <= m)%nat) by lia.
  - cbn [parse_stmt] in *. destruct ts as [|[x|z|o| |] ts1]; try discriminate.
    + destruct (String.eqb x "if").
      { destruct ts1 as [|[x1|z1|o1| |] ts2]; try discriminate. destruct o1; try discriminate.
        destruct (A1 LvCond ts2 m L) as [E|E]; rewrite E in *; [|discriminate].
        destruct (parse n LvCond ts2) as [[c [|[|z2|[]| |] [|[|z3|[]| |] ts3]]]|]; try discriminate.
        destruct (AB ts3 m L) as [E'|E']; rewrite E' in *; [|discriminate]. assumption. }
      destruct (String.eqb x "for").
      { destruct ts1 as [|[x1|z1|o1| |] ts2]; try discriminate. destruct o1; try discriminate.
        destruct ts2 as [|[x2|z2|o2| |] ts3]; try discriminate.
        destruct ts3 as [|[x3|z3|o3| |] ts4]; try discriminate. destruct o3; try discriminate.
        destruct (is_keyword x2); [discriminate|].
        destruct (A1 LvCond ts4 m L) as [E|E]; rewrite E in *; [|discriminate].
        destruct (parse n LvCond ts4) as [[lb [|[|z4|[]| |] [|[x5|z5|o5| |] [|[|z6|[]| |] ts5]]]]|]; try discriminate.
        destruct (A1 LvAdd ts5 m L) as [E5|E5]; rewrite E5 in *; [|discriminate].
        destruct (parse n LvAdd ts5) as [[ub [|[|z7|[]| |] [|[x7|z8|o8| |] ts6]]]|]; try discriminate.
        destruct (String.eqb x2 x5 && String.eqb x2 x7)%bool; [|discriminate].
        destruct ts6 as [|[|z9|o9| |] ts7]; try discriminate. destruct o9; try discriminate.
        - destruct ts7 as [|[|z9|[]| |] [|[|z10|[]| |] ts8]]; try discriminate.
          destruct (AB ts8 m L) as [E'|E']; rewrite E' in *; [|discriminate]. assumption.
        - destruct ts7 as [|[|z9|[]| |] [|[|z10|[]| |] [|[|z11|[]| |] ts8]]]; try discriminate.
          destruct (AB ts8 m L) as [E'|E']; rewrite E' in *; [|discriminate]. assumption. }
      destruct (is_keyword x); [discriminate|].
      destruct ts1 as [|[x1|z1|o1| |] ts2]; try discriminate. destruct o1; try discriminate.
      * destruct (A1 LvCond ts2 m L) as [E|E]; rewrite E in *; [|discriminate]. assumption.
      * destruct (A5 ts2 m L) as [E|E]; rewrite E in *; [|discriminate]. assumption.
    + destruct o; try discriminate. destruct (AB ts1 m L) as [E|E]; rewrite E in *; [|discriminate]. assumption.
  - cbn [parse_body] in *.
    assert (G : forall X Y : option (list cstmt * list token),
              (match ts with TOp ORbrace :: ts1 => Some ([], ts1) | _ => X end = Some r) -> (X = Some r -> Y = Some r) ->
              match ts with TOp ORbrace :: ts1 => Some ([], ts1) | _ => Y end = Some r).
    { intros X Y HX HY. destruct ts as [|[x|z|o| |] ts1]; try (now apply HY). destruct o; try (now apply HY). exact HX. }
    eapply G; [eassumption|]. clear H G. intro H.
    destruct (AS ts m L) as [E|E]; rewrite E in *; [|discriminate].
    destruct (parse_stmt n ts) as [[s ts1]|]; [|assumption].
    destruct (AB ts1 m L) as [E'|E']; rewrite E' in *; [|discriminate]. assumption.
Qed.

(** A text is read in one way only. *)
Lemma reads_expr_unique : forall s a b, reads_expr s a -> reads_expr s b -> a = b.
Proof.
  intros s a b [n A] [m B].
  apply (proj1 (fuel_mono n)) with (m := (n + m)%nat) in A; [|lia].
  apply (proj1 (fuel_mono m)) with (m := (n + m)%nat) in B; [|lia]. congruence.
Qed.
Lemma reads_unique : forall s a b, reads s a -> reads s b -> a = b.
Proof.
  intros s a b [n A] [m B].
  apply (proj2 (stmt_mono n)) with (m := (n + m)%nat) in A; [|lia].
  apply (proj2 (stmt_mono m)) with (m := (n + m)%nat) in B; [|lia]. congruence.
Qed.

(** *** parsing with enough fuel *)
Definition parses lv ts (r : cexpr * list token) : Prop := exists N, parse N lv ts = Some r.
Definition pmul acc ts (r : cexpr * list token) : Prop := exists N, parse_mul N acc ts = Some r.
Definition padd acc ts (r : cexpr * list token) : Prop := exists N, parse_add N acc ts = Some r.
Definition pand acc ts (r : cexpr * list token) : Prop := exists N, parse_and N acc ts = Some r.
Definition pargs ts (r : list cexpr * list token) : Prop := exists N, parse_args N ts = Some r.
(** operators that continue an expression of this level *)
Definition cont (lv : level) (o : op) : bool :=
  match o with
  | OLpar => true
  | OStar | OSlash | OPercent => match lv with LvPrim | LvUn => false | _ => true end
  | OPlus | OMinus => match lv with LvPrim | LvUn | LvMul => false | _ => true end
  | OLt | OGt | OLe | OGe | OEq => match lv with LvPrim | LvUn | LvMul | LvAdd => false | _ => true end
  | OAnd => match lv with LvAnd | LvCond => true | _ => false end
  | OQuest => match lv with LvCond => true | _ => false end
  | _ => false
  end.
Definition stops (lv : level) (ts : list token) : Prop := match ts with TOp o :: _ => cont lv o = false | _ => True end.

Lemma stops_un_mul : forall ts, stops LvMul ts -> stops LvUn ts.
Proof. intros [|[| |[]| |] ?] H; simpl in *; auto. Qed.
Lemma stops_mul_add : forall ts, stops LvAdd ts -> stops LvMul ts.
Proof. intros [|[| |[]| |] ?] H; simpl in *; auto. Qed.
Lemma stops_add_cmp : forall ts, stops LvCmp ts -> stops LvAdd ts.
Proof. intros [|[| |[]| |] ?] H; simpl in *; auto. Qed.
Lemma stops_cmp_and : forall ts, stops LvAnd ts -> stops LvCmp ts.
Proof. intros [|[| |[]| |] ?] H; simpl in *; auto. Qed.
Lemma stops_and_cond : forall ts, stops LvCond ts -> stops LvAnd ts.
Proof. intros [|[| |[]| |] ?] H; simpl in *; auto. Qed.

Definition prims ts a : Prop := forall rest, stops LvUn rest -> parses LvPrim (ts ++ rest)%list (a, rest).
Definition uns ts a : Prop := forall rest, stops LvUn rest -> parses LvUn (ts ++ rest)%list (a, rest).
Definition muls ts a : Prop := forall rest r, stops LvUn rest -> pmul a rest r -> parses LvMul (ts ++ rest)%list r.
Definition adds ts a : Prop := forall rest r, stops LvMul rest -> padd a rest r -> parses LvAdd (ts ++ rest)%list r.
Definition cmps ts a : Prop := forall rest, stops LvCmp rest -> parses LvCmp (ts ++ rest)%list (a, rest).
Definition ands ts a : Prop := forall rest r, stops LvCmp rest -> pand a rest r -> parses LvAnd (ts ++ rest)%list r.
Definition conds ts a : Prop := forall rest, stops LvCond rest -> parses LvCond (ts ++ rest)%list (a, rest).

Lemma prims_uns : forall ts a, prims ts a -> uns ts a.
Proof.
  intros ts a H rest S. destruct (H rest S) as [N E]. exists (Datatypes.S N). cbn [parse].
  destruct (ts ++ rest)%list as [|[| |o| |] ts1] eqn:T; try assumption. destruct o; try assumption.
  destruct N; discriminate E.
Qed.
Lemma pmul_stop : forall a rest, stops LvMul rest -> pmul a rest (a, rest).
Proof.
  intros a rest S. exists 1%nat. cbn [parse_mul]. destruct rest as [|[| |o| |] ts1]; try reflexivity.
  destruct o; try reflexivity; discriminate S.
Qed.
Lemma padd_stop : forall a rest, stops LvAdd rest -> padd a rest (a, rest).
Proof.
  intros a rest S. exists 1%nat. cbn [parse_add]. destruct rest as [|[| |o| |] ts1]; try reflexivity.
  destruct o; try reflexivity; discriminate S.
Qed.
Lemma pand_stop : forall a rest, stops LvAnd rest -> pand a rest (a, rest).
Proof.
  intros a rest S. exists 1%nat. cbn [parse_and]. destruct rest as [|[| |o| |] ts1]; try reflexivity.
  destruct o; try reflexivity; discriminate S.
Qed.
Lemma uns_muls : forall ts a, uns ts a -> muls ts a.
Proof.
  intros ts a H rest r S [M P]. destruct (H rest S) as [N E]. exists (Datatypes.S (N + M)). cbn [parse].
  rewrite (proj1 (fuel_mono N) _ _ _ (N + M)%nat ltac:(lia) E).
  apply (fuel_mono M); [lia|exact P].
Qed.
Lemma muls_adds : forall ts a, muls ts a -> adds ts a.
Proof.
  intros ts a H rest r S [M P]. destruct (H rest _ (stops_un_mul _ S) (pmul_stop a rest S)) as [N E].
  exists (Datatypes.S (N + M)). cbn [parse].
  rewrite (proj1 (fuel_mono N) _ _ _ (N + M)%nat ltac:(lia) E).
  apply (fuel_mono M); [lia|exact P].
Qed.
Lemma adds_cmps : forall ts a, adds ts a -> cmps ts a.
Proof.
  intros ts a H rest S. destruct (H rest (a, rest) (stops_mul_add _ (stops_add_cmp _ S)) (padd_stop a rest (stops_add_cmp _ S))) as [N E].
  exists (Datatypes.S N). cbn [parse]. rewrite E. destruct rest as [|[| |o| |] ts1]; try reflexivity.
  destruct o; try reflexivity; discriminate S.
Qed.
Lemma cmps_ands : forall ts a, cmps ts a -> ands ts a.
Proof.
  intros ts a H rest r S [M P]. destruct (H rest S) as [N E]. exists (Datatypes.S (N + M)). cbn [parse].
  rewrite (proj1 (fuel_mono N) _ _ _ (N + M)%nat ltac:(lia) E).
  apply (fuel_mono M); [lia|exact P].
Qed.
Lemma ands_conds : forall ts a, ands ts a -> conds ts a.
Proof.
  intros ts a H rest S. destruct (H rest (a, rest) (stops_cmp_and _ (stops_and_cond _ S)) (pand_stop a rest (stops_and_cond _ S))) as [N E].
  exists (Datatypes.S N). cbn [parse]. rewrite E. destruct rest as [|[| |o| |] ts1]; try reflexivity.
  destruct o; try reflexivity; discriminate S.
Qed.
Lemma adds_conds : forall ts a, adds ts a -> conds ts a.
Proof. intros ts a H. now apply ands_conds, cmps_ands, adds_cmps. Qed.

Lemma neg_uns : forall ts a, uns ts a -> uns (TOp OMinus :: ts) (CNeg a).
Proof. intros ts a H rest S. destruct (H rest S) as [N E]. exists (Datatypes.S N). cbn [parse app]. now rewrite E. Qed.
Lemma num_prims : forall z, prims [TNum z] (CInt z).
Proof. intros z rest S. exists 1%nat. reflexivity. Qed.
Lemma var_prims : forall x, is_keyword x = false -> prims [TId x] (CVar x).
Proof.
  intros x K rest S. exists 1%nat. cbn [parse app]. rewrite K. destruct rest as [|[| |o| |] ts1]; try reflexivity.
  destruct o; try reflexivity. discriminate S.
Qed.
Lemma paren_prims : forall ts a, conds ts a -> prims (TOp OLpar :: ts ++ [TOp ORpar])%list a.
Proof.
  intros ts a H rest S. destruct (H (TOp ORpar :: rest) eq_refl) as [N E]. exists (Datatypes.S N). cbn [parse app].
  rewrite <- app_assoc. cbn [app]. now rewrite E.
Qed.
Lemma mul_muls : forall ts a o b ts' a', muls ts a -> mul_op o = Some b -> uns ts' a' -> muls (ts ++ TOp o :: ts')%list (COp b a a').
Proof.
  intros ts a o b ts' a' H O H' rest r S [M P]. rewrite <- app_assoc. cbn [app]. apply H.
  - destruct o; try discriminate; reflexivity.
  - destruct (H' rest S) as [N E]. exists (Datatypes.S (N + M)). cbn [parse_mul]. rewrite O.
    rewrite (proj1 (fuel_mono N) _ _ _ (N + M)%nat ltac:(lia) E). apply (fuel_mono M); [lia|exact P].
Qed.
Lemma add_adds : forall ts a o b ts' a', adds ts a -> add_op o = Some b -> muls ts' a' -> adds (ts ++ TOp o :: ts')%list (COp b a a').
Proof.
  intros ts a o b ts' a' H O H' rest r S [M P]. rewrite <- app_assoc. cbn [app]. apply H.
  - destruct o; try discriminate; reflexivity.
  - destruct (H' rest _ (stops_un_mul _ S) (pmul_stop a' rest S)) as [N E]. exists (Datatypes.S (N + M)). cbn [parse_add]. rewrite O.
    rewrite (proj1 (fuel_mono N) _ _ _ (N + M)%nat ltac:(lia) E). apply (fuel_mono M); [lia|exact P].
Qed.
Lemma cmp_cmps : forall ts a o b ts' a', adds ts a -> cmp_op o = Some b -> adds ts' a' -> cmps (ts ++ TOp o :: ts')%list (COp b a a').
Proof.
  intros ts a o b ts' a' H O H' rest S. rewrite <- app_assoc. cbn [app].
  assert (S1 : stops LvAdd (TOp o :: ts' ++ rest)%list) by (destruct o; try discriminate; reflexivity).
  destruct (H _ (a, TOp o :: ts' ++ rest)%list (stops_mul_add _ S1) (padd_stop _ _ S1)) as [N E].
  destruct (H' rest (a', rest) (stops_mul_add _ (stops_add_cmp _ S)) (padd_stop _ _ (stops_add_cmp _ S))) as [M P].
  exists (Datatypes.S (N + M)). cbn [parse].
  rewrite (proj1 (fuel_mono N) _ _ _ (N + M)%nat ltac:(lia) E). rewrite O.
  now rewrite (proj1 (fuel_mono M) _ _ _ (N + M)%nat ltac:(lia) P).
Qed.
Lemma and_ands : forall ts a ts' a', ands ts a -> cmps ts' a' -> ands (ts ++ TOp OAnd :: ts')%list (COp CAnd a a').
Proof.
  intros ts a ts' a' H H' rest r S [M P]. rewrite <- app_assoc. cbn [app]. apply H; [reflexivity|].
  destruct (H' rest S) as [N E]. exists (Datatypes.S (N + M)). cbn [parse_and].
  rewrite (proj1 (fuel_mono N) _ _ _ (N + M)%nat ltac:(lia) E). apply (fuel_mono M); [lia|exact P].
Qed.
(** calls *)
Definition no_rpar (ts : list token) : Prop := match ts with TOp ORpar :: _ => False | [] => False | _ => True end.
Lemma conds_no_rpar : forall ts a, conds ts a -> no_rpar ts.
Proof.
  assert (G : forall n lv ts1, match ts1 with TOp ORpar :: _ => True | _ => False end -> parse n lv ts1 = None).
  { induction n as [|n IH]; intros lv ts1 T; [reflexivity|]. destruct ts1 as [|[| |o| |] ts1]; try contradiction. destruct o; try contradiction.
    destruct lv; cbn [parse]; try rewrite IH by exact I; reflexivity. }
  assert (G0 : forall n lv, parse n lv [] = None).
  { induction n as [|n IH]; intros lv; [reflexivity|]. destruct lv; cbn [parse]; try rewrite IH; reflexivity. }
  intros ts a H. destruct (H [] I) as [N E]. destruct ts as [|[| |o| |] ts1]; try exact I.
  - simpl in E. rewrite G0 in E. discriminate.
  - destruct o; try exact I. rewrite G in E by exact I. discriminate.
Qed.
Lemma args_nil : forall rest, pargs (TOp ORpar :: rest) ([], rest).
Proof. intro rest. exists 1%nat. reflexivity. Qed.
Lemma args_one : forall ts a rest, conds ts a -> pargs (ts ++ TOp ORpar :: rest)%list ([a], rest).
Proof.
  intros ts a rest H. pose proof (conds_no_rpar _ _ H) as NR. destruct (H (TOp ORpar :: rest) eq_refl) as [N E].
  exists (Datatypes.S N). cbn [parse_args]. rewrite E.
  destruct ts as [|[| |o| |] ts1]; try reflexivity; [destruct NR|]. destruct o; try reflexivity. destruct NR.
Qed.
Lemma args_cons : forall ts a rest l rest', conds ts a -> no_rpar rest -> pargs rest (l, rest') ->
  pargs (ts ++ TOp OComma :: rest)%list (a :: l, rest').
Proof.
  intros ts a rest l rest' H R [M P]. pose proof (conds_no_rpar _ _ H) as NR. destruct (H (TOp OComma :: rest) eq_refl) as [N E].
  exists (Datatypes.S (N + M)). cbn [parse_args]. rewrite (proj1 (fuel_mono N) _ _ _ (N + M)%nat ltac:(lia) E).
  rewrite (proj2 (proj2 (proj2 (proj2 (fuel_mono M)))) _ _ (N + M)%nat ltac:(lia) P).
  assert (Q : match rest with TOp ORpar :: _ => None | _ => Some (a :: l, rest') end = Some (a :: l, rest')).
  { destruct rest as [|[| |o| |] ts1]; try reflexivity. destruct o; try reflexivity. destruct R. }
  rewrite Q. destruct ts as [|[| |o| |] ts1]; try reflexivity; idtac. destruct o; try reflexivity. destruct NR.
Qed.
Lemma call_prims : forall f ts l, is_keyword f = false -> (forall rest, pargs (ts ++ rest)%list (l, rest)) ->
  prims (TId f :: TOp OLpar :: ts)%list (CCall f l).
Proof. intros f ts l K H rest S. destruct (H rest) as [N E]. exists (Datatypes.S N). cbn [parse app]. now rewrite K, E. Qed.
Lemma call2_prims : forall f ts1 a1 ts2 a2, is_keyword f = false -> conds ts1 a1 -> conds ts2 a2 ->
  prims (TId f :: TOp OLpar :: ts1 ++ TOp OComma :: ts2 ++ [TOp ORpar])%list (CCall f [a1; a2]).
Proof.
  intros f ts1 a1 ts2 a2 K H1 H2. apply call_prims; [exact K|]. intro rest. rewrite <- app_assoc. cbn [app]. rewrite <- app_assoc. cbn [app].
  apply args_cons; [exact H1| |now apply args_one].
  pose proof (conds_no_rpar _ _ H2) as N. destruct ts2 as [|[| |o| |] t]; try exact I; [destruct N|]. destruct o; try exact I. destruct N.
Qed.
