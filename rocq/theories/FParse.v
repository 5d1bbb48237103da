(** The Fortran reader: the characters printed are read as the tokens meant, more fuel never hurts,
    and how its levels of precedence fit together. *)
From Coq Require Import ZArith List Bool Arith String Ascii Lia Decimal DecimalString DecimalZ.
From Verif Require Import ClastSpec ClastModel PprintModel CReader FReader PprintSpec FSpec PprintLex.
Import ListNotations.
Local Open Scope string_scope.
Local Open Scope Z_scope.
Local Arguments Nat.leb : simpl never.
Local Arguments Nat.ltb : simpl never.
Local Arguments Nat.eqb : simpl never.
Local Arguments Z.mul : simpl never.
Local Arguments Z.add : simpl never.

(** *** characters *)
(** the next character continues neither a name nor a number *)
Definition fsep (r : string) : Prop := match r with EmptyString => True | String c _ => is_namechar c = false /\ (c =? ".")%char = false end.
Definition flexes (s : string) (ts : list ftoken) : Prop := forall r, fsep r -> flex FNone (s ++ r) = (ts ++ flex FNone r)%list.
Definition fclosed (s : string) (ts : list ftoken) : Prop := forall r, flex FNone (s ++ r) = (ts ++ flex FNone r)%list.
Lemma fclosed_lexes : forall s ts, fclosed s ts -> flexes s ts.
Proof. intros s ts H r _. apply H. Qed.
Lemma fclosed_app : forall s ts s' ts', fclosed s ts -> fclosed s' ts' -> fclosed (s ++ s') (ts ++ ts')%list.
Proof. intros s ts s' ts' H H' r. rewrite app_assoc_s, H, H'. now rewrite app_assoc. Qed.
Lemma fclosed_lexes_app : forall s ts s' ts', fclosed s ts -> flexes s' ts' -> flexes (s ++ s') (ts ++ ts')%list.
Proof. intros s ts s' ts' H H' r S. rewrite app_assoc_s, H, H' by exact S. now rewrite app_assoc. Qed.
Lemma fclosed_nil : fclosed "" [].
Proof. intro r. reflexivity. Qed.
Lemma flexes_app : forall s ts s' ts', flexes s ts -> s' <> "" -> fsep s' -> flexes s' ts' -> flexes (s ++ s') (ts ++ ts')%list.
Proof.
  intros s ts s' ts' H N S H' r Sr. rewrite app_assoc_s, H.
  - rewrite H' by exact Sr. now rewrite app_assoc.
  - destruct s'; [congruence|exact S].
Qed.
Lemma flexes_closed_app : forall s ts s' ts', flexes s ts -> s' <> "" -> fsep s' -> fclosed s' ts' -> fclosed (s ++ s') (ts ++ ts')%list.
Proof.
  intros s ts s' ts' H N S H' r. rewrite app_assoc_s, H.
  - rewrite H'. now rewrite app_assoc.
  - destruct s'; [congruence|exact S].
Qed.
Lemma digit_not_letter : forall c, is_digit c = true -> is_letter c = false.
Proof. intros c. destruct c as [[] [] [] [] [] [] [] []]; vm_compute; congruence. Qed.
Lemma fflush_step : forall st r, fsep r -> match st with FWord _ | FDigits _ => True | _ => False end -> flex st r = (fflush st ++ flex FNone r)%list.
Proof.
  intros st r S H. destruct r as [|c r'].
  - cbn [flex fflush]. now rewrite app_nil_r.
  - destruct S as [S1 S2]. cbn [flex]. destruct st; try contradiction; cbn [fstep].
    + rewrite S1. destruct (fstart c) as [st' ts]. now rewrite app_assoc.
    + assert (D : is_digit c = false).
      { unfold is_namechar in S1. apply orb_false_iff in S1. destruct S1 as [S1 _]. apply orb_false_iff in S1. apply S1. }
      rewrite D, S1, S2. cbn [orb]. destruct (fstart c) as [st' ts]. now rewrite app_assoc.
Qed.
Lemma flex_word : forall s acc r, all_chars is_namechar s = true -> fsep r -> flex (FWord acc) (s ++ r) = (FId (acc ++ lower s) :: flex FNone r)%list.
Proof.
  induction s as [|c s' IH]; intros acc r A S.
  - cbn [append lower]. rewrite fflush_step by (auto; exact I). cbn [fflush List.app]. now rewrite app_nil_s.
  - cbn [all_chars] in A. apply andb_true_iff in A. destruct A as [A1 A2]. cbn [append flex fstep lower]. rewrite A1. cbn [List.app].
    rewrite IH by assumption. unfold snoc. rewrite app_assoc_s. reflexivity.
Qed.
Lemma flex_name : forall s, fname s = true -> flexes s [FId (lower s)].
Proof.
  intros s I r S. unfold fname in I. apply andb_true_iff in I. destruct I as [I _]. apply andb_true_iff in I. destruct I as [I _].
  destruct s as [|c s']; [discriminate|]. apply andb_true_iff in I. destruct I as [I1 I2].
  cbn [append flex fstep]. unfold fstart. rewrite I1. cbn [List.app lower]. rewrite flex_word by assumption. reflexivity.
Qed.
Lemma name_first : forall s, fname s = true -> first_in is_letter s.
Proof.
  intros s I. unfold fname in I. apply andb_true_iff in I. destruct I as [I _]. apply andb_true_iff in I. destruct I as [I _].
  destruct s as [|c s']; [discriminate|]. apply andb_true_iff in I. apply I.
Qed.
Lemma flex_digits : forall l acc r, fsep r -> flex (FDigits acc) (NilEmpty.string_of_uint l ++ r) = (FNum (dval l acc) :: flex FNone r)%list.
Proof.
  induction l; intros acc r S; cbn [NilEmpty.string_of_uint append dval]; [rewrite fflush_step by (auto; exact I); reflexivity| | | | | | | | | |];
    cbn [flex fstep];
    match goal with |- context [is_digit ?c] => change (is_digit c) with true; let v := eval vm_compute in (digit_val c) in change (digit_val c) with v end;
    cbn iota beta; cbn [List.app]; rewrite ?Z.add_0_r; now rewrite IHl by exact S.
Qed.
Lemma flex_uint : forall l, flexes (NilZero.string_of_uint l) [FNum (Z.of_uint l)].
Proof.
  intros l r S. rewrite dval_uint. destruct l; cbn [NilZero.string_of_uint NilEmpty.string_of_uint append]; cbn [flex fstep];
    match goal with |- context [fstart ?c] => let v := eval vm_compute in (fstart c) in change (fstart c) with v end; cbn [List.app dval];
    [rewrite fflush_step by (auto; exact I); reflexivity|..]; rewrite flex_digits by exact S; reflexivity.
Qed.
(** signs that may be part of an operator *)
Definition fapart (c : ascii) (r : string) : Prop := match r with EmptyString => True | String d _ => fsign2 c d = None end.
Lemma flex_sign : forall c r, (c = "*" \/ c = "/" \/ c = "=")%char -> fapart c r -> flex FNone (String c r) = (fsign1 c :: flex FNone r)%list.
Proof.
  intros c r H A. assert (F : fstart c = (FSign c, [])) by (destruct H as [->|[->| ->]]; reflexivity).
  cbn [flex fstep]. rewrite F. cbn [List.app]. destruct r as [|d r']; [reflexivity|]. cbn [flex]. unfold fstep at 1. cbn [fapart] in A. rewrite A.
  cbn [fstep]. destruct (fstart d) as [st ts]. reflexivity.
Qed.
(** the first character of an expression *)
Definition fprim_char (c : ascii) : bool := is_namechar c || (c =? "(")%char.
Definition fexpr_char (c : ascii) : bool := fprim_char c || (c =? "-")%char.
Lemma char_apart : forall c d : ascii, (c = "*" \/ c = "/" \/ c = "=")%char -> fexpr_char d = true -> fsign2 c d = None.
Proof. intros c d H. destruct H as [->|[->| ->]]; destruct d as [[] [] [] [] [] [] [] []]; vm_compute; congruence. Qed.
Lemma first_fapart : forall c s, (c = "*" \/ c = "/" \/ c = "=")%char -> first_in fexpr_char s -> fapart c s.
Proof. intros c [|d s'] H F; [exact I|]. now apply char_apart. Qed.

(** *** fuel *)
Lemma ffuel_mono : forall n,
  (forall lv ts r m, (n <= m)%nat -> fparse n lv ts = Some r -> fparse m lv ts = Some r) /\
  (forall acc ts r m, (n <= m)%nat -> fparse_and n acc ts = Some r -> fparse_and m acc ts = Some r) /\
  (forall acc ts r m, (n <= m)%nat -> fparse_add n acc ts = Some r -> fparse_add m acc ts = Some r) /\
  (forall acc ts r m, (n <= m)%nat -> fparse_mul n acc ts = Some r -> fparse_mul m acc ts = Some r) /\
  (forall ts r m, (n <= m)%nat -> fparse_args n ts = Some r -> fparse_args m ts = Some r).
Proof.
  induction n as [|n (IH1 & IH2 & IH3 & IH4 & IH5)].
  { repeat split; intros; discriminate. }
  assert (A1 : forall lv ts m, (n <= m)%nat -> fparse m lv ts = fparse n lv ts \/ fparse n lv ts = None).
  { intros lv ts m L. destruct (fparse n lv ts) eqn:E; [left|now right]. eapply IH1; eauto. }
  assert (A5 : forall ts m, (n <= m)%nat -> fparse_args m ts = fparse_args n ts \/ fparse_args n ts = None).
  { intros ts m L. destruct (fparse_args n ts) eqn:E; [left|now right]. eapply IH5; eauto. }
  repeat split; intros.
  - destruct m as [|m]; [lia|]. assert (L : (n <= m)%nat) by lia. destruct lv; cbn [fparse] in *.
    + destruct (A1 FLvCmp ts m L) as [E|E]; rewrite E in *; [|discriminate].
      destruct (fparse n FLvCmp ts) as [[e ts1]|]; [|assumption]. now apply IH2.
    + destruct (A1 FLvSum ts m L) as [E|E]; rewrite E in *; [|discriminate].
      destruct (fparse n FLvSum ts) as [[e [|[| |o| |] ts1]]|]; try assumption.
      destruct (fcmp_op o); [|assumption].
      destruct (A1 FLvSum ts1 m L) as [E'|E']; rewrite E' in *; [|discriminate]. assumption.
    + assert (G : match fparse n FLvMul ts with Some (e, ts1) => fparse_add n e ts1 | None => None end = Some r ->
                  match fparse m FLvMul ts with Some (e, ts1) => fparse_add m e ts1 | None => None end = Some r).
      { intro H1. destruct (A1 FLvMul ts m L) as [E|E]; rewrite E in *; [|discriminate].
        destruct (fparse n FLvMul ts) as [[e ts1]|]; [|assumption]. now apply IH3. }
      destruct ts as [|[| |o| |] ts1]; try (now apply G). destruct o; try (now apply G). clear G.
      destruct (A1 FLvMul ts1 m L) as [E|E]; rewrite E in *; [|discriminate].
      destruct (fparse n FLvMul ts1) as [[e ts2]|]; [|assumption]. now apply IH3.
    + destruct (A1 FLvPrim ts m L) as [E|E]; rewrite E in *; [|discriminate].
      destruct (fparse n FLvPrim ts) as [[e ts1]|]; [|assumption]. now apply IH4.
    + destruct ts as [|[x|z|o| |] ts1]; try assumption.
      * destruct ts1 as [|[x'|z'|o'| |] ts2]; try assumption. destruct o'; try assumption.
        destruct (not_name x); [assumption|].
        destruct (A5 ts2 m L) as [E|E]; rewrite E in *; [|discriminate]. assumption.
      * destruct o; try assumption.
        destruct (A1 FLvAnd ts1 m L) as [E|E]; rewrite E in *; [|discriminate]. assumption.
  - destruct m as [|m]; [lia|]. assert (L : (n <= m)%nat) by lia. cbn [fparse_and] in *.
    destruct ts as [|[x|z|o| |] ts1]; try assumption. destruct o; try assumption.
    destruct (A1 FLvCmp ts1 m L) as [E|E]; rewrite E in *; [|discriminate].
    destruct (fparse n FLvCmp ts1) as [[f ts2]|]; [|assumption]. now apply IH2.
  - destruct m as [|m]; [lia|]. assert (L : (n <= m)%nat) by lia. cbn [fparse_add] in *.
    destruct ts as [|[x|z|o| |] ts1]; try assumption. destruct (fadd_op o); [|assumption].
    destruct (A1 FLvMul ts1 m L) as [E|E]; rewrite E in *; [|discriminate].
    destruct (fparse n FLvMul ts1) as [[f ts2]|]; [|assumption]. now apply IH3.
  - destruct m as [|m]; [lia|]. assert (L : (n <= m)%nat) by lia. cbn [fparse_mul] in *.
    destruct ts as [|[x|z|o| |] ts1]; try assumption. destruct (fmul_op o); [|assumption].
    destruct (A1 FLvPrim ts1 m L) as [E|E]; rewrite E in *; [|discriminate].
    destruct (fparse n FLvPrim ts1) as [[f ts2]|]; [|assumption]. now apply IH4.
  - destruct m as [|m]; [lia|]. assert (L : (n <= m)%nat) by lia. cbn [fparse_args] in *.
    assert (G : forall X Y : option (list fexpr * list ftoken),
              (match ts with FOp FRpar :: ts1 => Some ([], ts1) | _ => X end = Some r) -> (X = Some r -> Y = Some r) ->
              match ts with FOp FRpar :: ts1 => Some ([], ts1) | _ => Y end = Some r).
    { intros X Y HX HY. destruct ts as [|[x|z|o| |] ts1]; try (now apply HY). destruct o; try (now apply HY). exact HX. }
    eapply G; [eassumption|]. clear H0 G. intro H0.
    destruct (A1 FLvAnd ts m L) as [E|E]; rewrite E in *; [|discriminate].
    destruct (fparse n FLvAnd ts) as [[e [|[x|z|o| |] ts1]]|]; try assumption. destruct o; try assumption.
    destruct (A5 ts1 m L) as [E'|E'].
    + rewrite E'. assumption.
    + rewrite E' in H0. destruct ts1 as [|[x|z|o| |] ts2]; try discriminate. destruct o; discriminate.
Qed.
Lemma fstmt_mono : forall n,
  (forall ts r m, (n <= m)%nat -> fparse_stmt n ts = Some r -> fparse_stmt m ts = Some r) /\
  (forall ts r m, (n <= m)%nat -> fparse_body n ts = Some r -> fparse_body m ts = Some r).
Proof.
  induction n as [|n (IH1 & IH2)].
  { repeat split; intros; discriminate. }
  destruct (ffuel_mono n) as (IP & _ & _ & _ & IA).
  assert (A1 : forall lv ts m, (n <= m)%nat -> fparse m lv ts = fparse n lv ts \/ fparse n lv ts = None).
  { intros lv ts m L. destruct (fparse n lv ts) eqn:E; [left|now right]. eapply IP; eauto. }
  assert (A5 : forall ts m, (n <= m)%nat -> fparse_args m ts = fparse_args n ts \/ fparse_args n ts = None).
  { intros ts m L. destruct (fparse_args n ts) eqn:E; [left|now right]. eapply IA; eauto. }
  assert (AB : forall ts m, (n <= m)%nat -> fparse_body m ts = fparse_body n ts \/ fparse_body n ts = None).
  { intros ts m L. destruct (fparse_body n ts) eqn:E; [left|now right]. eapply IH2; eauto. }
  assert (AS : forall ts m, (n <= m)%nat -> fparse_stmt m ts = fparse_stmt n ts \/ fparse_stmt n ts = None).
  { intros ts m L. destruct (fparse_stmt n ts) eqn:E; [left|now right]. eapply IH1; eauto. }
  split; intros ts r m Lm H; (destruct m as [|m]; [lia|]); assert (L : (n <= m)%nat) by lia.
  - cbn [fparse_stmt] in *. destruct ts as [|[x|z|o| |] ts1]; try discriminate.
    destruct (String.eqb x "if").
    { destruct ts1 as [|[x1|z1|o1| |] ts2]; try discriminate. destruct o1; try discriminate.
      destruct (A1 FLvAnd ts2 m L) as [E|E]; rewrite E in *; [|discriminate].
      destruct (fparse n FLvAnd ts2) as [[c [|[|z2|[]| |] [|[w|z3|o3| |] [|[w4|z4|o4| |] ts3]]]]|]; try discriminate.
      destruct (String.eqb w "then"); [|discriminate].
      destruct (AB ts3 m L) as [E'|E']; rewrite E' in *; [|discriminate]. assumption. }
    destruct (String.eqb x "do").
    { destruct ts1 as [|[x1|z1|o1| |] ts2]; try discriminate.
      destruct ts2 as [|[x2|z2|o2| |] ts3]; try discriminate. destruct o2; try discriminate.
      destruct (not_name x1); [discriminate|].
      destruct (A1 FLvSum ts3 m L) as [E|E]; rewrite E in *; [|discriminate].
      destruct (fparse n FLvSum ts3) as [[lb [|[|z4|[]| |] ts5]]|]; try discriminate.
      destruct (A1 FLvSum ts5 m L) as [E5|E5]; rewrite E5 in *; [|discriminate].
      destruct (fparse n FLvSum ts5) as [[ub [|[|z7|[]| |] ts6]]|]; try discriminate.
      - destruct (A1 FLvSum ts6 m L) as [E6|E6]; rewrite E6 in *; [|discriminate].
        destruct (fparse n FLvSum ts6) as [[st [|[|z8|o8| |] ts7]]|]; try discriminate.
        destruct (AB ts7 m L) as [E'|E']; rewrite E' in *; [|discriminate]. assumption.
      - destruct (AB ts6 m L) as [E'|E']; rewrite E' in *; [|discriminate]. assumption. }
    destruct (not_name x); [discriminate|].
    destruct ts1 as [|[x1|z1|o1| |] ts2]; try discriminate. destruct o1; try discriminate.
    * destruct (A1 FLvAnd ts2 m L) as [E|E]; rewrite E in *; [|discriminate]. assumption.
    * destruct (A5 ts2 m L) as [E|E]; rewrite E in *; [|discriminate]. assumption.
  - cbn [fparse_body] in *. destruct ts as [|[x|z|o| |] ts1]; try discriminate; try assumption.
    + destruct (String.eqb x "end"); [assumption|].
      destruct (AS (FId x :: ts1) m L) as [E|E]; rewrite E in *; [|discriminate].
      destruct (fparse_stmt n (FId x :: ts1)) as [[s ts2]|]; [|assumption].
      destruct (AB ts2 m L) as [E'|E']; rewrite E' in *; [|discriminate]. assumption.
    + now apply IH2.
Qed.
Lemma freads_unique : forall s a b, freads s a -> freads s b -> a = b.
Proof.
  intros s a b [_ [n A]] [_ [m B]].
  apply (proj2 (fstmt_mono n)) with (m := (n + m)%nat) in A; [|lia].
  apply (proj2 (fstmt_mono m)) with (m := (n + m)%nat) in B; [|lia]. congruence.
Qed.

(** *** parsing with enough fuel *)
Definition fparses lv ts (r : fexpr * list ftoken) : Prop := exists N, fparse N lv ts = Some r.
Definition fpmul acc ts (r : fexpr * list ftoken) : Prop := exists N, fparse_mul N acc ts = Some r.
Definition fpadd acc ts (r : fexpr * list ftoken) : Prop := exists N, fparse_add N acc ts = Some r.
Definition fpand acc ts (r : fexpr * list ftoken) : Prop := exists N, fparse_and N acc ts = Some r.
Definition fpargs ts (r : list fexpr * list ftoken) : Prop := exists N, fparse_args N ts = Some r.
Definition fcont (lv : flevel) (o : fop) : bool :=
  match o with
  | FLpar => true
  | FStar | FSlash => match lv with FLvPrim => false | _ => true end
  | FPlus | FMinus => match lv with FLvPrim | FLvMul => false | _ => true end
  | FLt | FGt | FLe | FGe | FEq => match lv with FLvPrim | FLvMul | FLvSum => false | _ => true end
  | FAnd => match lv with FLvAnd => true | _ => false end
  | _ => false
  end.
Definition fstops (lv : flevel) (ts : list ftoken) : Prop := match ts with FOp o :: _ => fcont lv o = false | _ => True end.
Lemma fstops_prim : forall ts, fstops FLvMul ts -> fstops FLvPrim ts.
Proof. intros [|[| |[]| |] ?] H; simpl in *; auto. Qed.
Lemma fstops_mul : forall ts, fstops FLvSum ts -> fstops FLvMul ts.
Proof. intros [|[| |[]| |] ?] H; simpl in *; auto. Qed.
Lemma fstops_sum : forall ts, fstops FLvCmp ts -> fstops FLvSum ts.
Proof. intros [|[| |[]| |] ?] H; simpl in *; auto. Qed.
Lemma fstops_cmp : forall ts, fstops FLvAnd ts -> fstops FLvCmp ts.
Proof. intros [|[| |[]| |] ?] H; simpl in *; auto. Qed.

Definition fprims ts a : Prop := forall rest, fstops FLvPrim rest -> fparses FLvPrim (ts ++ rest)%list (a, rest).
Definition fmuls ts a : Prop := forall rest r, fstops FLvPrim rest -> fpmul a rest r -> fparses FLvMul (ts ++ rest)%list r.
Definition fsums ts a : Prop := forall rest r, fstops FLvMul rest -> fpadd a rest r -> fparses FLvSum (ts ++ rest)%list r.
Definition fcmps ts a : Prop := forall rest, fstops FLvCmp rest -> fparses FLvCmp (ts ++ rest)%list (a, rest).
Definition fands ts a : Prop := forall rest r, fstops FLvCmp rest -> fpand a rest r -> fparses FLvAnd (ts ++ rest)%list r.
Definition fconds ts a : Prop := forall rest, fstops FLvAnd rest -> fparses FLvAnd (ts ++ rest)%list (a, rest).

Lemma fpmul_stop : forall a rest, fstops FLvMul rest -> fpmul a rest (a, rest).
Proof. intros a rest S. exists 1%nat. cbn [fparse_mul]. destruct rest as [|[| |o| |] ts1]; try reflexivity. destruct o; try reflexivity; discriminate S. Qed.
Lemma fpadd_stop : forall a rest, fstops FLvSum rest -> fpadd a rest (a, rest).
Proof. intros a rest S. exists 1%nat. cbn [fparse_add]. destruct rest as [|[| |o| |] ts1]; try reflexivity. destruct o; try reflexivity; discriminate S. Qed.
Lemma fpand_stop : forall a rest, fstops FLvAnd rest -> fpand a rest (a, rest).
Proof. intros a rest S. exists 1%nat. cbn [fparse_and]. destruct rest as [|[| |o| |] ts1]; try reflexivity. destruct o; try reflexivity; discriminate S. Qed.
Lemma fprims_muls : forall ts a, fprims ts a -> fmuls ts a.
Proof.
  intros ts a H rest r S [M P]. destruct (H rest S) as [N E]. exists (Datatypes.S (N + M)). cbn [fparse].
  rewrite (proj1 (ffuel_mono N) _ _ _ (N + M)%nat ltac:(lia) E). apply (ffuel_mono M); [lia|exact P].
Qed.
(** no product starts with a sign *)
Lemma mul_minus : forall n ts1, fparse n FLvMul (FOp FMinus :: ts1) = None.
Proof. intros [|[|n]] ts1; reflexivity. Qed.
Lemma fmuls_sums : forall ts a, fmuls ts a -> fsums ts a.
Proof.
  intros ts a H rest r S [M P]. destruct (H rest _ (fstops_prim _ S) (fpmul_stop a rest S)) as [N E].
  exists (Datatypes.S (N + M)). cbn [fparse].
  assert (Q : match fparse (N + M) FLvMul (ts ++ rest)%list with Some (e, ts1) => fparse_add (N + M) e ts1 | None => None end = Some r).
  { rewrite (proj1 (ffuel_mono N) _ _ _ (N + M)%nat ltac:(lia) E). apply (ffuel_mono M); [lia|exact P]. }
  destruct (ts ++ rest)%list as [|[| |o| |] ts1] eqn:T; try exact Q. destruct o; try exact Q. rewrite mul_minus in E. discriminate.
Qed.
Lemma fneg_sums : forall ts a, fmuls ts a -> fsums (FOp FMinus :: ts) (FNeg a).
Proof.
  intros ts a H rest r S [M P]. destruct (H rest _ (fstops_prim _ S) (fpmul_stop a rest S)) as [N E].
  exists (Datatypes.S (N + M)). change ((FOp FMinus :: ts) ++ rest)%list with (FOp FMinus :: ts ++ rest)%list. cbn [fparse]. rewrite (proj1 (ffuel_mono N) _ _ _ (N + M)%nat ltac:(lia) E). apply (ffuel_mono M); [lia|exact P].
Qed.
Lemma fsums_cmps : forall ts a, fsums ts a -> fcmps ts a.
Proof.
  intros ts a H rest S. destruct (H rest (a, rest) (fstops_mul _ (fstops_sum _ S)) (fpadd_stop a rest (fstops_sum _ S))) as [N E].
  exists (Datatypes.S N). cbn [fparse]. rewrite E. destruct rest as [|[| |o| |] ts1]; try reflexivity.
  destruct o; try reflexivity; discriminate S.
Qed.
Lemma fcmps_ands : forall ts a, fcmps ts a -> fands ts a.
Proof.
  intros ts a H rest r S [M P]. destruct (H rest S) as [N E]. exists (Datatypes.S (N + M)). cbn [fparse].
  rewrite (proj1 (ffuel_mono N) _ _ _ (N + M)%nat ltac:(lia) E). apply (ffuel_mono M); [lia|exact P].
Qed.
Lemma fands_conds : forall ts a, fands ts a -> fconds ts a.
Proof. intros ts a H rest S. exact (H rest (a, rest) (fstops_cmp _ S) (fpand_stop a rest S)). Qed.
Lemma fsums_conds : forall ts a, fsums ts a -> fconds ts a.
Proof. intros ts a H. now apply fands_conds, fcmps_ands, fsums_cmps. Qed.
Lemma fnum_prims : forall z, fprims [FNum z] (FInt z).
Proof. intros z rest S. exists 1%nat. reflexivity. Qed.
Lemma fvar_prims : forall x, not_name x = false -> fprims [FId x] (FVar x).
Proof.
  intros x K rest S. exists 1%nat. cbn [fparse List.app]. rewrite K. destruct rest as [|[| |o| |] ts1]; try reflexivity.
  destruct o; try reflexivity. discriminate S.
Qed.
Lemma fparen_prims : forall ts a, fconds ts a -> fprims (FOp FLpar :: ts ++ [FOp FRpar])%list a.
Proof.
  intros ts a H rest S. destruct (H (FOp FRpar :: rest) eq_refl) as [N E]. exists (Datatypes.S N). cbn [fparse List.app].
  rewrite <- app_assoc. cbn [List.app]. now rewrite E.
Qed.
Lemma fmul_muls : forall ts a o b ts' a', fmuls ts a -> fmul_op o = Some b -> fprims ts' a' -> fmuls (ts ++ FOp o :: ts')%list (FBin b a a').
Proof.
  intros ts a o b ts' a' H O H' rest r S [M P]. rewrite <- app_assoc. cbn [List.app]. apply H.
  - destruct o; try discriminate; reflexivity.
  - destruct (H' rest S) as [N E]. exists (Datatypes.S (N + M)). cbn [fparse_mul]. rewrite O.
    rewrite (proj1 (ffuel_mono N) _ _ _ (N + M)%nat ltac:(lia) E). apply (ffuel_mono M); [lia|exact P].
Qed.
Lemma fadd_sums : forall ts a o b ts' a', fsums ts a -> fadd_op o = Some b -> fmuls ts' a' -> fsums (ts ++ FOp o :: ts')%list (FBin b a a').
Proof.
  intros ts a o b ts' a' H O H' rest r S [M P]. rewrite <- app_assoc. cbn [List.app]. apply H.
  - destruct o; try discriminate; reflexivity.
  - destruct (H' rest _ (fstops_prim _ S) (fpmul_stop a' rest S)) as [N E]. exists (Datatypes.S (N + M)). cbn [fparse_add]. rewrite O.
    rewrite (proj1 (ffuel_mono N) _ _ _ (N + M)%nat ltac:(lia) E). apply (ffuel_mono M); [lia|exact P].
Qed.
Lemma fcmp_cmps : forall ts a o b ts' a', fsums ts a -> fcmp_op o = Some b -> fsums ts' a' -> fcmps (ts ++ FOp o :: ts')%list (FBin b a a').
Proof.
  intros ts a o b ts' a' H O H' rest S. rewrite <- app_assoc. cbn [List.app].
  assert (S1 : fstops FLvSum (FOp o :: ts' ++ rest)%list) by (destruct o; try discriminate; reflexivity).
  destruct (H _ (a, FOp o :: ts' ++ rest)%list (fstops_mul _ S1) (fpadd_stop _ _ S1)) as [N E].
  destruct (H' rest (a', rest) (fstops_mul _ (fstops_sum _ S)) (fpadd_stop _ _ (fstops_sum _ S))) as [M P].
  exists (Datatypes.S (N + M)). cbn [fparse].
  rewrite (proj1 (ffuel_mono N) _ _ _ (N + M)%nat ltac:(lia) E). rewrite O.
  now rewrite (proj1 (ffuel_mono M) _ _ _ (N + M)%nat ltac:(lia) P).
Qed.
Lemma fand_ands : forall ts a ts' a', fands ts a -> fcmps ts' a' -> fands (ts ++ FOp FAnd :: ts')%list (FBin CAnd a a').
Proof.
  intros ts a ts' a' H H' rest r S [M P]. rewrite <- app_assoc. cbn [List.app]. apply H; [reflexivity|].
  destruct (H' rest S) as [N E]. exists (Datatypes.S (N + M)). cbn [fparse_and].
  rewrite (proj1 (ffuel_mono N) _ _ _ (N + M)%nat ltac:(lia) E). apply (ffuel_mono M); [lia|exact P].
Qed.
(** calls *)
Definition fno_rpar (ts : list ftoken) : Prop := match ts with FOp FRpar :: _ => False | [] => False | _ => True end.
Lemma fconds_no_rpar : forall ts a, fconds ts a -> fno_rpar ts.
Proof.
  assert (G : forall n lv ts1, match ts1 with FOp FRpar :: _ => True | _ => False end -> fparse n lv ts1 = None).
  { induction n as [|n IH]; intros lv ts1 T; [reflexivity|]. destruct ts1 as [|[| |o| |] ts1]; try contradiction. destruct o; try contradiction.
    destruct lv; cbn [fparse]; try rewrite IH by exact I; reflexivity. }
  assert (G0 : forall n lv, fparse n lv [] = None).
  { induction n as [|n IH]; intros lv; [reflexivity|]. destruct lv; cbn [fparse]; try rewrite IH; reflexivity. }
  intros ts a H. destruct (H [] I) as [N E]. destruct ts as [|[| |o| |] ts1]; try exact I.
  - simpl in E. rewrite G0 in E. discriminate.
  - destruct o; try exact I. rewrite G in E by exact I. discriminate.
Qed.
Lemma fargs_nil : forall rest, fpargs (FOp FRpar :: rest) ([], rest).
Proof. intro rest. exists 1%nat. reflexivity. Qed.
Lemma fargs_one : forall ts a rest, fconds ts a -> fpargs (ts ++ FOp FRpar :: rest)%list ([a], rest).
Proof.
  intros ts a rest H. pose proof (fconds_no_rpar _ _ H) as NR. destruct (H (FOp FRpar :: rest) eq_refl) as [N E].
  exists (Datatypes.S N). cbn [fparse_args]. rewrite E.
  destruct ts as [|[| |o| |] ts1]; try reflexivity; [destruct NR|]. destruct o; try reflexivity. destruct NR.
Qed.
Lemma fargs_cons : forall ts a rest l rest', fconds ts a -> fno_rpar rest -> fpargs rest (l, rest') ->
  fpargs (ts ++ FOp FComma :: rest)%list (a :: l, rest').
Proof.
  intros ts a rest l rest' H R [M P]. pose proof (fconds_no_rpar _ _ H) as NR. destruct (H (FOp FComma :: rest) eq_refl) as [N E].
  exists (Datatypes.S (N + M)). cbn [fparse_args]. rewrite (proj1 (ffuel_mono N) _ _ _ (N + M)%nat ltac:(lia) E).
  rewrite (proj2 (proj2 (proj2 (proj2 (ffuel_mono M)))) _ _ (N + M)%nat ltac:(lia) P).
  assert (Q : match rest with FOp FRpar :: _ => None | _ => Some (a :: l, rest') end = Some (a :: l, rest')).
  { destruct rest as [|[| |o| |] ts1]; try reflexivity. destruct o; try reflexivity. destruct R. }
  rewrite Q. destruct ts as [|[| |o| |] ts1]; try reflexivity; idtac. destruct o; try reflexivity. destruct NR.
Qed.
Lemma fcall_prims : forall f ts l, not_name f = false -> (forall rest, fpargs (ts ++ rest)%list (l, rest)) ->
  fprims (FId f :: FOp FLpar :: ts)%list (FCall f l).
Proof. intros f ts l K H rest S. destruct (H rest) as [N E]. exists (Datatypes.S N). cbn [fparse List.app]. now rewrite K, E. Qed.
