(** The reader of files: more fuel never hurts, what is read contains no error, and how
    declarations, macros and the body are read. *)
From Coq Require Import ZArith List Bool Arith String Ascii Lia.
From Verif Require Import ClastSpec ClastModel PprintModel CReader PprintSpec PprintLex PprintParse FileReader.
Import ListNotations.
Local Open Scope string_scope.
Local Open Scope Z_scope.

(** *** more fuel *)
Lemma up : forall n m lv ts, (n <= m)%nat -> parse m lv ts = parse n lv ts \/ parse n lv ts = None.
Proof. intros n m lv ts L. destruct (parse n lv ts) eqn:E; [left|now right]. exact (proj1 (fuel_mono n) _ _ _ m L E). Qed.
Lemma up_args : forall n m ts, (n <= m)%nat -> parse_args m ts = parse_args n ts \/ parse_args n ts = None.
Proof. intros n m ts L. destruct (parse_args n ts) eqn:E; [left|now right]. exact (proj2 (proj2 (proj2 (proj2 (fuel_mono n)))) _ _ m L E). Qed.
Lemma up_stmt : forall n m ts, (n <= m)%nat -> parse_stmt m ts = parse_stmt n ts \/ parse_stmt n ts = None.
Proof. intros n m ts L. destruct (parse_stmt n ts) eqn:E; [left|now right]. exact (proj1 (stmt_mono n) _ _ m L E). Qed.
Lemma up_printf : forall n m ts, (n <= m)%nat -> parse_printf m ts = parse_printf n ts \/ parse_printf n ts = None.
Proof.
  intros n m ts L. unfold parse_printf.
  destruct ts as [|[| |[]| |] [|[| | |fmt|] ts]]; auto. destruct ts as [|[| |[]| |] ts]; auto.
  - destruct (up_args n m ts L) as [E|E]; rewrite E; [now left|right]. destruct ts as [|[| |[]| |] ts]; reflexivity.
Qed.
Lemma mstmts_mono : forall n m ts r, (n <= m)%nat -> parse_mstmts n ts = Some r -> parse_mstmts m ts = Some r.
Proof.
  induction n as [|n IH]; intros m ts r L H; [discriminate|]. destruct m as [|m]; [lia|]. assert (L' : (n <= m)%nat) by lia.
  assert (A : forall ts, parse_mstmts m ts = parse_mstmts n ts \/ parse_mstmts n ts = None).
  { intro u. destruct (parse_mstmts n u) eqn:E; [left|now right]. now apply IH. }
  cbn [parse_mstmts] in *. destruct ts as [|[x|z|o|f|] ts1]; try discriminate.
  - assert (G : forall ts1, (if is_keyword x then None else if String.eqb x "printf" then
        match parse_printf n ts1 with Some (fmt, es, r') => match parse_mstmts n r' with Some l => Some (MPrintf fmt es :: l) | None => None end | None => None end
      else match ts1 with TOp OLpar :: r1 => match parse_args n r1 with Some (es, TOp OSemi :: r') => match parse_mstmts n r' with Some l => Some (MCall x es :: l) | None => None end | _ => None end | _ => None end) = Some r ->
      (if is_keyword x then None else if String.eqb x "printf" then
        match parse_printf m ts1 with Some (fmt, es, r') => match parse_mstmts m r' with Some l => Some (MPrintf fmt es :: l) | None => None end | None => None end
      else match ts1 with TOp OLpar :: r1 => match parse_args m r1 with Some (es, TOp OSemi :: r') => match parse_mstmts m r' with Some l => Some (MCall x es :: l) | None => None end | _ => None end | _ => None end) = Some r).
    { clear H ts1. intros ts1 H. destruct (is_keyword x); [discriminate|]. destruct (String.eqb x "printf").
      - destruct (up_printf n m ts1 L') as [E|E]; rewrite E in *; [|discriminate]. destruct (parse_printf n ts1) as [[[fmt es] r']|]; [|discriminate].
        destruct (A r') as [E'|E']; rewrite E' in *; [exact H|discriminate].
      - destruct ts1 as [|[| |[]| |] r1]; try discriminate. destruct (up_args n m r1 L') as [E|E]; rewrite E in *; [|discriminate].
        destruct (parse_args n r1) as [[es [|[| |[]| |] r']]|]; try discriminate. destruct (A r') as [E'|E']; rewrite E' in *; [exact H|discriminate]. }
    destruct ts1 as [|[x1|z1|o1|f1|] ts2]; try (now apply G). destruct o1; try (now apply G); try (exact (G (TOp OLpar :: ts2) H)).
    destruct ts2 as [|[x2|z2|o2|f2|] ts3]; try (now apply G). destruct o2; try (now apply G).
    destruct (is_keyword x); [discriminate|]. destruct (A ts3) as [E|E]; rewrite E in *; [exact H|discriminate].
  - destruct o; try discriminate. destruct ts1; [exact H|discriminate].
Qed.
Lemma mbody_mono : forall n m ts r, (n <= m)%nat -> parse_mbody n ts = Some r -> parse_mbody m ts = Some r.
Proof.
  intros n m ts r L H. unfold parse_mbody in *.
  assert (G : match parse n LvCond ts with Some (e, []) => Some (MExpr e) | _ => None end = Some r -> match parse m LvCond ts with Some (e, []) => Some (MExpr e) | _ => None end = Some r).
  { intro H'. destruct (up n m LvCond ts L) as [E|E]; rewrite E in *; [exact H'|discriminate]. }
  destruct ts as [|[x|z|o|f|] ts1]; auto. destruct o; auto.
  destruct (parse_mstmts n ts1) eqn:E; [|discriminate]. now rewrite (mstmts_mono n m _ _ L E).
Qed.
Lemma macros_mono : forall n m ds r, (n <= m)%nat -> parse_macros n ds = Some r -> parse_macros m ds = Some r.
Proof.
  intros n m ds r L. revert r. induction ds as [|d ds IH]; intros r H; [exact H|]. cbn [parse_macros] in *.
  destruct (parse_mbody n (d_body d)) eqn:E; [|discriminate]. destruct (parse_macros n ds) eqn:E'; [|discriminate].
  now rewrite (mbody_mono n m _ _ L E), (IH _ eq_refl).
Qed.
Lemma decl_mono : forall n m ts r, (n <= m)%nat -> parse_decl n ts = Some r -> parse_decl m ts = Some r.
Proof.
  induction n as [|n IH]; intros m ts r L H; [discriminate|]. destruct m as [|m]; [lia|]. assert (L' : (n <= m)%nat) by lia.
  assert (A : forall ts, parse_decl m ts = parse_decl n ts \/ parse_decl n ts = None).
  { intro u. destruct (parse_decl n u) eqn:E; [left|now right]. now apply IH. }
  cbn [parse_decl] in *. destruct ts as [|[x|z|o|f|] ts1]; try discriminate. destruct (is_keyword x); [discriminate|].
  assert (G : forall i u, match Some (i, u) with
      | Some (i, TOp OComma :: ts3) => match parse_decl n ts3 with Some (l, r) => Some ((x, i) :: l, r) | None => None end
      | Some (i, TOp OSemi :: ts3) => Some ([(x, i)], ts3) | _ => None end = Some r ->
      match Some (i, u) with
      | Some (i, TOp OComma :: ts3) => match parse_decl m ts3 with Some (l, r) => Some ((x, i) :: l, r) | None => None end
      | Some (i, TOp OSemi :: ts3) => Some ([(x, i)], ts3) | _ => @None (list (string * option cexpr) * list token) end = Some r).
  { intros i u H'. destruct u as [|[| |[]| |] u]; try discriminate; [|exact H']. destruct (A u) as [E|E]; rewrite E in *; [exact H'|discriminate]. }
  destruct ts1 as [|[x1|z1|o1|f1|] ts2]; try discriminate. destruct o1; try discriminate; try (exact (G None (TOp OComma :: ts2) H)); try (exact (G None (TOp OSemi :: ts2) H)).
  destruct (up n m LvCond ts2 L') as [E|E]; rewrite E in *; [|discriminate]. destruct (parse n LvCond ts2) as [[e ts3]|]; [exact (G (Some e) ts3 H)|discriminate].
Qed.
Lemma decls_mono : forall n m ts r, (n <= m)%nat -> parse_decls n ts = Some r -> parse_decls m ts = Some r.
Proof.
  induction n as [|n IH]; intros m ts r L H; [discriminate|]. destruct m as [|m]; [lia|]. assert (L' : (n <= m)%nat) by lia.
  cbn [parse_decls] in *. destruct ts as [|[x|z|o|f|] ts1]; try exact H. destruct (String.eqb x "int"); [|exact H].
  destruct (parse_decl n ts1) as [[l r1]|] eqn:E; [|discriminate]. rewrite (decl_mono n m _ _ L' E).
  destruct (parse_decls n r1) as [[l' r2]|] eqn:E'; [|discriminate]. now rewrite (IH m _ _ L' E').
Qed.
Lemma fbody_mono : forall n m objs ts r, (n <= m)%nat -> parse_fbody n objs ts = Some r -> parse_fbody m objs ts = Some r.
Proof.
  induction n as [|n IH]; intros m objs ts r L H; [discriminate|]. destruct m as [|m]; [lia|]. assert (L' : (n <= m)%nat) by lia.
  assert (A : forall ts, parse_fbody m objs ts = parse_fbody n objs ts \/ parse_fbody n objs ts = None).
  { intro u. destruct (parse_fbody n objs u) eqn:E; [left|now right]. now apply IH. }
  cbn [parse_fbody] in *.
  assert (G : match parse_stmt n ts with Some (s, r) => match parse_fbody n objs r with Some l => Some (FStmt s :: l) | None => None end | None => None end = Some r ->
              match parse_stmt m ts with Some (s, r) => match parse_fbody m objs r with Some l => Some (FStmt s :: l) | None => None end | None => None end = Some r).
  { intro H'. destruct (up_stmt n m ts L') as [E|E]; rewrite E in *; [|discriminate]. destruct (parse_stmt n ts) as [[s u]|]; [|discriminate].
    destruct (A u) as [E'|E']; rewrite E' in *; [exact H'|discriminate]. }
  destruct ts as [|[x|z|o|f|] ts1]; try (now apply G).
  - destruct (String.eqb x "printf").
    { destruct (up_printf n m ts1 L') as [E|E]; rewrite E in *; [|discriminate]. destruct (parse_printf n ts1) as [[[fmt es] u]|]; [|discriminate].
      destruct (A u) as [E'|E']; rewrite E' in *; [exact H|discriminate]. }
    destruct (String.eqb x "return").
    { destruct ts1 as [|[|z| | |] [|[| |[]| |] u]]; try discriminate. destruct (A u) as [E'|E']; rewrite E' in *; [exact H|discriminate]. }
    destruct (existsb (String.eqb x) objs); [|now apply G]. destruct (A ts1) as [E'|E']; rewrite E' in *; [exact H|discriminate].
  - destruct o; try (now apply G). destruct ts1; [exact H|now apply G].
Qed.
Lemma file_mono : forall n m ds ts f, (n <= m)%nat -> parse_file n ds ts = Some f -> parse_file m ds ts = Some f.
Proof.
  intros n m ds ts f L H. unfold parse_file in *. destruct (parse_macros n ds) as [ms|] eqn:E; [|discriminate]. rewrite (macros_mono n m _ _ L E).
  destruct (parse_externs ts) as [ex ts0]. destruct ts0 as [|[t| | | |] [|[g| | | |] [|[| |[]| |] ts1]]]; try discriminate.
  destruct ((String.eqb t "int" || String.eqb t "void") && negb (is_keyword g))%bool; [|discriminate].
  destruct (parse_fparams ts1) as [[args [|[| |[]| |] ts2]]|]; try discriminate.
  destruct (parse_decls n ts2) as [[vs ts3]|] eqn:E2; [|discriminate]. rewrite (decls_mono n m _ _ L E2).
  destruct (parse_fbody n (statement_objects ms) ts3) as [b|] eqn:E3; [|discriminate]. now rewrite (fbody_mono n m _ _ _ L E3).
Qed.
(** a text is read in one way only *)
Theorem reads_file_unique : forall text f g, reads_file text f -> reads_file text g -> f = g.
Proof.
  intros text f g (n & ds & ts & P & F) (m & ds' & ts' & P' & G). rewrite P in P'. injection P' as <- <-.
  apply (file_mono n (n + m)) in F; [|lia]. apply (file_mono m (n + m)) in G; [|lia]. congruence.
Qed.

(** *** what is read contains no error *)
Definition clean (ts r : list token) : Prop := exists u, ts = (u ++ r)%list /\ ~ In TErr u.
Lemma clean_refl : forall ts, clean ts ts.
Proof. intro ts. exists []. split; [reflexivity|tauto]. Qed.
Lemma clean_trans : forall a b c, clean a b -> clean b c -> clean a c.
Proof.
  intros a b c (u & -> & U) (v & -> & V). exists (u ++ v)%list. split; [now rewrite app_assoc|]. intro I. apply in_app_or in I. tauto.
Qed.
Lemma clean_cons : forall t ts r, t <> TErr -> clean ts r -> clean (t :: ts) r.
Proof. intros t ts r N (u & -> & U). exists (t :: u). split; [reflexivity|]. intros [I|I]; [congruence|tauto]. Qed.
Lemma clean_next : forall t ts r, t <> TErr -> clean ts (t :: r) -> clean ts r.
Proof. intros t ts r N H. eapply clean_trans; [exact H|]. apply clean_cons; [exact N|apply clean_refl]. Qed.
Local Hint Resolve clean_refl : core.
Ltac cl := first [ assumption | apply clean_refl | (apply clean_cons; [discriminate|]; cl) | idtac ].
Lemma parse_clean : forall n,
  (forall lv ts e r, parse n lv ts = Some (e, r) -> clean ts r) /\
  (forall acc ts e r, parse_and n acc ts = Some (e, r) -> clean ts r) /\
  (forall acc ts e r, parse_add n acc ts = Some (e, r) -> clean ts r) /\
  (forall acc ts e r, parse_mul n acc ts = Some (e, r) -> clean ts r) /\
  (forall ts e r, parse_args n ts = Some (e, r) -> clean ts r).
Proof.
  induction n as [|n (IH1 & IH2 & IH3 & IH4 & IH5)].
  { repeat split; intros; discriminate. }
  repeat split; intros.
  - destruct lv; cbn [parse] in H.
    + destruct (parse n LvAnd ts) as [[c ts1]|] eqn:E; [|discriminate]. apply IH1 in E.
      destruct ts1 as [|[| |o| |] ts1]; try (injection H as <- <-; exact E). destruct o; try (injection H as <- <-; exact E).
      apply clean_next in E; [|discriminate].
      destruct (parse n LvCond ts1) as [[e1 [|[| |[]| |] ts2]]|] eqn:E1; try discriminate. apply IH1, clean_next in E1; [|discriminate].
      destruct (parse n LvCond ts2) as [[e2 ts3]|] eqn:E2; [|discriminate]. apply IH1 in E2. injection H as <- <-.
      exact (clean_trans _ _ _ E (clean_trans _ _ _ E1 E2)).
    + destruct (parse n LvCmp ts) as [[e1 ts1]|] eqn:E; [|discriminate]. apply IH1 in E. apply IH2 in H. exact (clean_trans _ _ _ E H).
    + destruct (parse n LvAdd ts) as [[e1 ts1]|] eqn:E; [|discriminate]. apply IH1 in E.
      destruct ts1 as [|[| |o| |] ts1]; try (injection H as <- <-; exact E). destruct (cmp_op o); [|injection H as <- <-; exact E].
      apply clean_next in E; [|discriminate]. destruct (parse n LvAdd ts1) as [[e2 ts2]|] eqn:E1; [|discriminate]. apply IH1 in E1. injection H as <- <-.
      exact (clean_trans _ _ _ E E1).
    + destruct (parse n LvMul ts) as [[e1 ts1]|] eqn:E; [|discriminate]. apply IH1 in E. apply IH3 in H. exact (clean_trans _ _ _ E H).
    + destruct (parse n LvUn ts) as [[e1 ts1]|] eqn:E; [|discriminate]. apply IH1 in E. apply IH4 in H. exact (clean_trans _ _ _ E H).
    + destruct ts as [|[| |o| |] ts1]; try (now apply IH1 in H). destruct o; try (now apply IH1 in H).
      destruct (parse n LvUn ts1) as [[e1 ts2]|] eqn:E; [|discriminate]. injection H as <- <-. apply IH1 in E. now cl.
    + destruct ts as [|[x|z|o| |] ts1]; try discriminate.
      * assert (G : (if is_keyword x then None else Some (CVar x, ts1)) = Some (e, r) -> clean (TId x :: ts1) r).
        { intro H'. destruct (is_keyword x); [discriminate|]. injection H' as <- <-. now cl. }
        destruct ts1 as [|[x'|z'|o'| |] ts2]; try (now apply G). destruct o'; try (now apply G).
        destruct (is_keyword x); [discriminate|]. destruct (parse_args n ts2) as [[es ts3]|] eqn:E; [|discriminate]. injection H as <- <-. apply IH5 in E. now cl.
      * injection H as <- <-. now cl.
      * destruct o; try discriminate. destruct (parse n LvCond ts1) as [[e1 [|[| |[]| |] ts2]]|] eqn:E; try discriminate. injection H as <- <-.
        apply IH1, clean_next in E; [|discriminate]. now cl.
  - cbn [parse_and] in H. destruct ts as [|[x|z|o| |] ts1]; try (injection H as <- <-; now cl). destruct o; try (injection H as <- <-; now cl).
    destruct (parse n LvCmp ts1) as [[f ts2]|] eqn:E; [|discriminate]. apply IH1 in E. apply IH2 in H. cl. exact (clean_trans _ _ _ E H).
  - cbn [parse_add] in H. destruct ts as [|[x|z|o| |] ts1]; try (injection H as <- <-; now cl). destruct (add_op o); try (injection H as <- <-; now cl).
    destruct (parse n LvMul ts1) as [[f ts2]|] eqn:E; [|discriminate]. apply IH1 in E. apply IH3 in H. cl. exact (clean_trans _ _ _ E H).
  - cbn [parse_mul] in H. destruct ts as [|[x|z|o| |] ts1]; try (injection H as <- <-; now cl). destruct (mul_op o); try (injection H as <- <-; now cl).
    destruct (parse n LvUn ts1) as [[f ts2]|] eqn:E; [|discriminate]. apply IH1 in E. apply IH4 in H. cl. exact (clean_trans _ _ _ E H).
  - cbn [parse_args] in H.
    assert (G : match parse n LvCond ts with
       | Some (e, TOp ORpar :: ts1) => Some ([e], ts1)
       | Some (e, TOp OComma :: ts1) => match ts1 with TOp ORpar :: _ => None | _ => match parse_args n ts1 with Some (es, ts2) => Some (e :: es, ts2) | None => None end end
       | _ => None end = Some (e, r) -> clean ts r).
    { clear H. intro H. destruct (parse n LvCond ts) as [[e1 ts1]|] eqn:E; [|discriminate]. apply IH1 in E. destruct ts1 as [|[| |o| |] ts1]; try discriminate.
      destruct o; try discriminate; (apply clean_next in E; [|discriminate]).
      - injection H as <- <-. exact E.
      - assert (H' : match parse_args n ts1 with Some (es, ts2) => Some (e1 :: es, ts2) | None => None end = Some (e, r)) by (destruct ts1 as [|[| |[]| |] ts1]; first [discriminate|exact H]).
        destruct (parse_args n ts1) as [[es ts2]|] eqn:E1; [|discriminate]. injection H' as <- <-. apply IH5 in E1. exact (clean_trans _ _ _ E E1). }
    destruct ts as [|[x|z|o| |] ts1]; try (now apply G). destruct o; try (now apply G). injection H as <- <-. now cl.
Qed.
Lemma stmt_clean : forall n,
  (forall ts e r, parse_stmt n ts = Some (e, r) -> clean ts r) /\ (forall ts e r, parse_body n ts = Some (e, r) -> clean ts r).
Proof.
  induction n as [|n (IH1 & IH2)].
  { repeat split; intros; discriminate. }
  destruct (parse_clean n) as (IP & _ & _ & _ & IA). split; intros ts e r H.
  - cbn [parse_stmt] in H. destruct ts as [|[x|z|o| |] ts1]; try discriminate.
    + destruct (String.eqb x "if").
      { destruct ts1 as [|[x1|z1|o1| |] ts2]; try discriminate. destruct o1; try discriminate.
        destruct (parse n LvCond ts2) as [[c [|[|z2|[]| |] [|[|z3|[]| |] ts3]]]|] eqn:E; try discriminate. apply IP in E. do 2 (apply clean_next in E; [|discriminate]).
        destruct (parse_body n ts3) as [[b ts4]|] eqn:E'; [|discriminate]. apply IH2 in E'. injection H as <- <-. cl. exact (clean_trans _ _ _ E E'). }
      destruct (String.eqb x "for").
      { destruct ts1 as [|[x1|z1|o1| |] ts2]; try discriminate. destruct o1; try discriminate.
        destruct ts2 as [|[x2|z2|o2| |] ts3]; try discriminate.
        destruct ts3 as [|[x3|z3|o3| |] ts4]; try discriminate. destruct o3; try discriminate.
        destruct (is_keyword x2); [discriminate|].
        destruct (parse n LvCond ts4) as [[lb [|[|z4|[]| |] [|[x5|z5|o5| |] [|[|z6|[]| |] ts5]]]]|] eqn:E; try discriminate. apply IP in E. do 3 (apply clean_next in E; [|discriminate]).
        destruct (parse n LvAdd ts5) as [[ub [|[|z7|[]| |] [|[x7|z8|o8| |] ts6]]]|] eqn:E5; try discriminate. apply IP in E5. do 2 (apply clean_next in E5; [|discriminate]).
        destruct (String.eqb x2 x5 && String.eqb x2 x7)%bool; [|discriminate]. pose proof (clean_trans _ _ _ E E5) as E6. clear E E5.
        destruct ts6 as [|[|z9|o9| |] ts7]; try discriminate. destruct o9; try discriminate.
        - destruct ts7 as [|[|z9|[]| |] [|[|z10|[]| |] ts8]]; try discriminate. do 3 (apply clean_next in E6; [|discriminate]).
          destruct (parse_body n ts8) as [[b ts9]|] eqn:E'; [|discriminate]. apply IH2 in E'. injection H as <- <-. cl. exact (clean_trans _ _ _ E6 E').
        - destruct ts7 as [|[|z9|[]| |] [|[|z10|[]| |] [|[|z11|[]| |] ts8]]]; try discriminate. do 4 (apply clean_next in E6; [|discriminate]).
          destruct (parse_body n ts8) as [[b ts9]|] eqn:E'; [|discriminate]. apply IH2 in E'. injection H as <- <-. cl. exact (clean_trans _ _ _ E6 E'). }
      destruct (is_keyword x); [discriminate|].
      destruct ts1 as [|[x1|z1|o1| |] ts2]; try discriminate. destruct o1; try discriminate.
      * destruct (parse n LvCond ts2) as [[e1 [|[| |[]| |] ts3]]|] eqn:E; try discriminate. injection H as <- <-. apply IP, clean_next in E; [|discriminate]. now cl.
      * destruct (parse_args n ts2) as [[e1 [|[| |[]| |] ts3]]|] eqn:E; try discriminate. injection H as <- <-. apply IA, clean_next in E; [|discriminate]. now cl.
    + destruct o; try discriminate. destruct (parse_body n ts1) as [[b ts2]|] eqn:E; [|discriminate]. injection H as <- <-. apply IH2 in E. now cl.
  - cbn [parse_body] in H.
    assert (G : match parse_stmt n ts with Some (s, ts1) => match parse_body n ts1 with Some (b, ts2) => Some (s :: b, ts2) | None => None end | None => None end = Some (e, r) -> clean ts r).
    { clear H. intro H. destruct (parse_stmt n ts) as [[s ts1]|] eqn:E; [|discriminate]. destruct (parse_body n ts1) as [[b ts2]|] eqn:E'; [|discriminate].
      injection H as <- <-. apply IH1 in E. apply IH2 in E'. exact (clean_trans _ _ _ E E'). }
    destruct ts as [|[x|z|o| |] ts1]; try (now apply G). destruct o; try (now apply G). injection H as <- <-. now cl.
Qed.
Lemma read_clean : forall n ts s r, parse_stmt n (ts ++ r)%list = Some (s, r) -> ~ In TErr ts.
Proof. intros n ts s r H. apply (proj1 (stmt_clean n)) in H. destruct H as (u & E & N). apply app_inv_tail in E. now rewrite E. Qed.
(** what the first word of a statement says about it *)
Lemma first_word : forall n x r s r', parse_stmt n (TId x :: r) = Some (s, r') -> x = "if" \/ x = "for" \/ (is_keyword x = false /\ ((exists e, s = CAssign x e) \/ exists es, s = CProc x es)).
Proof.
  intros [|n] x r s r' H; [discriminate|]. cbn [parse_stmt] in H. destruct (String.eqb_spec x "if"); [now left|]. destruct (String.eqb_spec x "for"); [now right; left|].
  right; right. destruct (is_keyword x); [discriminate|]. split; [reflexivity|]. destruct r as [|[| |[]| |] ts2]; try discriminate.
  - destruct (parse n LvCond ts2) as [[e [|[| |[]| |] ts3]]|]; try discriminate. injection H as <- <-. left. now eexists.
  - destruct (parse_args n ts2) as [[e [|[| |[]| |] ts3]]|]; try discriminate. injection H as <- <-. right. now eexists.
Qed.
