(** The texts in a printed file and how they are read. *)
From Coq Require Import ZArith List Bool Arith String Ascii Lia Decimal DecimalString DecimalNat.
From Verif Require Import ClastSpec ClastModel PprintModel CReader PprintSpec PprintLex PprintParse FileModel FileReader FileLex FileParse.
Import ListNotations.
Local Open Scope string_scope.
Local Open Scope Z_scope.
Local Arguments Nat.leb : simpl never.
Local Arguments Nat.eqb : simpl never.
Local Arguments is_idchar : simpl never.
Local Arguments is_alpha : simpl never.
Local Arguments is_digit : simpl never.

(** *** lists of names *)
Fixpoint seps (l : list string) : list token := match l with [] => [] | [x] => [TId x] | x :: l' => TId x :: TOp OComma :: seps l' end.
Definition idents (l : list string) : Prop := Forall (fun x => ident x = true) l.
Lemma seps_lex : forall sp l, sp = "," \/ sp = ", " -> idents l -> lexes (String.concat sp l) (seps l).
Proof.
  intros sp l S H. induction H as [|x l Hx H IH]; [apply closed_lexes, closed_nil|]. cbn [String.concat seps]. destruct l as [|y l]; [now apply lex_ident|].
  apply (lexes_app x [TId x]); [now apply lex_ident|destruct S as [-> | ->]; discriminate|destruct S as [-> | ->]; reflexivity|].
  apply (closed_lexes_app sp [TOp OComma]); [|exact IH]. destruct S as [-> | ->]; intro r; reflexivity.
Qed.
Lemma params_seps : forall l r, params (seps l ++ TOp ORpar :: r)%list = Some (l, r).
Proof.
  assert (G : forall l x r, params1 (seps (x :: l) ++ TOp ORpar :: r)%list = Some (x :: l, r)).
  { induction l as [|y l IH]; intros x r; [reflexivity|]. change (params1 (seps (x :: y :: l) ++ TOp ORpar :: r)) with (match params1 (seps (y :: l) ++ TOp ORpar :: r) with Some (l', r') => Some (x :: l', r') | None => None end). now rewrite IH. }
  intros [|x l] r; [reflexivity|]. specialize (G l x r). destruct l; exact G.
Qed.
(** *** numbers *)
Definition int_tokens (k : Z) : list token := if k <? 0 then [TOp OMinus; TNum (- k)] else [TNum k].
Definition int_expr (k : Z) : cexpr := if k <? 0 then CNeg (CInt (- k)) else CInt k.
Lemma int_lex : forall k, lexes (int_text k) (int_tokens k).
Proof.
  intro k. unfold int_tokens. destruct (Z.ltb_spec k 0).
  - destruct (int_neg k ltac:(lia)) as (l & -> & E). intros r S. rewrite <- E. cbn [append]. rewrite lex_minus; [rewrite lex_uint by exact S; reflexivity|].
    apply (first_apart "-"); [reflexivity|]. apply first_app. eapply first_weaken; [|apply uint_first]. intros c Hc. unfold prim_char, is_idchar. now rewrite Hc, orb_true_r.
  - destruct (int_nonneg k ltac:(lia)) as (l & -> & E). rewrite <- E. apply lex_uint.
Qed.
Lemma int_value : forall k rho ms, value ms rho (int_expr k) = Some k.
Proof. intros k rho ms. unfold value, int_expr. destruct (Z.ltb_spec k 0); cbn; [f_equal; lia|reflexivity]. Qed.
Lemma int_parse : forall k, parse 10 LvCond (int_tokens k) = Some (int_expr k, []).
Proof. intro k. unfold int_tokens, int_expr. destruct (k <? 0); reflexivity. Qed.
Lemma nat_lex : forall n, lexes (nat_text n) [TNum (Z.of_nat n)].
Proof.
  intro n. unfold nat_text. replace (Z.of_nat n) with (Z.of_uint (Nat.to_uint n)); [apply lex_uint|].
  rewrite <- (Unsigned.of_to n) at 2. unfold Nat.of_uint.
  rewrite dval_uint. generalize (Nat.to_uint n). clear n.
  assert (G : forall d a, dval d (Z.of_nat a) = Z.of_nat (Nat.of_uint_acc d a)).
  { induction d; intro a; cbn [dval Nat.of_uint_acc]; try reflexivity; rewrite <- IHd; f_equal; rewrite Nat.tail_mul_spec; lia. }
  intro d. exact (G d 0%nat).
Qed.
Lemma nat_inj : forall n m, nat_text n = nat_text m -> n = m.
Proof.
  intros n m E. pose proof (nat_lex n "" I) as A. pose proof (nat_lex m "" I) as B. rewrite app_nil_s in A, B. rewrite E, B in A. injection A as A. lia.
Qed.
Lemma app_inj_s : forall a b c : string, a ++ b = a ++ c -> b = c.
Proof. induction a as [|x a IH]; intros b c E; [exact E|]. injection E as E. now apply IH. Qed.
(** *** strings *)
Definition plain_char (c : ascii) : bool := (negb (is_quote c) && negb (Ascii.eqb c "\") && negb (is_newline c))%bool.
Lemma lex_plain : forall s acc r, all_chars plain_char s = true -> lex (LStr acc) (s ++ r) = lex (LStr (acc ++ s)) r.
Proof.
  induction s as [|c s IH]; intros acc r A; [now rewrite app_nil_s|]. cbn [all_chars] in A. apply andb_true_iff in A. destruct A as [A1 A2].
  unfold plain_char in A1. apply andb_true_iff in A1. destruct A1 as [A1 A3]. apply andb_true_iff in A1. destruct A1 as [A0 A1]. apply negb_true_iff in A0, A1, A3.
  cbn [append lex step]. rewrite A0, A1, A3. cbn [List.app]. rewrite IH by exact A2. now rewrite snoc_app.
Qed.
Lemma string_closed : forall s, all_chars plain_char s = true -> closed (quote ++ s ++ escaped_n ++ quote) [TStr (s ++ newline)].
Proof.
  intros s A r. rewrite !app_assoc_s. change (lex LNone (quote ++ s ++ escaped_n ++ quote ++ r)) with (lex (LStr "") (s ++ escaped_n ++ quote ++ r)).
  rewrite lex_plain by exact A. cbn [append]. reflexivity.
Qed.
Lemma digit_plain : forall s, all_chars is_idchar s = true -> all_chars plain_char s = true.
Proof.
  intro s. apply all_weaken. intros c H. unfold plain_char. rewrite (idchar_no_nl c H), andb_true_r.
  unfold is_idchar, is_alpha, is_digit in H. unfold is_quote. apply andb_true_iff. split; apply negb_true_iff.
  - destruct (Nat.eqb_spec (code c) 34) as [E|]; [rewrite E in H; discriminate H|reflexivity].
  - destruct (Ascii.eqb_spec c "\") as [->|]; [discriminate H|reflexivity].
Qed.
(** *** macros *)
Lemma define_fun : forall c f its body bts, is_alpha c = true -> all_chars is_idchar f = true -> idents its -> tokens body = bts ->
  read_define (" " ++ String c f ++ "(" ++ String.concat "," its ++ ")" ++ body) = Some {| d_name := String c f; d_params := Some its; d_body := bts |}.
Proof.
  intros c f its body bts C F I B. unfold read_define. cbn [append ltrim]. change (is_space " ") with true. cbn iota.
  assert (NS : is_space c = false).
  { unfold is_space. unfold is_alpha in C. destruct (Nat.eqb_spec (code c) 32) as [E|]; [rewrite E in C; discriminate C|].
    destruct (Nat.eqb_spec (code c) 10) as [E|]; [rewrite E in C; discriminate C|]. destruct (Nat.eqb_spec (code c) 9) as [E|]; [rewrite E in C; discriminate C|reflexivity]. }
  rewrite NS. cbn iota. change (String c (f ++ String "(" (String.concat "," its ++ String ")" body))) with (String c f ++ ("(" ++ String.concat "," its ++ ")" ++ body)).
  rewrite word_app; [|cbn [all_chars]; unfold is_idchar at 1; now rewrite C, F|reflexivity]. cbn iota. rewrite C. cbn [append starts]. change (Ascii.eqb "(" "(") with true. cbn iota.
  assert (T : tokens (String "(" (String.concat "," its ++ String ")" body)) = TOp OLpar :: (seps its ++ TOp ORpar :: bts)%list); [|now rewrite T, params_seps].
  unfold tokens. change (lex LNone (String "(" (String.concat "," its ++ String ")" body))) with (TOp OLpar :: lex LNone (String.concat "," its ++ (")" ++ body))).
  rewrite (seps_lex "," its); [|now left|exact I|reflexivity]. change (lex LNone (")" ++ body)) with (TOp ORpar :: tokens body). now rewrite B.
Qed.
Definition par_name (i : nat) : string := "PARVAL" ++ nat_text i.
Definition par_def (k : Z) (i : nat) : define := {| d_name := par_name i; d_params := None; d_body := int_tokens k |}.
Definition par_text (k : Z) (i : nat) : string := par_name i ++ " " ++ int_text k.
Lemma par_read : forall k i, no_nl (par_text k i) /\ read_define (" " ++ par_text k i) = Some (par_def k i).
Proof.
  intros k i. split.
  - apply nl_app; [apply nl_app; [reflexivity|apply id_no_nl, nat_chars]|]. apply nl_app; [reflexivity|apply int_no_nl].
  - unfold read_define, par_text. change (ltrim (" " ++ par_name i ++ " " ++ int_text k)) with (par_name i ++ (" " ++ int_text k)).
    rewrite word_app; [|unfold par_name; rewrite all_app, nat_chars; reflexivity|reflexivity]. change (is_alpha "P") with true. cbn [par_name append starts]. change (Ascii.eqb " " "(") with false. cbn iota.
    change (is_alpha "P") with true. cbn iota. unfold par_def. f_equal. f_equal. change (tokens (String " " (int_text k))) with (lex LNone (int_text k)).
    pose proof (int_lex k "" I) as E. rewrite app_nil_s in E. rewrite E. cbn [lex flush]. now rewrite app_nil_r.
Qed.
Definition s_name (n : nat) : string := "S" ++ nat_text n.
Definition fmt (its : list string) (n : nat) : string := s_name n ++ String.concat "" (map (fun _ => " %d") its).
Definition comp_body (its : list string) (n : nat) : list token :=
  (TOp OLbrace :: TId "total" :: TOp OInc :: TOp OSemi ::
   match its with [] => [] | _ => TId "printf" :: TOp OLpar :: TStr (fmt its n ++ newline) :: TOp OComma :: seps its ++ [TOp ORpar; TOp OSemi] end ++ [TOp ORbrace])%list.
Definition comp_def (p : list string * nat) : define := {| d_name := s_name (snd p); d_params := Some (fst p); d_body := comp_body (fst p) (snd p) |}.
Definition comp_text (p : list string * nat) : string :=
  s_name (snd p) ++ "(" ++ String.concat "," (fst p) ++ ")" ++ " {total++;" ++
  match fst p with
  | [] => ""
  | _ => " printf(" ++ quote ++ "S" ++ nat_text (snd p) ++ String.concat "" (map (fun _ => " %d") (fst p)) ++ escaped_n ++ quote ++ "," ++ String.concat "," (fst p) ++ ");"
  end ++ "}".
Lemma comp_line : forall its n, compilable_line its n = "#define " ++ comp_text (its, n) ++ newline.
Proof.
  intros its n. unfold compilable_line, comp_text, s_name. cbn [fst snd]. repeat (progress (rewrite ?app_assoc_s; cbn [append])). reflexivity.
Qed.
Lemma percents_plain : forall its : list string, all_chars plain_char (String.concat "" (map (fun _ => " %d") its)) = true.
Proof.
  induction its as [|x its IH]; [reflexivity|]. cbn [map String.concat]. destruct its as [|y its]; [reflexivity|]. cbn [map] in *. rewrite !all_app. now rewrite IH.
Qed.
Lemma fmt_plain : forall its n, all_chars plain_char (fmt its n) = true.
Proof. intros. unfold fmt, s_name. rewrite !all_app, percents_plain, (digit_plain _ (nat_chars n)). reflexivity. Qed.
Lemma plain_no_nl : forall s, all_chars plain_char s = true -> no_nl s.
Proof. intro s. apply all_weaken. intros c H. unfold plain_char in H. apply andb_true_iff in H. apply H. Qed.
Lemma idents_nl : forall l, idents l -> Forall no_nl l.
Proof. intros l. apply Forall_impl. intros x H. now apply id_no_nl, ident_chars. Qed.
Lemma comp_read : forall its n, idents its -> no_nl (comp_text (its, n)) /\ read_define (" " ++ comp_text (its, n)) = Some (comp_def (its, n)).
Proof.
  intros its n I. pose proof (concat_no_nl "," its eq_refl (idents_nl its I)) as NC. split.
  - unfold comp_text. cbn [fst snd]. repeat (apply nl_app); try reflexivity; try exact NC; try (apply id_no_nl, nat_chars).
    destruct its as [|x its]; [reflexivity|]. repeat (apply nl_app); try reflexivity; try exact NC; try (apply id_no_nl, nat_chars). apply plain_no_nl, percents_plain.
  - unfold comp_text, comp_def. cbn [fst snd]. unfold s_name. change ("S" ++ nat_text n) with (String "S" (nat_text n)).
    rewrite (define_fun "S" (nat_text n) its _ (comp_body its n)); [reflexivity|reflexivity|apply nat_chars|exact I|].
    unfold tokens, comp_body. change (lex LNone (" {total++;" ++ ?x)) with (TOp OLbrace :: TId "total" :: TOp OInc :: TOp OSemi :: lex LNone x).
    do 4 f_equal. destruct its as [|x its]; [reflexivity|].
    match goal with |- context [escaped_n ++ ?b] => idtac end.
    replace (" printf(" ++ quote ++ "S" ++ nat_text n ++ String.concat "" (map (fun _ => " %d") (x :: its)) ++ escaped_n ++ quote ++ "," ++ String.concat "," (x :: its) ++ ");")
      with (" printf(" ++ (quote ++ fmt (x :: its) n ++ escaped_n ++ quote) ++ "," ++ String.concat "," (x :: its) ++ ");")
      by (unfold fmt, s_name; rewrite !app_assoc_s; cbn [append]; rewrite ?app_assoc_s; reflexivity).
    rewrite !app_assoc_s. rewrite <- (app_assoc_s escaped_n), <- (app_assoc_s (fmt _ _)), <- (app_assoc_s quote (_ ++ _ ++ _)).
    change (lex LNone (" printf(" ++ ?z)) with (TId "printf" :: TOp OLpar :: lex LNone z). rewrite (string_closed _ (fmt_plain (x :: its) n)).
    change (lex LNone ("," ++ ?z)) with (TOp OComma :: lex LNone z). rewrite (seps_lex "," (x :: its)); [|now left|exact I|reflexivity].
    cbn [List.app]. do 4 f_equal. rewrite <- app_assoc. reflexivity.
Qed.
Definition call_body (its : list string) (n : nat) : list token :=
  (TOp OLbrace :: TId "hash" :: TOp OLpar :: TNum (Z.of_nat n) :: TOp ORpar :: TOp OSemi :: flat_map (fun i => [TId "hash"; TOp OLpar; TId i; TOp ORpar; TOp OSemi]) its ++ [TOp ORbrace])%list.
Definition call_def (p : list string * nat) : define := {| d_name := s_name (snd p); d_params := Some (fst p); d_body := call_body (fst p) (snd p) |}.
Definition call_text (p : list string * nat) : string :=
  s_name (snd p) ++ "(" ++ String.concat "," (fst p) ++ ")" ++ " { hash(" ++ nat_text (snd p) ++ ");" ++ String.concat "" (map (fun i => " hash(" ++ i ++ ");") (fst p)) ++ " }".
Lemma call_line : forall its n, callable_line its n = "#define " ++ call_text (its, n) ++ newline.
Proof.
  intros its n. unfold callable_line, call_text, s_name. cbn [fst snd]. repeat (progress (rewrite ?app_assoc_s; cbn [append])). reflexivity.
Qed.
Lemma concat_cons : forall x l, String.concat "" (x :: l) = x ++ String.concat "" l.
Proof. intros x [|y l]; [cbn; now rewrite app_nil_s|reflexivity]. Qed.
Lemma hashes_closed : forall its, idents its -> closed (String.concat "" (map (fun i => " hash(" ++ i ++ ");") its)) (flat_map (fun i => [TId "hash"; TOp OLpar; TId i; TOp ORpar; TOp OSemi]) its).
Proof.
  intros its H. induction H as [|x l Hx H IH]; [apply closed_nil|]. cbn [map flat_map]. rewrite concat_cons. apply closed_app; [|exact IH].
  apply (closed_app " hash(" [TId "hash"; TOp OLpar]); [intro r; reflexivity|]. apply (lexes_closed_app x [TId x]); [now apply lex_ident|discriminate|reflexivity|]. intro r. reflexivity.
Qed.
Lemma call_read : forall its n, idents its -> no_nl (call_text (its, n)) /\ read_define (" " ++ call_text (its, n)) = Some (call_def (its, n)).
Proof.
  intros its n I. pose proof (concat_no_nl "," its eq_refl (idents_nl its I)) as NC. split.
  - unfold call_text. cbn [fst snd]. repeat (apply nl_app); try reflexivity; try exact NC; try (apply id_no_nl, nat_chars).
    apply concat_no_nl; [reflexivity|]. rewrite Forall_map. eapply Forall_impl; [|exact (idents_nl its I)]. intros x Hx. cbn beta. apply nl_app; [reflexivity|]. now apply nl_app.
  - unfold call_text, call_def. cbn [fst snd]. unfold s_name. change ("S" ++ nat_text n) with (String "S" (nat_text n)).
    rewrite (define_fun "S" (nat_text n) its _ (call_body its n)); [reflexivity|reflexivity|apply nat_chars|exact I|].
    unfold tokens, call_body. change (lex LNone (" { hash(" ++ ?x)) with (TOp OLbrace :: TId "hash" :: TOp OLpar :: lex LNone x).
    do 3 f_equal. rewrite (nat_lex n) by reflexivity. cbn [List.app]. f_equal. change (lex LNone (");" ++ ?x)) with (TOp ORpar :: TOp OSemi :: lex LNone x). do 2 f_equal.
    rewrite (hashes_closed its I). reflexivity.
Qed.
(** *** many definitions *)
Definition with_defs (st : pre) (ds : list define) : pre := {| p_defs := (p_defs st ++ ds)%list; p_cond := p_cond st; p_code := p_code st |}.
Definition dup_free (ds : list define) : Prop := NoDup (map d_name ds).
Lemma not_defined : forall ds d, dup_free (ds ++ [d]) -> defined ds (d_name d) = false.
Proof.
  intros ds d H. unfold dup_free in H. rewrite map_app in H. unfold defined. apply not_true_is_false. intro E. apply existsb_exists in E. destruct E as (x & Hx & E). apply String.eqb_eq in E.
  apply NoDup_remove_2 in H. apply H. rewrite app_nil_r, <- E. now apply in_map.
Qed.
Lemma nodup_prefix : forall A (a b : list A), NoDup (a ++ b) -> NoDup a.
Proof. intros A a b. induction a as [|x a IH]; intro H; [constructor|]. inversion H; subst. constructor; [|now apply IH]. intro I. match goal with N : ~ In x _ |- _ => apply N end. apply in_or_app. now left. Qed.
Lemma dup_free_prefix : forall a b, dup_free (a ++ b) -> dup_free a.
Proof. unfold dup_free. intros a b H. rewrite map_app in H. exact (nodup_prefix _ _ _ H). Qed.
Definition define_text (p : string * define) : string := "#define " ++ fst p ++ newline.
Definition readable (p : string * define) : Prop := no_nl (fst p) /\ read_define (" " ++ fst p) = Some (snd p).
Lemma rl_defines : forall l st r, Forall readable l -> open_code st = false -> p_cond st = None -> dup_free (p_defs st ++ map snd l) ->
  rl st (String.concat "" (map define_text l) ++ r) = rl (with_defs st (map snd l)) r.
Proof.
  induction l as [|[t d] l IH]; intros st r H O C D.
  - cbn [map String.concat append]. unfold with_defs. rewrite app_nil_r. now destruct st.
  - inversion H as [|? ? [N R] Hl]; subst. cbn [map fst snd] in *. rewrite concat_cons, app_assoc_s. unfold define_text at 1. cbn [fst]. rewrite !app_assoc_s.
    assert (D' : dup_free ((p_defs st ++ [d]) ++ map snd l)) by now rewrite <- app_assoc.
    rewrite (rl_define st t d _ N O C R (not_defined _ _ (dup_free_prefix _ _ D'))).
    rewrite IH; [|exact Hl|exact O|exact C|exact D']. unfold with_defs, with_def. cbn [p_defs p_cond p_code]. now rewrite <- app_assoc.
Qed.
(** *** the macros every file starts with *)
Definition base4 : list (string * define) :=
  [("floord(n,d) " ++ snd floord_macro, {| d_name := "floord"; d_params := Some (fst floord_macro); d_body := tokens (snd floord_macro) |});
   ("ceild(n,d)  " ++ snd ceild_macro, {| d_name := "ceild"; d_params := Some (fst ceild_macro); d_body := tokens (snd ceild_macro) |});
   ("max(x,y)    " ++ snd max_macro, {| d_name := "max"; d_params := Some (fst max_macro); d_body := tokens (snd max_macro) |});
   ("min(x,y)    " ++ snd min_macro, {| d_name := "min"; d_params := Some (fst min_macro); d_body := tokens (snd min_macro) |})].
Definition if_time : define := {| d_name := "IF_TIME"; d_params := Some ["foo"]; d_body := [] |}.
Definition base_defs : list define := (map snd base4 ++ [if_time])%list.
Lemma base_readable : Forall readable base4.
Proof. unfold base4. repeat (constructor; [split; vm_compute; reflexivity|]). constructor. Qed.
Lemma rl_cond : forall st l w t r, no_nl l -> open_code st = false -> ltrim l = String "#" (w ++ t) -> all_chars is_idchar w = true -> ltrim (w ++ t) = w ++ t -> sep t ->
  w = "ifdef" \/ w = "else" \/ w = "endif" ->
  rl st (l ++ newline ++ r) =
  match (if String.eqb w "ifdef" then match p_cond st with None => Some (with_cond st (Some (defined (p_defs st) (fst (word (ltrim t)))))) | Some _ => None end
         else if String.eqb w "else" then match p_cond st with Some b => Some (with_cond st (Some (negb b))) | None => None end
         else match p_cond st with Some _ => Some (with_cond st None) | None => None end) with Some st' => rl st' r | None => None end.
Proof.
  intros st l w t r N O E W T S H. rewrite rl_line by exact N. unfold read_line. rewrite E. cbn [starts tail]. change (Ascii.eqb "#" "#") with true. cbn iota.
  unfold directive. rewrite T, word_app by assumption. unfold open_code in O. rewrite O. destruct H as [->|[-> | ->]]; reflexivity.
Qed.
Lemma rl_skip : forall st t r, no_nl t -> open_code st = false -> p_cond st = Some false -> rl st ("#define " ++ t ++ newline ++ r) = rl st r.
Proof.
  intros st t r N O C. replace ("#define " ++ t ++ newline ++ r) with (("#define " ++ t) ++ newline ++ r) by now rewrite app_assoc_s.
  rewrite rl_line by (apply nl_app; [reflexivity|exact N]). unfold read_line. cbn [append ltrim]. change (is_space "#") with false. cbn iota. cbn [starts tail].
  change (Ascii.eqb "#" "#") with true. cbn iota. unfold directive. change (String "d" (String "e" (String "f" (String "i" (String "n" (String "e" (String " " t))))))) with ("define" ++ " " ++ t).
  change (ltrim ("define" ++ " " ++ t)) with ("define" ++ " " ++ t). rewrite word_app by reflexivity. unfold open_code in O. rewrite O. cbn [String.eqb Ascii.eqb Bool.eqb].
  unfold skipping. now rewrite C.
Qed.
Lemma rl_define_pos : forall st t d r, no_nl t -> open_code st = false -> p_cond st = Some true -> read_define (" " ++ t) = Some d -> defined (p_defs st) (d_name d) = false ->
  rl st ("#define " ++ t ++ newline ++ r) = rl (with_def st d) r.
Proof.
  intros st t d r N O C R D. replace ("#define " ++ t ++ newline ++ r) with (("#define " ++ t) ++ newline ++ r) by now rewrite app_assoc_s.
  rewrite rl_line by (apply nl_app; [reflexivity|exact N]). unfold read_line. cbn [append ltrim]. change (is_space "#") with false. cbn iota. cbn [starts tail].
  change (Ascii.eqb "#" "#") with true. cbn iota. unfold directive. change (String "d" (String "e" (String "f" (String "i" (String "n" (String "e" (String " " t))))))) with ("define" ++ " " ++ t).
  change (ltrim ("define" ++ " " ++ t)) with ("define" ++ " " ++ t). rewrite word_app by reflexivity. unfold open_code in O. rewrite O. cbn [String.eqb Ascii.eqb Bool.eqb].
  unfold skipping. now rewrite C, R, D.
Qed.
Lemma rl_macros : forall st r, open_code st = false -> p_cond st = None -> dup_free (p_defs st ++ base_defs) -> defined (p_defs st) "TIME" = false ->
  rl st (print_macros ++ r) = rl (with_defs st base_defs) r.
Proof.
  intros st r O C D T.
  change (print_macros ++ r) with ("/* " ++ "Useful macros." ++ " */" ++ newline ++ (String.concat "" (map define_text base4) ++ (newline ++ ("#ifdef TIME " ++ newline ++ ("#define " ++ "IF_TIME(foo) foo; " ++ newline ++ ("#else" ++ newline ++ ("#define " ++ "IF_TIME(foo)" ++ newline ++ ("#endif" ++ newline ++ (newline ++ r))))))))).
  rewrite rl_comment by reflexivity. unfold base_defs in D. rewrite app_assoc in D.
  rewrite (rl_defines base4 st _ base_readable O C (dup_free_prefix _ _ D)). rewrite rl_blank.
  set (st1 := with_defs st (map snd base4)). rewrite (rl_cond st1 "#ifdef TIME " "ifdef" " TIME " _ eq_refl O eq_refl eq_refl eq_refl eq_refl ltac:(tauto)).
  cbn [String.eqb Ascii.eqb Bool.eqb]. change (p_cond st1) with (p_cond st). rewrite C. cbn iota.
  assert (T1 : defined (p_defs st1) (fst (word (ltrim " TIME "))) = false).
  { change (fst (word (ltrim " TIME "))) with "TIME". unfold st1, with_defs, defined. cbn [p_defs]. rewrite existsb_app. unfold defined in T. rewrite T. reflexivity. }
  rewrite T1. rewrite rl_skip; [|reflexivity|exact O|reflexivity].
  rewrite (rl_cond (with_cond st1 (Some false)) "#else" "else" "" _ eq_refl O eq_refl eq_refl eq_refl Logic.I ltac:(tauto)).
  cbn [String.eqb Ascii.eqb Bool.eqb with_cond p_cond negb].
  rewrite (rl_define_pos _ "IF_TIME(foo)" if_time); [|reflexivity|exact O|reflexivity|reflexivity|exact (not_defined _ _ D)].
  match goal with |- rl ?s _ = _ => set (st2 := s) end.
  rewrite (rl_cond st2 "#endif" "endif" "" _ eq_refl O eq_refl eq_refl eq_refl Logic.I ltac:(tauto)).
  unfold st2. cbn [String.eqb Ascii.eqb Bool.eqb with_cond with_def p_cond]. rewrite rl_blank. unfold base_defs, with_defs, st1. cbn [p_defs p_code with_cond with_def]. rewrite app_assoc, C. reflexivity.
Qed.
