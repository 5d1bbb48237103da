(** A printed file is read as the file it is meant to be. *)
From Coq Require Import ZArith List Bool Arith String Ascii Lia.
From Verif Require Import ClastSpec ClastModel PprintModel CReader PprintSpec PprintLex PprintParse PprintExpr PprintStmt PprintEnd FileModel FileReader FileSpec FileLex FileParse FileText.
Import ListNotations.
Local Open Scope string_scope.
Local Open Scope Z_scope.
Local Arguments Nat.leb : simpl never.
Local Arguments Nat.eqb : simpl never.
Local Arguments is_keyword : simpl never.

(** *** macros *)
Lemma level_prim : forall n x o r, o <> OLpar -> parse (S n) LvPrim (TId x :: TOp o :: r) = if is_keyword x then None else Some (CVar x, TOp o :: r).
Proof. intros n x o r H. cbn [parse]. destruct o; congruence || reflexivity. Qed.
Lemma level_un : forall n x r, parse (S n) LvUn (TId x :: r) = parse n LvPrim (TId x :: r).
Proof. reflexivity. Qed.
Lemma level_un_num : forall n z r, parse (S n) LvUn (TNum z :: r) = parse n LvPrim (TNum z :: r).
Proof. reflexivity. Qed.
Lemma level_prim_num : forall n z r, parse (S n) LvPrim (TNum z :: r) = Some (CInt z, r).
Proof. reflexivity. Qed.
Lemma level_mul : forall n ts, parse (S n) LvMul ts = match parse n LvUn ts with Some (e, ts1) => parse_mul n e ts1 | None => None end.
Proof. reflexivity. Qed.
Lemma level_add : forall n ts, parse (S n) LvAdd ts = match parse n LvMul ts with Some (e, ts1) => parse_add n e ts1 | None => None end.
Proof. reflexivity. Qed.
Lemma level_cmp : forall n ts e o r, parse n LvAdd ts = Some (e, TOp o :: r) -> cmp_op o = None -> parse (S n) LvCmp ts = Some (e, TOp o :: r).
Proof. intros n ts e o r E C. cbn [parse]. now rewrite E, C. Qed.
Lemma level_and : forall n ts, parse (S n) LvAnd ts = match parse n LvCmp ts with Some (e, ts1) => parse_and n e ts1 | None => None end.
Proof. reflexivity. Qed.
Lemma level_cond : forall n ts e o r, parse n LvAnd ts = Some (e, TOp o :: r) -> o <> OQuest -> parse (S n) LvCond ts = Some (e, TOp o :: r).
Proof. intros n ts e o r E C. cbn [parse]. rewrite E. destruct o; congruence || reflexivity. Qed.
Lemma stop_mul : forall n e o r, mul_op o = None -> parse_mul (S n) e (TOp o :: r) = Some (e, TOp o :: r).
Proof. intros n e o r H. cbn [parse_mul]. now rewrite H. Qed.
Lemma stop_add : forall n e o r, add_op o = None -> parse_add (S n) e (TOp o :: r) = Some (e, TOp o :: r).
Proof. intros n e o r H. cbn [parse_add]. now rewrite H. Qed.
Lemma stop_and : forall n e o r, o <> OAnd -> parse_and (S n) e (TOp o :: r) = Some (e, TOp o :: r).
Proof. intros n e o r H. cbn [parse_and]. destruct o; congruence || reflexivity. Qed.
Definition ends (o : op) : Prop := o = OComma \/ o = ORpar \/ o = OSemi.
Lemma ends_facts : forall o, ends o -> o <> OLpar /\ o <> OQuest /\ o <> OAnd /\ cmp_op o = None /\ add_op o = None /\ mul_op o = None.
Proof. intros o [->|[-> | ->]]; repeat split; discriminate. Qed.
Lemma parse_var : forall n x o r, (7 <= n)%nat -> is_keyword x = false -> ends o -> parse n LvCond (TId x :: TOp o :: r) = Some (CVar x, TOp o :: r).
Proof.
  intros n x o r L K H. destruct (ends_facts o H) as (F1 & F2 & F3 & F4 & F5 & F6). apply (proj1 (fuel_mono 7)); [exact L|].
  apply level_cond; [|exact F2]. rewrite level_and. rewrite (level_cmp 4 (TId x :: TOp o :: r) (CVar x) o r); [cbv beta iota; now apply stop_and| |exact F4].
  rewrite level_add, level_mul, level_un, level_prim, K by exact F1. cbv beta iota. rewrite stop_mul by exact F6. cbv beta iota. now apply stop_add.
Qed.
Lemma parse_num : forall n z o r, (7 <= n)%nat -> ends o -> parse n LvCond (TNum z :: TOp o :: r) = Some (CInt z, TOp o :: r).
Proof.
  intros n z o r L H. destruct (ends_facts o H) as (F1 & F2 & F3 & F4 & F5 & F6). apply (proj1 (fuel_mono 7)); [exact L|].
  apply level_cond; [|exact F2]. rewrite level_and. rewrite (level_cmp 4 (TNum z :: TOp o :: r) (CInt z) o r); [cbv beta iota; now apply stop_and| |exact F4].
  rewrite level_add, level_mul. rewrite level_un_num, level_prim_num. cbv beta iota. rewrite stop_mul by exact F6. cbv beta iota. now apply stop_add.
Qed.
Lemma not_keyword : forall x, ident x = true -> is_keyword x = false.
Proof. intros x I. unfold ident in I. apply andb_true_iff in I. now apply negb_true_iff. Qed.
Lemma args_last : forall n ts e r, parse n LvCond ts = Some (e, TOp ORpar :: r) -> (forall q, ts <> TOp ORpar :: q) -> parse_args (S n) ts = Some ([e], r).
Proof. intros n ts e r E N. cbn [parse_args]. rewrite E. destruct ts as [|[x|z|o|s|] ts]; try reflexivity. destruct o; try reflexivity. exfalso. now apply (N ts). Qed.
Lemma args_more : forall n x ts e r es r', parse n LvCond (TId x :: ts) = Some (e, TOp OComma :: r) -> (forall q, r <> TOp ORpar :: q) -> parse_args n r = Some (es, r') -> parse_args (S n) (TId x :: ts) = Some (e :: es, r').
Proof. intros n x ts e r es r' E N A. cbn [parse_args]. rewrite E, A. destruct r as [|[y|z|o|s|] r]; try reflexivity. destruct o; try reflexivity. exfalso. now apply (N r). Qed.
Lemma args_seps : forall l x n r, (8 + List.length l <= n)%nat -> idents (x :: l) -> parse_args n (seps (x :: l) ++ TOp ORpar :: r)%list = Some (map CVar (x :: l), r).
Proof.
  induction l as [|y l IH]; intros x n r L I; inversion I as [|? ? Ix Il]; subst; (destruct n as [|n]; [cbn in L; lia|]); cbn [List.length] in L.
  - apply args_last; [|discriminate]. apply parse_var; [lia|now apply not_keyword|right; now left].
  - change (seps (x :: y :: l) ++ TOp ORpar :: r)%list with (TId x :: TOp OComma :: (seps (y :: l) ++ TOp ORpar :: r))%list.
    apply args_more with (r := (seps (y :: l) ++ TOp ORpar :: r)%list); [apply parse_var; [lia|now apply not_keyword|now left]|destruct l; discriminate|apply IH; [lia|exact Il]].
Qed.
Definition comp_macro (p : list string * nat) : macro :=
  {| m_name := s_name (snd p); m_params := Some (fst p);
     m_body := MStmts (MInc "total" :: match fst p with [] => [] | its => [MPrintf (fmt its (snd p) ++ newline) (map CVar its)] end) |}.
Lemma mstmts_inc : forall n x r l, is_keyword x = false -> parse_mstmts n r = Some l -> parse_mstmts (S n) (TId x :: TOp OInc :: TOp OSemi :: r) = Some (MInc x :: l).
Proof. intros n x r l K E. cbn [parse_mstmts]. now rewrite K, E. Qed.
Lemma mstmts_printf : forall n r f es r' l, parse_printf n (TOp OLpar :: r) = Some (f, es, r') -> parse_mstmts n r' = Some l -> parse_mstmts (S n) (TId "printf" :: TOp OLpar :: r) = Some (MPrintf f es :: l).
Proof. intros n r f es r' l P E. cbn [parse_mstmts]. change (is_keyword "printf") with false. change (String.eqb "printf" "printf") with true. cbn iota. now rewrite P, E. Qed.
Lemma mstmts_call : forall n x r es r' l, is_keyword x = false -> x <> "printf" -> parse_args n r = Some (es, TOp OSemi :: r') -> parse_mstmts n r' = Some l -> parse_mstmts (S n) (TId x :: TOp OLpar :: r) = Some (MCall x es :: l).
Proof. intros n x r es r' l K N P E. cbn [parse_mstmts]. rewrite K. destruct (String.eqb_spec x "printf"); [contradiction|]. now rewrite P, E. Qed.
Lemma printf_args : forall n f x ts es r, parse_args n (TId x :: ts) = Some (es, TOp OSemi :: r) -> parse_printf n (TOp OLpar :: TStr f :: TOp OComma :: TId x :: ts) = Some (f, es, r).
Proof. intros n f x ts es r E. cbn [parse_printf]. now rewrite E. Qed.
Lemma seps_head : forall x l, exists ts, seps (x :: l) = TId x :: ts.
Proof. intros x [|y l]; eexists; reflexivity. Qed.
Lemma comp_parse : forall p, idents (fst p) -> exists N, parse_mbody N (d_body (comp_def p)) = Some (m_body (comp_macro p)).
Proof.
  intros [its n] I. cbn [fst snd comp_def comp_macro d_body m_body] in *. unfold comp_body. destruct its as [|x its].
  - exists 5%nat. reflexivity.
  - exists (S (S (8 + List.length its))). cbn [parse_mbody]. cbn [List.app]. rewrite <- app_assoc. cbn [List.app].
    rewrite (mstmts_inc _ "total" _ [MPrintf (fmt (x :: its) n ++ newline) (map CVar (x :: its))]); [reflexivity|reflexivity|].
    apply mstmts_printf with (r' := [TOp ORbrace]); [|reflexivity]. destruct (seps_head x its) as (ts & E).
    pose proof (args_seps its x (8 + List.length its) [TOp OSemi; TOp ORbrace] ltac:(lia) I) as A. rewrite E in *. cbn [List.app] in *. now apply printf_args.
Qed.
Definition call_macro (p : list string * nat) : macro :=
  {| m_name := s_name (snd p); m_params := Some (fst p);
     m_body := MStmts (MCall "hash" [CInt (Z.of_nat (snd p))] :: map (fun i => MCall "hash" [CVar i]) (fst p)) |}.
Lemma hash_parse : forall its n, (10 + List.length its <= n)%nat -> idents its ->
  parse_mstmts n (flat_map (fun i => [TId "hash"; TOp OLpar; TId i; TOp ORpar; TOp OSemi]) its ++ [TOp ORbrace])%list = Some (map (fun i => MCall "hash" [CVar i]) its).
Proof.
  induction its as [|x its IH]; intros n L I; inversion I as [|? ? Ix Il]; subst; cbn [List.length] in L; (destruct n as [|n]; [lia|]); [reflexivity|].
  cbn [flat_map List.app map]. apply mstmts_call with (r' := (flat_map (fun i => [TId "hash"; TOp OLpar; TId i; TOp ORpar; TOp OSemi]) its ++ [TOp ORbrace])%list); [reflexivity|discriminate| |apply IH; [lia|exact Il]].
  exact (args_seps [] x n (TOp OSemi :: flat_map (fun i => [TId "hash"; TOp OLpar; TId i; TOp ORpar; TOp OSemi]) its ++ [TOp ORbrace])%list ltac:(cbn; lia) ltac:(now constructor)).
Qed.
Lemma call_parse : forall p, idents (fst p) -> exists N, parse_mbody N (d_body (call_def p)) = Some (m_body (call_macro p)).
Proof.
  intros [its n] I. cbn [fst snd call_def call_macro d_body m_body] in *. unfold call_body. exists (S (10 + List.length its)). cbn [parse_mbody].
  rewrite (mstmts_call _ "hash" _ [CInt (Z.of_nat n)] (flat_map (fun i => [TId "hash"; TOp OLpar; TId i; TOp ORpar; TOp OSemi]) its ++ [TOp ORbrace])%list (map (fun i => MCall "hash" [CVar i]) its)); [reflexivity|reflexivity|discriminate| |apply hash_parse; [lia|exact I]].
  change (10 + List.length its)%nat with (S (9 + List.length its)). apply args_last; [|discriminate]. apply parse_num; [lia|right; now left].
Qed.
Definition par_macro (k : Z) (i : nat) : macro := {| m_name := par_name i; m_params := None; m_body := MExpr (int_expr k) |}.
Lemma par_parse : forall k i, exists N, parse_mbody N (d_body (par_def k i)) = Some (m_body (par_macro k i)).
Proof. intros k i. exists 10%nat. cbn [par_def d_body par_macro m_body]. unfold parse_mbody. pose proof (int_parse k) as E. unfold int_tokens in *. destruct (k <? 0); now rewrite E. Qed.
Lemma macros_map : forall A (d : A -> define) (m : A -> macro) l, (forall a, In a l -> d_name (d a) = m_name (m a) /\ d_params (d a) = m_params (m a) /\ exists N, parse_mbody N (d_body (d a)) = Some (m_body (m a))) ->
  exists N, parse_macros N (map d l) = Some (map m l).
Proof.
  intros A d m l. induction l as [|a l IH]; intro H; [exists 0%nat; reflexivity|]. destruct (H a ltac:(now left)) as (E1 & E2 & N & E3). destruct IH as (M & E); [intros b Hb; apply H; now right|].
  exists (N + M)%nat. cbn [map parse_macros]. rewrite (mbody_mono N (N + M) _ _ ltac:(lia) E3), (macros_mono M (N + M) _ _ ltac:(lia) E), E1, E2. now destruct (m a).
Qed.
Lemma macros_app : forall d1 d2 m1 m2, (exists N, parse_macros N d1 = Some m1) -> (exists N, parse_macros N d2 = Some m2) -> exists N, parse_macros N (d1 ++ d2)%list = Some (m1 ++ m2)%list.
Proof.
  intros d1 d2 m1 m2 (N & E) (M & F). exists (N + M)%nat. apply (macros_mono N (N + M)) in E; [|lia]. apply (macros_mono M (N + M)) in F; [|lia]. revert E F. generalize (N + M)%nat. clear N M. intros N E F.
  revert m1 E. induction d1 as [|d d1 IH]; intros m1 E; cbn [parse_macros List.app] in *; [injection E as <-; exact F|].
  destruct (parse_mbody N (d_body d)); [|discriminate]. destruct (parse_macros N d1) as [l|]; [|discriminate]. injection E as <-. now rewrite (IH l eq_refl).
Qed.
Definition base_macros : list macro := match parse_macros 60 base_defs with Some l => l | None => [] end.
Lemma base_parse : exists N, parse_macros N base_defs = Some base_macros.
Proof. exists 60%nat. vm_compute. reflexivity. Qed.

(** *** declarations *)
Definition item := (string * option string)%type.
Definition item_tokens (i : item) : list token := TId (fst i) :: match snd i with Some v => [TOp OAssign; TId v] | None => [] end.
Fixpoint item_seps (l : list item) : list token := match l with [] => [] | [i] => item_tokens i | i :: l' => (item_tokens i ++ TOp OComma :: item_seps l')%list end.
Definition item_var (i : item) : string * option cexpr := (fst i, option_map CVar (snd i)).
Definition item_ok (i : item) : Prop := is_keyword (fst i) = false /\ match snd i with Some v => is_keyword v = false | None => True end.
Lemma decl_last : forall n i r, (7 <= n)%nat -> item_ok i -> parse_decl (S n) (item_tokens i ++ TOp OSemi :: r)%list = Some ([item_var i], r).
Proof.
  intros n [x v] r L [K1 K2]. cbn [fst snd] in *. cbn [parse_decl]. destruct v as [v|]; cbn [item_tokens fst snd List.app]; rewrite K1; [|reflexivity].
  rewrite (parse_var n v OSemi r L K2) by (right; now right). reflexivity.
Qed.
Lemma decl_next : forall n i r l r', (7 <= n)%nat -> item_ok i -> parse_decl n r = Some (l, r') -> parse_decl (S n) (item_tokens i ++ TOp OComma :: r)%list = Some (item_var i :: l, r').
Proof.
  intros n [x v] r l r' L [K1 K2] E. cbn [fst snd] in *. cbn [parse_decl]. destruct v as [v|]; cbn [item_tokens fst snd List.app]; rewrite K1; [|now rewrite E].
  rewrite (parse_var n v OComma r L K2) by now left. now rewrite E.
Qed.
Lemma decl_items : forall l i n r, (8 + List.length l <= n)%nat -> Forall item_ok (i :: l) -> parse_decl n (item_seps (i :: l) ++ TOp OSemi :: r)%list = Some (map item_var (i :: l), r).
Proof.
  induction l as [|j l IH]; intros i n r L H; inversion H as [|? ? Hi Hl]; subst; (destruct n as [|n]; [cbn in L; lia|]); cbn [List.length] in L.
  - apply decl_last; [lia|exact Hi].
  - change (item_seps (i :: j :: l)) with (item_tokens i ++ TOp OComma :: item_seps (j :: l))%list. rewrite <- app_assoc. cbn [List.app map].
    apply decl_next; [lia|exact Hi|]. apply IH; [lia|exact Hl].
Qed.
Definition decl_tokens (l : list item) : list token := match l with [] => [] | _ => (TId "int" :: item_seps l ++ [TOp OSemi])%list end.
Lemma decls_step : forall l r l' r', Forall item_ok l -> (exists N, parse_decls N r = Some (l', r')) -> exists N, parse_decls N (decl_tokens l ++ r)%list = Some ((map item_var l ++ l')%list, r').
Proof.
  intros [|i l] r l' r' H (N & E); [exists N; exact E|]. exists (S (8 + List.length l + N)). unfold decl_tokens. rewrite <- app_comm_cons, <- app_assoc. cbn [parse_decls]. change (String.eqb "int" "int") with true. cbn iota.
  cbn [List.app]. rewrite (decl_items l i (8 + List.length l + N) r ltac:(lia) H). now rewrite (decls_mono N (8 + List.length l + N) _ _ ltac:(lia) E).
Qed.
Lemma decls_total : forall r l' r', (exists N, parse_decls N r = Some (l', r')) -> exists N, parse_decls N (TId "int" :: TId "total" :: TOp OAssign :: TNum 0 :: TOp OSemi :: r) = Some (("total", Some (CInt 0)) :: l', r').
Proof.
  intros r l' r' (N & E). exists (S (S (8 + N))). remember (S (8 + N)) as M eqn:EM. cbn [parse_decls]. change (String.eqb "int" "int") with true. cbn iota.
  assert (D : parse_decl M (TId "total" :: TOp OAssign :: TNum 0 :: TOp OSemi :: r) = Some ([("total", Some (CInt 0))], r)).
  { rewrite EM. remember (8 + N)%nat as K eqn:EK. cbn [parse_decl]. change (is_keyword "total") with false. cbn iota. rewrite (parse_num K 0 OSemi r ltac:(lia)) by (right; now right). reflexivity. }
  rewrite D, (decls_mono N M _ _ ltac:(lia) E). reflexivity.
Qed.
Definition no_int (ts : list token) : Prop := match ts with TId x :: _ => x <> "int" | _ => True end.
Lemma decls_end : forall r, no_int r -> exists N, parse_decls N r = Some ([], r).
Proof. intros r H. exists 1%nat. destruct r as [|[x| | | |] r]; try reflexivity. cbn [parse_decls]. cbn in H. now destruct (String.eqb_spec x "int"). Qed.
Lemma fbody_no_int : forall N objs ts l, ~ In "int" objs -> parse_fbody N objs ts = Some l -> no_int ts.
Proof.
  intros [|N] objs ts l O H; [discriminate|]. destruct ts as [|[x| | | |] r]; try exact I. cbn [no_int]. intros ->. cbn [parse_fbody] in H.
  change (String.eqb "int" "printf") with false in H. change (String.eqb "int" "return") with false in H. cbn iota in H.
  destruct (existsb (String.eqb "int") objs) eqn:E; [apply existsb_exists in E; destruct E as (y & Hy & E); apply String.eqb_eq in E; subst y; tauto|].
  destruct (parse_stmt N (TId "int" :: r)) as [[s r']|] eqn:P; [|discriminate]. apply first_word in P. destruct P as [P|[P|[P _]]]; discriminate.
Qed.
(** *** the lines of declarations *)
Definition noerr (ts : list token) : bool := forallb (fun t => match t with TErr => false | _ => true end) ts.
Lemma noerr_in : forall ts, noerr ts = true -> ~ In TErr ts.
Proof. intros ts H I. unfold noerr in H. rewrite forallb_forall in H. specialize (H _ I). discriminate. Qed.
Lemma in_noerr : forall ts, ~ In TErr ts -> noerr ts = true.
Proof. intros ts H. unfold noerr. apply forallb_forall. intros t Ht. destruct t; try reflexivity. tauto. Qed.
Lemma noerr_app : forall a b, noerr (a ++ b)%list = (noerr a && noerr b)%bool.
Proof. intros. apply forallb_app. Qed.
Lemma noerr_items : forall l, noerr (item_seps l) = true.
Proof.
  induction l as [|[x v] l IH]; [reflexivity|]. assert (T : noerr (item_tokens (x, v)) = true) by (destruct v; reflexivity).
  destruct l as [|j l]; [exact T|]. change (item_seps ((x, v) :: j :: l)) with (item_tokens (x, v) ++ TOp OComma :: item_seps (j :: l))%list. rewrite noerr_app, T. exact IH.
Qed.
Lemma noerr_decl : forall l, noerr (decl_tokens l) = true.
Proof. intros [|i l]; [reflexivity|]. unfold decl_tokens. change (noerr (item_seps (i :: l) ++ [TOp OSemi]) = true)%list. now rewrite noerr_app, noerr_items. Qed.
Definition plain_items (l : list string) : list item := map (fun x => (x, None)) l.
Lemma plain_seps : forall l, item_seps (plain_items l) = seps l.
Proof. induction l as [|x l IH]; [reflexivity|]. destruct l as [|y l]; [reflexivity|]. change (item_seps (plain_items (x :: y :: l))) with (TId x :: TOp OComma :: item_seps (plain_items (y :: l))). rewrite IH. reflexivity. Qed.
Lemma some_inj : forall (A : Type) (a b : A), Some a = Some b -> a = b.
Proof. congruence. Qed.
Lemma rl_decl : forall st l text r, idents l -> print_declarations l 2 = Some text -> skipping st = false -> rl st (text ++ r) = rl (with_code st (decl_tokens (plain_items l))) r.
Proof.
  intros st l text r I P S. destruct l as [|x l]; [discriminate|]. unfold print_declarations in P. apply some_inj in P. subst text.
  set (l1 := x :: l) in *. assert (E : decl_tokens (plain_items l1) = (TId "int" :: seps l1 ++ [TOp OSemi])%list) by (rewrite <- plain_seps; reflexivity). rewrite E.
  assert (T : tokens (spaces 2 ++ "int " ++ String.concat ", " l1 ++ ";") = (TId "int" :: seps l1 ++ [TOp OSemi])%list).
  { unfold tokens. change (lex LNone (spaces 2 ++ "int " ++ ?z)) with (TId "int" :: lex LNone z). now rewrite (seps_lex ", " l1) by (auto; reflexivity). }
  replace ((spaces 2 ++ "int " ++ String.concat ", " l1 ++ ";" ++ newline) ++ r) with ((spaces 2 ++ "int " ++ String.concat ", " l1 ++ ";") ++ newline ++ r) by (rewrite !app_assoc_s; reflexivity).
  rewrite rl_code_line, T; [reflexivity| | |exact S].
  - apply nl_app; [reflexivity|]. apply nl_app; [reflexivity|]. apply nl_app; [|reflexivity]. apply concat_no_nl; [reflexivity|now apply idents_nl].
  - rewrite T. apply noerr_in. rewrite <- E. apply noerr_decl.
Qed.
Definition new_scat (nm : names) : list string := filter (fun s => negb (existsb (String.eqb s) (nm_iter nm))) (nm_scat nm).
Lemma idents_sub : forall l l', idents l -> (forall x, In x l' -> In x l) -> idents l'.
Proof. intros l l' H S. apply Forall_forall. intros x Hx. eapply Forall_forall in H; [exact H|now apply S]. Qed.
Lemma iterators_defined : forall nm, exists text, print_iterator_declarations nm = Some text.
Proof.
  intro nm. unfold print_iterator_declarations, print_scattering_declarations. destruct (filter _ _); destruct (nm_iter nm); eexists; reflexivity.
Qed.
Lemma rl_iterators : forall st nm text r, idents (nm_scat nm) -> idents (nm_iter nm) -> print_iterator_declarations nm = Some text -> skipping st = false ->
  rl st (text ++ r) = rl (with_code st (decl_tokens (plain_items (new_scat nm)) ++ decl_tokens (plain_items (nm_iter nm)))%list) r.
Proof.
  intros st nm text r IS II P S. unfold print_iterator_declarations in P. apply cat_some in P. destruct P as (t1 & t2 & P1 & P2 & ->). rewrite app_assoc_s.
  assert (A : forall q, rl st (t1 ++ q) = rl (with_code st (decl_tokens (plain_items (new_scat nm)))) q).
  { intro q. unfold print_scattering_declarations in P1. fold (new_scat nm) in P1.
    assert (IN : idents (new_scat nm)) by (eapply idents_sub; [exact IS|]; intros x Hx; apply filter_In in Hx; tauto).
    destruct (new_scat nm) as [|x l] eqn:E; [injection P1 as <-; cbn [plain_items map decl_tokens append]; now rewrite with_code_nil|].
    apply cat_some in P1. destruct P1 as (u1 & u2 & Q1 & Q2 & ->). apply some_inj in Q1. subst u1. rewrite app_assoc_s.
    change (spaces 2 ++ "/* Scattering iterators. */" ++ newline) with ("  /* " ++ "Scattering iterators." ++ " */" ++ newline). rewrite !app_assoc_s. rewrite rl_comment2 by reflexivity.
    now apply rl_decl. }
  rewrite A. rewrite <- with_code_app. set (st1 := with_code st (decl_tokens (plain_items (new_scat nm)))). assert (S1 : skipping st1 = false) by exact S. clearbody st1. clear A P1 st S.
  destruct (nm_iter nm) as [|x l] eqn:E; [injection P2 as <-; cbn [plain_items map decl_tokens append]; now rewrite with_code_nil|].
  apply cat_some in P2. destruct P2 as (u1 & u2 & Q1 & Q2 & ->). apply some_inj in Q1. subst u1. rewrite app_assoc_s.
  change ("  /* Original iterators. */" ++ newline) with ("  /* " ++ "Original iterators." ++ " */" ++ newline). rewrite !app_assoc_s. rewrite rl_comment2 by reflexivity.
  now apply rl_decl.
Qed.
Fixpoint par_items (i : nat) (ps : list string) : list item := match ps with [] => [] | p :: ps' => (p, Some (par_name i)) :: par_items (S i) ps' end.
Lemma inits_lex : forall ps i, idents ps -> lexes (String.concat ", " (parameter_inits i ps)) (item_seps (par_items i ps)).
Proof.
  induction ps as [|p ps IH]; intros i I; [apply closed_lexes, closed_nil|]. inversion I as [|? ? Ip Ips]; subst.
  assert (L : lexes (p ++ "=PARVAL" ++ nat_text i) [TId p; TOp OAssign; TId (par_name i)]).
  { apply (lexes_app p [TId p] ("=PARVAL" ++ nat_text i) [TOp OAssign; TId (par_name i)]); [now apply lex_ident|discriminate|reflexivity|].
    intros r Sr. rewrite app_assoc_s. change (lex LNone ("=PARVAL" ++ nat_text i ++ r)) with (TOp OAssign :: lex (LId "PARVAL") (nat_text i ++ r)).
    rewrite (lex_word _ _ _ (nat_chars i) Sr). reflexivity. }
  destruct ps as [|q ps]; [exact L|]. specialize (IH (S i) Ips).
  change (String.concat ", " (parameter_inits i (p :: q :: ps))) with ((p ++ "=PARVAL" ++ nat_text i) ++ ", " ++ String.concat ", " (parameter_inits (S i) (q :: ps))).
  change (item_seps (par_items i (p :: q :: ps))) with ([TId p; TOp OAssign; TId (par_name i)] ++ [TOp OComma] ++ item_seps (par_items (S i) (q :: ps)))%list.
  apply lexes_app; [exact L|discriminate|reflexivity|]. apply closed_lexes_app; [intro r; reflexivity|exact IH].
Qed.
Lemma par_items_ok : forall ps i, idents ps -> Forall item_ok (par_items i ps).
Proof.
  induction ps as [|p ps IH]; intros i I; inversion I; subst; constructor; [|now apply IH]. split; cbn [fst snd]; [now apply not_keyword|].
  unfold par_name, is_keyword. cbn [append existsb keywords String.eqb Ascii.eqb Bool.eqb]. reflexivity.
Qed.
Definition par_decl_text (ps : list string) : string :=
  match ps with [] => "" | _ => "  /* Parameters. */" ++ newline ++ "  int " ++ String.concat ", " (parameter_inits 1 ps) ++ ";" ++ newline end.
Lemma inits_no_nl : forall ps i, idents ps -> Forall no_nl (parameter_inits i ps).
Proof.
  induction ps as [|p ps IH]; intros i I; inversion I; subst; constructor; [|now apply IH]. apply nl_app; [now apply id_no_nl, ident_chars|]. apply nl_app; [reflexivity|apply id_no_nl, nat_chars].
Qed.
Lemma rl_params : forall st ps r, idents ps -> skipping st = false -> rl st (par_decl_text ps ++ r) = rl (with_code st (decl_tokens (par_items 1 ps))) r.
Proof.
  intros st ps r I S. destruct ps as [|p ps]; [cbn [par_decl_text append par_items decl_tokens]; now rewrite with_code_nil|].
  set (l1 := p :: ps) in *. change (par_decl_text l1) with ("  /* " ++ "Parameters." ++ " */" ++ newline ++ "  int " ++ String.concat ", " (parameter_inits 1 l1) ++ ";" ++ newline).
  rewrite !app_assoc_s. rewrite rl_comment2 by reflexivity.
  assert (E : decl_tokens (par_items 1 l1) = (TId "int" :: item_seps (par_items 1 l1) ++ [TOp OSemi])%list) by reflexivity. rewrite E.
  assert (T : tokens ("  int " ++ String.concat ", " (parameter_inits 1 l1) ++ ";") = (TId "int" :: item_seps (par_items 1 l1) ++ [TOp OSemi])%list).
  { unfold tokens. change (lex LNone ("  int " ++ ?z)) with (TId "int" :: lex LNone z). now rewrite (inits_lex l1 1) by (auto; reflexivity). }
  replace ("  int " ++ String.concat ", " (parameter_inits 1 l1) ++ ";" ++ newline ++ r) with (("  int " ++ String.concat ", " (parameter_inits 1 l1) ++ ";") ++ newline ++ r) by (rewrite !app_assoc_s; reflexivity).
  rewrite rl_code_line, T; [reflexivity| | |exact S].
  - apply nl_app; [reflexivity|]. apply nl_app; [|reflexivity]. apply concat_no_nl; [reflexivity|now apply inits_no_nl].
  - rewrite T. apply noerr_in. rewrite <- E. apply noerr_decl.
Qed.
