(** Which statements can be printed in C so that they can be read back, and what the printed
    program is run with. *)
From Coq Require Import ZArith List Bool Arith String Ascii.
From Verif Require Import ClastSpec ClastModel PprintModel CReader.
Import ListNotations.
Local Open Scope string_scope.
Local Open Scope Z_scope.

(** An identifier of C that is no keyword. *)
Fixpoint all_chars (f : ascii -> bool) (s : string) : bool :=
  match s with EmptyString => true | String c s' => f c && all_chars f s' end.
Definition ident (s : string) : bool :=
  match s with EmptyString => false | String c s' => is_alpha c && all_chars is_idchar s' end && negb (is_keyword s).

(** The macros at the head of the generated program, as the reader reads them. *)
Definition read_macro (name : string) (m : list string * string) : macros :=
  match parse 60 LvCond (tokens (snd m)) with Some (e, []) => [(name, (fst m, e))] | _ => [] end.
Definition program_macros : macros :=
  (read_macro "floord" floord_macro ++ read_macro "ceild" ceild_macro ++ read_macro "max" max_macro ++ read_macro "min" min_macro)%list.
Definition is_macro (s : string) : bool := existsb (String.eqb s) ["floord"; "ceild"; "max"; "min"].

(** *** expressions *)
(** [lv]: what the text has to be: LvPrim a primary expression, LvMul a product, LvAdd a sum *)
Definition above_prim (lv : level) : bool := match lv with LvPrim => false | _ => true end.
Definition is_sum (lv : level) : bool := match lv with LvAdd => true | _ => false end.
Definition is_term (e : expr) : bool := match e with ETerm _ _ => true | _ => false end.
Definition nonzero_term (e : expr) : bool := match e with ETerm v _ => negb (v =? 0) | _ => false end.
Fixpoint printable (lv : level) (e : expr) : bool :=
  match e with
  | EName s => ident s
  | ETerm v None => (0 <=? v) || above_prim lv
  | ETerm v (Some x) =>
      if is_group x then ((v =? 1) || above_prim lv) && printable LvAdd x
      else if v =? 1 then printable lv x else above_prim lv && printable LvPrim x
  | EBin BFdiv l r | EBin BCdiv l r => (0 <? r) && printable LvAdd l
  | EBin BDiv l r => above_prim lv && (0 <? r) && printable (if is_group l then LvAdd else LvMul) l
  | EBin BMod _ _ => false
  | ERed RSum [] => false
  | ERed RSum (x :: xs) =>
      is_term x && (match xs with [] => printable lv x | _ => is_sum lv && printable LvMul x end) &&
      forallb (fun t => nonzero_term t && printable LvMul t) xs
  | ERed _ [] => false
  | ERed _ [x] => printable lv x
  | ERed _ xs => forallb (printable LvAdd) xs
  end.
Definition opt_ok (f : expr -> bool) (e : option expr) : bool := match e with Some e => f e | None => false end.
(** A condition: no remainder, or a remainder compared with zero for equality. *)
Definition cond_printable (q : eqn) : bool :=
  match e_lhs q with
  | EBin BMod l r =>
      (0 <? r) && printable (if is_group l then LvAdd else LvMul) l && (e_sign q =? 0) &&
      match e_rhs q with Some (ETerm v None) => v =? 0 | _ => false end
  | l => printable LvAdd l && opt_ok (printable LvAdd) (e_rhs q)
  end.

(** *** statements *)
Fixpoint vars (e : expr) : list string :=
  match e with
  | EName s => [s]
  | ETerm _ None => []
  | ETerm _ (Some x) => vars x
  | EBin _ l _ => vars l
  | ERed _ l => flat_map vars l
  end.
Definition opt_vars (e : option expr) : list string := match e with Some e => vars e | None => [] end.
(** the variables a statement assigns *)
Fixpoint assigned (s : stmt) : list string :=
  match s with
  | SAss x _ => [x]
  | SUser _ _ => []
  | SBlock b => flat_map assigned b
  | SFor it _ _ _ b => it :: flat_map assigned b
  | SGuard _ b => flat_map assigned b
  end.
Definition mem_str (x : string) (l : list string) : bool := existsb (String.eqb x) l.
(** The iterator of a loop and the variables of its upper bound keep their values in the body. *)
Definition stable (it : string) (ub : option expr) (body : list stmt) : bool :=
  negb (mem_str it (opt_vars ub)) && forallb (fun x => negb (mem_str x (flat_map assigned body))) (it :: opt_vars ub).
(** the variables a statement reads or assigns, and the statements it calls with their numbers of
    arguments *)
Fixpoint stmt_vars (s : stmt) : list string :=
  match s with
  | SAss x e => x :: opt_vars e
  | SUser _ subs => flat_map opt_vars subs
  | SBlock b => flat_map stmt_vars b
  | SFor it lb ub _ b => it :: opt_vars lb ++ opt_vars ub ++ flat_map stmt_vars b
  | SGuard qs b => flat_map (fun q => vars (e_lhs q) ++ opt_vars (e_rhs q)) qs ++ flat_map stmt_vars b
  end%list.
Fixpoint stmt_calls (s : stmt) : list (nat * nat) :=
  match s with
  | SAss _ _ => []
  | SUser num subs => [(num, List.length subs)]
  | SBlock b | SFor _ _ _ _ b | SGuard _ b => flat_map stmt_calls b
  end.
Definition arities (ms : macros) : list (string * nat) := map (fun m => (fst m, List.length (fst (snd m)))) ms.
Section Stmt.
Variable o : popts.
Variable stmt_name : nat -> option string.
(** the name a statement is called by *)
Definition call_name_ok (num : nat) : bool := ident (stmt_label o stmt_name num) && negb (is_macro (stmt_label o stmt_name num)).
Fixpoint printable_stmt (s : stmt) : bool :=
  match s with
  | SAss x e => ident x && opt_ok (printable LvAdd) e
  | SUser num subs => call_name_ok num && forallb (opt_ok (printable LvAdd)) subs
  | SBlock b => forallb printable_stmt b
  | SFor it lb ub stride b =>
      ident it && opt_ok (printable LvAdd) lb && opt_ok (printable LvAdd) ub && (1 <=? stride) && stable it ub b && forallb printable_stmt b
  | SGuard qs b => negb (List.length qs =? 0)%nat && forallb cond_printable qs && forallb printable_stmt b
  end.
(** the calls made, with the names the statements are printed with *)
Definition named (t : list event) : list call := map (fun e => (stmt_label o stmt_name (fst e), snd e)) t.
End Stmt.

(** No loop whose iterator is fixed by two opposite inequalities, and existential dimensions in
    equalities only (otherwise a guard would be a bound on a remainder). *)
Definition div_equalities (P : LoopModel.Poly) (rows_of : LoopModel.dom P -> list row) (np : nat) (d : LoopModel.dom P) : Prop :=
  Forall (fun r => has_div (LoopModel.dim P d) (n_divs (LoopModel.dim P d) np (rows_of d)) r = true -> r_eq r = true) (rows_of d).
Inductive no_pairs (P : LoopModel.Poly) (rows_of : LoopModel.dom P -> list row) (np : nat) : LoopModel.loop P -> Prop :=
| No_pairs : forall l,
    defining_inequalities (LoopModel.dim P (LoopModel.l_dom P l)) (flat_rows P rows_of np (LoopModel.l_dom P l)) (LoopModel.dim P (LoopModel.l_dom P l)) = None ->
    div_equalities P rows_of np (LoopModel.l_dom P l) ->
    Forall (no_pairs P rows_of np) (LoopModel.l_inner P l) -> no_pairs P rows_of np l.
Definition no_pairs0 (P : LoopModel.Poly) (rows_of : LoopModel.dom P -> list row) (np : nat) (l : LoopModel.loop P) : Prop :=
  div_equalities P rows_of np (LoopModel.l_dom P l) /\ Forall (no_pairs P rows_of np) (LoopModel.l_inner P l).
