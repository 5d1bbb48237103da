(** clast_filter, /repo/source/clast.c:1964-2149.

    A chain of statements linked by [next] is a list.  A pointer to a loop is the path to the loop
    from the chain given to clast_filter: the position in the chain, then the position in the body, and
    so on.  memcmp of two statement numbers or pointers is equality.  free and realloc are left out. *)
From Coq Require Import ZArith List Bool Arith String.
From Verif Require Import ClastModel.
Import ListNotations.

(** include/cloog/clast.h:167-174; NULL iterator and statement lists are None. *)
Inductive filter_kind := FExact | FSubset.
Record filter := { f_iter : option string; f_stmts : option (list nat); f_kind : filter_kind }.

Section Add.
Context {A : Type} (dec : forall a b : A, {a = b} + {a <> b}).
(** add_if_new, clast.c:1964-1981: the new list *)
Definition add_if_new (l : list A) (a : A) : list A := if in_dec dec a l then l else l ++ [a].
(** concat_if_new, clast.c:1986-1996 *)
Definition concat_if_new (l1 l2 : list A) : list A := fold_left add_if_new l2 l1.
End Add.

(** list_compare, clast.c:2002-2020: [i == num1] after the outer loop when every element of list1
    is found in list2. *)
Definition list_compare (l1 l2 : list nat) : Z :=
  if forallb (fun a => existsb (Nat.eqb a) l2) l1
  then if List.length l1 =? List.length l2 then 0%Z else (-1)%Z
  else 1%Z.

Definition path := list nat.
Definition path_dec : forall a b : path, {a = b} + {a <> b} := list_eq_dec Nat.eq_dec.
Definition found := (list path * list nat)%type.
Definition join (a b : found) : found :=
  (concat_if_new path_dec (fst a) (fst b), concat_if_new Nat.eq_dec (snd a) (snd b)).

(** clast.c:2127-2135: does the loop pass the filter, given the statements found in its body? *)
Definition loop_matches (f : filter) (it : string) (stmts : list nat) : bool :=
  match f_iter f with None => true | Some i => String.eqb it i end &&
  match f_stmts f with
  | None => true
  | Some fs => match f_kind f with
               | FSubset => (list_compare stmts fs <=? 0)%Z
               | FExact => (list_compare stmts fs =? 0)%Z
               end
  end.

(** clast.c:2054-2149 for one node, without what the node's [next] adds; [p]: where the node is.
    [None]: an assignment or a block, for which there is no case, so that [next] is not followed either. *)
Fixpoint node (f : filter) (p : path) (s : stmt) {struct s} : option found :=
  let fix chain (i : nat) (c : list stmt) : found :=
    match c with
    | [] => ([], [])
    | s :: next => match node f (p ++ [i]) s with
                   | Some r => join r (chain (S i) next)
                   | None => ([], [])
                   end
    end in
  match s with
  | SAss _ _ => None
  | SBlock _ => None
  | SGuard _ t => Some (join ([], []) (chain 0 t))                      (* :2088-2105 *)
  | SUser n _ => Some ([], add_if_new Nat.eq_dec [] n)                  (* :2107-2119 *)
  | SFor it _ _ _ body =>                                               (* :2120-2148 *)
    let r := chain 0 body in
    let '(loops, stmts) := join ([], []) r in
    Some (if loop_matches f it (snd r) then add_if_new path_dec loops p else loops, stmts)
  end.
Fixpoint chain (f : filter) (p : path) (i : nat) (c : list stmt) : found :=
  match c with
  | [] => ([], [])
  | s :: next => match node f (p ++ [i]) s with
                 | Some r => join r (chain f p (S i) next)
                 | None => ([], [])
                 end
  end.
(** clast_filter on the root node, clast.c:2075-2086: (loops, statement numbers) *)
Definition clast_filter (f : filter) (c : list stmt) : found := join ([], []) (chain f [] 0 c).
