(** /repo/source/loop.c:797-813 cloog_loop_combine on linked cells: ChainModel's [heap] for the fields next and a map for the fields
    inner.  [same] is cloog_domain_lazy_equal on the domains of two loops, which do not change.  [None]: memory that is no loop
    is read, or the end of the fuel. *)
From Coq Require Import List Arith.
From Verif Require Import ChainModel.
Import ListNotations.

(** include/cloog/loop.h struct cloogloop: the field inner of each cell *)
Definition inners := nat -> option nat.
(** loop.c:806 first->inner = ... *)
Definition set_inner (i : inners) (x : nat) (v : option nat) : inners := fun y => if Nat.eqb y x then v else i y.
(** loop.c:808 cloog_loop_free_parts(second, 1, 0, 0, 0): the cell is no loop afterwards *)
Definition free_cell (h : heap) (x : nat) : heap := fun y => if Nat.eqb y x then None else h y.
(** loop.c:797-813 cloog_loop_combine.  The two nested loops are one here: first moves on when first->next is not the same, and the
    end of the list ends both.  Only for a list that is not empty: on NULL the C loop does nothing. *)
Fixpoint loop_combine (same : nat -> nat -> bool) (walks fuel : nat) (h : heap) (i : inners) (first : nat) : option (heap * inners) :=
  match fuel, h first with
  | S _, Some None => Some (h, i)
  | S fuel', Some (Some second) =>
    if same first second then
      match loop_concat walks h (i first) (i second) with
      | Some (h1, p) =>
        match h1 second with
        | Some n => loop_combine same walks fuel' (free_cell (set_next h1 first n) second) (set_inner i first p) first
        | None => None
        end
      | None => None
      end
    else loop_combine same walks fuel' h i second
  | _, _ => None
  end.

(** loop.c:1183-1185 loop_array[permut[i]-1] for each i; [None]: outside the array *)
Fixpoint gather (loop_array permut : list nat) : option (list nat) :=
  match permut with
  | [] => Some []
  | S k :: permut' => match nth_error loop_array k with Some x => option_map (cons x) (gather loop_array permut') | None => None end
  | O :: _ => None
  end.
(** loop.c:1145-1193 cloog_loop_sort.  [domain_sort] is cloog_domain_sort on the domains of the loops in the array: it gives permut.
    The arrays are lists; allocation does not fail. *)
Definition loop_sort (domain_sort : list nat -> list nat) (level fuel : nat) (h : heap) (loop : option nat) : option (heap * option nat) :=
  if Nat.eqb level 0 then Some (h, loop) else
  match loop_count fuel h loop with
  | None => None
  | Some nb_loops =>
    if Nat.eqb nb_loops 1 then Some (h, loop) else
    match fill_array nb_loops h loop with
    | None => None
    | Some loop_array =>
      match gather loop_array (domain_sort loop_array) with
      | None => None
      | Some order => match rebuild h None None order with Some (h', res, _) => Some (h', res) | None => None end
      end
    end
  end.
