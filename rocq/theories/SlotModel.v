(** Lists of loops changed through pointers to pointers (res_next, current): /repo/source/loop.c:818-834
    cloog_loop_remove_empty_domain_loops (and 692-714 cloog_loop_restrict_inner, which has the same frame), 2434-2447
    extract_component, 1521-1541 cloog_loop_scalar_sort.

    Memory is ChainModel's [heap] of successors and one local variable (res or loop); a CloogLoop ** is the address of this
    variable or of the field next of a loop.  [None] is an access to memory that is no loop, or the end of the fuel. *)
From Coq Require Import List Arith.
From Verif Require Import ChainModel.
Import ListNotations.

Inductive slot := Root | NextOf (x : nat).
Record mem := { root : option nat; cells : heap }.
Definition rd (m : mem) (s : slot) : option (option nat) := match s with Root => Some (root m) | NextOf x => cells m x end.
Definition wr (m : mem) (s : slot) (v : option nat) : mem :=
  match s with Root => {| root := v; cells := cells m |} | NextOf x => {| root := root m; cells := set_next (cells m) x v |} end.
Definition free (m : mem) (x : nat) : mem := {| root := root m; cells := fun y => if Nat.eqb y x then None else cells m y |}.

(** :824-834 (and :697-713): loops for which [keep] is false are freed.  Simplification: the tests (isempty, or whether the
    restricted inner loops are none) are a function of the loop. *)
Fixpoint filter_loops (keep : nat -> bool) (fuel : nat) (m : mem) (s : slot) (l : option nat) : option mem :=
  match l, fuel with
  | None, _ => match rd m s with Some _ => Some (wr m s None) | None => None end
  | Some x, S fuel' =>
    match cells m x with
    | Some next =>
      if keep x then match rd m s with Some _ => filter_loops keep fuel' (wr m s (Some x)) (NextOf x) next | None => None end
      else filter_loops keep fuel' (free m x) s next
    | None => None
    end
  | Some _, O => None
  end.
(** :2434-2447: the loops loop_array[list[0]], ... *)
Fixpoint extract (m : mem) (s : slot) (loops : list nat) : option mem :=
  match rd m s with
  | None => None
  | Some _ => match loops with [] => Some (wr m s None) | x :: loops' => extract (wr m s (Some x)) (NextOf x) loops' end
  end.
(** :1528-1537: the for loop; the flag is "not ok" *)
Fixpoint pass (gt : nat -> nat -> bool) (fuel : nat) (m : mem) (s : slot) (again : bool) : option (mem * bool) :=
  match fuel, rd m s with
  | S fuel', Some (Some x) =>
    match cells m x with
    | Some None => Some (m, again)
    | Some (Some y) =>
      if gt x y then
        match cells m y with
        | Some after => pass gt fuel' (wr (wr (wr m (NextOf x) after) (NextOf y) (Some x)) s (Some y)) (NextOf y) true
        | None => None
        end
      else pass gt fuel' m (NextOf x) again
    | None => None
    end
  | _, _ => None
  end.
(** :1526-1539: do ... while (!ok) *)
Fixpoint sort_loops (gt : nat -> nat -> bool) (rounds fuel : nat) (m : mem) : option mem :=
  match rounds with
  | O => None
  | S rounds' => match pass gt fuel m Root false with Some (m', true) => sort_loops gt rounds' fuel m' | Some (m', false) => Some m' | None => None end
  end.
