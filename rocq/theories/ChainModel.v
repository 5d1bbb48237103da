(** Lists of loops as linked cells: /repo/source/loop.c:445-462 cloog_loop_add, 465-485 cloog_loop_add_list, 774-788
    cloog_loop_concat.

    LoopModel and LoopGen use Gallina's lists for them.  A heap here only has the field next of each CloogLoop: no cell,
    or a cell with its successor ([None] is NULL).  A result [None] is a read of memory that is no cell, or the end of the
    fuel; the fuel bounds the rounds of the while loops. *)
From Coq Require Import List Arith.
Import ListNotations.

Definition heap := nat -> option (option nat).
Definition set_next (h : heap) (x : nat) (n : option nat) : heap := fun y => if Nat.eqb y x then Some n else h y.

(** while (temp->next != NULL) temp = temp->next *)
Fixpoint last_cell (fuel : nat) (h : heap) (p : nat) : option nat :=
  match fuel, h p with
  | S _, Some None => Some p
  | S fuel', Some (Some q) => last_cell fuel' h q
  | _, _ => None
  end.
(** :774-788 *)
Definition loop_concat (fuel : nat) (h : heap) (a b : option nat) : option (heap * option nat) :=
  match a with
  | Some p => match last_cell fuel h p with Some t => Some (set_next h t b, Some p) | None => None end
  | None => Some (h, b)
  end.
(** :445-462: the heap, start and now afterwards *)
Definition loop_add (h : heap) (start now loop : option nat) : option (heap * option nat * option nat) :=
  match start with
  | None => Some (h, loop, loop)
  | Some _ => match now with
              | Some n => match h n with Some _ => Some (set_next h n loop, start, loop) | None => None end
              | None => None
              end
  end.
(** :465-485 *)
Definition loop_add_list (fuel : nat) (h : heap) (start now loop : option nat) : option (heap * option nat * option nat) :=
  match loop_add h start now loop with
  | Some (h', s, Some n) => match last_cell fuel h' n with Some t => Some (h', s, Some t) | None => None end
  | _ => None
  end.
(** loop.c:1592-1596 (cloog_loop_generate_backtrack): while (l != NULL) { cloog_loop_add(&start, &now, l); l = l->next; } *)
Fixpoint add_each (fuel : nat) (h : heap) (start now l : option nat) : option (heap * option nat * option nat) :=
  match l, fuel with
  | None, _ => Some (h, start, now)
  | Some x, S fuel' =>
    match loop_add h start now l with
    | Some (h', s, n) => match h' x with Some l' => add_each fuel' h' s n l' | None => None end
    | None => None
    end
  | Some _, O => None
  end.
(** loop.c:1180-1186 (cloog_loop_sort): the loops in the order found; loop_array[permut[i]-1]->next = NULL; cloog_loop_add *)
Fixpoint rebuild (h : heap) (start now : option nat) (order : list nat) : option (heap * option nat * option nat) :=
  match order with
  | [] => Some (h, start, now)
  | x :: order' =>
    match h x with
    | Some _ => match loop_add (set_next h x None) start now (Some x) with Some (h', s, n) => rebuild h' s n order' | None => None end
    | None => None
    end
  end.
(** loop.c:1127-1135 cloog_loop_count *)
Fixpoint loop_count (fuel : nat) (h : heap) (l : option nat) : option nat :=
  match l, fuel with
  | None, _ => Some 0
  | Some x, S fuel' => match h x with Some n => option_map S (loop_count fuel' h n) | None => None end
  | Some _, O => None
  end.
(** loop.c:1171-1174 (cloog_loop_sort), 2484-2485 (cloog_loop_generate_components): nb_loops entries of an array, and the successor
    of each loop is read; [None]: NULL is stored or followed *)
Fixpoint fill_array (nb_loops : nat) (h : heap) (l : option nat) : option (list nat) :=
  match nb_loops with
  | O => Some []
  | S n => match l with
           | Some x => match h x with Some next => option_map (cons x) (fill_array n h next) | None => None end
           | None => None
           end
  end.
