(** * Sorting of domains and strongly connected components

    - cloog_domain_sort, source/isl/domain.c 234-308;
    - cloog_loop_components_tarjan and its callers' outer loop, source/loop.c
      2266-2447, 2484-2490, 2548-2554. *)
From Coq Require Import ZArith List Bool Arith.
Import ListNotations.

(** ** cloog_domain_sort *)

(** The matrix [follows], isl/domain.c 254-261, as a function of two indices. *)
Definition matrix := nat -> nat -> bool.
Definition mzero : matrix := fun _ _ => false.
Definition mset (F : matrix) (i j : nat) (v : bool) : matrix :=
  fun a b => if Nat.eqb a i && Nat.eqb b j then v else F a b.

(** isl/domain.c 282-283: [for k < i: follows[i][k] |= follows[j][k]] ([j <> i],
    so the reads are not affected by the writes). *)
Definition or_row (F : matrix) (i j : nat) : matrix :=
  fun a b => if Nat.eqb a i && Nat.ltb b i then F a b || F j b else F a b.
(** isl/domain.c 286-287: [for k < i: follows[k][i] |= follows[k][j]]. *)
Definition or_col (F : matrix) (i j : nat) : matrix :=
  fun a b => if Nat.eqb b i && Nat.ltb a i then F a b || F a j else F a b.

(** isl/domain.c 265-288: one (i,j) step.  [cmp i j] is the result of
    isl_basic_set_compare_at on domains i and j at the level. *)
Definition sort_step (cmp : nat -> nat -> Z) (i : nat) (F : matrix) (j : nat) : matrix :=
  if F i j || F j i then F
  else if (cmp i j =? 0)%Z then F
  else if (0 <? cmp i j)%Z then or_row (mset F i j true) i j
  else or_col (mset F j i true) i j.

(** isl/domain.c 264-289: inner loop over [j < i]. *)
Definition sort_row (cmp : nat -> nat -> Z) (F : matrix) (i : nat) : matrix :=
  fold_left (sort_step cmp i) (seq 0 i) F.
(** isl/domain.c 263-290: outer loop over [1 <= i < n]. *)
Definition sort_matrix (cmp : nat -> nat -> Z) (n : nat) : matrix :=
  fold_left (sort_row cmp) (seq 1 (n - 1)) mzero.

(** isl/domain.c 293-297 *)
Definition row_busy (F : matrix) (n j : nat) : bool := existsb (F j) (seq 0 n).
(** isl/domain.c 298-300 *)
Definition emit (F : matrix) (j : nat) : matrix :=
  fun a b => if Nat.eqb a j && Nat.eqb b j then true
             else if Nat.eqb b j then false else F a b.

(** isl/domain.c 292-303.  [i] entries have been written so far to [permut]
    (accumulated in reverse in [out], 1-based as in the code).  [None]: [fuel]
    iterations of the loop were not enough. *)
Fixpoint sort_emit (fuel n : nat) (F : matrix) (i j : nat) (out : list nat) : option (list nat) :=
  if Nat.ltb i n then
    match fuel with
    | O => None
    | S f =>
        if row_busy F n j then sort_emit f n F i ((j + 1) mod n) out
        else sort_emit f n (emit F j) (S i) ((j + 1) mod n) (S j :: out)
    end
  else Some (rev out).

(** isl/domain.c 234-308: the resulting array [permut]. *)
Definition domain_sort (fuel n : nat) (cmp : nat -> nat -> Z) : option (list nat) :=
  sort_emit fuel n (sort_matrix cmp n) 0 0 [].

(** ** Strongly connected components *)

(** loop.c 2266-2289: struct cloog_loop_sort(_node).  [order] is kept as the list
    of emitted components (in emission order) instead of one array with -1
    separators; each component lists its nodes in pop order. *)
Record tstate := {
  t_index : nat -> option nat;      (* None models index = -1 *)
  t_low : nat -> nat;               (* min_index *)
  t_on : nat -> bool;               (* on_stack *)
  t_stack : list nat;               (* top first *)
  t_cnt : nat;                      (* s->index *)
  t_order : list (list nat)
}.

Definition fupd {A} (f : nat -> A) (i : nat) (v : A) : nat -> A :=
  fun x => if Nat.eqb x i then v else f x.

(** loop.c 2293-2316: cloog_loop_sort_alloc *)
Definition tinit : tstate :=
  {| t_index := fun _ => None; t_low := fun _ => 0; t_on := fun _ => false;
     t_stack := []; t_cnt := 0; t_order := [] |}.

(** loop.c 2369-2373: visit node [i]. *)
Definition tvisit (s : tstate) (i : nat) : tstate :=
  {| t_index := fupd (t_index s) i (Some (t_cnt s));
     t_low := fupd (t_low s) i (t_cnt s);
     t_on := fupd (t_on s) i true;
     t_stack := i :: t_stack s;
     t_cnt := S (t_cnt s);
     t_order := t_order s |}.

Definition tset_low (s : tstate) (i v : nat) : tstate :=
  {| t_index := t_index s; t_low := fupd (t_low s) i v; t_on := t_on s;
     t_stack := t_stack s; t_cnt := t_cnt s; t_order := t_order s |}.

(** loop.c 2402-2407: pop until [i]. Returns popped nodes and remaining stack. *)
Fixpoint pop_until (i : nat) (st : list nat) : list nat * list nat :=
  match st with
  | [] => ([], [])
  | j :: r => if Nat.eqb j i then ([j], r)
              else let (c, r') := pop_until i r in (j :: c, r')
  end.

Definition temit (s : tstate) (i : nat) : tstate :=
  let (c, r) := pop_until i (t_stack s) in
  {| t_index := t_index s; t_low := t_low s;
     t_on := fun x => if existsb (Nat.eqb x) c then false else t_on s x;
     t_stack := r; t_cnt := t_cnt s; t_order := t_order s ++ [c] |}.

(** loop.c 2378-2396: what happens for successor candidate [j] of [i]; [e i j] is
    the value of [follows(loop_array[i], loop_array[j], ..., i > j)], [rec] the
    recursive call. *)
Definition tstep (e : nat -> nat -> bool) (rec : tstate -> nat -> option tstate)
           (i : nat) (os : option tstate) (j : nat) : option tstate :=
  match os with
  | None => None
  | Some s =>
      if Nat.eqb j i then Some s
      else match t_index s j with
           | Some dj =>
               if negb (t_on s j) || Nat.ltb (t_low s i) dj then Some s
               else if e i j then
                 if Nat.ltb dj (t_low s i) then Some (tset_low s i dj) else Some s
               else Some s
           | None =>
               if e i j then
                 match rec s j with
                 | None => None
                 | Some s1 =>
                     if Nat.ltb (t_low s1 j) (t_low s1 i)
                     then Some (tset_low s1 i (t_low s1 j)) else Some s1
                 end
               else Some s
           end
  end.

(** loop.c 2361-2408: cloog_loop_components_tarjan.  [fuel] bounds the recursion
    depth; [None] on exhaustion (never for [fuel > n], proved). *)
Fixpoint tarjan (fuel n : nat) (e : nat -> nat -> bool) (s : tstate) (i : nat) : option tstate :=
  match fuel with
  | O => None
  | S f =>
      match fold_left (tstep e (tarjan f n e) i) (rev (seq 0 n)) (Some (tvisit s i)) with
      | None => None
      | Some s1 =>
          match t_index s1 i with
          | Some d => if Nat.eqb d (t_low s1 i) then Some (temit s1 i) else Some s1
          | None => None
          end
      end
  end.

(** loop.c 2485-2490 and 2549-2554: outer loop. *)
Definition tarjan_top (n : nat) (e : nat -> nat -> bool) (os : option tstate) (i : nat) : option tstate :=
  match os with
  | None => None
  | Some s => match t_index s i with
              | Some _ => Some s
              | None => tarjan (S n) n e s i
              end
  end.

(** loop.c 2411-2427: sort_component (qsort on distinct integers = insertion sort). *)
Fixpoint insert_nat (x : nat) (l : list nat) : list nat :=
  match l with
  | [] => [x]
  | y :: r => if Nat.leb x y then x :: l else y :: insert_nat x r
  end.
Definition sort_nat (l : list nat) : list nat := fold_right insert_nat [] l.

(** The sequence of components as extracted by extract_component, loop.c 2434-2447
    called from 2495-2503 and 2556-2569. *)
Definition components (n : nat) (e : nat -> nat -> bool) : option (list (list nat)) :=
  match fold_left (tarjan_top n e) (rev (seq 0 n)) (Some tinit) with
  | None => None
  | Some s => Some (map sort_nat (t_order s))
  end.
