(** What rows of constraints mean. *)
From Coq Require Import ZArith List Bool Arith.
From Verif Require Import RowModel.
Import ListNotations.
Local Open Scope Z_scope.

Fixpoint sum (n : nat) (f : nat -> Z) : Z := match n with O => 0 | S m => sum m f + f m end.
(** The affine expression of a row with [np] parameters, for given iterators and parameters. *)
Definition value (np : nat) (r : mrow) (it par : nat -> Z) : Z :=
  let L := length r in
  sum (L - np - 2) (fun j => nth (1 + j) r 0 * it j) + sum np (fun j => nth (L - 1 - np + j) r 0 * par j) + nth (L - 1) r 0.
(** The constraint of a row. *)
Definition holds (np : nat) (r : mrow) (it par : nat -> Z) : Prop :=
  if nth 0 r 0 =? 0 then value np r it par = 0 else value np r it par >= 0.
Definition all_hold (np : nat) (rows : list mrow) (it par : nat -> Z) : Prop := forall r, In r rows -> holds np r it par.
(** The recorded equalities hold. *)
Definition equal_hold (np : nat) (e : equalities) (it par : nat -> Z) : Prop :=
  forall i, nth i (eq_types e) 0%nat <> 0%nat -> value np (nth i (eq_rows e) []) it par = 0.
(** [r] is about iterators 1 to [i] only and has the [i]-th *)
Definition about (np : nat) (r : mrow) (i : nat) : Prop :=
  (1 <= i <= length r - np - 2)%nat /\ nth i r 0 <> 0 /\ forall k, (i < k <= length r - np - 2)%nat -> nth k r 0 = 0.

(** Recording equalities while going down and up in a nest of loops: [st] is the list of levels and lines
    recorded now, the innermost first. *)
Inductive recorded (n nb_levels np : nat) : equalities -> list (nat * mrow) -> Prop :=
| R_alloc : recorded n nb_levels np (equal_alloc n nb_levels np) []
| R_add e st rows level line e' rows' : recorded n nb_levels np e st -> (forall l r, In (l, r) st -> (l < level)%nat) -> (level <= n)%nat ->
    (np + 2 <= length line <= nb_levels + np + 1)%nat -> about np line level ->
    equal_add e rows level (Some line) np = Some (e', rows') -> recorded n nb_levels np e' ((level, line) :: st)
| R_del e st level line : recorded n nb_levels np e ((level, line) :: st) -> recorded n nb_levels np (equal_del e level) st.

(** The same iterators with another value for the [k]-th (from 0). *)
Definition with_value (it : nat -> Z) (k : nat) (v : Z) : nat -> Z := fun j => if Nat.eqb j k then v else it j.
