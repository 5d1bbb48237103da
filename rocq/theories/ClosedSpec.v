(** What -callable does to the loops (C57): no loop is left without a bound. *)
From Coq Require Import ZArith List String.
From Verif Require Import ClastModel ClastSpec FilterSpec.
Import ListNotations.
Local Open Scope Z_scope.

(** [e] is [e'] plus [k], whatever the variables are *)
Definition plus_const (e e' : expr) (k : Z) : Prop := forall rho, eval rho e = match eval rho e' with Some z => Some (k + z) | None => None end.
(** [lb'] and [ub'] are the bounds of a loop that had [lb] and [ub]: bounds are kept; a missing one is 1000
    away from the other one; -1000 and 1000 if both are missing *)
Definition bounds_closed (lb ub lb' ub' : option expr) : Prop :=
  match lb, ub with
  | Some l, Some u => lb' = Some l /\ ub' = Some u
  | Some l, None => lb' = Some l /\ exists u, ub' = Some u /\ plus_const u l 1000
  | None, Some u => ub' = Some u /\ exists l, lb' = Some l /\ plus_const l u (-1000)
  | None, None => exists l u, lb' = Some l /\ ub' = Some u /\ forall rho, eval rho l = Some (-1000) /\ eval rho u = Some 1000
  end.
(** the same statement but for the bounds of its loops *)
Inductive closes : stmt -> stmt -> Prop :=
| Cl_ass x e : closes (SAss x e) (SAss x e)
| Cl_user n l : closes (SUser n l) (SUser n l)
| Cl_block b b' : Forall2 closes b b' -> closes (SBlock b) (SBlock b')
| Cl_guard qs b b' : Forall2 closes b b' -> closes (SGuard qs b) (SGuard qs b')
| Cl_for it lb ub lb' ub' st b b' : bounds_closed lb ub lb' ub' -> Forall2 closes b b' -> closes (SFor it lb ub st b) (SFor it lb' ub' st b').
(** every loop of the program has both bounds *)
Definition all_closed (ss : list stmt) : Prop := forall p it lb ub st b, at_path ss p (SFor it lb ub st b) -> lb <> None /\ ub <> None.
