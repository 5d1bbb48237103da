(** What the pieces made by cloog_domain_bound_splitter are for. *)
From Coq Require Import ZArith List Bool.
From Verif Require Import StrideModel UnrollModel UnrollSpec.
Import ListNotations.
Local Open Scope Z_scope.

(** Integer points of the convex hull: weighted means of points, with natural numbers as weights. *)
Definition total {A} (f : A -> Z) (l : list A) : Z := fold_right (fun a s => f a + s) 0 l.
Definition hull (Q : list Z -> list Z -> Prop) (x p : list Z) : Prop :=
  exists ps : list (Z * (list Z * list Z)),
    Forall (fun q => 0 <= fst q /\ length (fst (snd q)) = length x /\ length (snd (snd q)) = length p /\ Q (fst (snd q)) (snd (snd q))) ps /\
    0 < total fst ps /\
    (forall i, total fst ps * nth i x 0 = total (fun q => fst q * nth i (fst (snd q)) 0) ps) /\
    (forall i, total fst ps * nth i p 0 = total (fun q => fst q * nth i (snd (snd q)) 0) ps).

(** A constraint bounds the iterator at [level] from below (above); equalities do both. *)
Definition bounds_below (level : nat) (c : con) : Prop := let a := nth (level - 1) (c_iter c) 0 in 0 < a \/ c_eq c = true /\ a <> 0.
Definition bounds_above (level : nat) (c : con) : Prop := let a := nth (level - 1) (c_iter c) 0 in a < 0 \/ c_eq c = true /\ a <> 0.
(** A basic set has bounds for the iterator at [level] ... *)
Definition has_bounds (level : nat) (b : bset) : Prop :=
  (exists c, In c (cons_of b) /\ bounds_below level c) /\ (exists c, In c (cons_of b) /\ bounds_above level c).
(** ... that depend on the parameters only *)
Definition bounds_in_params (level : nat) (b : bset) : Prop :=
  Forall (fun c => nth (level - 1) (c_iter c) 0 <> 0 -> (forall i, i <> (level - 1)%nat -> nth i (c_iter c) 0 = 0) /\ Forall (fun k => k = 0) (c_div c)) (cons_of b).
(** isl passes the equalities of a basic set first *)
Definition equalities_first (b : bset) : Prop :=
  exists es is_, cons_of b = es ++ is_ /\ Forall (fun c => c_eq c = true) es /\ Forall (fun c => c_eq c = false) is_.
