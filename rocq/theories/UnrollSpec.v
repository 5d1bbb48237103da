(** What the sets of UnrollModel.v mean, and what is asked of isl. *)
From Coq Require Import ZArith List Bool.
From Verif Require Import StrideModel UnrollModel.
Import ListNotations.
Local Open Scope Z_scope.

(** scalar product *)
Fixpoint prod (a x : list Z) : Z :=
  match a, x with a :: a', x :: x' => a * x + prod a' x' | _, _ => 0 end.
(** the value of a constraint at iterators [x], parameters [p], quantified variables [e] *)
Definition value (c : con) (x p e : list Z) : Z := prod (c_iter c) x + prod (c_par c) p + prod (c_div c) e + c_const c.
Definition holds (c : con) (x p e : list Z) : Prop := if c_eq c then value c x p e = 0 else value c x p e >= 0.
(** a point of a basic set, of a domain *)
Definition inside (b : bset) (x p : list Z) : Prop :=
  exists e, length e = n_div b /\ Forall (fun c => holds c x p e) (cons_of b).
Definition point_of (set : list bset) (x p : list Z) : Prop := exists b, In b set /\ inside b x p.

(** [nd] dimensions; every constraint has its coefficients *)
Definition shaped (nd : nat) (b : bset) : Prop :=
  Forall (fun c => length (c_iter c) = nd /\ length (c_div c) = n_div b) (cons_of b).

(** [v] is the smallest integer not below the bound a lower bound [c] (without quantified variables)
    puts on the iterator at [level] when the other iterators are those of [x] *)
Definition replace (i : nat) (v : Z) (x : list Z) : list Z := firstn i x ++ v :: skipn (S i) x.
Definition first_value (c : con) (level : nat) (x p : list Z) (v : Z) : Prop :=
  (forall w, v <= w <-> value c (replace (level - 1) w x) p [] >= 0).

(** isl: removing redundant constraints does not change the points; the maximum found is an upper
    bound of (iterator - first value) over the points of the set *)
Record IslOk (I : Isl) : Prop := {
  ok_points : forall b x p, inside (redundancies_removed I b) x p <-> inside b x p;
  ok_shape : forall nd b, shaped nd b -> shaped nd (redundancies_removed I b);
  ok_max : forall nd set c level v x p f, Forall (shaped nd) set -> length x = nd -> max_val I set c level = Fin v -> point_of set x p ->
     first_value c level x p f -> nth (level - 1) x 0 - f <= v
}.
(** and it is reached *)
Definition max_reached (I : Isl) : Prop :=
  forall nd set c level v, Forall (shaped nd) set -> max_val I set c level = Fin v ->
  exists x p f, length x = nd /\ point_of set x p /\ first_value c level x p f /\ nth (level - 1) x 0 - f = v.

(** a constraint from which unrolling can start, and the trip count it gives *)
Definition usable (I : Isl) (set : list bset) (level : nat) (c : con) (n : Z) : Prop :=
  0 < nth (level - 1) (c_iter c) 0 /\ Forall (fun k => k = 0) (c_div c) /\ max_val I set c level = Fin (n - 1).
