(** What is asked of isl for the reduction of modulo guards. *)
From Coq Require Import ZArith List Bool Arith.
From Verif Require Import StrideModel UnrollModel UnrollSpec ClastModel ClastSpec ReduceModel.
Import ListNotations.
Local Open Scope Z_scope.

(** basic sets over [n] dimensions and [np] parameters *)
Definition formed (n np : nat) (b : bset) : Prop :=
  Forall (fun c => length (c_iter c) = n /\ length (c_par c) = np /\ length (c_div c) = n_div b) (cons_of b).
(** no constraint involves dimension [k] *)
Definition without_dim (k : nat) (b : bset) : Prop := Forall (fun c => nth k (c_iter c) 0 = 0) (cons_of b).

Record GistOk (np : nat) (G : Gist) : Prop := {
  (* projecting a dimension out: some value for it gives a point *)
  go_freed : forall n k b, formed n np b -> (k < n)%nat -> formed n np (freed G b k) /\ without_dim k (freed G b k) /\
    forall x p, length x = n -> length p = np -> (inside (freed G b k) x p <-> exists v, inside b (replace k v x) p);
  (* simplifying relative to [c]: on the points of [c] nothing changes; no dimension appears *)
  go_gist : forall n k b c, formed n np b -> formed n np c -> formed n np (gist G b c) /\
    (without_dim k b -> without_dim k c -> without_dim k (gist G b c)) /\
    forall x p, length x = n -> length p = np -> inside c x p -> (inside (gist G b c) x p <-> inside b x p);
  (* the equality is used to eliminate the quantified variable *)
  go_tied : forall n k b, formed n np b -> n_div b = 1%nat -> (k < n)%nat -> n_div (tied G b k) = 0%nat /\ formed n np (tied G b k) /\
    forall x p, length x = n -> length p = np ->
      (inside (tied G b k) x p <-> Forall (fun c => holds c x p [nth k x 0]) (cons_of b))
}.

(** The result has the form the caller expects: it speaks of no new iterators, and is empty or again an
    equality or a pair of opposite inequalities. *)
Definition keeps_form (np : nat) (reduce : list (option (eqtype * row)) -> list row -> nat -> list row) : Prop :=
  forall eqs rows n, let rows' := reduce eqs rows (S n) in
  guard_rows n rows -> Forall (fun r => length (r_co r) = S n + np)%nat rows ->
  (forall i, (i < n)%nat -> Forall (fun r => coef r i = 0) rows ->
     (forall j t r, nth_error eqs j = Some (Some (t, r)) -> (i < j)%nat -> coef r i = 0) ->
     Forall (fun r => coef r i = 0) rows') /\
  (rows' = [] \/ length rows' = length rows /\ guard_rows n rows').
