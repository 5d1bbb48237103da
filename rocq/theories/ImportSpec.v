(** What the matrices of doc/cloog.texi (Domain Representation, Scattering Functions) mean, and
    what the isl objects mean. *)
From Coq Require Import ZArith List Bool.
From Verif Require Import ImportModel.
Import ListNotations.
Local Open Scope Z_scope.

(** scalar product *)
Fixpoint dotp (a x : list Z) : Z :=
  match a, x with a :: a', x :: x' => a * x + dotp a' x' | _, _ => 0 end.

(** A row of a matrix: 0 for an equality, anything else for an inequality, then the
    coefficients and at last the constant.  [v]: the values the columns stand for. *)
Definition row_holds (row v : list Z) : Prop :=
  match row with
  | [] => False
  | flag :: coefs => if flag =? 0 then dotp coefs (v ++ [1]) = 0 else dotp coefs (v ++ [1]) >= 0
  end.
(** All the rows: a point is in the set a matrix describes *)
Definition matrix_holds (m : matrix) (v : list Z) : Prop := Forall (fun row => row_holds row v) (mat_p m).
(** the matrix is what cloog_matrix_alloc and the reader make: NbRows rows of NbColumns entries *)
Definition proper (m : matrix) : Prop :=
  length (mat_p m) = NbRows m /\ Forall (fun row => length row = NbColumns m) (mat_p m).

(** isl: a pair of an input and an output point satisfies a constraint *)
Definition constr_holds (c : constr) (i o p : list Z) : Prop :=
  let v := dotp (k_in c) i + dotp (k_out c) o + dotp (k_par c) p + k_const c in
  if k_eq c then v = 0 else v >= 0.
Definition related (b : basic) (i o p : list Z) : Prop := Forall (fun c => constr_holds c i o p) (b_constrs b).
(** a point of a set *)
Definition contains (b : basic) (x p : list Z) : Prop := related b [] x p.

(** [x] is between the bounds in every dimension *)
Definition between (lower upper x : list Z) : Prop :=
  length x = length lower /\ forall i, (i < length x)%nat -> nth i lower 0 <= nth i x 0 <= nth i upper 0.
