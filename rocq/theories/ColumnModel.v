(** Constraints as the code generator sees them: numbered dimensions, coefficients and copies of rows.
    /repo/source/isl/constraints.c:115-137, 512-534, 639-682, 736-838, 850-863.

    A constraint is UnrollModel's [con]: iterators, existentially quantified variables and parameters apart, as isl has
    them.  [None] is a failing assertion or a call of isl with an undefined dimension.  Dimensions are numbered from 0
    and not negative. *)
From Coq Require Import ZArith List Bool Arith.
From Verif Require Import StrideModel UnrollModel.
Import ListNotations.
Local Open Scope Z_scope.

(** the isl_dim_types that are used *)
Inductive dimtype := DSet | DDiv | DParam.
Definition part (t : dimtype) (c : con) : list Z := match t with DSet => c_iter c | DDiv => c_div c | DParam => c_par c end.
(** the loop of :512-534 constraint_cloog_dim_to_isl_dim (and of :120-137 basic_set_cloog_dim_to_isl_dim, where [None] is
    assert(0)) *)
Fixpoint find_dim (types : list dimtype) (c : con) (pos : nat) : option (dimtype * nat) :=
  match types with
  | [] => None
  | t :: types' => let dim := length (part t c) in if (pos <? dim)%nat then Some (t, pos) else find_dim types' c (pos - dim)
  end.
Definition cloog_dim_to_isl_dim (c : con) (pos : nat) : option (dimtype * nat) := find_dim [DSet; DDiv; DParam] c pos.

(** :736-752 cloog_constraint_coefficient_get; isl_constraint_get_coefficient_val gives the entry *)
Definition coefficient_get (c : con) (v : nat) : option Z :=
  match cloog_dim_to_isl_dim c v with Some (t, pos) => nth_error (part t c) pos | None => None end.
(** :754-768 cloog_constraint_coefficient_get_val: [None] is NULL *)
Definition coefficient_get_val (c : con) (v : nat) : option Z := coefficient_get c v.
Fixpoint put (l : list Z) (n : nat) (z : Z) : list Z :=
  match l, n with [], _ => [] | _ :: l', O => z :: l' | x :: l', S n' => x :: put l' n' z end.
(** :772-787 cloog_constraint_coefficient_set.  Simplification: isl_constraint_set_coefficient_val takes the constraint and its
    result is dropped, so the change is only seen if isl wrote in place, which it does when the caller has the only
    reference; sharing is not modelled. *)
Definition coefficient_set (c : con) (v : nat) (z : Z) : con :=
  match cloog_dim_to_isl_dim c v with
  | Some (DSet, pos) => {| c_eq := c_eq c; c_iter := put (c_iter c) pos z; c_par := c_par c; c_div := c_div c; c_const := c_const c |}
  | Some (DDiv, pos) => {| c_eq := c_eq c; c_iter := c_iter c; c_par := c_par c; c_div := put (c_div c) pos z; c_const := c_const c |}
  | Some (DParam, pos) => {| c_eq := c_eq c; c_iter := c_iter c; c_par := put (c_par c) pos z; c_div := c_div c; c_const := c_const c |}
  | None => c
  end.
(** :641-681 cloog_constraint_involves, _is_lower_bound, _is_upper_bound *)
Definition constraint_involves (c : con) (v : nat) : bool := match coefficient_get_val c v with Some z => negb (z =? 0) | None => false end.
Definition constraint_is_lower_bound (c : con) (v : nat) : bool := match coefficient_get_val c v with Some z => 0 <? z | None => false end.
Definition constraint_is_upper_bound (c : con) (v : nat) : bool := match coefficient_get_val c v with Some z => z <? 0 | None => false end.
(** :833-838 cloog_constraint_total_dimension: isl_dim_all counts parameters, iterators and quantified variables *)
Definition total_dimension (c : con) : nat := (length (c_par c) + length (c_iter c) + length (c_div c))%nat.
(** :810-821 cloog_constraint_copy_coefficients: what is written to dst[i], dst[i+1], ...; [n] times through the loop *)
Fixpoint copy_from (c : con) (i n : nat) : option (list Z) :=
  match n with
  | O => Some [c_const c]
  | S n' => match coefficient_get c i, copy_from c (S i) n' with Some z, Some l => Some (z :: l) | _, _ => None end
  end.
Definition copy_coefficients (c : con) : option (list Z) := copy_from c 0 (total_dimension c).
(** :850-863 cloog_constraint_needs_reduction: the basic set has the dimensions of the constraint *)
Definition needs_reduction (c : con) (level : nat) : option bool :=
  match cloog_dim_to_isl_dim c (level - 1) with Some (DSet, _) => Some true | Some _ => Some false | None => None end.
(** what :618-636 cloog_constraint_variable_expr (level from 1) makes: the name of an iterator or of a parameter, or the quotient
    of a quantified variable (DivModel); [None]: dim.type is undefined *)
Inductive variable := V_iter (level : nat) | V_quotient (pos : nat) | V_par (pos : nat).
Definition constraint_variable (c : con) (level : nat) : option variable :=
  match cloog_dim_to_isl_dim c (level - 1) with
  | Some (DDiv, pos) => Some (V_quotient pos)
  | Some (DSet, _) => Some (V_iter level)
  | Some (DParam, pos) => Some (V_par pos)
  | None => None
  end.
