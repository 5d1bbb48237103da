(** cloog_constraint_set_reduce, isl/constraints.c:904-1020: a modulo guard is simplified with the equalities
    found at outer levels.  isl's operations on basic sets are a record. *)
From Coq Require Import ZArith List Bool Arith.
From Verif Require Import StrideModel UnrollModel ClastModel BackendCode.
Import ListNotations.
Local Open Scope Z_scope.

Record Gist := {
  (** isl_basic_set_apply with the identity without one output dimension, then with its reverse
      (constraints.c:983-987): the dimension is projected out and added back without constraints *)
  freed : bset -> nat -> bset;
  (** isl_basic_set_gist *)
  gist : bset -> bset -> bset;
  (** isl_basic_set_add_constraint with an equality between the only quantified variable and a dimension *)
  tied : bset -> nat -> bset
}.

(** A constraint over [n] iterators (and parameters), without quantified variables; a constraint over fewer
    iterators gets coefficients 0 (equality_to_basic_set, :904-922, and the removal of dimensions, :989-991) *)
Definition row_con (np n total : nat) (r : row) : con :=
  {| c_eq := r_eq r; c_iter := coefs total (firstn n (r_co r)); c_par := coefs np (skipn n (r_co r)); c_div := []; c_const := r_k r |}.
Definition con_back (c : con) : row := {| r_eq := c_eq c; r_co := c_iter c ++ c_div c ++ c_par c; r_k := c_const c |}.
Definition rows_back (b : bset) : list row := map con_back (cons_of b).
(** the equalities that are used, :965-975: those of type EQTYPE_EXAFFINE; [i]: the level of the first one *)
Fixpoint used_equalities (np : nat) (eqs : list (option (eqtype * row))) (i total : nat) : list con :=
  match eqs with
  | [] => []
  | Some (TExaffine, r) :: eqs' => row_con np i total r :: used_equalities np eqs' (S i) total
  | _ :: eqs' => used_equalities np eqs' (S i) total
  end.

(** cloog_constraint_set_reduce, :952-1020; [level] is the number of iterators of the constraints, [np] of
    the parameters.  The
    bound computed at :1008-1016 is the sum of the constants, see [modulo_guard] in ClastModel.v. *)
Definition reduce_isl (G : Gist) (np : nat) (eqs : list (option (eqtype * row))) (rows : list row) (level : nat) : list row :=
  match used_equalities np (firstn (level - 1) eqs) 1 level with
  | [] => rows
  | eq =>
      let b := freed G {| n_div := 0; cons_of := map (row_con np level level) rows |} (level - 1) in
      let g := gist G b {| n_div := 0; cons_of := eq |} in
      if (1 <? n_div g)%nat then rows
      else if (n_div g <? 1)%nat then rows_back g
      else rows_back (tied G g (level - 1))
  end.
