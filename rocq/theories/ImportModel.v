(** Model of the functions that make domains and scatterings out of matrices and bounds:
    /repo/source/isl/domain.c:525-657 (isl_constraint_read_from_matrix,
    isl_basic_set_read_from_matrix, isl_basic_map_read_from_matrix,
    cloog_domain_from_cloog_matrix, cloog_scattering_from_cloog_matrix) and :1505-1565
    (cloog_domain_cube, cloog_domain_from_bounds).

    The isl objects are the lists of constraints the calls build; isl's own functions are
    modelled by what their manual says they add.  Integers are exact (the GMP build).
    [None]: an array is read outside its bounds, an assert fails, or a space with a negative
    number of dimensions is asked for. *)
From Coq Require Import ZArith List Bool.
Import ListNotations.
Local Open Scope nat_scope.

Definition obind {A B} (o : option A) (f : A -> option B) : option B :=
  match o with Some a => f a | None => None end.
Local Notation "'do' x <- e ; f" := (obind e (fun x => f)) (at level 60, x name, right associativity).
Fixpoint omap {A B} (f : A -> option B) (l : list A) : option (list B) :=
  match l with [] => Some [] | a :: t => do b <- f a; do r <- omap f t; Some (b :: r) end.

(** include/cloog/matrix.h:51-66 struct cloogmatrix: NbRows, NbColumns, p *)
Record matrix := { NbRows : nat; NbColumns : nat; mat_p : list (list Z) }.

(** An isl_space: numbers of parameters, of input and of output dimensions.  A set has no
    input dimensions; its dimensions are the output dimensions (isl_dim_set = isl_dim_out). *)
Record space := { s_par : nat; s_in : nat; s_out : nat }.
(** An isl_constraint: an equality (= 0) or an inequality (>= 0) and its coefficients *)
Record constr := { k_eq : bool; k_in : list Z; k_out : list Z; k_par : list Z; k_const : Z }.
(** isl_basic_set, isl_basic_map: a space and the constraints added to the universe *)
Record basic := { b_space : space; b_constrs : list constr }.

(** isl/domain.c:529-557 isl_constraint_read_from_matrix.  isl_space_dim(dim, isl_dim_set)
    is the number of output dimensions, also when [dim] is the space of a map.
    isl_equality_alloc and isl_inequality_alloc start with all coefficients 0. *)
Definition constraint_read_from_matrix (dim : space) (row : list Z) : option constr :=
  let nvariables := s_out dim in
  let nparam := s_par dim in
  do flag <- nth_error row 0;
  do vs <- omap (fun j => nth_error row (1 + j)) (seq 0 nvariables);
  do ps <- omap (fun j => nth_error row (1 + nvariables + j)) (seq 0 nparam);
  do k <- nth_error row (1 + nvariables + nparam);
  Some {| k_eq := (flag =? 0)%Z; k_in := repeat 0%Z (s_in dim); k_out := vs; k_par := ps; k_const := k |}.

(** The loop over the rows, isl/domain.c:580-585 and :613-618 *)
Definition read_rows (dim : space) (m : matrix) : option basic :=
  do cs <- omap (fun i => do row <- nth_error (mat_p m) i; constraint_read_from_matrix dim row) (seq 0 (NbRows m));
  Some {| b_space := dim; b_constrs := cs |}.

(** isl/domain.c:564-590 isl_basic_set_read_from_matrix *)
Definition basic_set_read_from_matrix (m : matrix) (nparam : nat) : option basic :=
  if NbColumns m <? 2 + nparam then None
  else read_rows {| s_par := nparam; s_in := 0; s_out := NbColumns m - 2 - nparam |} m.

(** isl/domain.c:597-623 isl_basic_map_read_from_matrix *)
Definition basic_map_read_from_matrix (m : matrix) (nparam n_in : nat) : option basic :=
  if NbColumns m <? 2 + nparam + n_in then None
  else read_rows {| s_par := nparam; s_in := n_in; s_out := NbColumns m - 2 - nparam - n_in |} m.

(** isl_basic_map_reverse: swap the input and the output dimensions *)
Definition reverse (b : basic) : basic :=
  {| b_space := {| s_par := s_par (b_space b); s_in := s_out (b_space b); s_out := s_in (b_space b) |};
     b_constrs := map (fun c => {| k_eq := k_eq c; k_in := k_out c; k_out := k_in c; k_par := k_par c; k_const := k_const c |})
                      (b_constrs b) |}.

(** isl/domain.c:631-640 cloog_domain_from_cloog_matrix *)
Definition domain_from_matrix (m : matrix) (nparam : nat) : option basic :=
  basic_set_read_from_matrix m nparam.
(** isl/domain.c:648-657 cloog_scattering_from_cloog_matrix *)
Definition scattering_from_matrix (m : matrix) (nb_scat nb_par : nat) : option basic :=
  do scat <- basic_map_read_from_matrix m nb_par nb_scat; Some (reverse scat).

(** isl_set_lower_bound_val and isl_set_upper_bound_val: add x_i >= v, x_i <= v *)
Definition unit_vec (k : Z) (i n : nat) : list Z := map (fun j => if j =? i then k else 0%Z) (seq 0 n).
Definition add_constr (b : basic) (c : constr) : basic :=
  {| b_space := b_space b; b_constrs := b_constrs b ++ [c] |}.
Definition lower_bound_val (b : basic) (i : nat) (v : Z) : basic :=
  add_constr b {| k_eq := false; k_in := []; k_out := unit_vec 1 i (s_out (b_space b)); k_par := repeat 0%Z (s_par (b_space b)); k_const := - v |}.
Definition upper_bound_val (b : basic) (i : nat) (v : Z) : basic :=
  add_constr b {| k_eq := false; k_in := []; k_out := unit_vec (-1) i (s_out (b_space b)); k_par := repeat 0%Z (s_par (b_space b)); k_const := v |}.
Definition universe (dim : nat) : basic := {| b_space := {| s_par := 0; s_in := 0; s_out := dim |}; b_constrs := [] |}.

(** isl/domain.c:1510-1532 cloog_domain_cube *)
Definition domain_cube (dim : nat) (min max : Z) : basic :=
  if dim =? 0 then universe 0
  else fold_left (fun cube i => upper_bound_val (lower_bound_val cube i min) i max) (seq 0 dim) (universe dim).

(** isl/domain.c:1539-1565 cloog_domain_from_bounds; a cloog_vec is its list of values *)
Definition domain_from_bounds (lower upper : list Z) : option basic :=
  if negb (length lower =? length upper) then None
  else let dim := length upper in
  if dim =? 0 then Some (universe 0)
  else fold_left (fun acc i => do d <- acc; do min_v <- nth_error lower i; do max_v <- nth_error upper i;
                               Some (upper_bound_val (lower_bound_val d i min_v) i max_v))
                 (seq 0 dim) (Some (universe dim)).
