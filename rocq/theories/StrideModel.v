(** Strides: the extended gcd, the construction of a stride from an equality with existentially
    quantified variables, and the alignment of lower bounds.

    Source: /repo/source/isl/domain.c (Euclid, construct_stride, find_stride, cloog_domain_stride,
    constraint_stride_lower, constraint_stride_lower_c), /repo/source/isl/constraints.c
    (extract_stride_offset, cloog_constraint_stride_lower_bound).

    Integers are exact (the GMP build).  An isl constraint is its list of coefficients (isl's own
    operations on constraints and values are modelled by the arithmetic they document). *)
From Coq Require Import ZArith List Bool.
Import ListNotations.
Local Open Scope Z_scope.

(** The while loop of Euclid, isl/domain.c:1748-1757 (identical: matrix/constraintset.c:866-875).
    [None] only when the fuel is exhausted.  cloog_int_tdiv_q is [Z.quot]. *)
Fixpoint euclid_loop (fuel : nat) (c d e f : Z) : option (Z * Z) :=
  if 0 <? d then
    match fuel with
    | O => None
    | S k => euclid_loop k d (c - Z.quot c d * d) f (e - Z.quot c d * f)
    end
  else Some (c, e).

(** Euclid, isl/domain.c:1735-1777 and matrix/constraintset.c:851-893: (x, y, g).  The loop runs at
    most |b| + 1 times.  cloog_int_divexact on a dividend that is not a multiple is undefined: [None]. *)
Definition euclid (a b : Z) : option (Z * Z * Z) :=
  match euclid_loop (S (Z.to_nat (Z.abs b))) (Z.abs a) (Z.abs b) 1 0 with
  | None => None
  | Some (c, e) =>
    let x := if a =? 0 then 0 else if 0 <? a then e else - e in
    if b =? 0 then Some (x, 0, c)
    else if Z.eqb (Z.rem (c - a * x) b) 0 then Some (x, Z.quot (c - a * x) b, c) else None
  end.

(** An isl constraint: coefficients of the set dimensions (iterators), of the parameters and of the
    existentially quantified variables (divs), and the constant. *)
Record con := { c_eq : bool; c_iter : list Z; c_par : list Z; c_div : list Z; c_const : Z }.

(** construct_stride, isl/domain.c:1790-1859: (stride, factor).  isl_val_gcd is [Z.gcd]; isl_val_div
    of two integers where the divisor divides is [Z.div]. *)
Definition construct_stride (c : con) (level : nat) : option (Z * Z) :=
  let v := nth (level - 1) (c_iter c) 0 in
  let m := Z.abs v in
  let g := fold_left Z.gcd (c_div c) 0 in
  let stride := g / Z.gcd m g in
  if (stride =? 0) || (stride =? 1) then None
  else match euclid m stride with
  | Some (factor, _, _) => Some (stride, if 0 <? v then - factor else factor)
  | None => None
  end.

(** find_stride, isl/domain.c:1873-1906, as a fold over the constraints of the affine hull
    (cloog_domain_list_stride, :1915-1943): the first constraint that gives a stride. *)
Definition find_stride1 (level : nat) (acc : option (con * (Z * Z))) (c : con) : option (con * (Z * Z)) :=
  if negb (c_eq c) then acc else
  match acc with
  | Some _ => acc
  | None =>
    match c_div c with
    | [] => None
    | _ => if nth (level - 1) (c_iter c) 0 =? 0 then None
           else match construct_stride c level with Some sf => Some (c, sf) | None => None end
    end
  end.
Definition list_stride (level : nat) (hull : list con) : option (con * (Z * Z)) :=
  fold_left (find_stride1 level) hull None.

(** Scalar product, and the value at [x] (iterators) and [p] (parameters) of the part of a
    constraint that has no existentially quantified variable. *)
Definition dot (a x : list Z) : Z := fold_right Z.add 0 (map (fun q => fst q * snd q) (List.combine a x)).
(** replace entry [i] by 0 (isl_aff_set_coefficient_si with value 0) *)
Fixpoint set0 (i : nat) (l : list Z) : list Z :=
  match l, i with [], _ => [] | _ :: t, O => 0 :: t | a :: t, S k => a :: set0 k t end.
(** extract_stride_offset, isl/constraints.c:1083-1115, evaluated: factor times every coefficient but
    the one at [level] and those of the divs (= the [d] of constraint_stride_lower_c, isl/domain.c:1053-1057). *)
Definition stride_offset (c : con) (level : nat) (factor : Z) (x p : list Z) : Z :=
  dot (map (Z.mul factor) (c_par c)) p + dot (map (Z.mul factor) (set0 (level - 1) (c_iter c))) x + factor * c_const c.

(** The bound added for the lower bound a i + f >= 0 by constraint_stride_lower(_c),
    isl/domain.c:968-1014, :1031-1078, as the least allowed value of i: - s floor((f/a + d)/s) + d.
    isl_constraint_get_bound is -f/a; isl_aff_floor of the rational (f/a + d)/s is floor division of
    f + a d by a s. *)
Definition stride_lower (a f s d : Z) : Z := - (s * ((f + a * d) / (a * s))) + d.
(** cloog_constraint_stride_lower_bound, isl/constraints.c:1130-1157: s ceil((-f/a - d)/s) + d; the
    ceiling of a rational n/m is - floor(-n/m). *)
Definition stride_lower_bound (a f s d : Z) : Z := s * - ((f + a * d) / (a * s)) + d.

(** cloog_domain_stride, isl/domain.c:831-851: from the residue class (modulo, residue) of
    isl_set_dim_residue_class_val. *)
Definition domain_stride (rc : Z * Z) : Z * Z :=
  let '(m, r) := rc in (m, if r =? 0 then r else m - r).
