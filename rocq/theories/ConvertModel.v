(** Integers between CLooG and isl: /repo/source/isl/constraints.c:18-40 cloog_int_to_isl_val, 47-70 isl_val_to_cloog_int.

    An isl_val is a fraction (numerator, denominator); the other values of isl (infinity, NaN) are [None].  The kind says how
    CLooG and isl were configured.  int has 32 bits, long and long long have 64.  isl_val_get_num_si gives 0, after an error
    message of isl, for numerators that are no long.  Storing a long in an int keeps the low 32 bits (implementation-defined
    in C; so do the usual compilers).  mpz_get_str and isl's printer write decimal numbers and mpz_set_str and
    isl_val_read_from_str read them. *)
From Coq Require Import ZArith List Bool String Decimal DecimalString.
Local Open Scope Z_scope.

Inductive kind := K_int | K_long | K_long_long | K_gmp | K_gmp_imath.
Definition valu := option (Z * positive).
Definition fits (bits z : Z) : bool := (- 2 ^ (bits - 1) <=? z) && (z <? 2 ^ (bits - 1)).
Definition low (bits z : Z) : Z := (z + 2 ^ (bits - 1)) mod 2 ^ bits - 2 ^ (bits - 1).
(** isl_val_is_int *)
Definition is_int (v : valu) : bool := match v with Some (_, d) => (d =? 1)%positive | None => false end.
(** isl_val_get_num_si, isl_val_int_from_si *)
Definition get_num_si (n : Z) : Z := if fits 64 n then n else 0.
Definition from_si (z : Z) : valu := Some (z, 1%positive).
(** decimal numbers *)
Definition print (z : Z) : string := NilZero.string_of_int (Z.to_int z).
Definition parse (s : string) : option Z := option_map Z.of_int (NilZero.int_of_string s).

(** :18-40 cloog_int_to_isl_val *)
Definition to_isl (k : kind) (c : Z) : valu :=
  match k with
  | K_int | K_long | K_long_long => from_si c
  | K_gmp => Some (c, 1%positive)
  | K_gmp_imath => match parse (print c) with Some z => Some (z, 1%positive) | None => None end
  end.
(** :47-70 isl_val_to_cloog_int; [None]: the assertion fails or mpz_set_str does not read the string (and leaves the integer
    as it was) *)
Definition from_isl (k : kind) (v : valu) : option Z :=
  match v with
  | Some (n, d) =>
    if is_int v then
      match k with
      | K_int => Some (low 32 (get_num_si n))
      | K_long | K_long_long => Some (get_num_si n)
      | K_gmp => Some n
      | K_gmp_imath => parse (print n)
      end
    else None
  | None => None
  end.
