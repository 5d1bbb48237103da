(** Model of the decision to unroll and of the copies: /repo/source/isl/domain.c:1945-2108
    (is_valid_unrolling_lower_bound, constraint_can_unroll, basic_set_can_unroll,
    cloog_domain_can_unroll, cloog_domain_fixed_offset).

    A domain (isl_set) is its list of basic sets, a basic set its constraints (StrideModel.con)
    over the set dimensions, the parameters and [n_div] existentially quantified variables.
    The two isl functions that compute something are fields of [Isl]; what they have to
    satisfy is in UnrollSpec.v.  [None]: cloog_die is called. *)
From Coq Require Import ZArith List Bool.
From Verif Require Import StrideModel.
Import ListNotations.
Local Open Scope Z_scope.

Record bset := { n_div : nat; cons_of : list con }.
(** values of isl_val: a number, or one of the special values *)
Inductive ext := Fin (v : Z) | Infty | NegInfty | NaN.

Record Isl := {
  (** isl_basic_set_remove_redundancies, and the constraints in the order in which
      isl_basic_set_foreach_constraint passes them *)
  redundancies_removed : bset -> bset;
  (** isl_set_max_val(set, aff) for the affine expression i - ceil(l) built at :1972-1975, where
      [l] is the bound isl_constraint_get_bound(c, isl_dim_set, level - 1) and [i] the dimension
      at [level] *)
  max_val : list bset -> con -> nat -> ext
}.

(** isl/domain.c:1945-1951 struct cloog_can_unroll (level and set are arguments below) *)
Record ccu := { u_can : bool; u_c : option con; u_n : Z }.

Section Unroll.
Variable I : Isl.

(** isl/domain.c:1962-1990 is_valid_unrolling_lower_bound: [Some (Some count)]: valid *)
Definition is_valid_unrolling_lower_bound (set : list bset) (level : nat) (c : con) : option (option Z) :=
  if existsb (fun k => negb (k =? 0)) (c_div c) then Some None
  else match max_val I set c level with
       | NaN => None
       | Infty | NegInfty => Some None
       | Fin v => Some (Some (v + 1))
       end.

(** isl/domain.c:1998-2019 constraint_can_unroll *)
Definition constraint_can_unroll (set : list bset) (level : nat) (u : ccu) (c : con) : option ccu :=
  if 0 <? nth (level - 1) (c_iter c) 0 then
    match is_valid_unrolling_lower_bound set level c with
    | None => None
    | Some None => Some u
    | Some (Some count) =>
      if match u_c u with None => true | Some _ => count <? u_n u end
      then Some {| u_can := u_can u; u_c := Some c; u_n := count |}
      else Some u
    end
  else Some u.

Fixpoint foreach {A} (f : ccu -> A -> option ccu) (l : list A) (u : ccu) : option ccu :=
  match l with [] => Some u | a :: t => match f u a with Some u' => foreach f t u' | None => None end end.

(** isl/domain.c:2026-2040 basic_set_can_unroll *)
Definition basic_set_can_unroll (set : list bset) (level : nat) (u : ccu) (b : bset) : option ccu :=
  if match u_c u with Some _ => true | None => negb (u_can u) end
  then Some {| u_can := false; u_c := u_c u; u_n := u_n u |}
  else foreach (constraint_can_unroll set level) (cons_of (redundancies_removed I b)) u.

(** isl/domain.c:2053-2079 cloog_domain_can_unroll; [n] is the value of the caller's variable.
    [Some None]: 0 is returned. *)
Definition domain_can_unroll (set : list bset) (level : nat) (n : Z) : option (option (Z * con)) :=
  match foreach (basic_set_can_unroll set level) set {| u_can := true; u_c := None; u_n := n |} with
  | None => None
  | Some u => match u_c u with
              | None => Some None
              | Some c => if u_can u then Some (Some (u_n u, c)) else Some None
              end
  end.

(** isl/domain.c:2090-2108 cloog_domain_fixed_offset: adds the equality ceil(l) - i + offset = 0.
    isl_aff_ceil makes a new variable e = ceil(-f / a), that is 0 <= f + a e < a (when a is 1 isl
    does without the variable; here it is always made).  [lb] has no existentially quantified
    variables (:1968-1970). *)
Definition opp (l : list Z) : list Z := map Z.opp l.
Definition one_at (k : Z) (i : nat) (n : nat) : list Z := map (fun j => if Nat.eqb j i then k else 0) (seq 0 n).
Definition fixed_offset1 (level : nat) (lb : con) (offset : Z) (b : bset) : bset :=
  let a := nth (level - 1) (c_iter lb) 0 in
  let f := set0 (level - 1) (c_iter lb) in
  let zeros := repeat 0 (n_div b) in
  {| n_div := S (n_div b);
     cons_of := map (fun c => {| c_eq := c_eq c; c_iter := c_iter c; c_par := c_par c; c_div := c_div c ++ [0]; c_const := c_const c |}) (cons_of b)
       ++ [{| c_eq := false; c_iter := f; c_par := c_par lb; c_div := zeros ++ [a]; c_const := c_const lb |};
           {| c_eq := false; c_iter := opp f; c_par := opp (c_par lb); c_div := zeros ++ [- a]; c_const := a - 1 - c_const lb |};
           {| c_eq := true; c_iter := one_at (-1) (level - 1) (length (c_iter lb)); c_par := []; c_div := zeros ++ [1]; c_const := offset |}] |}.
Definition domain_fixed_offset (set : list bset) (level : nat) (lb : con) (offset : Z) : list bset :=
  map (fixed_offset1 level lb offset) set.
End Unroll.
