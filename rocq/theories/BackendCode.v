(** The constraints of the domains of the isl backend, as clast.c sees them, and when loops over such
    domains can be written as code -- without reference to values of the parameters. *)
From Coq Require Import ZArith List Bool Arith.
From Verif Require Import StrideModel UnrollModel UnrollSpec LoopModel LoopSpec BackendModel BackendSpec ClastModel ClastSpec.
Import ListNotations.

(** the first [n] coefficients of a list (a coefficient that is not written is 0) *)
Fixpoint coefs (n : nat) (l : list Z) : list Z :=
  match n with 0 => [] | S n' => match l with [] => 0%Z :: coefs n' [] | z :: l' => z :: coefs n' l' end end.
(** A constraint of a basic set (isl/constraints.c:17-29, 243-256: the coefficients of iterators,
    existential dimensions and parameters, in this order) *)
Definition con_row (np : nat) (c : con) : row :=
  {| r_eq := c_eq c; r_co := c_iter c ++ c_div c ++ coefs np (c_par c); r_k := c_const c |}.
(** cloog_domain_constraints, isl/domain.c:59-70: asserts that the domain is one basic set.  (The function
    is total here; what it gives for other domains is not used: see [one_part].) *)
Definition isl_rows (np : nat) (I : IslSet) (d : iset I) : list row :=
  match i_sets I d with [b] => map (con_row np) (cons_of b) | _ => [] end.

Section Code.
Variable np : nat.
Variable I : IslSet.
Variable o : copts.
Notation P := (isl_poly np I).
Notation rows := (isl_rows np I).
Notation flat := (flat_rows P rows np).

(** What isl promises for the map of cloog_domain_is_otl (isl/domain.c:800-812): points that differ only in
    the given dimension are equal, whatever the parameters. *)
Definition single_valued_means : Prop := forall d k x y p, length p = np -> k < i_dim I d -> i_single_valued_at I d k = true ->
  pts I d x p -> pts I d y p -> (forall i, i <> k -> nth_error x i = nth_error y i) -> nth k x 0%Z = nth k y 0%Z.

(** the assertion of cloog_domain_constraints *)
Definition one_part (d : iset I) : Prop := exists b, i_sets I d = [b].
(** if the domain has existential dimensions, it has a point for some values of the parameters *)
Definition not_void (d : iset I) : Prop := 0 < n_divs (i_dim I d) np (rows d) -> exists x p, length p = np /\ pts I d x p.

(** A loop inside [length spread] iterators; [spread] says which of them are replaced by their values. *)
Inductive writable : list bool -> loop P -> Prop :=
| Writable_stmt : forall spread l b,
    l_blk P l = Some b -> l_inner P l = [] -> i_dim I (l_dom P l) = length spread -> l_st P l = None ->
    one_part (l_dom P l) -> not_void (l_dom P l) -> rows_variable P flat (l_dom P l) ->
    Forall (avoids spread) (rows (l_dom P l)) ->
    writable spread l
| Writable_loop : forall spread l,
    l_blk P l = None -> i_dim I (l_dom P l) = S (length spread) -> l_st P l = None ->
    one_part (l_dom P l) -> not_void (l_dom P l) -> rows_normal P flat (l_dom P l) ->
    Forall (avoids spread) (rows (l_dom P l)) ->
    bounded P flat (l_dom P l) -> (co_otl o = false -> unit_equation P flat (l_dom P l)) ->
    Forall (writable (spread ++ [is_spread P flat o (l_dom P l)])) (l_inner P l) ->
    writable spread l.
Inductive writable0 : loop P -> Prop :=
| Writable0 : forall l,
    i_dim I (l_dom P l) = 0 -> l_st P l = None -> (l_blk P l <> None -> l_inner P l = []) ->
    one_part (l_dom P l) -> not_void (l_dom P l) -> rows_variable P flat (l_dom P l) ->
    Forall (writable []) (l_inner P l) -> writable0 l.
End Code.
