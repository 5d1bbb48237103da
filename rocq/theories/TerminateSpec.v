(** What "code generation ends with a result" means, and what it needs from the polyhedral
    library on top of [LoopSpec.Laws].

    The model counts the iterations of while loops with fuel and answers [None] when a
    program does not return: out of fuel, failed assertion, NULL dereference.  A computation
    [returns] a result if all large enough amounts of fuel give this same result. *)
From Coq Require Import ZArith List Bool Arith Relations.
From Verif Require Import LoopModel LoopSpec.
Import ListNotations.

Definition returns {A} (f : nat -> option A) (r : A) : Prop :=
  exists n, forall m, n <= m -> f m = Some r.

(** [Sp v] is the meaning of domains when the parameters have the values [v]; [V] is the set
    of all parameter values.  [nparts d] is the number of convex parts of [d]. *)
Section Spec.
Variable P : Poly.
Variable V : Type.
Variable Sp : V -> Sem P.
Variable nparts : dom P -> nat.

(** disjoint for all values of the parameters; made of pairwise disjoint parts *)
Definition apart (a b : dom P) : Prop := forall v, disjoint_sets (Sp v) a b.
Definition parts_apart (d : dom P) : Prop := forall v, pdisj (Sp v) d.

Record TotalLaws : Prop := {
  (** isempty is exact: a set it does not call empty has a point for some parameters
      (isl_set_is_empty) *)
  TL_exact : forall d, isempty P d = false -> exists v x, mem (Sp v) d x = true;
  (** a set that is not empty, or has several parts, has a first part, also after
      coalescing (isl_set_coalesce); cutting it off leaves fewer parts *)
  TL_cut : forall d, isempty P d = false \/ isconvex P d = false -> cut_first P d <> None;
  TL_cut_coalesced : forall d, isconvex P d = false -> cut_first P (simplify_union P d) <> None;
  TL_cut_parts : forall d f r, cut_first P d = Some (f, r) -> nparts r < nparts d;
  (** subtracting from a convex set gives disjoint parts, and one part if nothing is
      subtracted; coalescing keeps parts disjoint (isl_set_subtract) *)
  TL_coalesce_apart : forall d, parts_apart d -> parts_apart (simplify_union P d);
  TL_diff_apart : forall a b, dim P a = dim P b -> isconvex P a = true -> parts_apart (difference P a b);
  TL_diff_convex : forall a b, dim P a = dim P b -> isconvex P a = true -> apart a b -> isconvex P (difference P a b) = true;
  (** the assertion in cloog_domain_sort: one part *)
  TL_single : forall d, isconvex P d = true -> isempty P d = false -> single P d = true;
  TL_single_cut : forall d f r, cut_first P d = Some (f, r) -> single P f = true;
  (** the comparisons of disjoint convex sets have no cycle (see C08_sort_terminates_refuted
      for why this is needed) *)
  TL_acyclic : forall (ds : list (dom P)) l, 1 <= l ->
     Forall (fun d => dim P d = l /\ isconvex P d = true) ds ->
     ForallOrdPairs apart ds ->
     forall a, ~ clos_trans nat (fun i j => exists di dj,
        nth_error ds i = Some di /\ nth_error ds j = Some dj /\
        ((j < i /\ (compare_at P di dj l > 0)%Z) \/ (i < j /\ (compare_at P dj di l < 0)%Z))) a a
}.
End Spec.
