(** What is asked of isl for the domains of the isl backend to mean what the generator expects, for all
    values of the parameters. *)
From Coq Require Import ZArith List Bool.
From Verif Require Import StrideModel UnrollModel UnrollSpec LoopModel LoopSpec BackendModel.
Import ListNotations.

Section Spec.
Variable np : nat.
Variable I : IslSet.

(** [x] with parameters [p] is a point of the set *)
Definition pts (s : iset I) (x p : list Z) : Prop := length x = i_dim I s /\ point_of (i_sets I s) x p.
(** an inclusion or an equality of sets, whatever the parameters *)
Definition below (Q R : list Z -> list Z -> Prop) : Prop := forall x p, length p = np -> Q x p -> R x p.
Definition same (Q R : list Z -> list Z -> Prop) : Prop := forall x p, length p = np -> (Q x p <-> R x p).
(** [l] is what is left of [m] after taking some elements away *)
Inductive taken_from {A} : list A -> list A -> Prop :=
| taken_nil : taken_from [] []
| taken_away a l m : taken_from l m -> taken_from l (a :: m)
| taken_keep a l m : taken_from l m -> taken_from (a :: l) (a :: m).
(** basic sets without existentially quantified variables *)
Definition no_divs (s : iset I) : Prop := Forall (fun b => n_div b = 0) (i_sets I s).
(** no point with [n] iterators (for no value of the parameters) is in both basic sets *)
Definition apart_sets (n : nat) (b b' : bset) : Prop := forall x p, length x = n -> length p = np -> inside b x p -> inside b' x p -> False.

(** the basic sets that come up: parts of sets, hulls, and basic sets without quantified variables *)
Definition known (b : bset) : Prop :=
  n_div b = 0 \/ exists s, In b (i_sets I s) \/ b = i_convex_hull I s \/ b = i_simple_hull I s.

Record IslLaws : Prop := {
  il_shape : forall s, Forall (shaped (i_dim I s)) (i_sets I s);
  il_empty : forall n, i_dim I (i_empty I n) = n /\ i_sets I (i_empty I n) = [];
  (* a basic set that is seen to be empty is not kept; otherwise it may be written differently *)
  il_from_basic : forall n b, known b -> i_dim I (i_from_basic I n b) = n /\
    ((i_sets I (i_from_basic I n b) = [] /\ forall x p, length x = n -> length p = np -> ~ inside b x p) \/
     exists b', i_sets I (i_from_basic I n b) = [b'] /\ n_div b' <= n_div b /\
       forall x p, length x = n -> length p = np -> (inside b' x p <-> inside b x p));
  il_union : forall a b, i_dim I a = i_dim I b -> i_dim I (i_union I a b) = i_dim I a /\
    same (pts (i_union I a b)) (fun x p => pts a x p \/ pts b x p) /\
    taken_from (i_sets I (i_union I a b)) (i_sets I a ++ i_sets I b);
  il_intersect : forall a b, i_dim I a = i_dim I b -> i_dim I (i_intersect I a b) = i_dim I a /\
    same (pts (i_intersect I a b)) (fun x p => pts a x p /\ pts b x p);
  il_subtract : forall a b, i_dim I a = i_dim I b -> i_dim I (i_subtract I a b) = i_dim I a /\
    same (pts (i_subtract I a b)) (fun x p => pts a x p /\ ~ pts b x p);
  il_coalesce : forall s, i_dim I (i_coalesce I s) = i_dim I s /\ same (pts (i_coalesce I s)) (pts s);
  il_gist : forall a c, i_dim I a = i_dim I c -> i_dim I (i_gist I a c) = i_dim I a /\
    forall x p, length p = np -> pts c x p -> (pts (i_gist I a c) x p <-> pts a x p);
  il_is_empty : forall s x p, length p = np -> i_is_empty I s = true -> ~ pts s x p;
  il_plain_is_equal : forall a b, i_plain_is_equal I a b = true -> i_dim I a = i_dim I b /\ same (pts a) (pts b);
  il_plain_is_disjoint : forall a b x p, length p = np -> i_plain_is_disjoint I a b = true -> pts a x p -> pts b x p -> False;
  (* new dimensions come last and are free *)
  il_add_dims : forall s n, i_dim I (i_add_dims I s n) = i_dim I s + n /\
    forall x p, length p = np -> length x = i_dim I s + n -> (pts (i_add_dims I s n) x p <-> pts s (firstn (i_dim I s) x) p);
  (* dimensions are removed from the points; points may be added *)
  il_remove_dims : forall s k n, k + n <= i_dim I s -> i_dim I (i_remove_dims I s k n) = i_dim I s - n /\
    forall x p, length p = np -> pts s x p -> pts (i_remove_dims I s k n) (firstn k x ++ skipn (k + n) x) p;
  il_compute_divs : forall s, i_dim I (i_compute_divs I s) = i_dim I s /\ same (pts (i_compute_divs I s)) (pts s);
  il_remove_divs : forall s k n, i_dim I (i_remove_divs_involving I s k n) = i_dim I s /\ below (pts s) (pts (i_remove_divs_involving I s k n));
  (* hulls contain the set ... *)
  il_convex_hull : forall s x p, length p = np -> pts s x p -> inside (i_convex_hull I s) x p;
  il_simple_hull : forall s x p, length p = np -> pts s x p -> inside (i_simple_hull I s) x p;
  (* ... and the hull of what lies in a polyhedron does not leave it.  (isl takes the hull over the
     iterators and the parameters together, of the rational polyhedra the basic sets describe; every
     basic set of the intersection with the polyhedron [c] satisfies the constraints of [c].) *)
  il_hull_in : forall c s x p, length p = np -> length x = i_dim I c -> i_dim I c = i_dim I s ->
    length (i_sets I c) <= 1 -> no_divs c ->
    inside (i_convex_hull I (i_coalesce I (i_intersect I c s))) x p -> pts c x p;
  (* the set with the constraint  iterator = ceil(lower bound) + offset  added, as in UnrollModel.v *)
  il_add_offset_dim : forall s level lb o, i_dim I (i_add_offset I s level lb o) = i_dim I s;
  il_add_offset : forall s level lb o, 1 <= level <= i_dim I s -> length (c_iter lb) = i_dim I s -> (0 < nth (level - 1) (c_iter lb) 0)%Z ->
    same (pts (i_add_offset I s level lb o)) (fun x p => length x = i_dim I s /\ point_of (domain_fixed_offset (i_sets I s) level lb o) x p);
  il_unroll : IslOk (i_unroll I)
}.

(** The same for the simple hull, needed with option -sh. *)
Definition simple_hull_stays : Prop := forall c s x p, length p = np -> length x = i_dim I c -> i_dim I c = i_dim I s ->
    length (i_sets I c) <= 1 -> no_divs c -> inside (i_simple_hull I (i_intersect I c s)) x p -> pts c x p.

(** Deciding whether a point is in a basic set (integer values for the quantified variables). *)
Definition decides (contains : bset -> list Z -> list Z -> bool) : Prop :=
  forall s b x p, In b (i_sets I s) -> (contains b x p = true <-> inside b x p).

(** What domains mean, for parameters [p]: the points they have; the value of a lower bound [a i + f >= 0]
    at the outer iterators is ceil(-f / a).  Strides are not given a meaning here. *)
Definition isl_sem (contains : bset -> list Z -> list Z -> bool) (p : list Z) : Sem (isl_poly np I) := {|
  mem := fun (d : dom (isl_poly np I)) x => Nat.eqb (length x) (i_dim I d) && existsb (fun b => contains b x p) (i_sets I d);
  sok := fun _ _ => true;
  lbv := fun (lb : lbc (isl_poly np I)) y =>
    (- ((prod (firstn (length y) (c_iter lb)) y + prod (c_par lb) p + c_const lb) / nth (length y) (c_iter lb) 0))%Z;
  pdisj := fun d : dom (isl_poly np I) => ForallOrdPairs (apart_sets (i_dim I d)) (i_sets I d);
  polyh := no_divs
|}.
End Spec.
