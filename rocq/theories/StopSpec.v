(** What option -stop is specified against. *)
From Coq Require Import ZArith List Bool Arith.
From Verif Require Import LoopModel LoopSpec.
Import ListNotations.

(** The number of loops around a statement when generation stops at dimension [s].  The
    dimensions are those of the scattering ([true]: scalar) and then the iterators that are
    left.  A loop is opened for every dimension that is not scalar, as long as fewer than [s]
    dimensions are done; runs of scalar dimensions are not interrupted, they belong to the loop
    that follows ([go]: such a run has been started). *)
Fixpoint depth_from (kinds : list bool) (go : bool) (s : nat) : nat :=
  if negb go && (s =? 0) then 0
  else match kinds with
       | [] => S (s - 1)
       | true :: ks => depth_from ks true (s - 1)
       | false :: ks => S (depth_from ks false (s - 1))
       end.
Definition stop_depth (kinds : list bool) (s : nat) : nat := depth_from kinds false s.

(** projections have no points that do not come from the set (isl_set_project_out) *)
Definition exact_projection (P : Poly) (S : Sem P) : Prop :=
  forall d n x, n <= dim P d -> mem S (project P d n) x = true -> exists y, mem S d y = true /\ firstn n y = x.

(** Option -stop, and no other option that ends the generation of loops (-l, -ls) or changes
    the loops afterwards (-strides, -backtrack).  Options -f other than 0 and 1 set -l
    unless -override is given. *)
Definition only_stop (P : Poly) (S : Sem P) (o : options) : Prop :=
  (0 <= o_stop o)%Z /\ (o_l o < 0)%Z /\ o_ls o = None /\ (o_override o = true \/ (0 <= o_f o <= 1)%Z) /\
  o_strides o = false /\ o_backtrack o = false /\ o_first_unroll o <> 0%Z /\ (o_sh o = true -> simple_hull_tight P S).

(** [l] is a loop for block [b] *)
Definition holds_block {P} (b : block) (l : loop P) : bool :=
  match l_blk P l with Some b' => if block_eq_dec b' b then true else false | None => false end.
