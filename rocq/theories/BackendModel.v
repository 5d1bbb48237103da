(** Model of the isl backend of the polyhedral operations: the cloog_domain_* functions of
    /repo/source/isl/domain.c that the loop generator calls, over the functions of isl itself.

    An isl_set is abstract; what can be seen of it is its number of set dimensions and its list of
    basic sets (UnrollModel.bset: constraints over the iterators, the parameters and existentially
    quantified variables).  Every isl function called is a field of [IslSet]; nothing is assumed
    about them here, BackendSpec.v says what they have to satisfy.  cloog_domain_from_isl_set,
    isl_set_from_cloog_domain and isl_set_copy only convert and count references
    (RefModel.v, HeapModel.v), they are the identity here.  A basic set knows its space, here the
    number of its dimensions is an argument of [i_from_basic]. *)
From Coq Require Import ZArith List Bool.
From Verif Require Import StrideModel UnrollModel SplitModel LoopModel.
Import ListNotations.

Record IslSet := {
  iset : Type;
  i_dim : iset -> nat;                             (* isl_set_dim(set, isl_dim_set), isl_set_n_dim *)
  i_sets : iset -> list bset;                      (* isl_set_get_basic_set_list, isl_set_foreach_basic_set *)
  i_empty : nat -> iset;                           (* isl_set_empty *)
  i_from_basic : nat -> bset -> iset;              (* isl_set_from_basic_set *)
  i_union : iset -> iset -> iset;                  (* isl_set_union *)
  i_intersect : iset -> iset -> iset;              (* isl_set_intersect *)
  i_subtract : iset -> iset -> iset;               (* isl_set_subtract *)
  i_coalesce : iset -> iset;                       (* isl_set_coalesce *)
  i_gist : iset -> iset -> iset;                   (* isl_set_gist *)
  i_is_empty : iset -> bool;                       (* isl_set_is_empty *)
  i_plain_is_equal : iset -> iset -> bool;         (* isl_set_plain_is_equal *)
  i_plain_is_disjoint : iset -> iset -> bool;      (* isl_set_plain_is_disjoint *)
  i_add_dims : iset -> nat -> iset;                (* isl_set_add_dims(set, isl_dim_set, n) *)
  i_remove_dims : iset -> nat -> nat -> iset;      (* isl_set_remove_dims(set, isl_dim_set, first, n) *)
  i_compute_divs : iset -> iset;                   (* isl_set_compute_divs *)
  i_remove_divs_involving : iset -> nat -> nat -> iset; (* isl_set_remove_divs_involving_dims *)
  i_convex_hull : iset -> bset;                    (* isl_set_convex_hull *)
  i_simple_hull : iset -> bset;                    (* isl_set_simple_hull *)
  i_dim_is_bounded : iset -> nat -> bool;          (* isl_set_dim_is_bounded(set, isl_dim_set, pos) *)
  i_compare_at : bset -> bset -> nat -> Z;         (* isl_basic_set_compare_at *)
  i_follows_at : iset -> iset -> nat -> Z;         (* isl_set_follows_at *)
  i_val_if_fixed : iset -> nat -> option Z;        (* isl_set_plain_get_val_if_fixed *)
  i_single_valued_at : iset -> nat -> bool;        (* the map of cloog_domain_is_otl is single valued *)
  i_unroll : Isl;                                  (* what cloog_domain_can_unroll calls (UnrollModel.v) *)
  (* isl_set_add_constraint with the equality of cloog_domain_fixed_offset, isl/domain.c:2100-2105 *)
  i_add_offset : iset -> nat -> con -> Z -> iset;
  (* the functions used with option -strides are kept as they are: isl/domain.c:831-1130, 1790-1943;
     C12 and C26 are about them *)
  i_sconstr : Type;
  i_can_stride : iset -> nat -> bool;
  i_list_stride : list iset -> nat -> option (Z * Z * i_sconstr);
  i_domain_stride : iset -> nat -> Z * Z;
  i_stride_lower_bound : iset -> nat -> (Z * Z * option i_sconstr) -> iset;
  i_add_stride_constraint : iset -> i_sconstr -> iset
}.

Section Wrappers.
Variable np : nat.    (* number of parameters *)
Variable I : IslSet.
Notation iset := (iset I).

(** isl/domain.c:1407-1412: the loop that puts basic sets together *)
Definition collect (n : nat) (bs : list bset) : iset :=
  fold_left (fun s b => i_union I s (i_from_basic I n b)) bs (i_empty I n).

(** isl/domain.c:1395-1418 cloog_domain_cut_first; [None]: assert(n > 0) fails *)
Definition domain_cut_first (d : iset) : option (iset * iset) :=
  match i_sets I d with
  | [] => None
  | first :: others => Some (i_from_basic I (i_dim I d) first, collect (i_dim I d) others)
  end.

(** isl/domain.c:1381-1385 cloog_domain_isconvex *)
Definition domain_isconvex (d : iset) : bool := Nat.leb (length (i_sets I d)) 1.

(** isl/domain.c:135-141 cloog_domain_convex *)
Definition domain_convex (d : iset) : iset :=
  i_from_basic I (i_dim I d) (i_convex_hull I (i_coalesce I d)).

(** isl/domain.c:151-161 cloog_domain_simple_convex *)
Definition domain_simple_convex (d : iset) : iset :=
  if domain_isconvex d then d else i_from_basic I (i_dim I d) (i_simple_hull I d).

(** isl/domain.c:748-758 cloog_domain_project *)
Definition domain_project (d : iset) (level : nat) : iset :=
  let s := i_compute_divs I (i_remove_dims I d level (i_dim I d - level)) in
  if Nat.ltb 0 level then i_remove_divs_involving I s (level - 1) 1 else s.

(** isl/domain.c:767-773 cloog_domain_extend *)
Definition domain_extend (d : iset) (n : nat) : iset := i_add_dims I d (n - i_dim I d).

(** isl/domain.c:1208-1220 cloog_domain_bound_splitter: the pieces are those of SplitModel.v.  (isl
    splits one isl_set again and again with isl_set_split_dims; here the pieces are made as basic
    sets and put together at the end.)  The assertion never fails: C55_pieces. *)
Definition domain_splitter (d : iset) (level : nat) : iset :=
  match domain_bound_splitter np (i_sets I d) level with
  | Some pieces => collect (i_dim I d) pieces
  | None => d
  end.

(** isl/domain.c:2053-2079 cloog_domain_can_unroll.  Where the program would stop (cloog_die, no maximum
    found) the model answers no.  The caller's variable is 0 (loop.c:1698, cloog_int_init). *)
Definition domain_unroll (d : iset) (level : nat) : option (Z * con) :=
  match domain_can_unroll (i_unroll I) (i_sets I d) level 0 with Some r => r | None => None end.

(** isl/domain.c:266-272: cloog_domain_sort compares the first basic sets *)
Definition domain_compare_at (a b : iset) (level : nat) : Z :=
  match i_sets I a, i_sets I b with
  | p :: _, q :: _ => i_compare_at I p q (level - 1)
  | _, _ => 0%Z
  end.

Definition isl_poly : Poly := {|
  dom := iset; sconstr := i_sconstr I; lbc := con;
  dim := i_dim I;                                               (* :1362-1366 *)
  isempty := i_is_empty I;                                      (* :721-725 *)
  isconvex := domain_isconvex;
  single := fun d => Nat.eqb (length (i_sets I d)) 1;           (* :252-255 *)
  simplify_union := i_coalesce I;                               (* :1426-1430 *)
  cut_first := domain_cut_first;
  difference := i_subtract I;                                   (* :216-222 *)
  union := i_union I;                                           (* :188-194 *)
  intersection := i_intersect I;                                (* :203-209 *)
  empty_like := fun d => i_empty I (i_dim I d);                 (* :337-342 *)
  extend := domain_extend;
  project := domain_project;
  lazy_equal := i_plain_is_equal I;                             (* :1140-1145 *)
  lazy_disjoint := i_plain_is_disjoint I;                       (* :1333-1338 *)
  convex := domain_convex;
  simple_convex := domain_simple_convex;
  is_bounded := fun d level => i_dim_is_bounded I d (level - 1);  (* :348-352 *)
  bound_splitter := domain_splitter;
  compare_at := domain_compare_at;
  follows_at := fun a b level => i_follows_at I a b (level - 1);  (* :320-330 *)
  lazy_isconstant := i_val_if_fixed I;                          (* :1468-1490 *)
  can_stride := i_can_stride I;
  list_stride := i_list_stride I;
  domain_stride := i_domain_stride I;
  stride_lower_bound := i_stride_lower_bound I;
  add_stride_constraint := i_add_stride_constraint I;
  is_otl := fun d level => i_single_valued_at I d (level - 1);  (* :800-812 *)
  can_unroll := domain_unroll;
  fixed_offset := i_add_offset I;                               (* :2090-2108 *)
  gist := i_gist I;                                             (* :173-179 *)
  never_integral := i_is_empty I                                (* :782-786 *)
|}.
End Wrappers.
