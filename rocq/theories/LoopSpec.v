(** What the loop generator is specified against: sets of integer points, what the
    polyhedral library has to guarantee, how a loop structure is executed, and the
    execution order the scattering asks for.  Nothing here refers to how loop.c works. *)
From Coq Require Import ZArith List Bool Arith Relations.
From Verif Require Import LoopModel.
Import ListNotations.

(** The meaning of domains for one (arbitrary) value of the parameters: [mem d x] says
    that the integer point [x] is in [d]; [sok c y] that [y] satisfies the affine stride
    constraint [c]; [lbv lb y] is the value ceil(f/a) of a lower bound constraint given
    the outer iterators; [pdisj d]: the convex parts of [d] are pairwise disjoint;
    [polyh d]: the parts of [d] are polyhedra, given by linear constraints without existentially
    quantified variables. *)
Record Sem (P : Poly) := {
  mem : dom P -> list Z -> bool;
  sok : sconstr P -> list Z -> bool;
  lbv : lbc P -> list Z -> Z;
  pdisj : dom P -> Prop;
  polyh : dom P -> Prop
}.
Arguments mem {P}. Arguments sok {P}. Arguments lbv {P}. Arguments pdisj {P}. Arguments polyh {P}.

(** Soundness of the polyhedral library.  Tests may answer "don't know" (isempty,
    lazy_equal, lazy_disjoint only promise something when they say yes) and projections
    and hulls may be too large. *)
Record Laws (P : Poly) (S : Sem P) : Prop := {
  L_len : forall d x, mem S d x = true -> length x = dim P d;
  L_isempty : forall d x, isempty P d = true -> mem S d x = false;
  L_su_dim : forall d, dim P (simplify_union P d) = dim P d;
  L_su : forall d x, mem S (simplify_union P d) x = mem S d x;
  L_cut_dim : forall d f r, cut_first P d = Some (f, r) -> dim P f = dim P d /\ dim P r = dim P d;
  L_cut_convex : forall d f r, cut_first P d = Some (f, r) -> isconvex P f = true;
  L_cut : forall d f r x, cut_first P d = Some (f, r) -> mem S d x = mem S f x || mem S r x;
  L_cut_disj : forall d f r, pdisj S d -> cut_first P d = Some (f, r) ->
     pdisj S r /\ forall x, mem S f x = true -> mem S r x = false;
  L_cut_poly : forall d f r, polyh S d -> cut_first P d = Some (f, r) -> polyh S f /\ polyh S r;
  L_diff_dim : forall a b, dim P a = dim P b -> dim P (difference P a b) = dim P a;
  L_diff : forall a b x, dim P a = dim P b -> mem S (difference P a b) x = mem S a x && negb (mem S b x);
  L_union_dim : forall a b, dim P a = dim P b -> dim P (union P a b) = dim P a;
  L_union : forall a b x, dim P a = dim P b -> mem S (union P a b) x = mem S a x || mem S b x;
  L_inter_dim : forall a b, dim P a = dim P b -> dim P (intersection P a b) = dim P a;
  L_inter : forall a b x, dim P a = dim P b -> mem S (intersection P a b) x = mem S a x && mem S b x;
  L_empty_dim : forall d, dim P (empty_like P d) = dim P d;
  L_empty : forall d x, mem S (empty_like P d) x = false;
  L_extend_dim : forall d n, dim P d <= n -> dim P (extend P d n) = n;
  L_extend : forall d n x, dim P d <= n -> length x = n -> mem S (extend P d n) x = mem S d (firstn (dim P d) x);
  L_project_dim : forall d n, n <= dim P d -> dim P (project P d n) = n;
  L_project : forall d n x, n <= dim P d -> mem S d x = true -> mem S (project P d n) (firstn n x) = true;
  L_lazy_equal : forall a b, lazy_equal P a b = true -> dim P a = dim P b /\ forall x, mem S a x = mem S b x;
  L_lazy_disjoint : forall a b x, lazy_disjoint P a b = true -> mem S a x = true -> mem S b x = false;
  L_convex_dim : forall d, dim P (convex P d) = dim P d;
  L_convex : forall d x, mem S d x = true -> mem S (convex P d) x = true;
  L_convex_convex : forall d, isconvex P (convex P d) = true;
  L_convex_in : forall c d x, dim P c = dim P d -> isconvex P c = true -> polyh S c ->
     mem S (convex P (intersection P c d)) x = true -> mem S c x = true;
  L_simple_dim : forall d, dim P (simple_convex P d) = dim P d;
  L_simple : forall d x, mem S d x = true -> mem S (simple_convex P d) x = true;
  L_simple_convex : forall d, isconvex P (simple_convex P d) = true;
  L_splitter_dim : forall d l, dim P (bound_splitter P d l) = dim P d;
  L_splitter : forall d l x, mem S d x = true -> mem S (bound_splitter P d l) x = true;
  L_splitter_disj : forall d l, pdisj S (bound_splitter P d l);
  L_splitter_poly : forall d l, polyh S (bound_splitter P d l);
  L_gist_dim : forall d c, dim P d = dim P c -> dim P (gist P d c) = dim P d;
  L_gist : forall d c x, dim P d = dim P c -> mem S c x = true -> mem S (gist P d c) x = mem S d x;
  L_never : forall d x, never_integral P d = true -> mem S d x = false;
  L_unroll_range : forall d l n lb x, 1 <= l -> dim P d = l -> isconvex P d = true -> can_unroll P d l = Some (n, lb) -> mem S d x = true ->
     (lbv S lb (firstn (l - 1) x) <= nth (l - 1) x 0 < lbv S lb (firstn (l - 1) x) + n)%Z;
  L_fixed_dim : forall d l lb i, dim P (fixed_offset P d l lb i) = dim P d;
  L_fixed : forall d l n lb i x, 1 <= l -> dim P d = l -> can_unroll P d l = Some (n, lb) -> mem S (fixed_offset P d l lb i) x
     = mem S d x && (nth (l - 1) x 0 =? lbv S lb (firstn (l - 1) x) + i)%Z
}.

(** For option -sh merging into several loops needs the same property of the simple
    hull as of the convex hull. *)
Definition simple_hull_tight (P : Poly) (S : Sem P) : Prop :=
  forall c d x, dim P c = dim P d -> isconvex P c = true -> polyh S c ->
     mem S (simple_convex P (intersection P c d)) x = true -> mem S c x = true.

(** What the order theorem needs on top: sound comparisons ([agree n x y]: the same
    outer iterators) and, for [compare_at], that disjoint convex sets are comparable and
    their comparisons acyclic (this does not hold for every family of sets: see
    C08_sort_terminates_refuted and C02_order_refuted). *)
Definition agree (n : nat) (x y : list Z) : Prop := firstn n x = firstn n y.
Definition disjoint_sets {P} (S : Sem P) (a b : dom P) : Prop :=
  forall x, mem S a x = true -> mem S b x = true -> False.

Record OrderLaws (P : Poly) (S : Sem P) : Prop := {
  OL_follows_le : forall a b l x y, 1 <= l -> l <= dim P a -> l <= dim P b -> (follows_at P a b l <= 0)%Z ->
     mem S a x = true -> mem S b y = true -> agree (l - 1) x y -> (nth (l - 1) x 0 <= nth (l - 1) y 0)%Z;
  OL_follows_lt : forall a b l x y, 1 <= l -> l <= dim P a -> l <= dim P b -> (follows_at P a b l < 0)%Z ->
     mem S a x = true -> mem S b y = true -> agree (l - 1) x y -> (nth (l - 1) x 0 < nth (l - 1) y 0)%Z;
  OL_compare : forall a b l x y, 1 <= l -> dim P a = l -> dim P b = l ->
     isconvex P a = true -> isconvex P b = true -> disjoint_sets S a b ->
     mem S a x = true -> mem S b y = true -> agree (l - 1) x y ->
     ((compare_at P a b l > 0)%Z /\ (nth (l - 1) x 0 > nth (l - 1) y 0)%Z) \/
     ((compare_at P a b l < 0)%Z /\ (nth (l - 1) x 0 < nth (l - 1) y 0)%Z);
  OL_acyclic : forall (ds : list (dom P)) l, 1 <= l ->
     Forall (fun d => dim P d = l /\ isconvex P d = true) ds ->
     ForallOrdPairs (disjoint_sets S) ds ->
     forall a, ~ clos_trans nat (fun i j => exists di dj,
        nth_error ds i = Some di /\ nth_error ds j = Some dj /\
        ((j < i /\ (compare_at P di dj l > 0)%Z) \/ (i < j /\ (compare_at P dj di l < 0)%Z))) a a;
  OL_inter_convex : forall a b, isconvex P a = true -> isconvex P b = true -> isconvex P (intersection P a b) = true;
  OL_fixed_convex : forall d l lb i, isconvex P d = true -> isconvex P (fixed_offset P d l lb i) = true
}.

(** Does the iterator value (the last coordinate of [y]) satisfy the loop's stride? *)
Definition st_ok (P : Poly) (S : Sem P) (st : option (stride P)) (y : list Z) : bool :=
  match st with
  | None => true
  | Some (s, o, None) => ((last y 0 - o) mod s =? 0)%Z
  | Some (_, _, Some c) => sok S c y
  end.

(** What option -strides needs: the strides found are strides of the sets, and raising
    the lower bound to the stride keeps the points of the stride. *)
Record StrideLaws (P : Poly) (S : Sem P) : Prop := {
  SL_list : forall ds l s o c d x, 1 <= l -> list_stride P ds l = Some (s, o, c) -> In d ds -> l <= dim P d ->
     mem S d x = true -> sok S c (firstn l x) = true;
  SL_dom_pos : forall d l, (0 <= fst (domain_stride P d l))%Z;
  SL_dom : forall d l x, 1 <= l -> l <= dim P d -> mem S d x = true ->
     (fst (domain_stride P d l) | nth (l - 1) x 0 + snd (domain_stride P d l))%Z;
  SL_lb_dim : forall d l st, dim P (stride_lower_bound P d l st) = dim P d;
  SL_lb : forall d l st y, mem S d y = true -> st_ok P S (Some st) y = true -> mem S (stride_lower_bound P d l st) y = true;
  SL_lb_convex : forall d l st, isconvex P d = true -> isconvex P (stride_lower_bound P d l st) = true;
  SL_inter_convex : forall a b, isconvex P a = true -> isconvex P b = true -> isconvex P (intersection P a b) = true
}.

Section Exec.
Variable P : Poly.
Variable S : Sem P.
Definition enters (l : loop P) (y : list Z) : Prop :=
  mem S (l_dom P l) y = true /\ st_ok P S (l_st P l) y = true.

(** Executing a list of loops with outer iterators [x].  The loops of a list run one
    after the other.  A loop whose domain has one dimension more than [x] runs its body for
    every value [v] with [x ++ [v]] in its domain (and in its stride), in ascending order; a
    loop with as many dimensions as [x] is a test.  A loop with a block runs the block.
    [Exec ls x path b y]: block [b] is run with iterators [y]; [path] is the time when this
    happens: the position in the list, then the iterator value, then the position in the
    body, ... compared lexicographically. *)
Inductive Exec : list (loop P) -> list Z -> list Z -> block -> list Z -> Prop :=
| Exec_at : forall ls i l x path b y,
    nth_error ls i = Some l -> Exec1 l x path b y -> Exec ls x (Z.of_nat i :: path) b y
with Exec1 : loop P -> list Z -> list Z -> block -> list Z -> Prop :=
| Exec_block : forall l x b,
    l_blk P l = Some b -> dim P (l_dom P l) = length x -> enters l x -> Exec1 l x [] b x
| Exec_test : forall l x path b y,
    l_blk P l = None -> dim P (l_dom P l) = length x -> enters l x ->
    Exec (l_inner P l) x path b y -> Exec1 l x path b y
| Exec_iter : forall l x v path b y,
    l_blk P l = None -> dim P (l_dom P l) = 1 + length x -> enters l (x ++ [v]) ->
    Exec (l_inner P l) (x ++ [v]) path b y -> Exec1 l x (v :: path) b y.
End Exec.

(** lexicographic order *)
Inductive lex_lt : list Z -> list Z -> Prop :=
| lex_here : forall a b u v, (a < b)%Z -> lex_lt (a :: u) (b :: v)
| lex_next : forall a u v, lex_lt u v -> lex_lt (a :: u) (a :: v).

(** The date of an instance: scalar and non-scalar scattering dimensions interleaved as
    in [kinds] ([true]: scalar), then the remaining coordinates, up to the first [m]
    coordinates of the point. *)
Fixpoint date (kinds : list bool) (scal x : list Z) : list Z :=
  match kinds with
  | [] => x
  | true :: ks => hd 0%Z scal :: date ks (tl scal) x
  | false :: ks => hd 0%Z x :: date ks scal (tl x)
  end.

(** the kinds recorded by a run length array *)
Definition kinds_of (scaldims : list nat) : list bool := map (fun r => negb (r =? 0)) scaldims.
(** run lengths: an entry is 0, or the distance to the next non-scalar dimension (or the end) *)
Fixpoint run_lengths (kinds : list bool) : list nat :=
  match kinds with
  | [] => []
  | false :: ks => 0 :: run_lengths ks
  | true :: ks => match run_lengths ks with [] => [1] | r :: rs => S r :: r :: rs end
  end.

(** [e] has to run before [e']: smaller date, or, if [tie] is set, same date and earlier in
    the input. *)
Definition prec (kinds : list bool) (m : nat) (tie : bool) (b : block) (x : list Z) (b' : block) (x' : list Z) : Prop :=
  let k := date kinds (b_scal b) (firstn m x) in
  let k' := date kinds (b_scal b') (firstn m x') in
  lex_lt k k' \/ (tie = true /\ k = k' /\ b_pos b < b_pos b').

(** * The input of the generator *)
Definition block_eq_dec (a b : block) : {a = b} + {a <> b}.
Proof. decide equality; try (apply list_eq_dec); try apply Z.eq_dec; try apply Nat.eq_dec. Defined.
Definition nonscalar (kinds : list bool) : nat := length (filter negb kinds).
Definition nscalar (kinds : list bool) : nat := length (filter (fun k => k) kinds).
Definition scal {P} (l : loop P) (i : nat) : Z :=
  match l_blk P l with Some b => nth i (b_scal b) 0%Z | None => 0%Z end.

(** Every input loop is a statement block on its (scattered) domain, which has at least
    the non-scalar scattering dimensions. *)
Definition statement_loops (P : Poly) (kinds : list bool) (ls : list (loop P)) : Prop :=
  Forall (fun l => exists d otl b, l = @Loop P d otl None (Some b) [] /\ nonscalar kinds <= dim P d) ls.
(** When the scattering ends with a scalar dimension: of two statements with the same scalar
    dates, one without any iterator of its own does not come before one that has some.
    (Needed: see C03_statement_lost_refuted.) *)
Definition depth_order (P : Poly) (kinds : list bool) (ls : list (loop P)) : Prop :=
  last kinds false = true ->
  ForallOrdPairs (fun l l' => (forall i, i < nscalar kinds -> scal l i = scal l' i) ->
     nonscalar kinds < dim P (l_dom P l') -> nonscalar kinds < dim P (l_dom P l)) ls.
(** The number of input loops that contain instance ([b], [y]). *)
Definition has_instance {P} (S : Sem P) (b : block) (y : list Z) (l : loop P) : bool :=
  match l_blk P l with
  | Some b' => (if block_eq_dec b' b then true else false) && mem S (l_dom P l) y
  | None => false
  end.
Definition input_count {P} (S : Sem P) (ls : list (loop P)) (b : block) (y : list Z) : nat :=
  length (filter (has_instance S b y) ls).
(** The input order is the order of the block positions. *)
Definition textual_order (P : Poly) (ls : list (loop P)) : Prop :=
  ForallOrdPairs (fun l l' => match l_blk P l, l_blk P l' with
                              | Some b, Some b' => b_pos b <= b_pos b' | _, _ => True end) ls.
(** Option values that leave the first [d] scanning dimensions to the generator. *)
Definition depth_safe (o : options) (d : nat) : Prop :=
  o_f o <> 0%Z /\ ((o_l o < 0)%Z \/ (Z.of_nat d <= o_l o)%Z) /\
  match o_ls o with Some ls => Forall (fun v => (v <= 0)%Z \/ (Z.of_nat d <= v)%Z) ls | None => True end.
(** Options every theorem about a complete run needs. *)
Definition plain_options (P : Poly) (S : Sem P) (o : options) : Prop :=
  (o_stop o < 0)%Z /\ o_first_unroll o <> 0%Z /\ (o_sh o = true -> simple_hull_tight P S).
(** Option -strides: the library finds true strides, and never reports two domains as equal
    (adjacent loops on equal domains are combined and the stride of the second is lost, see
    C12_combine_loses_stride_refuted). *)
Definition strides_ok (P : Poly) (S : Sem P) (o : options) : Prop :=
  o_strides o = true -> StrideLaws P S /\ forall a b, lazy_equal P a b = false.

(** * Instances of a loop tree that is still being built
    The loops below the current level keep the full domains of the statements, so [Exec]
    does not apply to them yet.  [cnts ls b x]: how many leaves of the trees [ls] hold block
    [b] with [x] in the leaf's domain (of dimension [length x]) and the first coordinates of
    [x] in the domain and in the stride of every loop above it. *)
Definition sumn {A} (f : A -> nat) (l : list A) : nat := list_sum (map f l).

Section Instances.
Variable P : Poly.
Variable S : Sem P.
Definition inn (d : dom P) (st : option (stride P)) (x : list Z) : bool :=
  mem S d (firstn (dim P d) x) && st_ok P S st (firstn (dim P d) x).

Fixpoint cnt (l : loop P) (b : block) (x : list Z) : nat :=
  match l with
  | LoopModel.Loop _ d _ st blk inner =>
    if inn d st x then
      match blk with
      | Some b' => if block_eq_dec b' b then (if length x =? dim P d then 1 else 0) else 0
      | None => list_sum (map (fun l' => cnt l' b x) inner)
      end
    else 0
  end.
Definition cnts (ls : list (loop P)) (b : block) (x : list Z) : nat := sumn (fun l => cnt l b x) ls.
End Instances.

(** * Finished loop trees
    [scannable n l]: the domains of tree [l] below [n] outer iterators add one iterator (a
    loop) or none (a test) at a time, and a block sits on exactly the iterators around it. *)
Inductive scannable {P : Poly} : nat -> loop P -> Prop :=
| Scan_block : forall n d otl b, dim P d = n -> scannable n (@Loop P d otl None (Some b) [])
| Scan_test : forall n d otl st inner, dim P d = n -> Forall (scannable n) inner ->
    scannable n (@Loop P d otl st None inner)
| Scan_loop : forall n d otl st inner, dim P d = 1 + n -> Forall (scannable (1 + n)) inner ->
    scannable n (@Loop P d otl st None inner).
(** every loop of the tree satisfies [Q] *)
Inductive each_loop {P : Poly} (Q : loop P -> Prop) : loop P -> Prop :=
| Each : forall l, Q l -> Forall (each_loop Q) (l_inner P l) -> each_loop Q l.

(** Both lists, run with outer iterators [x], execute each instance equally often. *)
Definition same_instances {P} (S : Sem P) (x : list Z) (ls rs : list (loop P)) : Prop :=
  forall b y, exists ps qs, NoDup ps /\ NoDup qs /\ length ps = length qs /\
    (forall p, In p ps <-> Exec P S ls x p b y) /\ (forall q, In q qs <-> Exec P S rs x q b y).
(** The list runs instances in an order that respects the relation [R]. *)
Definition respects {P} (S : Sem P) (x : list Z) (ls : list (loop P)) (R : block -> list Z -> block -> list Z -> Prop) : Prop :=
  forall p b y p' b' y', Exec P S ls x p b y -> Exec P S ls x p' b' y' -> R b y b' y' -> lex_lt p p'.

(** [k] scalar values of a loop's block from position [s] on *)
Definition scalar_vector {P} (s k : nat) (l : loop P) : list Z := map (scal l) (seq s k).
(** the number of [true]s at the head of a list *)
Fixpoint leading (l : list bool) : nat := match l with true :: r => S (leading r) | _ => 0 end.
(** the loops of [ls] that contain the point [y] *)
Definition covering {P} (S : Sem P) (ls : list (loop P)) (y : list Z) : list (loop P) :=
  filter (fun l => mem S (l_dom P l) y) ls.
(** a loop over [n] iterators, with a body and no stride yet *)
Definition plain_loop {P} (n : nat) (l : loop P) : Prop :=
  dim P (l_dom P l) = n /\ l_st P l = None /\ l_blk P l = None.
(** a statement that still has to be scanned *)
Definition statement_leaf {P} (l : loop P) : Prop := exists d otl b, l = @Loop P d otl None (Some b) [].
(** the instances of the body lie in the loop's own domain (and stride) *)
Definition body_inside {P} (S : Sem P) (l : loop P) : Prop :=
  forall b x, 0 < cnts P S (l_inner P l) b x -> inn P S (l_dom P l) (l_st P l) x = true.
