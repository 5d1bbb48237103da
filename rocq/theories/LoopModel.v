(** Model of the loop generator: /repo/source/loop.c (and the part of
    /repo/source/program.c that calls it), over an abstract polyhedral library.

    Every cloog_domain_* call of loop.c is a field of the record [Poly]; nothing is
    assumed about them here.  What they have to satisfy is stated in LoopSpec.v and is
    a hypothesis of each theorem.  Memory management (free, copy, reference counts) is
    not part of this model: the functions are modelled on the values they build.
    [None] is "the program does not return a result": a failed assert, a NULL
    dereference, or the fuel of a while loop ran out. *)
From Coq Require Import ZArith List Bool Arith.
From Verif Require Import SortModel.
Import ListNotations.
Local Open Scope nat_scope.

(** The operations of include/cloog/domain.h used by loop.c.  [sconstr] is the affine
    constraint kept in a CloogStride with variable offset
    (source/stride.c:38-60, isl/domain.c:1790-1859); [lbc] is the lower bound
    constraint returned by cloog_domain_can_unroll. *)
Record Poly := {
  dom : Type;
  sconstr : Type;
  lbc : Type;
  dim : dom -> nat;                           (* cloog_domain_dimension, isl/domain.c:1362 *)
  isempty : dom -> bool;                      (* :721 *)
  isconvex : dom -> bool;                     (* :1381 *)
  single : dom -> bool;                       (* the assert in cloog_domain_sort, :254 *)
  simplify_union : dom -> dom;                (* :1426 *)
  cut_first : dom -> option (dom * dom);      (* :1395, None = assert(n > 0) fails *)
  difference : dom -> dom -> dom;
  union : dom -> dom -> dom;
  intersection : dom -> dom -> dom;
  empty_like : dom -> dom;                    (* :337 *)
  extend : dom -> nat -> dom;                 (* :767 *)
  project : dom -> nat -> dom;                (* :748 *)
  lazy_equal : dom -> dom -> bool;            (* :1140 *)
  lazy_disjoint : dom -> dom -> bool;         (* :1333 *)
  convex : dom -> dom;
  simple_convex : dom -> dom;
  is_bounded : dom -> nat -> bool;            (* :348 *)
  bound_splitter : dom -> nat -> dom;         (* :1154-1220 *)
  compare_at : dom -> dom -> nat -> Z;        (* isl_basic_set_compare_at, called at :268 *)
  follows_at : dom -> dom -> nat -> Z;        (* cloog_domain_follows, :320 *)
  lazy_isconstant : dom -> nat -> option Z;   (* :1468 *)
  can_stride : dom -> nat -> bool;            (* :859-920 *)
  list_stride : list dom -> nat -> option (Z * Z * sconstr);  (* :1915-1943 *)
  domain_stride : dom -> nat -> Z * Z;        (* :831, (stride, offset) *)
  stride_lower_bound : dom -> nat -> (Z * Z * option sconstr) -> dom; (* :1096 *)
  add_stride_constraint : dom -> sconstr -> dom;                      (* :1117 *)
  is_otl : dom -> nat -> bool;                (* :800 *)
  can_unroll : dom -> nat -> option (Z * lbc);          (* :2053-2079 *)
  fixed_offset : dom -> nat -> lbc -> Z -> dom;         (* :2090-2108 *)
  gist : dom -> dom -> dom;                   (* cloog_domain_simplify *)
  never_integral : dom -> bool;               (* :782 *)
}.

(** include/cloog/block.h: a block holds a list of statements (here their numbers)
    and the scalar dimensions of the scattering.  [b_pos] is the position of the loop
    in the input list; no code reads it, it only identifies the block. *)
Record block := { b_pos : nat; b_stmts : list nat; b_scal : list Z }.

(** include/cloog/options.h (the options read by loop.c and by
    cloog_program_generate). *)
Record options := {
  o_l : Z; o_f : Z; o_stop : Z;
  o_strides : bool; o_sh : bool; o_otl : bool; o_backtrack : bool;
  o_first_unroll : Z;
  o_fs : option (list Z); o_ls : option (list Z);
  o_nosimplify : bool; o_override : bool
}.

Section Model.
Variable P : Poly.
Notation dom := (dom P).

(** include/cloog/stride.h: (stride, offset, constraint); a constraint is present only
    for variable offsets. *)
Definition stride := (Z * Z * option (sconstr P))%type.

(** include/cloog/loop.h:44-62.  A list of loops (the [next] chain) is a [list loop].
    [unsimplified] and [usr] are left out. *)
Inductive loop := Loop (d : dom) (otl : bool) (st : option stride)
                       (blk : option block) (inner : list loop).

Definition l_dom (l : loop) := let (d, _, _, _, _) := l in d.
Definition l_otl (l : loop) := let (_, o, _, _, _) := l in o.
Definition l_st (l : loop) := let (_, _, s, _, _) := l in s.
Definition l_blk (l : loop) := let (_, _, _, b, _) := l in b.
Definition l_inner (l : loop) := let (_, _, _, _, i) := l in i.
Definition set_dom (l : loop) d := Loop d (l_otl l) (l_st l) (l_blk l) (l_inner l).
Definition set_inner (l : loop) i := Loop (l_dom l) (l_otl l) (l_st l) (l_blk l) i.

Definition obind {A B} (o : option A) (f : A -> option B) : option B :=
  match o with Some a => f a | None => None end.
Notation "'do' x <- a ; b" := (obind a (fun x => b)) (at level 200, x name, a at level 100, b at level 200).

Fixpoint omap {A B} (f : A -> option B) (l : list A) : option (list B) :=
  match l with
  | [] => Some []
  | x :: r => do y <- f x; do ys <- omap f r; Some (y :: ys)
  end.
Definition oconcat {A B} (f : A -> option (list B)) (l : list A) : option (list B) :=
  do ls <- omap f l; Some (concat ls).

(** loop.c:533-591 cloog_loop_add_disjoint, as the list of domains it gives to the new
    loops: [pieces] for a domain that is not convex, [pieces_rest] for its while loop
    (:555-586).  *)
Fixpoint pieces (fuel : nat) (d : dom) : option (list dom) :=
  match fuel with
  | O => None
  | S f =>
    match cut_first P (simplify_union P d) with
    | None => None
    | Some (first, rest) => do r <- pieces_rest f rest first; Some (first :: r)
    end
  end
with pieces_rest (fuel : nat) (d seen : dom) : option (list dom) :=
  match fuel with
  | O => None
  | S f =>
    if isempty P d then Some []
    else match cut_first P d with
    | None => None
    | Some (temp, rest) =>
      let d' := difference P temp seen in
      if isempty P d' then pieces_rest f rest seen
      else
        do here <- (if isconvex P d' then Some [d'] else pieces f d');
        if isempty P rest then Some here
        else do more <- pieces_rest f rest (union P seen d'); Some (here ++ more)
    end
  end.

(** A convex loop is added as it is; the loops made for the pieces have otl 0 and no
    stride (:550, :572). *)
Definition add_disjoint (fuel : nat) (l : loop) : option (list loop) :=
  if isconvex P (l_dom l) then Some [l]
  else do ds <- pieces fuel (l_dom l);
       Some (map (fun d => Loop d false None (l_blk l) (l_inner l)) ds).

(** loop.c:603-618 cloog_loop_disjoint *)
Definition disjoint (fuel : nat) (ls : list loop) : option (list loop) :=
  oconcat (add_disjoint fuel) ls.

(** loop.c:631-656 cloog_loop_restrict *)
Definition restrict (ctx : dom) (l : loop) : option loop :=
  let d := l_dom l in
  let ctx' := if dim P ctx <? dim P d then extend P ctx (dim P d) else ctx in
  let d' := intersection P ctx' d in
  if isempty P d' then None else Some (Loop d' false None (l_blk l) (l_inner l)).

Definition list_of {A} (o : option A) : list A := match o with Some a => [a] | None => [] end.

(** loop.c:663-683 cloog_loop_restrict_all *)
Definition restrict_all (ctx : dom) (ls : list loop) : list loop :=
  flat_map (fun l => list_of (restrict ctx l)) ls.

(** loop.c:692-714 cloog_loop_restrict_inner *)
Definition restrict_inner (ls : list loop) : list loop :=
  flat_map (fun l => match restrict_all (l_dom l) (l_inner l) with
                     | [] => []
                     | inner => [set_inner l inner]
                     end) ls.

(** loop.c:726-743 cloog_loop_project; :750-768 cloog_loop_project_all *)
Definition project_loop (level : nat) (l : loop) : loop :=
  let d := if dim P (l_dom l) =? level then l_dom l else project P (l_dom l) level in
  Loop d false None None [l].
Definition project_all (level : nat) (ls : list loop) : list loop := map (project_loop level) ls.

(** loop.c:797-813 cloog_loop_combine *)
Fixpoint combine_with (first : loop) (rest : list loop) : list loop :=
  match rest with
  | [] => [first]
  | second :: r =>
    if lazy_equal P (l_dom first) (l_dom second)
    then combine_with (set_inner first (l_inner first ++ l_inner second)) r
    else first :: combine_with second r
  end.
Definition combine (ls : list loop) : list loop :=
  match ls with [] => [] | l :: r => combine_with l r end.

(** loop.c:818-836 cloog_loop_remove_empty_domain_loops *)
Definition remove_empty (ls : list loop) : list loop :=
  filter (fun l => negb (isempty P (l_dom l))) ls.

(** loop.c:924-1032 cloog_loop_separate.  [sep_Q]: the body of the loop over Q
    (:950-995) for the new loop [l]; first the intersection, then Q - l. *)
Definition sep_Q (fuel : nat) (l : loop) (Q : loop) : option (list loop) :=
  let dQ := l_dom Q in let dl := l_dom l in
  let eq := lazy_equal P dQ dl in
  let inter := if eq then dQ else intersection P dQ dl in
  let disj := lazy_disjoint P dQ dl || isempty P inter in
  do both <- (if disj then Some []
              else add_disjoint fuel (Loop inter false None None (l_inner Q ++ l_inner l)));
  let d := if disj then dQ else if eq then empty_like P dQ else difference P dQ dl in
  do only <- (if isempty P d then Some [] else add_disjoint fuel (Loop d false None None (l_inner Q)));
  Some (both ++ only).

(** one iteration of the while loop over the loops (:944-1028): res, UQ *)
Definition sep_step (fuel : nat) (acc : list loop * dom) (l : loop) : option (list loop * dom) :=
  let (res, UQ) := acc in
  do temp <- oconcat (sep_Q fuel l) res;
  let dl := l_dom l in
  let d := if lazy_disjoint P dl UQ then dl
           else if lazy_equal P dl UQ then empty_like P UQ
           else difference P dl UQ in
  do new <- (if isempty P d then Some [] else add_disjoint fuel (Loop d false None None (l_inner l)));
  Some (temp ++ new, union P UQ dl).

Fixpoint sep_all (fuel : nat) (acc : list loop * dom) (ls : list loop) : option (list loop) :=
  match ls with
  | [] => Some (fst acc)
  | l :: r => do acc' <- sep_step fuel acc l; sep_all fuel acc' r
  end.

Definition separate (fuel : nat) (ls : list loop) : option (list loop) :=
  match combine ls with
  | [] => Some []
  | [l] => disjoint fuel [l]
  | l :: r => sep_all fuel ([Loop (l_dom l) false None (l_blk l) (l_inner l)], l_dom l) r
  end.

(** loop.c:1035-1041 bounding_domain *)
Definition bounding_domain (o : options) (d : dom) : dom :=
  if o_sh o then simple_convex P d else convex P d.

Definition union_doms (l : loop) (r : list loop) : dom :=
  fold_left (fun d l' => union P d (l_dom l')) r (l_dom l).
Definition concat_inner (ls : list loop) : list loop := flat_map l_inner ls.

(** The while loop of cloog_loop_merge (:1083-1100) and its last piece (:1102-1113);
    new loops are put in front of [res]. *)
Fixpoint merge_split (fuel : nat) (o : options) (temp : dom) (inner : list loop)
         (splitter : dom) (res : list loop) : option (list loop) :=
  let add s res :=
    let h := bounding_domain o (intersection P s temp) in
    if isempty P h then res else Loop h false None None inner :: res in
  match fuel with
  | O => None
  | S f =>
    if isconvex P splitter then Some (add splitter res)
    else match cut_first P splitter with
         | None => None
         | Some (first, rest) => merge_split f o temp inner rest (add first res)
         end
  end.

(** loop.c:1053-1124 cloog_loop_merge *)
Definition merge (fuel : nat) (o : options) (level : nat) (ls : list loop) : option (list loop) :=
  match ls with
  | [] => Some []
  | l :: r =>
    if match r with [] => isconvex P (l_dom l) | _ => false end then Some [l]
    else
      let temp := union_doms l r in
      let inner := concat_inner ls in
      let h := bounding_domain o temp in
      if (0 <? level) && negb (is_bounded P h level) && is_bounded P temp level
      then merge_split fuel o temp inner (bound_splitter P temp level) []
      else Some [Loop h false None None inner]
  end.

Definition pick {A} (ls : list A) (idx : list nat) : list A :=
  flat_map (fun i => list_of (nth_error ls i)) idx.

(** loop.c:1145-1193 cloog_loop_sort, isl/domain.c:234-308 (assert at :254).  The
    number of iterations of the emission loop is bounded by n*n, enough for every
    acyclic comparison (C08). *)
Definition sort (level : nat) (ls : list loop) : option (list loop) :=
  let n := length ls in
  if (level =? 0) || (n =? 1) then Some ls
  else if forallb (fun l => single P (l_dom l)) ls then
    let cmp i j := match nth_error ls i, nth_error ls j with
                   | Some a, Some b => compare_at P (l_dom a) (l_dom b) level
                   | _, _ => 0%Z end in
    do permut <- domain_sort (n * n) n cmp; Some (pick ls (map Nat.pred permut))
  else None.

(** loop.c:1206-1248 cloog_loop_nest: [wrap] is the inner for loop, for
    l = level + k - 1 downto level *)
Fixpoint wrap (d : dom) (level k : nat) (l : loop) : loop :=
  match k with
  | O => l
  | S k' => wrap d level k' (Loop (project P d (level + k')) false None None [l])
  end.
Definition nest (fuel : nat) (ctx : dom) (level : nat) (ls : list loop) : option (list loop) :=
  do ds <- disjoint fuel ls;
  Some (flat_map (fun l => match restrict ctx l with
                           | None => []
                           | Some p => [wrap (l_dom p) level (S (dim P (l_dom p)) - level) p]
                           end) ds).

(** loop.c:1258-1288, :1312-1379 cloog_loop_stride.  [stride_scan]: the while loop over
    the inner loops; state (first_search, stride, ref_offset, offset). *)
Definition stride_scan1 (level : nat) (acc : bool * Z * Z * Z) (l : loop) : bool * Z * Z * Z :=
  let '(fs, s, ref, off) := acc in
  if fs || negb (s =? 1)%Z then
    let '(pot, off1) := domain_stride P (l_dom l) level in
    if negb (pot =? 1)%Z && negb fs then
      let s' := Z.gcd pot s in
      let off' := if (s' =? 0)%Z then off1 else (off1 mod s')%Z in
      let ref' := if (s' =? 0)%Z then ref else (ref mod s')%Z in
      (false, if (off' =? ref')%Z then s' else 1%Z, ref', off')
    else (false, pot, off1, off1)
  else acc.

Definition loop_stride (level : nat) (l : loop) : loop :=
  if negb (can_stride P (l_dom l) level) then l
  else match list_stride P (rev (map l_dom (l_inner l))) level with
  | Some (s, o, c) =>
    Loop (stride_lower_bound P (l_dom l) level (s, o, Some c)) (l_otl l) (Some (s, o, Some c))
         (l_blk l) (l_inner l)
  | None =>
    let '(_, s, _, off) := fold_left (stride_scan1 level) (l_inner l) (true, 1%Z, 0%Z, 0%Z) in
    let s := if (s =? 0)%Z then 1%Z else s in
    if (s =? 1)%Z then l
    else let st := (s, if (off =? 0)%Z then off else (s - off)%Z, None) in
         Loop (stride_lower_bound P (l_dom l) level st) (l_otl l) (Some st) (l_blk l) (l_inner l)
  end.

(** loop.c:1382-1387 cloog_loop_otl; :1400-1411 cloog_loop_stop *)
Definition loop_otl (level : nat) (l : loop) : loop :=
  if is_otl P (l_dom l) level then Loop (l_dom l) true (l_st l) (l_blk l) (l_inner l) else l.
Definition stop (ctx : dom) (ls : list loop) : list loop := map (fun l => set_dom l ctx) ls.

(** The scattering: [scaldims] has nb_scattdims entries, an entry is 0 for a non-scalar
    dimension and otherwise the number of consecutive scalar dimensions from there
    (program.c:1258-1347). *)
Variable scaldims : list nat.
Definition nb_scattdims := length scaldims.
Definition scaldim (i : nat) : nat := nth i scaldims 0.

(** loop.c:1413-1416 level_is_constant *)
Definition level_is_constant (level scalar : nat) : bool :=
  negb (level =? 0) && (level + scalar <=? nb_scattdims) && negb (scaldim (level + scalar - 1) =? 0).

(** loop.c:1434-1449 cloog_loop_constant_cmp.  The while loop runs at most
    nb_scattdims times.  A block without the scalar is read as 0 (the C code reads out
    of bounds; every block of a program has all its scalars). *)
Definition blk_scal (l : loop) (i : nat) : Z :=
  match l_blk l with Some b => nth i (b_scal b) 0%Z | None => 0%Z end.
Fixpoint constant_cmp_from (fuel : nat) (l1 l2 : loop) (level scalar : nat) : comparison :=
  match fuel with
  | O => Eq
  | S f =>
    if level_is_constant level scalar then
      match Z.compare (blk_scal l1 scalar) (blk_scal l2 scalar) with
      | Eq => constant_cmp_from f l1 l2 level (S scalar)
      | c => c
      end
    else Eq
  end.
Definition constant_cmp (l1 l2 : loop) (level scalar : nat) : comparison :=
  constant_cmp_from (S nb_scattdims) l1 l2 level scalar.

(** loop.c:1470-1475, :1495-1500 *)
Definition scalar_gt level scalar l1 l2 : bool :=
  match constant_cmp l1 l2 level scalar with Gt => true | _ => false end.
Definition scalar_eq level scalar l1 l2 : bool :=
  match constant_cmp l1 l2 level scalar with Eq => true | _ => false end.

(** loop.c:1521-1541 cloog_loop_scalar_sort: one pass of the bubble sort over a list
    whose current element is [cur]; the boolean is [!ok]. *)
Fixpoint bubble {A} (gt : A -> A -> bool) (cur : A) (rest : list A) : list A * bool :=
  match rest with
  | [] => ([cur], false)
  | next :: r =>
    if gt cur next then let (l, _) := bubble gt cur r in (next :: l, true)
    else let (l, b) := bubble gt next r in (cur :: l, b)
  end.
Fixpoint bubble_sort {A} (fuel : nat) (gt : A -> A -> bool) (ls : list A) : option (list A) :=
  match fuel with
  | O => None
  | S f =>
    match ls with
    | [] => None   (* the C code dereferences the head *)
    | a :: r => let (l, again) := bubble gt a r in if again then bubble_sort f gt l else Some l
    end
  end.
Definition scalar_sort (level scalar : nat) (ls : list loop) : option (list loop) :=
  bubble_sort (S (length ls)) (scalar_gt level scalar) ls.

(** loop.c:1610-1614 cloog_loop_more *)
Definition more (level scalar : nat) (l : loop) : bool :=
  (level + scalar <=? nb_scattdims) || (level <=? dim P (l_dom l)).

(** loop.c:1624-1646 cloog_loop_is_constant; :1655-1679 cloog_loop_constant *)
Definition is_constant (level : nat) (ls : list loop) : bool :=
  match ls with
  | [] => false
  | l :: r =>
    match lazy_isconstant P (l_dom l) (level - 1) with
    | None => false
    | Some c => forallb (fun l' => match lazy_isconstant P (l_dom l') (level - 1) with
                                   | Some c' => (c =? c')%Z | None => false end) r
    end
  end.
Definition constant (ls : list loop) : list loop :=
  match ls with
  | [] => []
  | l :: r => [Loop (simple_convex P (union_doms l r)) false None None (concat_inner ls)]
  end.

(** loop.c:1554-1604 cloog_loop_generate_backtrack *)
Definition backtrack_inner (level : nat) (d : dom) (l : loop) : loop :=
  match l_blk l with
  | Some b => Loop d false None None [Loop (l_dom l) false None (Some b) []]
  | None => project_loop level l
  end.
Definition backtrack (fuel level : nat) (ls : list loop) : option (list loop) :=
  oconcat (fun t => match map (backtrack_inner level (l_dom t)) (l_inner t) with
                    | [] => Some []
                    | l => do s <- separate fuel l; sort level s
                    end) ls.

(** loop.c:1687-1730 loop_unroll; :1734-1752 cloog_loop_unroll *)
Definition loop_unroll (level : nat) (l : loop) : list loop :=
  match can_unroll P (l_dom l) level with
  | None => [l]
  | Some (n, lb) =>
    flat_map (fun i => let d := fixed_offset P (l_dom l) level lb (Z.of_nat i) in
                       match restrict_all d (l_inner l) with
                       | [] => []
                       | inner => [Loop d true None None inner]
                       end) (seq 0 (Z.to_nat n))
  end.

Variable o : options.

(** loop.c:1865-1900 cloog_statement_get_fl, cloog_loop_get_fl *)
Definition stmt_fl (acc : Z * Z) (s : nat) : Z * Z :=
  match o_fs o, o_ls o with
  | Some fs, Some ls => (Z.max (nth (s - 1) fs 0%Z) (fst acc), Z.max (nth (s - 1) ls 0%Z) (snd acc))
  | _, _ => ((-1)%Z, (-1)%Z)
  end.
Fixpoint loop_fl (l : loop) (acc : Z * Z) : Z * Z :=
  let acc1 := match l_blk l with Some b => fold_left stmt_fl (b_stmts b) acc | None => acc end in
  let fix go (ls : list loop) (acc : Z * Z) :=
    match ls with [] => acc | x :: r => go r (loop_fl x acc) end in
  match l with Loop _ _ _ _ inner => go inner acc1 end.
Definition get_fl (ls : list loop) : Z * Z :=
  let (first, last) := fold_left (fun acc l => loop_fl l acc) ls ((-1)%Z, (-1)%Z) in
  if (first <=? 0)%Z || (last <? first)%Z then (o_f o, o_l o) else (first, last).

(** loop.c:2228-2257 cloog_loop_follows *)
Fixpoint follows_from (fuel : nat) (l1 l2 : loop) (level scalar : nat) (def : bool) : option bool :=
  match fuel with
  | O => None
  | S f =>
    if level_is_constant level scalar then
      match constant_cmp l1 l2 level scalar with
      | Gt => Some true
      | Lt => Some false
      | Eq => follows_from f l1 l2 level (scalar + scaldim (level + scalar - 1)) def
      end
    else if (level <=? dim P (l_dom l1)) && (level <=? dim P (l_dom l2)) then
      let c := follows_at P (l_dom l1) (l_dom l2) level in
      if (0 <? c)%Z then Some true
      else if (c <? 0)%Z then Some false
      else follows_from f l1 l2 (S level) scalar def
    else Some def
  end.
(** every iteration raises level + scalar, which stays below this bound *)
Definition follows (l1 l2 : loop) (level scalar : nat) (def : bool) : bool :=
  match follows_from (S (S (nb_scattdims + dim P (l_dom l1) + dim P (l_dom l2)))) l1 l2 level scalar def with
  | Some b => b
  | None => def
  end.

(** loop.c:2340-2352 inner_loop_follows *)
Definition inner_loop_follows (l1 l2 : loop) (level scalar : nat) (def : bool) : bool :=
  match l_inner l1, l_inner l2 with
  | i1 :: _, i2 :: _ =>
    lazy_equal P (l_dom l1) (l_dom l2) || follows i1 i2 level scalar def
  | _, _ => def
  end.

(** loop.c:2360-2408, 2434-2449: the components of a list of loops for a given
    "follows" test ([def] is [i > j], :2383), in order. *)
Definition loop_components (fol : loop -> loop -> bool -> bool) (ls : list loop) : option (list (list loop)) :=
  let e i j := match nth_error ls i, nth_error ls j with
               | Some a, Some b => fol a b (j <? i)
               | _, _ => false end in
  do cs <- components (length ls) e; Some (map (pick ls) cs).

(** loop.c:2519-2577 cloog_loop_decompose_inner *)
Definition decompose_inner (level scalar : nat) (ls : list loop) : option (list loop) :=
  oconcat (fun l => if length (l_inner l) <=? 1 then Some [l]
                    else do cs <- loop_components (fun a b def => follows a b level scalar def) (l_inner l);
                         Some (map (set_inner l) cs)) ls.

(** loop.c:847-874 cloog_loop_specialize; an empty inner list is a NULL dereference *)
Definition specialize1 (l : loop) : option loop :=
  match l_inner l with
  | [] => None
  | [i] =>
    if isconvex P (l_dom i) then
      let d := project P (l_dom i) (dim P (l_dom l)) in
      if isconvex P d then Some (set_dom l d) else Some l
    else Some l
  | _ => Some l
  end.
Definition specialize (level scalar : nat) (ls : list loop) : option (list loop) :=
  do ls1 <- decompose_inner level scalar ls;
  do ls2 <- omap specialize1 ls1;
  Some (remove_empty ls2).

(** loop.c:881-906 cloog_loop_propagate_lower_bound *)
Definition propagate1 (l : loop) : option loop :=
  match l_inner l with
  | [] => None
  | [i] =>
    if isconvex P (l_dom i) then
      let d := project P (l_dom i) (dim P (l_dom l)) in
      if isconvex P d then Some (set_dom l (intersection P d (l_dom l))) else Some l
    else Some l
  | _ => Some l
  end.

(** The sublists of loop_recurse (:1797-1821): maximal runs of non terminal loops, and
    single terminal loops. *)
Fixpoint runs (t : loop -> bool) (grp : list loop) (ls : list loop) : list (bool * list loop) :=
  let flush := match grp with [] => [] | _ => [(true, grp)] end in
  match ls with
  | [] => flush
  | l :: r => if t l then runs t (grp ++ [l]) r
              else flush ++ (false, [l]) :: runs t [] r
  end.

(** The recursive call: context domain, level, scalar, loops. *)
Definition rec_t := dom -> nat -> nat -> list loop -> option (list loop).

(** :1799-1821; [stale]: the last loop added is a terminal loop whose next field still
    points to loops that were given to the recursive call; if nothing is added after it
    the list the caller gets is not the list built here. *)
Fixpoint recurse_runs (rec : list loop -> option (list loop)) (rs : list (bool * list loop))
         (into : list loop) (term stale : bool) : option (list loop) :=
  match rs with
  | [] => if stale then None else Some into
  | (true, g) :: r =>
    do l <- rec g;
    match l with
    | [] => recurse_runs rec r into term term
    | _ => recurse_runs rec r (into ++ l) false false
    end
  | (false, g) :: r => recurse_runs rec r (into ++ g) true false
  end.

(** loop.c:1774-1826 loop_recurse from the otl test on (:1791-1825) *)
Definition recurse_inner (rec : rec_t) (level scalar : nat) (l : loop) : option loop :=
  let l := if negb (level =? 0) && o_otl o then loop_otl level l else l in
  let ctx := match l_st l with Some (_, _, Some c) => add_stride_constraint P (l_dom l) c | _ => l_dom l end in
  do into <- recurse_runs (rec ctx (S level) scalar) (runs (more (S level) scalar) [] (l_inner l)) [] false false;
  Some (set_inner l into).

(** loop.c:1774-1791.  When unrolling gives several loops, cloog_loop_recurse is called
    on them with constant = 1, which skips strides and unrolling. *)
Definition loop_recurse (rec : rec_t) (level scalar : nat) (const : bool) (l : loop) : option (list loop) :=
  let l := if negb (level =? 0) && o_strides o && negb const then loop_stride level l else l in
  if negb const && (0 <=? o_first_unroll o)%Z && (o_first_unroll o <=? Z.of_nat (level + scalar))%Z then
    match loop_unroll level l with
    | [] => None
    | ls => omap (recurse_inner rec level scalar) ls
    end
  else do l' <- recurse_inner rec level scalar l; Some [l'].

(** loop.c:1929-2012 cloog_loop_generate_general *)
Definition generate_general (fuel : nat) (rec : rec_t) (level scalar : nat) (ls : list loop)
  : option (list loop) :=
  let '(first, last) := get_fl ls in
  let ls_ := Z.of_nat (level + scalar) in
  let const := (0 <? level) && is_constant level ls in
  let mrg := (ls_ <? first)%Z || (first <? 0)%Z in
  do res <- (if const then Some (constant ls)
             else if mrg then merge fuel o level ls
             else separate fuel ls);
  do res <- sort level res;
  let res := restrict_inner res in
  do res <- (if negb const && negb mrg then specialize level scalar res else Some res);
  let deeper := (ls_ <? last)%Z || (last <? 0)%Z in
  do res <- (if (level =? 0) || deeper
             then oconcat (loop_recurse rec level scalar const) res
             else omap (fun t => do l <- nest fuel (l_dom t) (S level) (l_inner t);
                                 Some (Loop (l_dom t) false None None l)) res);
  do res <- (if o_strides o then omap propagate1 res else Some res);
  if o_backtrack o && negb (level =? 0) && deeper && negb mrg
  then backtrack fuel level res else Some res.

(** loop.c:2039-2083 cloog_loop_generate_scalar.  [take_eq]: the inner while loop; the
    state of the outer loop is (res, pending): [pending] is the rest of a group behind a
    terminal loop, still linked behind the last loop of res until something is added. *)
Fixpoint take_while {A} (p : A -> bool) (l : list A) : list A * list A :=
  match l with
  | [] => ([], [])
  | x :: r => if p x then let (a, b) := take_while p r in (x :: a, b) else ([], l)
  end.
Fixpoint scalar_groups (fuel : nat) (rec : list loop -> option (list loop)) (level scalar scalar_new : nat)
         (ls res pending : list loop) : option (list loop) :=
  match fuel with
  | O => None
  | S f =>
    match ls with
    | [] => Some (res ++ pending)
    | ref :: r =>
      let (grp, next) := take_while (fun x => more level scalar_new x && scalar_eq level scalar ref x) r in
      if more level scalar_new ref then
        do l <- rec (ref :: grp);
        match l with
        | [] => scalar_groups f rec level scalar scalar_new next res pending
        | _ => scalar_groups f rec level scalar scalar_new next (res ++ l) []
        end
      else scalar_groups f rec level scalar scalar_new next (res ++ [ref]) grp
    end
  end.
Definition generate_scalar (rec : nat -> nat -> list loop -> option (list loop)) (level scalar : nat)
           (ls : list loop) : option (list loop) :=
  do sorted <- scalar_sort level scalar ls;
  let scalar_new := scalar + scaldim (level + scalar - 1) in
  scalar_groups (S (length sorted)) (rec level scalar_new) level scalar scalar_new sorted [] [].

(** loop.c:2462-2512 cloog_loop_generate_components *)
Definition generate_components (fuel : nat) (rec : rec_t) (level scalar : nat) (ls : list loop)
  : option (list loop) :=
  if (level =? 0) || (length ls <=? 1) then generate_general fuel rec level scalar ls
  else
    do cs <- loop_components (fun a b def => inner_loop_follows a b level scalar def) ls;
    do res <- oconcat (generate_general fuel rec level scalar) cs;
    Some (combine res).

(** loop.c:2602-2614 cloog_loop_generate_restricted_or_stop *)
Definition restricted_or_stop (rec : nat -> nat -> list loop -> option (list loop)) : rec_t :=
  fun ctx level scalar ls =>
    if (0 <=? o_stop o)%Z && (o_stop o + 1 <=? Z.of_nat (level + scalar))%Z
    then Some (stop ctx ls)
    else rec level scalar ls.

(** loop.c:2580-2600 cloog_loop_generate_restricted *)
Fixpoint generate_restricted (fuel : nat) (level scalar : nat) (ls : list loop) : option (list loop) :=
  match fuel with
  | O => None
  | S f =>
    if level_is_constant level scalar
    then generate_scalar (generate_restricted f) level scalar ls
    else generate_components fuel (restricted_or_stop (generate_restricted f)) level scalar
                             (project_all level ls)
  end.

(** loop.c:2642-2654 cloog_loop_generate, called by cloog_program_generate with level 0
    and scalar 0 (program.c:1079) *)
Definition generate (fuel : nat) (ctx : dom) (ls : list loop) : option (list loop) :=
  match restrict_all ctx ls with
  | [] => Some []
  | ls' => restricted_or_stop (generate_restricted fuel) ctx 0 0 ls'
  end.

(** loop.c:2661-2714 loop_simplify, :2735-2772 cloog_loop_simplify.  A loop whose domain is
    not convex is replaced by the loops of cloog_loop_disjoint first; whether the whole list
    or only those loops go through cloog_loop_disjoint makes no difference, a convex loop is
    returned as it is. *)
Fixpoint simplify1 (fuel : nat) (ctx : dom) (l : loop) : option (list loop) :=
  match l with
  | Loop d otl st blk inner =>
    let d1 := if isconvex P d then d else simplify_union P d in
    do parts <- (if isconvex P d1 then Some [(d1, otl, st)]
                 else do ds <- pieces fuel d1; Some (map (fun x => (x, false, None)) ds));
    oconcat (fun '(x, otl', st') =>
      let ext := extend P ctx (dim P x) in
      let inter := intersection P x ext in
      let simp := gist P x ext in
      if never_integral P simp then Some []
      else
        do ins <- (let fix go (ls : list loop) : option (list loop) :=
                     match ls with
                     | [] => Some []
                     | a :: r => do x <- simplify1 fuel inter a; do y <- go r; Some (x ++ y)
                     end in go inner);
        match ins, blk with
        | [], None => Some []
        | _, _ => Some [Loop simp otl' st' blk ins]
        end) parts
  end.
Definition simplify (fuel : nat) (ctx : dom) (ls : list loop) : option (list loop) :=
  oconcat (simplify1 fuel ctx) ls.

(** program.c:1027-1122 cloog_program_generate: what happens to the loops, given the
    options after sanitising (see [sanitize] below). *)
Definition program_generate (fuel : nat) (ctx : dom) (ls : list loop) : option (list loop) :=
  match ls with
  | [] => Some []
  | _ => do res <- generate fuel ctx ls;
         if o_nosimplify o then Some res else simplify fuel ctx res
  end.
End Model.

(** program.c:1044-1082 cloog_program_generate: the options it changes unless -override is
    given ([nb] is program->nb_scattdims) *)
Definition with_l (o : options) (l : Z) : options :=
  {| o_l := l; o_f := o_f o; o_stop := o_stop o; o_strides := o_strides o; o_sh := o_sh o; o_otl := o_otl o;
     o_backtrack := o_backtrack o; o_first_unroll := o_first_unroll o; o_fs := o_fs o; o_ls := o_ls o;
     o_nosimplify := o_nosimplify o; o_override := o_override o |}.
Definition sanitize (nb : nat) (o : options) : options :=
  if o_override o then o
  else
    let n := Z.of_nat nb in
    let l1 := if (o_l o <? n)%Z && (0 <=? o_l o)%Z then n else o_l o in
    let l2 := if ((1 <? o_f o)%Z || (o_f o <? 0)%Z) && ((n <? l1)%Z || (l1 <? 0)%Z) then n else l1 in
    with_l o l2.
(** the whole function (without resource measurements and messages) *)
Definition cloog_program_generate (P : Poly) (scaldims : list nat) (o : options) (fuel : nat)
           (ctx : dom P) (ls : list (loop P)) : option (list (loop P)) :=
  program_generate P scaldims (sanitize (length scaldims) o) fuel ctx ls.
