(** Model of the alignment of the lower bounds of a domain on a stride: /repo/source/isl/domain.c:854-1111
    (cloog_domain_can_stride, constraint_stride_lower, constraint_stride_lower_c, basic_set_stride_lower,
    cloog_domain_stride_lower_bound).

    Sets and constraints are those of UnrollModel.v.  isl_aff_floor makes a new existentially quantified
    variable e = floor(N / (a s)), that is 0 <= N - a s e < a s; here one is always made (isl does without when
    a s is 1 or finds an equal one).  The existentially quantified variables of a constraint are those of its
    basic set (isl keeps their definitions when it intersects with the bounds). *)
From Coq Require Import ZArith List Bool.
From Verif Require Import StrideModel UnrollModel.
Import ListNotations.
Local Open Scope Z_scope.

Fixpoint addl (a b : list Z) : list Z :=
  match a, b with [], _ => b | _, [] => a | x :: a, y :: b => x + y :: addl a b end.
Definition scale (k : Z) (l : list Z) : list Z := map (Z.mul k) l.
(** the offset of a stride: an affine expression in the iterators and the parameters *)
Record affine := { f_iter : list Z; f_par : list Z; f_const : Z }.
(** CloogStride (include/cloog/stride.h:12-18): stride, offset, and constraint with factor *)
Record cstride := { st_stride : Z; st_offset : Z; st_con : option (con * Z) }.
(** d of constraint_stride_lower_c, :1053-1057; the constant offset in constraint_stride_lower *)
Definition offset_of (level : nat) (st : cstride) : affine :=
  match st_con st with
  | None => {| f_iter := []; f_par := []; f_const := st_offset st |}
  | Some (c, factor) => {| f_iter := scale factor (set0 (level - 1) (c_iter c)); f_par := scale factor (c_par c); f_const := factor * c_const c |}
  end.

(** :970-984, :1033-1048: the constraints that get a new bound *)
Definition is_lower (level : nat) (c : con) : bool := negb (c_eq c) && (0 <? nth (level - 1) (c_iter c) 0).
(** :859-888 constraint_can_stride: what a constraint leaves of the answer; an equality, and a constraint that is no
    lower bound, leaves it as it is *)
Definition constraint_can_stride (level : nat) (can : bool) (c : con) : bool :=
  if c_eq c then can
  else if 0 <? nth (level - 1) (c_iter c) 0 then (if existsb (fun k => negb (k =? 0)) (c_div c) then false else can)
  else can.
(** :890-898 basic_set_can_stride *)
Definition basic_set_can_stride (level : nat) (can : bool) (b : bset) : bool := fold_left (constraint_can_stride level) (cons_of b) can.
(** :912-920 cloog_domain_can_stride *)
Definition domain_can_stride (set : list bset) (level : nat) : bool := fold_left (basic_set_can_stride level) set true.
(** [k]-th of the [m] new variables of a basic set *)
Definition new_var (v : Z) (k m : nat) : list Z := one_at v k m.
(** :988-1003, :1059-1069: the new variable and the bound i + s floor((f + a d)/(a s)) - d >= 0 *)
Definition stride_lower_cons (level : nat) (s : Z) (d : affine) (k m : nat) (c : con) : list con :=
  let a := nth (level - 1) (c_iter c) 0 in
  let n_iter := addl (set0 (level - 1) (c_iter c)) (scale a (f_iter d)) in
  let n_par := addl (c_par c) (scale a (f_par d)) in
  let n_const := c_const c + a * f_const d in
  [{| c_eq := false; c_iter := n_iter; c_par := n_par; c_div := c_div c ++ new_var (- (a * s)) k m; c_const := n_const |};
   {| c_eq := false; c_iter := opp n_iter; c_par := opp n_par; c_div := opp (c_div c) ++ new_var (a * s) k m; c_const := a * s - 1 - n_const |};
   {| c_eq := false; c_iter := addl (one_at 1 (level - 1) (length (c_iter c))) (opp (f_iter d)); c_par := opp (f_par d);
      c_div := map (fun _ => 0) (c_div c) ++ new_var s k m; c_const := - f_const d |}].
Fixpoint bounds_for (level : nat) (s : Z) (d : affine) (k m : nat) (l : list con) : list con :=
  match l with [] => [] | c :: t => stride_lower_cons level s d k m c ++ bounds_for level s d (S k) m t end.
(** :1080-1098 basic_set_stride_lower *)
Definition basic_set_stride_lower (level : nat) (st : cstride) (b : bset) : bset :=
  let lows := filter (is_lower level) (cons_of b) in
  let m := length lows in
  {| n_div := n_div b + m;
     cons_of := map (fun c => {| c_eq := c_eq c; c_iter := c_iter c; c_par := c_par c; c_div := c_div c ++ repeat 0 m; c_const := c_const c |}) (cons_of b)
       ++ bounds_for level (st_stride st) (offset_of level st) 0 m lows |}.
(** :1100-1111 cloog_domain_stride_lower_bound *)
Definition domain_stride_lower_bound (level : nat) (st : cstride) (set : list bset) : list bset := map (basic_set_stride_lower level st) set.
