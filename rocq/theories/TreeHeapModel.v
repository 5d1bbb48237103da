(** Memory of the generated code: the constructors and destructors of clast nodes (/repo/source/clast.c:73-381,
    528-556) and the reference counter of the table of names (/repo/source/names.c:209-250, 334-355).

    A cell is one malloc'ed node.  Its label has the fields that are no pointers to other nodes, its list of
    fields has the pointers to other nodes, in this order:
      name: none; term: var; binary: LHS; reduction: elts[0..n-1]; root: next; assignment: RHS, next;
      user statement: substitutions, next; block: body, next; for: LB, UB, body, next;
      guard: then, next, eq[0].LHS, eq[0].RHS, eq[1].LHS, ...
    malloc gives an address that was never used before.  Following NULL, and reading, writing or freeing what is
    not allocated, gives [None]; so does a failing assert.  Simplifications: the four strings of a for node that
    the client may set (private_vars, reduction_vars, time_var_name, user_directive) stay NULL; the arrays of
    strings of a table of names are allocated and freed with it; isl sets and copies of statements (C31) are
    tokens, one for each reference. *)
From Coq Require Import ZArith List Bool Arith String.
From Verif Require HeapModel.
From Verif Require Import ClastModel.
Import ListNotations.
Local Open Scope nat_scope.

Definition ptr := option nat.
Notation get := HeapModel.get.
Notation del := HeapModel.del.
Notation put := HeapModel.put.

(** include/cloog/clast.h:11-128 *)
Inductive label :=
| LName (s : string)
| LTerm (val : Z)
| LBin (t : bin_type) (rhs : Z)
| LRed (t : red_type)
| LRoot (names : nat)
| LAss (lhs : option string)
| LUser (dom : ptr) (st : ptr)
| LBlock
| LFor (dom : ptr) (it : string) (stride : Z)
| LGuard (signs : list Z).
Record cell := { c_lab : label; c_fields : list ptr }.

(** [h_ints]: nodes whose cloog_int_t is initialised; [h_nms]: tables of names with their field references;
    [h_doms]: references to sets; [h_sts]: copies of statements *)
Record heap := { h_fresh : nat; h_cells : list (nat * cell); h_ints : list nat; h_nms : list (nat * Z); h_doms : list nat; h_sts : list nat }.
Definition start : heap := {| h_fresh := 0; h_cells := []; h_ints := []; h_nms := []; h_doms := []; h_sts := [] |}.
Definition with_cells h x := {| h_fresh := h_fresh h; h_cells := x; h_ints := h_ints h; h_nms := h_nms h; h_doms := h_doms h; h_sts := h_sts h |}.
Definition with_ints h x := {| h_fresh := h_fresh h; h_cells := h_cells h; h_ints := x; h_nms := h_nms h; h_doms := h_doms h; h_sts := h_sts h |}.
Definition with_nms h x := {| h_fresh := h_fresh h; h_cells := h_cells h; h_ints := h_ints h; h_nms := x; h_doms := h_doms h; h_sts := h_sts h |}.
Definition with_doms h x := {| h_fresh := h_fresh h; h_cells := h_cells h; h_ints := h_ints h; h_nms := h_nms h; h_doms := x; h_sts := h_sts h |}.
Definition with_sts h x := {| h_fresh := h_fresh h; h_cells := h_cells h; h_ints := h_ints h; h_nms := h_nms h; h_doms := h_doms h; h_sts := x |}.
Definition next_fresh h := {| h_fresh := S (h_fresh h); h_cells := h_cells h; h_ints := h_ints h; h_nms := h_nms h; h_doms := h_doms h; h_sts := h_sts h |}.

Definition bind {A B} (a : option A) (f : A -> option B) : option B := match a with Some x => f x | None => None end.
Notation "'do' x <- a ; b" := (bind a (fun x => b)) (at level 200, x pattern, a at level 100, b at level 200).

(** malloc and free of a node *)
Definition alloc (h : heap) (c : cell) : heap := next_fresh (with_cells h ((h_fresh h, c) :: h_cells h)).
Definition dealloc (h : heap) (x : nat) : option heap :=
  match get (h_cells h) x with Some _ => Some (with_cells h (del (h_cells h) x)) | None => None end.
(** one occurrence taken out *)
Fixpoint remove1 (x : nat) (l : list nat) : option (list nat) :=
  match l with
  | [] => None
  | y :: l' => if y =? x then Some l' else match remove1 x l' with Some r => Some (y :: r) | None => None end
  end.
(** cloog_int_init and cloog_int_clear of the number in node [x] *)
Definition int_init (h : heap) (x : nat) : heap := with_ints h (x :: h_ints h).
Definition int_clear (h : heap) (x : nat) : option heap := do _ <- get (h_cells h) x; do l <- remove1 x (h_ints h); Some (with_ints h l).
(** cloog_domain_copy and cloog_domain_free, isl/domain.c: isl_set_copy and isl_set_free, for which NULL is allowed *)
Definition in_list (x : nat) (l : list nat) : bool := if in_dec Nat.eq_dec x l then true else false.
Definition dom_copy (h : heap) (p : ptr) : option heap :=
  match p with None => Some h | Some d => if in_list d (h_doms h) then Some (with_doms h (d :: h_doms h)) else None end.
Definition dom_free (h : heap) (p : ptr) : option heap :=
  match p with None => Some h | Some d => do l <- remove1 d (h_doms h); Some (with_doms h l) end.
(** cloog_statement_copy and cloog_statement_free, statement.c:147-159, 226-261: NULL is allowed; the copy is new *)
Definition st_copy (h : heap) (p : ptr) : option (heap * ptr) :=
  match p with
  | None => Some (h, None)
  | Some s => if in_list s (h_sts h) then Some (next_fresh (with_sts h (h_fresh h :: h_sts h)), Some (h_fresh h)) else None
  end.
Definition st_free (h : heap) (p : ptr) : option heap :=
  match p with None => Some h | Some s => do l <- remove1 s (h_sts h); Some (with_sts h l) end.
(** cloog_names_malloc, names.c:334-355 *)
Definition names_new (h : heap) : heap := next_fresh (with_nms h ((h_fresh h, 1%Z) :: h_nms h)).
(** cloog_names_copy, names.c:246-250 *)
Definition names_copy (h : heap) (n : nat) : option heap :=
  do r <- get (h_nms h) n; Some (with_nms h (put (h_nms h) n (r + 1)%Z)).
(** cloog_names_free, names.c:209-239 *)
Definition names_free (h : heap) (n : nat) : option heap :=
  do r <- get (h_nms h) n;
  let r' := (r - 1)%Z in
  if (r' =? 0)%Z then Some (with_nms h (del (h_nms h) n)) else Some (with_nms h (put (h_nms h) n r')).

(** x->field, read now *)
Definition fld (h : heap) (x i : nat) : option ptr := do c <- get (h_cells h) x; nth_error (c_fields c) i.
(** x->field = p *)
Fixpoint set_nth {A} (i : nat) (a : A) (l : list A) : list A :=
  match l, i with [], _ => [] | _ :: l', O => a :: l' | b :: l', S j => b :: set_nth j a l' end.
Definition write (h : heap) (x i : nat) (p : ptr) : option heap :=
  do c <- get (h_cells h) x;
  if i <? List.length (c_fields c) then Some (with_cells h (put (h_cells h) x {| c_lab := c_lab c; c_fields := set_nth i p (c_fields c) |})) else None.

(** *** constructors: the new heap; the node is at the old [h_fresh] *)
(** new_clast_name, clast.c:73-79 *)
Definition new_name h s := alloc h {| c_lab := LName s; c_fields := [] |}.
(** new_clast_term, clast.c:81-89 *)
Definition new_term h z v := int_init (alloc h {| c_lab := LTerm z; c_fields := [v] |}) (h_fresh h).
(** new_clast_binary, clast.c:91-101 *)
Definition new_bin h t l z := int_init (alloc h {| c_lab := LBin t z; c_fields := [l] |}) (h_fresh h).
(** new_clast_reduction, clast.c:103-114 *)
Definition new_red h t n := alloc h {| c_lab := LRed t; c_fields := repeat None n |}.
(** new_clast_root, clast.c:159-166 *)
Definition new_root h n := names_copy (alloc h {| c_lab := LRoot n; c_fields := [None] |}) n.
(** new_clast_assignment, clast.c:180-189 *)
Definition new_ass h s e := alloc h {| c_lab := LAss s; c_fields := [e; None] |}.
(** new_clast_user_stmt, clast.c:205-215; the copies are made before the node here *)
Definition new_user h d s subs :=
  do h1 <- dom_copy h d;
  do (h2, s') <- st_copy h1 s;
  Some (alloc h2 {| c_lab := LUser d s'; c_fields := [subs; None] |}, h_fresh h2, s').
(** new_clast_block, clast.c:229-236 *)
Definition new_block h := alloc h {| c_lab := LBlock; c_fields := [None; None] |}.
(** new_clast_for, clast.c:258-282 *)
Definition new_for h d it lb ub z :=
  do h1 <- dom_copy h d;
  Some (int_init (alloc h1 {| c_lab := LFor d it z; c_fields := [lb; ub; None; None] |}) (h_fresh h1)).
(** new_clast_guard, clast.c:301-315; the signs are not set *)
Definition new_guard h n := alloc h {| c_lab := LGuard (repeat 0%Z n); c_fields := None :: None :: repeat None (2 * n) |}.

(** *** destructors *)
(** a loop over [n] fields from number [i] on; each is read when it is needed *)
Fixpoint free_fields (f : heap -> ptr -> option heap) (h : heap) (x i n : nat) : option heap :=
  match n with O => Some h | S n' => do p <- fld h x i; do h1 <- f h p; free_fields f h1 x (S i) n' end.
(** free_clast_expr with free_clast_name, _term, _binary and _reduction, clast.c:317-364 *)
Fixpoint free_expr (fuel : nat) (h : heap) (p : ptr) : option heap :=
  match p with
  | None => Some h
  | Some x =>
    match fuel with
    | O => None
    | S f =>
      do c <- get (h_cells h) x;
      match c_lab c, c_fields c with
      | LName _, [] => dealloc h x
      | LTerm _, [_] => do h1 <- int_clear h x; do v <- fld h1 x 0; do h2 <- free_expr f h1 v; dealloc h2 x
      | LRed _, es => do h1 <- free_fields (free_expr f) h x 0 (List.length es); dealloc h1 x
      | LBin _ _, [_] => do h1 <- int_clear h x; do l <- fld h1 x 0; do h2 <- free_expr f h1 l; dealloc h2 x
      | _, _ => None
      end
    end
  end.
(** the field statement of a user statement, read now *)
Definition st_of (h : heap) (x : nat) : option ptr :=
  do c <- get (h_cells h) x; match c_lab c with LUser _ s => Some s | _ => None end.
(** the field next of a statement *)
Definition next_of (c : cell) : option ptr :=
  match c_lab c, c_fields c with
  | LRoot _, [n] => Some n
  | LAss _, [_; n] | LUser _ _, [_; n] | LBlock, [_; n] => Some n
  | LFor _ _ _, [_; _; _; n] => Some n
  | LGuard _, _ :: n :: _ => Some n
  | _, _ => None
  end.
(** cloog_clast_free, clast.c:373-381, and free_clast_stmt, :366-371, with free_clast_root (:151-157),
    _assignment (:172-178), _user_stmt (:195-203), _block (:221-227), _for (:242-256), _guard (:288-299) *)
Fixpoint free_stmts (fuel : nat) (h : heap) (p : ptr) : option heap :=
  match p with
  | None => Some h
  | Some x =>
    match fuel with
    | O => None
    | S f =>
      do c <- get (h_cells h) x;
      do n <- next_of c;
      do h1 <- free_stmt f h x;
      free_stmts f h1 n
    end
  end
with free_stmt (fuel : nat) (h : heap) (x : nat) : option heap :=
  match fuel with
  | O => None
  | S f =>
    do c <- get (h_cells h) x;
    match c_lab c, c_fields c with
    | LRoot n, [_] => do h1 <- names_free h n; dealloc h1 x
    | LAss _, [e; _] => do h1 <- free_expr f h e; dealloc h1 x
    | LUser d _, [_; _] =>
        do h1 <- dom_free h d; do s <- st_of h1 x; do h2 <- st_free h1 s; do subs <- fld h2 x 0; do h3 <- free_stmts f h2 subs; dealloc h3 x
    | LBlock, [b; _] => do h1 <- free_stmts f h b; dealloc h1 x
    | LFor d _ _, [_; _; _; _] =>
        do h1 <- dom_free h d; do lb <- fld h1 x 0; do h2 <- free_expr f h1 lb; do ub <- fld h2 x 1; do h3 <- free_expr f h2 ub;
        do h4 <- int_clear h3 x; do b <- fld h4 x 2; do h5 <- free_stmts f h4 b; dealloc h5 x
    | LGuard _, t :: _ :: es => do h1 <- free_stmts f h t; do h2 <- free_fields (free_expr f) h1 x 2 (List.length es); dealloc h2 x
    | _, _ => None
    end
  end.
Definition enough (h : heap) : nat := 2 + 2 * List.length (h_cells h).

(** clast_expr_copy, clast.c:528-556: the new heap and the nodes of the copy, each before its children.
    The copies of the elements of a reduction are written into it one by one. *)
Definition first (l : list nat) : ptr := match l with [] => None | x :: _ => Some x end.
Fixpoint copy_elts (copy : heap -> ptr -> option (heap * list nat)) (h : heap) (r i : nat) (es : list ptr) : option (heap * list nat) :=
  match es with
  | [] => Some (h, [])
  | e :: es' =>
    do (h1, l1) <- copy h e;
    do h2 <- write h1 r i (first l1);
    do (h3, l3) <- copy_elts copy h2 r (S i) es';
    Some (h3, l1 ++ l3)
  end.
Fixpoint copy_expr (fuel : nat) (h : heap) (p : ptr) : option (heap * list nat) :=
  match p with
  | None => Some (h, [])
  | Some x =>
    match fuel with
    | O => None
    | S f =>
      do c <- get (h_cells h) x;
      match c_lab c, c_fields c with
      | LName s, [] => Some (new_name h s, [h_fresh h])
      | LTerm z, [v] => do (h1, l) <- copy_expr f h v; Some (new_term h1 z (first l), h_fresh h1 :: l)
      | LRed t, es => do (h2, l) <- copy_elts (copy_expr f) (new_red h t (List.length es)) (h_fresh h) 0 es; Some (h2, h_fresh h :: l)
      | LBin t z, [v] => do (h1, l) <- copy_expr f h v; Some (new_bin h1 t (first l) z, h_fresh h1 :: l)
      | _, _ => None
      end
    end
  end.

(** *** the calls *)
Inductive op :=
| MkName (s : string) | MkTerm (z : Z) (v : ptr) | MkBin (t : bin_type) (l : ptr) (z : Z) | MkRed (t : red_type) (n : nat)
| CopyExpr (p : ptr) | FreeExpr (p : ptr)
| MkRoot (n : nat) | MkAss (s : option string) (e : ptr) | MkUser (d s : ptr) (subs : ptr) | MkBlock
| MkFor (d : ptr) (it : string) (lb ub : ptr) (z : Z) | MkGuard (n : nat)
| FreeStmt (x : nat) | FreeClast (p : ptr)
| Write (x i : nat) (p : ptr)
| NamesNew | NamesCopy (n : nat) | NamesFree (n : nat)
| DomNew | DomFree (p : ptr) | StNew | StFree (p : ptr).
(** the heap afterwards and the new addresses *)
Definition exec (h : heap) (o : op) : option (heap * list nat) :=
  let at_fresh h' := Some (h', [h_fresh h]) in
  let none r := do h' <- r; Some (h', []) in
  match o with
  | MkName s => at_fresh (new_name h s)
  | MkTerm z v => at_fresh (new_term h z v)
  | MkBin t l z => at_fresh (new_bin h t l z)
  | MkRed t n => at_fresh (new_red h t n)
  | CopyExpr p => copy_expr (enough h) h p
  | FreeExpr p => none (free_expr (enough h) h p)
  | MkRoot n => do h' <- new_root h n; at_fresh h'
  | MkAss s e => at_fresh (new_ass h s e)
  | MkUser d s subs => do (h', x, s') <- new_user h d s subs; Some (h', x :: match s' with Some y => [y] | None => [] end)
  | MkBlock => at_fresh (new_block h)
  | MkFor d it lb ub z => do h' <- new_for h d it lb ub z; at_fresh h'
  | MkGuard n => at_fresh (new_guard h n)
  | FreeStmt x => none (free_stmt (enough h) h x)
  | FreeClast p => none (free_stmts (enough h) h p)
  | Write x i p => none (write h x i p)
  | NamesNew => at_fresh (names_new h)
  | NamesCopy n => none (names_copy h n)
  | NamesFree n => none (names_free h n)
  | DomNew => at_fresh (next_fresh (with_doms h (h_fresh h :: h_doms h)))
  | DomFree p => none (dom_free h p)
  | StNew => at_fresh (next_fresh (with_sts h (h_fresh h :: h_sts h)))
  | StFree p => none (st_free h p)
  end.
