(** Memory management of statements, blocks, block lists, strides and loops (/repo/source/statement.c,
    block.c, stride.c, loop.c) and the leak counters of CloogState.

    Memory is a finite map from addresses to cells for each kind of structure.  malloc gives an address that
    was never used before, so that a freed cell is recognised for ever.  Following NULL, reading, writing or
    freeing a cell that is not allocated gives [None].  Only pointers to these structures, statement numbers
    and reference counts are kept: domains, names, scaldims, depth, usr, the numbers in a stride and the
    constraint in it are left out.  C ints are integers. *)
From Coq Require Import ZArith List Bool Arith.
Import ListNotations.

Definition ptr := option nat.
Section Map.
Context {A : Type}.
Fixpoint get (m : list (nat * A)) (x : nat) : option A :=
  match m with [] => None | (y, a) :: m' => if y =? x then Some a else get m' x end.
Definition del (m : list (nat * A)) (x : nat) : list (nat * A) := filter (fun p => negb (fst p =? x)) m.
Definition put (m : list (nat * A)) (x : nat) (a : A) : list (nat * A) := map (fun p => if fst p =? x then (x, a) else p) m.
End Map.

(** include/cloog/statement.h:46-56, block.h:60-72, block.h:80-83, stride.h, loop.h:62-78 *)
Record stcell := { st_num : Z; st_next : ptr }.
Record blcell := { bl_stmt : ptr; bl_refs : Z }.
Record licell := { li_block : ptr; li_next : ptr }.
Record locell := { lo_block : ptr; lo_stride : ptr; lo_inner : ptr; lo_next : ptr }.
(** the counters x_allocated, x_freed, x_max of state.h *)
Record counters := { c_alloc : Z; c_freed : Z; c_max : Z }.
(** cloog_*_leak_up: block.c:63-68, statement.c:65-70, loop.c:119-124 *)
Definition leak_up (c : counters) : counters :=
  let a := (c_alloc c + 1)%Z in
  {| c_alloc := a; c_freed := c_freed c; c_max := if (a - c_freed c >? c_max c)%Z then (a - c_freed c)%Z else c_max c |}.
(** cloog_*_leak_down: block.c:71-74, statement.c:73-76, loop.c:127-130 *)
Definition leak_down (c : counters) : counters := {| c_alloc := c_alloc c; c_freed := (c_freed c + 1)%Z; c_max := c_max c |}.

(** statements and blocks *)
Record mem := { m_st : list (nat * stcell); m_bl : list (nat * blcell); m_cst : counters; m_cbl : counters }.
Record heap := { h_fresh : nat; h_mem : mem; h_li : list (nat * licell); h_sr : list (nat * Z); h_lo : list (nat * locell); h_clo : counters }.
(** cloog_core_state_malloc, state.c:7-40 *)
Definition c0 : counters := {| c_alloc := 0; c_freed := 0; c_max := 0 |}.
Definition start : heap := {| h_fresh := 0; h_mem := {| m_st := []; m_bl := []; m_cst := c0; m_cbl := c0 |}; h_li := []; h_sr := []; h_lo := []; h_clo := c0 |}.

(** *** statements *)
(** cloog_statement_malloc and _alloc, statement.c:172-216; [x] is the address malloc gives *)
Definition st_new (m : mem) (x : nat) (c : stcell) : mem :=
  {| m_st := (x, c) :: m_st m; m_bl := m_bl m; m_cst := leak_up (m_cst m); m_cbl := m_cbl m |}.
(** cloog_statement_free, statement.c:147-159 *)
Fixpoint st_free_loop (fuel : nat) (m : mem) (p : ptr) : option mem :=
  match p with
  | None => Some m
  | Some x =>
    match fuel with
    | O => None
    | S f => match get (m_st m) x with
             | None => None
             | Some c => st_free_loop f {| m_st := del (m_st m) x; m_bl := m_bl m; m_cst := leak_down (m_cst m); m_cbl := m_cbl m |} (st_next c)
             end
    end
  end.
Definition st_free (m : mem) (p : ptr) : option mem := st_free_loop (length (m_st m)) m p.
(** cloog_statement_copy, statement.c:226-261: the loop, with the next fresh address; [now] is the last copy.
    The result is the memory and the copies in the order they are made. *)
Fixpoint st_copy_loop (fuel : nat) (m : mem) (fresh : nat) (now : ptr) (source : ptr) : option (mem * list nat) :=
  match source with
  | None => Some (m, [])
  | Some x =>
    match fuel with
    | O => None
    | S f =>
      match get (m_st m) x with
      | None => None
      | Some c =>
        let m1 := st_new m fresh {| st_num := st_num c; st_next := None |} in
        let m2 := match now with
                  | None => Some m1
                  | Some y => match get (m_st m1) y with
                              | None => None
                              | Some cy => Some {| m_st := put (m_st m1) y {| st_num := st_num cy; st_next := Some fresh |}; m_bl := m_bl m1; m_cst := m_cst m1; m_cbl := m_cbl m1 |}
                              end
                  end in
        match m2 with
        | None => None
        | Some m2 =>
          match get (m_st m2) x with              (* source = source->next *)
          | None => None
          | Some c' => match st_copy_loop f m2 (S fresh) (Some fresh) (st_next c') with
                       | Some (m3, l) => Some (m3, fresh :: l)
                       | None => None
                       end
          end
        end
      end
    end
  end.
(** now->next = statement, the second branch of cloog_statement_add (statement.c:273-284) *)
Definition st_link (m : mem) (now : nat) (p : ptr) : option mem :=
  match get (m_st m) now with
  | None => None
  | Some c => Some {| m_st := put (m_st m) now {| st_num := st_num c; st_next := p |}; m_bl := m_bl m; m_cst := m_cst m; m_cbl := m_cbl m |}
  end.

(** *** blocks *)
(** cloog_block_malloc, block.c:247-268, with the statement list of cloog_block_alloc, :289-303 *)
Definition bl_new (m : mem) (x : nat) (p : ptr) : mem :=
  {| m_st := m_st m; m_bl := (x, {| bl_stmt := p; bl_refs := 1 |}) :: m_bl m; m_cst := m_cst m; m_cbl := leak_up (m_cbl m) |}.
Definition bl_set (m : mem) (x : nat) (c : blcell) : mem :=
  {| m_st := m_st m; m_bl := put (m_bl m) x c; m_cst := m_cst m; m_cbl := m_cbl m |}.
(** block->references ++ : cloog_block_copy, block.c:358-365, and cloog_block_list_alloc, :337-349 *)
Definition bl_ref (m : mem) (x : nat) : option mem :=
  match get (m_bl m) x with
  | None => None
  | Some c => Some (bl_set m x {| bl_stmt := bl_stmt c; bl_refs := (bl_refs c + 1)%Z |})
  end.
(** cloog_block_free, block.c:199-219 *)
Definition bl_free (m : mem) (p : ptr) : option mem :=
  match p with
  | None => Some m
  | Some x =>
    match get (m_bl m) x with
    | None => None
    | Some c =>
      let r := (bl_refs c - 1)%Z in
      let m1 := bl_set m x {| bl_stmt := bl_stmt c; bl_refs := r |} in
      if (r =? 0)%Z then
        let m2 := {| m_st := m_st m1; m_bl := m_bl m1; m_cst := m_cst m1; m_cbl := leak_down (m_cbl m1) |} in
        match (match bl_stmt c with Some s => st_free m2 (Some s) | None => Some m2 end) with
        | Some m3 => Some {| m_st := m_st m3; m_bl := del (m_bl m3) x; m_cst := m_cst m3; m_cbl := m_cbl m3 |}
        | None => None
        end
      else Some m1
    end
  end.
(** the while loop of cloog_block_merge: the last statement of a list *)
Fixpoint st_last (fuel : nat) (m : mem) (x : nat) : option nat :=
  match fuel with
  | O => None
  | S f => match get (m_st m) x with
           | None => None
           | Some c => match st_next c with None => Some x | Some y => st_last f m y end
           end
  end.
(** cloog_block_merge, block.c:375-395 *)
Definition bl_merge (m : mem) (b merged : ptr) : option mem :=
  match b, merged with
  | Some x, Some y =>
    match get (m_bl m) x, get (m_bl m) y with
    | Some cb, Some cm =>
      let m1 :=
        match bl_stmt cb with
        | Some s => match st_last (length (m_st m)) m s with Some l => st_link m l (bl_stmt cm) | None => None end
        | None => Some (bl_set m x {| bl_stmt := bl_stmt cm; bl_refs := bl_refs cb |})
        end in
      match m1 with
      | None => None
      | Some m1 =>
        match get (m_bl m1) y with
        | None => None
        | Some cm' => bl_free (bl_set m1 y {| bl_stmt := None; bl_refs := bl_refs cm' |}) (Some y)
        end
      end
    | _, _ => None
    end
  | _, _ => Some m
  end.
(** cloog_block_list_free, block.c:227-236: the while loop *)
Fixpoint li_free_loop (fuel : nat) (m : mem) (li : list (nat * licell)) (p : ptr) : option (mem * list (nat * licell)) :=
  match p with
  | None => Some (m, li)
  | Some x =>
    match fuel with
    | O => None
    | S f =>
      match get li x with
      | None => None
      | Some c => match bl_free m (li_block c) with
                  | Some m' => li_free_loop f m' (del li x) (li_next c)
                  | None => None
                  end
      end
    end
  end.

(** *** strides: the map holds the reference counts *)
(** cloog_stride_copy, stride.c:48-55 *)
Definition sr_ref (sr : list (nat * Z)) (x : nat) : option (list (nat * Z)) :=
  match get sr x with None => None | Some r => Some (put sr x (r + 1)%Z) end.
(** cloog_stride_free, stride.c:57-71 *)
Definition sr_free (sr : list (nat * Z)) (p : ptr) : option (list (nat * Z)) :=
  match p with
  | None => Some sr
  | Some x => match get sr x with
              | None => None
              | Some r => if (r - 1 >? 0)%Z then Some (put sr x (r - 1)%Z) else Some (del sr x)
              end
  end.

(** *** loops *)
Record lmem := { l_mem : mem; l_sr : list (nat * Z); l_lo : list (nat * locell); l_clo : counters }.
(** cloog_loop_free, loop.c:257-275 *)
Fixpoint lo_free (fuel : nat) (m : lmem) (p : ptr) : option lmem :=
  match p with
  | None => Some m
  | Some x =>
    match fuel with
    | O => None
    | S f =>
      match get (l_lo m) x with
      | None => None
      | Some c =>
        match bl_free (l_mem m) (lo_block c) with
        | None => None
        | Some m1 =>
          match lo_free f {| l_mem := m1; l_sr := l_sr m; l_lo := l_lo m; l_clo := leak_down (l_clo m) |} (lo_inner c) with
          | None => None
          | Some m2 =>
            match sr_free (l_sr m2) (lo_stride c) with
            | None => None
            | Some s => lo_free f {| l_mem := l_mem m2; l_sr := s; l_lo := del (l_lo m2) x; l_clo := l_clo m2 |} (lo_next c)
            end
          end
        end
      end
    end
  end.
(** cloog_loop_free_parts, loop.c:286-313 (the flag for domains has no effect here) *)
Fixpoint lo_free_parts (fuel : nat) (m : lmem) (p : ptr) (block inner next : bool) : option lmem :=
  match p with
  | None => Some m
  | Some x =>
    match fuel with
    | O => None
    | S f =>
      match get (l_lo m) x with
      | None => None
      | Some c =>
        match (if block then bl_free (l_mem m) (lo_block c) else Some (l_mem m)) with
        | None => None
        | Some m1 =>
          let lm := {| l_mem := m1; l_sr := l_sr m; l_lo := l_lo m; l_clo := leak_down (l_clo m) |} in
          match (if inner then lo_free_parts f lm (lo_inner c) block inner true else Some lm) with
          | None => None
          | Some m2 =>
            match sr_free (l_sr m2) (lo_stride c) with
            | None => None
            | Some s => lo_free_parts f {| l_mem := l_mem m2; l_sr := s; l_lo := del (l_lo m2) x; l_clo := l_clo m2 |}
                          (if next then lo_next c else None) block inner next
            end
          end
        end
      end
    end
  end.

(** *** calls *)
Inductive op :=
| StAlloc (number : Z)                       (* cloog_statement_alloc *)
| StFree (p : ptr)                           (* cloog_statement_free *)
| StCopy (p : ptr)                           (* cloog_statement_copy *)
| StLink (now : nat) (p : ptr)               (* now->next = p *)
| BlMalloc                                   (* cloog_block_malloc *)
| BlAlloc (p : ptr)                          (* cloog_block_alloc *)
| BlCopy (p : ptr)                           (* cloog_block_copy *)
| BlFree (p : ptr)                           (* cloog_block_free *)
| BlMerge (p q : ptr)                        (* cloog_block_merge *)
| LiAlloc (p : ptr)                          (* cloog_block_list_alloc *)
| LiLink (n : nat) (p : ptr)                 (* n->next = p *)
| LiFree (p : ptr)                           (* cloog_block_list_free *)
| SrAlloc                                    (* cloog_stride_alloc *)
| SrCopy (p : ptr)                           (* cloog_stride_copy *)
| SrFree (p : ptr)                           (* cloog_stride_free *)
| LoAlloc (b s inner next : ptr)             (* cloog_loop_alloc, loop.c:426-441: copies the stride *)
| LoFree (p : ptr)                           (* cloog_loop_free *)
| LoFreeParts (p : ptr) (block inner next : bool). (* cloog_loop_free_parts *)

Definition with_mem (h : heap) (m : mem) : heap := {| h_fresh := h_fresh h; h_mem := m; h_li := h_li h; h_sr := h_sr h; h_lo := h_lo h; h_clo := h_clo h |}.
Definition with_sr (h : heap) (s : list (nat * Z)) : heap := {| h_fresh := h_fresh h; h_mem := h_mem h; h_li := h_li h; h_sr := s; h_lo := h_lo h; h_clo := h_clo h |}.
Definition with_li (h : heap) (l : list (nat * licell)) : heap := {| h_fresh := h_fresh h; h_mem := h_mem h; h_li := l; h_sr := h_sr h; h_lo := h_lo h; h_clo := h_clo h |}.
Definition fresh_by (h : heap) (n : nat) : heap := {| h_fresh := n + h_fresh h; h_mem := h_mem h; h_li := h_li h; h_sr := h_sr h; h_lo := h_lo h; h_clo := h_clo h |}.
Definition to_l (h : heap) : lmem := {| l_mem := h_mem h; l_sr := h_sr h; l_lo := h_lo h; l_clo := h_clo h |}.
Definition of_l (h : heap) (m : lmem) : heap := {| h_fresh := h_fresh h; h_mem := l_mem m; h_li := h_li h; h_sr := l_sr m; h_lo := l_lo m; h_clo := l_clo m |}.
Definition no_new {A} (f : A -> heap) (o : option A) : option (heap * list nat) :=
  match o with Some a => Some (f a, []) | None => None end.
(** A call: the memory afterwards and the structures it has allocated, in order; the first of them is what an
    allocating or copying call returns (cloog_block_copy and cloog_stride_copy return their argument). *)
Definition exec (h : heap) (o : op) : option (heap * list nat) :=
  let x := h_fresh h in
  match o with
  | StAlloc n => Some (with_mem (fresh_by h 1) (st_new (h_mem h) x {| st_num := n; st_next := None |}), [x])
  | StFree p => no_new (with_mem h) (st_free (h_mem h) p)
  | StCopy p => match st_copy_loop (length (m_st (h_mem h))) (h_mem h) x None p with
                | Some (m, l) => Some (with_mem (fresh_by h (length l)) m, l)
                | None => None
                end
  | StLink now p => no_new (with_mem h) (st_link (h_mem h) now p)
  | BlMalloc => Some (with_mem (fresh_by h 1) (bl_new (h_mem h) x None), [x])
  | BlAlloc p => match p with                             (* reads statement->state *)
                 | None => None
                 | Some s => match get (m_st (h_mem h)) s with
                             | None => None
                             | Some _ => Some (with_mem (fresh_by h 1) (bl_new (h_mem h) x p), [x])
                             end
                 end
  | BlCopy p => match p with None => Some (h, []) | Some b => no_new (with_mem h) (bl_ref (h_mem h) b) end
  | BlFree p => no_new (with_mem h) (bl_free (h_mem h) p)
  | BlMerge p q => no_new (with_mem h) (bl_merge (h_mem h) p q)
  | LiAlloc p => match p with                             (* block->references ++ *)
                 | None => None
                 | Some b => match bl_ref (h_mem h) b with
                             | None => None
                             | Some m => Some (with_li (with_mem (fresh_by h 1) m) ((x, {| li_block := p; li_next := None |}) :: h_li h), [x])
                             end
                 end
  | LiLink n p => match get (h_li h) n with
                  | None => None
                  | Some c => Some (with_li h (put (h_li h) n {| li_block := li_block c; li_next := p |}), [])
                  end
  | LiFree p => match li_free_loop (length (h_li h)) (h_mem h) (h_li h) p with
                | Some (m, li) => Some (with_li (with_mem h m) li, [])
                | None => None
                end
  | SrAlloc => Some (with_sr (fresh_by h 1) ((x, 1%Z) :: h_sr h), [x])
  | SrCopy p => match p with None => Some (h, []) | Some s => no_new (with_sr h) (sr_ref (h_sr h) s) end
  | SrFree p => no_new (with_sr h) (sr_free (h_sr h) p)
  | LoAlloc b s inner next =>
      match (match s with Some y => sr_ref (h_sr h) y | None => Some (h_sr h) end) with
      | None => None
      | Some sr =>
        Some ({| h_fresh := S x; h_mem := h_mem h; h_li := h_li h; h_sr := sr;
                 h_lo := (x, {| lo_block := b; lo_stride := s; lo_inner := inner; lo_next := next |}) :: h_lo h; h_clo := leak_up (h_clo h) |}, [x])
      end
  | LoFree p => no_new (of_l h) (lo_free (length (h_lo h)) (to_l h) p)
  | LoFreeParts p block inner next => no_new (of_l h) (lo_free_parts (length (h_lo h)) (to_l h) p block inner next)
  end.
