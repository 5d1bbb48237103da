(** Single constraints of the matrix back end: /repo/source/matrix/constraintset.c:177-195, 741-805, 1001-1048.

    A row is RowModel's [mrow]: kind, coefficients, constant.  [None] is an access outside a row or outside the array of
    rows, or the end of the fuel.  Memory management is left out; int.c:89-94 cloog_seq_cpy copies a part of a list. *)
From Coq Require Import ZArith List Bool Arith.
From Verif Require Import RowModel.
Import ListNotations.
Local Open Scope Z_scope.

(** :177-180, :192-195 cloog_constraint_total_dimension *)
Definition m_total (r : mrow) : nat := (length r - 2)%nat.
(** :779-783 cloog_constraint_coefficient_get *)
Definition m_get (r : mrow) (v : nat) : option Z := nth_error r (1 + v).
(** :785-789 cloog_constraint_coefficient_set *)
Definition m_set (r : mrow) (v : nat) (z : Z) : mrow := set_at r (1 + v) z.
(** :791-794 cloog_constraint_constant_get *)
Definition m_constant (r : mrow) : option Z := nth_error r (length r - 1).
(** :801-805 cloog_constraint_copy_coefficients *)
Definition m_copy (r : mrow) : list Z := firstn (length r - 1) (skipn 1 r).
(** :744-762 cloog_constraint_involves, _is_lower_bound, _is_upper_bound, _is_equality *)
Definition m_involves (r : mrow) (v : nat) : option bool := match m_get r v with Some z => Some (negb (z =? 0)) | None => None end.
Definition m_lower (r : mrow) (v : nat) : option bool := match m_get r v with Some z => Some (0 <? z) | None => None end.
Definition m_upper (r : mrow) (v : nat) : option bool := match m_get r v with Some z => Some (z <? 0) | None => None end.
Definition m_equality (r : mrow) : option bool := match nth_error r 0 with Some z => Some (z =? 0) | None => None end.
(** :764-770 cloog_constraint_clear: k from 1 to NbColumns - 2 *)
Definition m_clear (r : mrow) : mrow := fold_left (fun r k => set_at r k 0) (seq 1 (length r - 2)) r.
(** :772-777 cloog_constraint_set_drop_constraint, for the constraint that points to row [j] *)
Definition m_drop (rows : list mrow) (j : nat) : list mrow := set_at rows j (m_clear (nth j rows [])).

(** :1001-1010 cloog_constraint_first, :1012-1020 cloog_constraint_next: the number of the row, [None] is NULL *)
Definition m_first (rows : list mrow) : option nat := if (length rows =? 0)%nat then None else Some 0%nat.
Definition m_next (rows : list mrow) (i : nat) : option nat := if (S i =? length rows)%nat then None else Some (S i).
(** :1035-1048 cloog_constraint_set_foreach_constraint: [fn] sees a row and may write to it; results: the rows, the user's
    data and the value returned *)
Section Foreach.
Context {S : Type} (fn : mrow -> S -> mrow * S * Z).
Fixpoint foreach_loop (fuel : nat) (c : option nat) (rows : list mrow) (s : S) : option (list mrow * S * Z) :=
  match c with
  | None => Some (rows, s, 0)
  | Some i =>
    match fuel, nth_error rows i with
    | Datatypes.S fuel', Some r =>
      let '(r', s', z) := fn r s in
      let rows' := set_at rows i r' in
      if z <? 0 then Some (rows', s', -1) else foreach_loop fuel' (m_next rows' i) rows' s'
    | _, _ => None
    end
  end.
Definition foreach_constraint (rows : list mrow) (s : S) := foreach_loop (length rows) (m_first rows) rows s.
End Foreach.
