(** Constraint sets as arrays of rows: /repo/source/matrix/constraintset.c (the back end for libraries that use
    PolyLib's matrix format).

    A row is the list of its entries: entry 0 is 0 for an equality and not 0 for an inequality, then come the
    coefficients of iterators, of parameters, and the constant last.  Entries are exact integers (GMP).  Reading
    past the end of a row gives 0 here; the theorems ask for rows that are long enough.  Memory management is
    left out: a CloogConstraint is the row it points to, or the number of that row where it is written to. *)
From Coq Require Import ZArith List Bool Arith.
From Verif Require Import IntModel.
Import ListNotations.
Local Open Scope Z_scope.

Definition mrow := list Z.
Definition at_ (r : mrow) (k : nat) : Z := nth k r 0.

(** cloog_constraint_set_contains_level, :67-71 *)
Definition contains_level (columns level np : Z) : bool := level <=? columns - 2 - np.

(** cloog_constraint_set_defining_equality, :80-96: the first equality with the element in it *)
Definition defines (level : nat) (r : mrow) : bool := (at_ r 0 =? 0) && negb (at_ r level =? 0).
Definition defining_equality (rows : list mrow) (level : nat) : option mrow := find (defines level) rows.

(** cloog_constraint_set_defining_inequalities, :110-175: the tests on one row; [None]: the row does not have
    the element (continue), [Some true]: usable, [Some false]: return "invalid" *)
Definition usable (level nb_iter : nat) (r : mrow) : option bool :=
  if at_ r level =? 0 then None
  else Some (negb (at_ r 0 =? 0) && negb (at_ r level =? 1) && negb (at_ r level =? -1) &&
             match seq_first_non_zero (firstn (1 + nb_iter - (level + 1)) (skipn (level + 1) r)) with None => true | Some _ => false end).
(** the loop over j, for the row [ri] found by the loop over i; result: upper and lower *)
Fixpoint defining_partner (level nb_iter len : nat) (ri : mrow) (rows : list mrow) : option (mrow * mrow) :=
  match rows with
  | [] => None
  | rj :: rest =>
    match usable level nb_iter rj with
    | None => defining_partner level nb_iter len ri rest
    | Some false => None
    | Some true =>
      let m := at_ ri (1 + len) + at_ rj (1 + len) in
      if (m <? 0) || (Z.abs (at_ ri level) <=? Z.abs m) then None
      else if negb (seq_is_neg (firstn len (skipn 1 ri)) (firstn len (skipn 1 rj))) then None
      else if existsb (fun rk => negb (at_ rk level =? 0)) rest then None
      else if 0 <? at_ ri level then Some (rj, ri) else Some (ri, rj)
    end
  end.
Fixpoint defining_inequalities (rows : list mrow) (columns level np : nat) : option (mrow * mrow) :=
  match rows with
  | [] => None
  | ri :: rest =>
    let len := (columns - 2)%nat in
    match usable level (len - np) ri with
    | None => defining_inequalities rest columns level np
    | Some false => None
    | Some true => match defining_partner level (len - np) len ri rest with
                   | Some p => Some p
                   | None =>       (* after the loop over j without a partner the loop over i goes on *)
                     if existsb (fun rj => negb (at_ rj level =? 0)) rest then None else defining_inequalities rest columns level np
                   end
    end
  end.

(** *** equalities *)
(** EQTYPE_*, include/cloog/pprint.h:49-52 *)
Definition EQ_NONE : nat := 0. Definition EQ_CONSTANT : nat := 1. Definition EQ_PUREITEM : nat := 2. Definition EQ_EXAFFINE : nat := 3.
(** cloog_constraint_equal_type, :271-298: the loop over i, with the flag "one"; [None]: EQTYPE_EXAFFINE *)
Definition unit_coef (z : Z) : bool := (z =? 1) || (z =? -1).
Fixpoint scan_ones (r : mrow) (level : nat) (ks : list nat) (one : bool) : option bool :=
  match ks with
  | [] => Some one
  | k :: ks' =>
    if negb (at_ r k =? 0) && negb (k =? level)%nat then
      if negb (unit_coef (at_ r k)) || one then None else scan_ones r level ks' true
    else scan_ones r level ks' one
  end.
Definition equal_type (r : mrow) (level : nat) : nat :=
  if negb (unit_coef (at_ r level)) then EQ_EXAFFINE
  else match scan_ones r level (seq 1 (length r - 2)) false with
       | None => EQ_EXAFFINE
       | Some true => if negb (at_ r (length r - 1) =? 0) then EQ_EXAFFINE else EQ_PUREITEM
       | Some false => EQ_CONSTANT
       end.

(** CloogEqualities, include/cloog/matrix/constraintset.h:14-17: a row and a type per level *)
Record equalities := { eq_rows : list mrow; eq_types : list nat }.
(** cloog_equal_alloc, :216-229 *)
Definition equal_alloc (n nb_levels np : nat) : equalities :=
  {| eq_rows := repeat (repeat 0 (nb_levels + np + 1)) n; eq_types := repeat EQ_NONE n |}.
Definition eq_row (e : equalities) (i : nat) : mrow := nth i (eq_rows e) [].
Definition eq_type (e : equalities) (i : nat) : nat := nth i (eq_types e) EQ_NONE.
Fixpoint set_at {A} (l : list A) (k : nat) (a : A) : list A :=
  match l, k with [], _ => [] | _ :: l', O => a :: l' | x :: l', S k' => x :: set_at l' k' a end.

(** The two factors used to remove an entry [a] with the help of an entry [b]: b/gcd and a/gcd. *)
Definition factors (a b : Z) : Z * Z := let g := Z.gcd a b in (Z.quot b g, Z.quot a g).
(** "must not be < 0": normalize :521-525, vector_simplify :629-633 *)
Definition no_neg (f : Z * Z) : Z * Z := if fst f <? 0 then (Z.abs (fst f), - snd f) else f.

(** one round of the loop over i of cloog_equal_update, :335-370: row [r] of level [level], outer row [o] of level i+1 *)
Definition update_with (level np : nat) (r o : mrow) (i : nat) : mrow :=
  let '(fl, fo) := factors (at_ r (i + 1)) (at_ o (i + 1)) in
  map (fun k => if ((1 <=? k)%nat && (k <=? level)%nat) || (length r - (np + 1) <=? k)%nat
                then fl * at_ r k - fo * at_ o k else at_ r k) (seq 0 (length r)).
(** cloog_equal_update, :322-380: i goes down from level-2 to 0 *)
Definition equal_update (e : equalities) (level np : nat) : equalities :=
  let r := fold_left (fun r i => if negb (at_ r (i + 1) =? 0) && negb (eq_type e i =? EQ_NONE)%nat
                                 then update_with level np r (eq_row e i) i else r)
                     (rev (seq 0 (level - 1))) (eq_row e (level - 1)) in
  let r := match r with [] => [] | t :: p => t :: seq_normalize p end in
  {| eq_rows := set_at (eq_rows e) (level - 1) r; eq_types := eq_types e |}.

(** cloog_equal_add, :396-454.  [line]: a row, or NULL.  The second result is the constraint set, where the
    inequality taken for an equality may have been changed; [None]: the assertion fails. *)
Definition otl_offset (r : mrow) (level : nat) : mrow :=
  let c := at_ r (length r - 1) in
  if negb (at_ r level =? 1) && negb (at_ r level =? -1) && negb (c =? 0) then
    set_at (set_at r (length r - 1) (c / Z.abs (at_ r level))) level (Z.sgn (at_ r level))
  else r.
Fixpoint otl_line (rows : list mrow) (level : nat) : option (mrow * list mrow) :=
  match rows with
  | [] => None
  | r :: rest =>
    if negb (at_ r 0 =? 0) && negb (at_ r level =? 0) then let r' := otl_offset r level in Some (r', r' :: rest)
    else match otl_line rest level with Some (l, rest') => Some (l, r :: rest') | None => None end
  end.
Definition equal_set (e : equalities) (level np : nat) (line : mrow) : equalities :=
  let n := length (eq_row e (level - 1)) in
  let r := eq_row e (level - 1) in
  {| eq_rows := set_at (eq_rows e) (level - 1)
       (map (fun k => if ((1 <=? k)%nat && (k <=? level)%nat) then at_ line k
                      else if (n - (np + 1) <=? k)%nat then at_ line (length line - (n - k)) else at_ r k) (seq 0 n));
     eq_types := set_at (eq_types e) (level - 1) (equal_type line level) |}.
Definition equal_add (e : equalities) (rows : list mrow) (level : nat) (line : option mrow) (np : nat) : option (equalities * list mrow) :=
  match line with
  | Some l => Some (equal_update (equal_set e level np l) level np, rows)
  | None => match otl_line rows level with
            | Some (l, rows') => Some (equal_update (equal_set e level np l) level np, rows')
            | None => None
            end
  end.
(** cloog_equal_del, :463-466 *)
Definition equal_del (e : equalities) (level : nat) : equalities :=
  {| eq_rows := eq_rows e; eq_types := set_at (eq_types e) (level - 1) EQ_NONE |}.

(** *** processing *)
(** cloog_constraint_set_normalize, :494-549: one row *)
Fixpoint map2 (f : Z -> Z -> Z) (a b : list Z) : list Z :=
  match a, b with x :: a', y :: b' => f x y :: map2 f a' b' | _, _ => [] end.
Definition eliminate (level : nat) (ref r : mrow) : mrow :=
  if at_ r level =? 0 then r
  else let '(fi, fr) := no_neg (factors (at_ r level) (at_ ref level)) in
       match r, ref with
       | t :: p, _ :: q => t :: seq_normalize (map2 (fun x y => fi * x - fr * y) p q)
       | _, _ => r
       end.
Fixpoint normalize_rows (level : nat) (rows : list mrow) : list mrow :=
  match rows with
  | [] => []
  | r :: rest => if defines level r then r :: map (eliminate level r) rest else r :: normalize_rows level rest
  end.
Definition set_normalize (columns level : nat) (rows : list mrow) : list mrow :=
  if (level =? columns - 1)%nat then rows else normalize_rows level rows.

(** cloog_equal_vector_simplify, :594-657: one round of the loop, for element i and its equality [q] *)
Definition simplify_with (np : nat) (s q : mrow) (i : nat) : mrow :=
  let '(fv, fe) := no_neg (factors (at_ s i) (at_ q i)) in
  let L := length s in
  map (fun k => if (1 <=? k)%nat && (k <=? L - np - 2)%nat then fv * at_ s k - fe * at_ q k
                else if (L - (np + 1) <=? k)%nat then fv * at_ s k - fe * at_ q (length q - (L - k))
                else at_ s k) (seq 0 L).
Definition vector_simplify (e : equalities) (v : mrow) (level : Z) (np : nat) : mrow :=
  let s := fold_left (fun s i => if negb (Z.of_nat i =? level) && negb (at_ s i =? 0) && negb (eq_type e (i - 1) =? EQ_NONE)%nat
                                 then simplify_with np s (eq_row e (i - 1)) i else s)
                     (rev (seq 1 (length v - np - 2))) v in
  match s with [] => [] | t :: p => t :: seq_normalize p end.
(** cloog_constraint_set_simplify, :675-716: equal rows become 0 = 0 *)
Fixpoint row_same (a b : mrow) : bool :=
  match a, b with [] , [] => true | x :: a', y :: b' => (x =? y) && row_same a' b' | _, _ => false end.
Fixpoint drop_same (columns : nat) (fuel : nat) (rows : list mrow) : list mrow :=
  match fuel, rows with
  | S f, r :: rest => r :: drop_same columns f (map (fun r' => if row_same r r' then repeat 0 columns else r') rest)
  | _, _ => rows
  end.
Definition set_simplify (columns : nat) (e : equalities) (level : Z) (np : nat) (rows : list mrow) : list mrow :=
  drop_same columns (length rows) (map (fun r => vector_simplify e r level np) rows).

(** *** cloog_constraint_set_reduce, :904-999 *)
(** Euclid, :851-893.  [None]: no fuel left (never, see the proofs) *)
Fixpoint euclid_loop (fuel : nat) (c d e f : Z) : option (Z * Z) :=
  if 0 <? d then
    match fuel with
    | O => None
    | S n => euclid_loop n d (c - Z.quot c d * d) f (e - Z.quot c d * f)
    end
  else Some (c, e).
Definition euclid (a b : Z) : option (Z * Z) :=       (* g and x *)
  match euclid_loop (S (Z.to_nat (Z.abs b))) (Z.abs a) (Z.abs b) 1 0 with
  | Some (g, e) => Some (g, if a =? 0 then 0 else if 0 <? a then e else - e)
  | None => None
  end.
Definition divisible (a b : Z) : bool := if b =? 0 then a =? 0 else Z.rem a b =? 0.
(** the loop over k, :954-961: [true] when it ends with k > i *)
Definition blocked (q : mrow) (m : Z) (i j : nat) : bool :=
  existsb (fun k => negb (at_ q k =? 0) && negb (divisible (at_ q k) m)) (seq (i + 1) (j - i)).
(** the loop over j, :938-981, from j = level-1 down: the line afterwards *)
Fixpoint reduce_by (e : equalities) (np : nat) (line : mrow) (level i : nat) (js : list nat) : option mrow :=
  match js with
  | [] => Some line
  | j :: js' =>
    let q := eq_row e j in
    let m := at_ line level in
    if negb (eq_type e j =? EQ_EXAFFINE)%nat then reduce_by e np line level i js'
    else if negb (divisible (at_ q (j + 1)) m) then reduce_by e np line level i js'
    else if divisible (at_ q i) m then reduce_by e np line level i js'
    else if blocked q m i j then reduce_by e np line level i js'
    else match euclid (at_ q i) m with
         | None => None
         | Some (g, x) =>
           if negb (divisible (at_ q i) (at_ line i)) then reduce_by e np line level i js'
           else let val := - Z.quot (at_ line i) g * x in
                let L := length line in
                Some (map (fun k => if (1 <=? k)%nat && (k <=? i)%nat then at_ line k + val * at_ q k
                                    else if (L - np - 1 <=? k)%nat then at_ line k + val * at_ q (length q - (L - k))
                                    else at_ line k) (seq 0 L))
         end
  end.
Fixpoint reduce_loop (e : equalities) (np : nat) (line : mrow) (level : nat) (is : list nat) : option mrow :=
  match is with
  | [] => Some line
  | i :: is' =>
    if (i =? level)%nat then reduce_loop e np line level is'
    else let line := set_at line i (at_ line i mod at_ line level) in
         if at_ line i =? 0 then reduce_loop e np line level is'
         else match reduce_by e np line level i (rev (seq 0 level)) with
              | Some line => reduce_loop e np line level is'
              | None => None
              end
  end.
(** [None]: the assertion fails *)
Definition reduce (e : equalities) (np : nat) (line : mrow) (level : nat) : option mrow :=
  let line := if 0 <? at_ line level then match line with [] => [] | t :: p => t :: seq_neg p end else line in
  let line := set_at line level (- at_ line level) in
  if 0 <? at_ line level then
    match reduce_loop e np line level (rev (seq 1 (length line - 2 - np))) with
    | Some line => Some (set_at line level (- at_ line level))
    | None => None
    end
  else None.
