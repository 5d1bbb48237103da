(** Names of variables (/repo/source/names.c, the part of cloog_program_alloc that fills them,
    /repo/source/program.c:862-916) and the union-domain interface (/repo/source/union_domain.c:28-150).

    A C string is a [string] without NUL; NULL is [None].  Reads and writes outside an array, and
    cloog_die, give [None].  Allocation always succeeds (malloc(0) included). *)
From Coq Require Import ZArith List Bool Arith String Ascii DecimalString.
Import ListNotations.

(** sprintf("%c", code): the int is converted to unsigned char; code 0 gives the empty string. *)
Definition char_string (code : nat) : string :=
  let c := (code mod 256)%nat in if c =? 0 then EmptyString else String (ascii_of_nat c) EmptyString.
(** sprintf("%d") of a natural number *)
Definition dec (n : nat) : string := NilZero.string_of_uint (Nat.to_uint n).

(** cloog_names_generate_items, names.c:399-421: names of [nb] items, from a prefix or a first character *)
Definition generate_items (nb : nat) (prefix : option string) (first : nat) : list string :=
  map (fun i => match prefix with None => char_string (first + i) | Some p => append p (dec (1 + i)) end) (seq 0 nb).

(** include/cloog/names.h:52-66.  [n_nb_scat] is the field nb_scattering, which can differ from the size
    of the array. *)
Record names := { n_scalars : list string; n_nb_scat : nat; n_scattering : list string; n_iterators : list string; n_parameters : list string }.

(** include/cloog/names.h:47-48: 'M' and 'i' *)
Definition FIRST_PARAMETER := 77.
Definition FIRST_ITERATOR := 105.

(** cloog_names_generate, names.c:447-466 *)
Definition names_generate (ns nt ni np : nat) (fs ft fi fp : nat) : names :=
  {| n_scalars := generate_items ns None fs; n_nb_scat := nt; n_scattering := generate_items nt None ft;
     n_iterators := generate_items ni None fi; n_parameters := generate_items np None fp |}.

(** cloog_names_scalarize, names.c:475-516: the loop over the dimensions, as (scattering, scalars) *)
Fixpoint scalar_split (flags : list bool) (src : list string) : option (list string * list string) :=
  match flags, src with
  | [], _ => Some ([], [])
  | _ :: _, [] => None
  | b :: flags', s :: src' =>
    match scalar_split flags' src' with
    | Some (scat, scal) => Some (if b then (scat, s :: scal) else (s :: scat, scal))
    | None => None
    end
  end.
Definition count (l : list bool) : nat := List.length (filter (fun b => b) l).
(** [scaldims]: the array, of nb_scattdims entries, or NULL *)
Definition scalarize (n : names) (nb_scattdims : nat) (scaldims : option (list bool)) : option names :=
  match nb_scattdims, scaldims with
  | O, _ => Some n
  | _, None => Some n
  | _, Some flags =>
    if List.length flags <? nb_scattdims then None else
    let flags := firstn nb_scattdims flags in
    let nb_scalars := count flags in
    if nb_scalars =? 0 then Some n
    else if n_nb_scat n <? nb_scalars then None
    else match scalar_split flags (n_scattering n) with
    | None => None
    | Some (scat, scal) =>
      if n_nb_scat n - nb_scalars <? List.length scat then None
      else Some {| n_scalars := scal; n_nb_scat := n_nb_scat n - nb_scalars; n_scattering := scat;
                   n_iterators := n_iterators n; n_parameters := n_parameters n |}
    end
  end.
(** cloog_names_name_at_level, names.c:522-528; [level] counts from 1 *)
Definition name_at_level (n : names) (level : nat) : option string :=
  if level =? 0 then None
  else if level <=? n_nb_scat n then nth_error (n_scattering n) (level - 1)
  else nth_error (n_iterators n) (level - n_nb_scat n - 1).

(** ** union domains *)
(** enum cloog_dim_type, include/cloog/union_domain.h:34 *)
Definition CLOOG_PARAM := 0%Z.
Definition CLOOG_ITER := 1%Z.
Definition CLOOG_SCAT := 2%Z.

(** A domain in the list: its name, dimension, the dimension of its scattering (if any), the user's
    pointer. The domain and the scattering themselves are not looked at, [D] stands for them. *)
Section UD.
Context {D : Type}.
Record named := { d_name : option string; d_dom : D; d_dim : nat; d_scat : option nat; d_usr : nat }.
(** include/cloog/union_domain.h:17-28 *)
Record udom := { u_domains : list named; u_n : Z -> nat; u_name : Z -> option (list (option string)) }.
Definition upd {A} (f : Z -> A) (k : Z) (a : A) : Z -> A := fun j => if (j =? k)%Z then a else f j.

(** cloog_union_domain_alloc, union_domain.c:28-48 *)
Definition ud_alloc (nb_par : nat) : udom :=
  {| u_domains := []; u_n := fun t => if (t =? CLOOG_PARAM)%Z then nb_par else 0; u_name := fun _ => None |}.
(** cloog_union_domain_add_domain, union_domain.c:76-116 *)
Definition ud_add (ud : udom) (d : named) : option udom :=
  match u_name ud CLOOG_ITER, u_name ud CLOOG_SCAT with
  | None, None =>
    let n1 := if u_n ud CLOOG_ITER <? d_dim d then upd (u_n ud) CLOOG_ITER (d_dim d) else u_n ud in
    let n2 := match d_scat d with
              | Some s => if n1 CLOOG_SCAT <? s then upd n1 CLOOG_SCAT s else n1
              | None => n1
              end in
    Some {| u_domains := u_domains ud ++ [d]; u_n := n2; u_name := u_name ud |}
  | _, _ => None
  end.
Fixpoint set_nth {A} (l : list A) (i : nat) (a : A) : list A :=
  match l, i with [], _ => [] | _ :: t, O => a :: t | b :: t, S k => b :: set_nth t k a end.
(** cloog_union_domain_set_name, union_domain.c:122-150 *)
Definition ud_set_name (ud : udom) (type index : Z) (name : string) : option udom :=
  if negb ((type =? CLOOG_PARAM) || (type =? CLOOG_ITER) || (type =? CLOOG_SCAT))%Z then None
  else if ((index <? 0) || (Z.of_nat (u_n ud type) <=? index))%Z then None
  else
    let tab := match u_name ud type with Some t => t | None => repeat None (u_n ud type) end in
    if Z.to_nat index <? List.length tab
    then Some {| u_domains := u_domains ud; u_n := u_n ud; u_name := upd (u_name ud) type (Some (set_nth tab (Z.to_nat index) (Some name))) |}
    else None.

(** calls in the order they are made *)
Inductive call := Add (d : named) | SetName (type index : Z) (name : string).
Definition step (ud : udom) (c : call) : option udom :=
  match c with Add d => ud_add ud d | SetName t i s => ud_set_name ud t i s end.
Fixpoint run (ud : udom) (h : list call) : option udom :=
  match h with [] => Some ud | c :: h' => match step ud c with Some ud' => run ud' h' | None => None end end.

(** program.c:862-916: the names of a program with the given union domain and number of scattering
    dimensions ([None] inside a table: the user named only other entries). *)
Definition table (ud : udom) (t : Z) (gen : list string) : option (list string) :=
  match u_name ud t with
  | None => Some gen
  | Some tab => fold_right (fun o acc => match o, acc with Some s, Some l => Some (s :: l) | _, _ => None end) (Some []) tab
  end.
Definition program_names (ud : udom) (nb_scattdims : nat) : option names :=
  match table ud CLOOG_PARAM (generate_items (u_n ud CLOOG_PARAM) None FIRST_PARAMETER),
        table ud CLOOG_ITER (generate_items (u_n ud CLOOG_ITER) None FIRST_ITERATOR),
        table ud CLOOG_SCAT (generate_items nb_scattdims (Some "c"%string) 255) with
  | Some p, Some i, Some s => Some {| n_scalars := []; n_nb_scat := nb_scattdims; n_scattering := s; n_iterators := i; n_parameters := p |}
  | _, _, _ => None
  end.
End UD.
Arguments named : clear implicits.
Arguments udom : clear implicits.
Arguments call : clear implicits.
