(** From the statements and their names to the printed file: the names by level, the blocks of
    the input, and how the loops made by the generator relate to the input. *)
From Coq Require Import ZArith List Bool Arith String Ascii.
From Verif Require Import LoopModel LoopSpec ClastModel ClastSpec FileModel FileSpec.
Import ListNotations.
Local Open Scope string_scope.

(** A name that is longer than all the others.  The program reads names->iterators beyond its end
    when a level has no name (names.c:522-528); the model gives such a level a name of its own, and
    the theorems show that no text contains one. *)
Definition fresh_name (nm : names) (i : nat) : string :=
  String.concat "" (repeat "Z" (String.length (String.concat "" (all_names nm)) + i + 2)).
(** cloog_names_name_at_level, names.c:522-528 (levels from 1); names->parameters *)
Definition level_name (nm : names) (level : nat) : string := nth (level - 1) (nm_scat nm ++ nm_iter nm) (fresh_name nm level).
Definition param_name (nm : names) (j : nat) : string := nth j (nm_par nm) (fresh_name nm j).

(** program->blocklist: the blocks of the input, with the number of iterators that are no
    scattering dimensions (there are [ns] of these) *)
Definition blocks_of (P : Poly) (ns : nat) (ls : list (loop P)) : blocks :=
  flat_map (fun l => match l_blk P l with Some b => [(dim P (l_dom P l) - ns, b_stmts b)] | None => [] end) ls.
(** A loop of the result is no deeper than the statements, and a statement is one of the input
    with as many iterators as there. *)
Definition from_input (P : Poly) (ls : list (loop P)) (l : loop P) : Prop :=
  exists l0, In l0 ls /\ match l_blk P l with
                         | Some b => l_blk P l0 = Some b /\ dim P (l_dom P l) = dim P (l_dom P l0)
                         | None => dim P (l_dom P l) <= dim P (l_dom P l0)
                         end.
(** reducing constraints does not add variables *)
Definition reduce_fits (np : nat) (reduce : list (option (eqtype * row)) -> list row -> nat -> list row) : Prop :=
  forall eqs rows n, Forall (fun r => List.length (r_co r) = n + np) rows -> Forall (fun r => List.length (r_co r) = n + np) (reduce eqs rows n).
(** the calls made for a list of instances *)
Definition calls_made (ns : nat) (T : list (block * list Z)) : list event :=
  flat_map (fun e => map (fun num => (num, skipn ns (snd e))) (b_stmts (fst e))) T.
