(** What the whole command is for: which statements the printed program runs, and when. *)
From Coq Require Import ZArith List Bool Arith String.
From Verif Require Import LoopModel LoopSpec ProgramModel ProgramSpec ClastModel ClastSpec CReader PprintSpec.
From Verif Require NamesModel NamesSpec.
Import ListNotations.
Local Open Scope nat_scope.

(** A run of the printed program is a list of statements (numbered from 0, in the order of the input
    file) with the values of their iterators.
    It has every iteration of every statement exactly once, and nothing else. *)
Definition each_once {P} (Se : Sem P) {C : Scat P} (input : list (dom P * smap C)) (T : list (nat * list Z)) : Prop :=
  NoDup T /\ forall k i, In (k, i) T <-> exists d s, nth_error input k = Some (d, s) /\ mem Se d i = true.
(** Nothing runs after something that has a later date. *)
Definition in_order {P} {C : Scat P} (rel : ScatSem C) (input : list (dom P * smap C)) (T : list (nat * list Z)) : Prop :=
  ForallOrdPairs (fun e e' => forall d s t d' s' t',
    nth_error input (fst e) = Some (d, s) -> nth_error input (fst e') = Some (d', s') ->
    rel s t (snd e) = true -> rel s' t' (snd e') = true -> ~ lex_lt t' t) T.
(** the same statements with the numbers that the printed program uses *)
Definition numbered (T : list (nat * list Z)) : list event := map (fun e => (S (fst e), snd e)) T.

(** The names given to scattering dimensions, iterators and parameters are different identifiers that the
    file does not use for anything else. *)
Definition names_fit (reserved : string -> Prop) (n : NamesModel.names) : Prop :=
  NoDup (NamesSpec.all_names n) /\ forall x, In x (NamesSpec.all_names n) -> ident x = true /\ ~ reserved x.
(** The loops can be written with linear bounds, and those marked as running at most once do (see C16). *)
Definition writable_loops (P : Poly) (Se : Sem P) (rows_of : dom P -> list row) (pv : list Z) (co : copts) (res : list (loop P)) : Prop :=
  Forall (ready0 P Se rows_of pv co) res /\ Forall (no_pairs0 P rows_of (List.length pv)) res.

(** *** without scattering functions *)
Definition unscattered {P} {C : Scat P} (ds : list (dom P)) : list (dom P * option (smap C)) := map (fun d => (d, None)) ds.
Definition each_point_once {P} (Se : Sem P) (ds : list (dom P)) (T : list (nat * list Z)) : Prop :=
  NoDup T /\ forall k i, In (k, i) T <-> exists d, nth_error ds k = Some d /\ mem Se d i = true.
(** The first [m] coordinates never go back in the lexicographic order. *)
Definition lexicographic (m : nat) (T : list (nat * list Z)) : Prop :=
  ForallOrdPairs (fun e e' => ~ lex_lt (firstn m (snd e')) (firstn m (snd e))) T.
(** Statements with the same coordinates run in the order of the input file. *)
Definition textual_ties (T : list (nat * list Z)) : Prop := ForallOrdPairs (fun e e' => snd e = snd e' -> fst e < fst e') T.
