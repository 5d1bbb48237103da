(** What a program that uses the library has asked for. *)
From Coq Require Import ZArith List Bool Arith String.
From Verif Require Import LoopModel ProgramModel CReader PprintModel PprintSpec LibraryModel.
Import ListNotations.
Local Open Scope string_scope.

Section Asked.
Context {P : Poly} {C : Scat P}.
(** the statements it has added, in order: name, domain, scattering, pointer *)
Definition asked := (option string * dom P * option (smap C) * nat)%type.
Definition adds (h : list (api_call P C)) : list asked := flat_map (fun c => match c with AddDomain n d s u => [(n, d, s, u)] | SetDimName _ _ _ => [] end) h.
Definition a_name (a : asked) : option string := fst (fst (fst a)).
Definition a_domain (a : asked) : dom P * option (smap C) := (snd (fst (fst a)), snd (fst a)).
Definition a_pointer (a : asked) : nat := snd a.
(** What the [k]-th statement (from 0) is called: as asked, or S1, S2, ... by its place. *)
Definition called_as (h : list (api_call P C)) (k : nat) : string :=
  match nth_error (map a_name (adds h)) k with Some (Some name) => name | _ => "S" ++ nat_text (Datatypes.S k) end.
Definition called (h : list (api_call P C)) (T : list (nat * list Z)) : list call := map (fun e => (called_as h (fst e), snd e)) T.
(** the names given to statements are identifiers that CLooG does not use itself *)
Definition names_callable (h : list (api_call P C)) : Prop := forall name, In (Some name) (map a_name (adds h)) -> ident name = true /\ is_macro name = false.
End Asked.
