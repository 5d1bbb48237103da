(** Vocabulary of C47. *)
From Coq Require Import ZArith List Bool Arith String.
From Verif Require Import NamesModel NamesSpec IslModel.
Import ListNotations.

(** the names given by the user: of the parameters and of some dimensions *)
Definition given (sp : isl_space) (x : string) : Prop := In x (sp_params sp) \/ In (Some x) (sp_dims sp).
(** the default name of a dimension *)
Definition default_name (i : nat) : string := append "i" (dec i).
(** No given name is another one (or a default name) followed by an underscore and a number, and no
    dimension has the default name of an earlier one without a name. *)
Record names_safe (sp : isl_space) : Prop := {
  ns_suffix : forall x y k, given sp x -> given sp y -> x <> append y (append "_" (dec k));
  ns_default : forall x i k, given sp x -> x <> append (default_name i) (append "_" (dec k));
  ns_unnamed : forall i j, nth_error (sp_dims sp) i = Some None -> i < j -> nth_error (sp_dims sp) j <> Some (Some (default_name i))
}.
(** all the names of a union domain, as cloog_program_alloc takes them *)
Definition names_are {D} (ud : udom D) (t : Z) (l : list string) : Prop :=
  u_n ud t = List.length l /\ u_name ud t = match l with [] => None | _ => Some (map Some l) end.
