(** Vocabulary for the property of clast_filter (C35). *)
From Coq Require Import List String.
From Verif Require Import ClastModel FilterModel.
Import ListNotations.

(** the statement at a path *)
Inductive at_path : list stmt -> path -> stmt -> Prop :=
| At_here c i s : nth_error c i = Some s -> at_path c [i] s
| At_for c i it lb ub st b p s : nth_error c i = Some (SFor it lb ub st b) -> at_path b p s -> at_path c (i :: p) s
| At_guard c i qs b p s : nth_error c i = Some (SGuard qs b) -> at_path b p s -> at_path c (i :: p) s
| At_block c i b p s : nth_error c i = Some (SBlock b) -> at_path b p s -> at_path c (i :: p) s.
(** statement number [n] occurs somewhere in [c] *)
Definition contains (c : list stmt) (n : nat) : Prop := exists p subs, at_path c p (SUser n subs).
(** neither assignments nor blocks *)
Definition no_ass_block (c : list stmt) : Prop := forall p s, at_path c p s -> (forall x e, s <> SAss x e) /\ forall b, s <> SBlock b.
(** what the documentation asks of a loop (clast.c:2024-2041) *)
Definition wanted (f : filter) (it : string) (body : list stmt) : Prop :=
  match f_iter f with None => True | Some i => it = i end /\
  match f_stmts f with
  | None => True
  | Some fs => match f_kind f with
               | FSubset => forall n, contains body n -> In n fs
               | FExact => forall n, contains body n <-> In n fs
               end
  end.
