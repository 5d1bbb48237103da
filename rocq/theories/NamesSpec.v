(** Vocabulary of C29, C30 and C33. *)
From Coq Require Import ZArith List Bool Arith String.
From Verif Require Import NamesModel.
Import ListNotations.

(** The names a program can print: of scattering dimensions, iterators and parameters. *)
Definition all_names (n : names) : list string := n_scattering n ++ n_iterators n ++ n_parameters n.

(** how many of the first [j] dimensions are not scalar / are scalar *)
Fixpoint plain_before (kinds : list bool) (j : nat) : nat :=
  match kinds, j with
  | k :: ks, S j' => (if k then 0 else 1) + plain_before ks j'
  | _, _ => 0
  end.
Fixpoint scalar_before (kinds : list bool) (j : nat) : nat :=
  match kinds, j with
  | k :: ks, S j' => (if k then 1 else 0) + scalar_before ks j'
  | _, _ => 0
  end.

(** *** histories of the union-domain interface *)
Section Hist.
Context {D : Type}.
Implicit Type h : list (call D).
Fixpoint added h : list (named D) :=
  match h with [] => [] | Add d :: h' => d :: added h' | SetName _ _ _ :: h' => added h' end.
(** the number of parameters, of iterators, of scattering dimensions *)
Definition is_max (l : list nat) (m : nat) : Prop := (forall x, In x l -> x <= m) /\ (m = 0 \/ In m l).
Definition scat_dims (ds : list (named D)) : list nat :=
  flat_map (fun d => match d_scat d with Some s => [s] | None => [] end) ds.
Definition size (nb_par : nat) (ds : list (named D)) (type : Z) (n : nat) : Prop :=
  (type = CLOOG_PARAM /\ n = nb_par) \/
  (type = CLOOG_ITER /\ is_max (map d_dim ds) n) \/
  (type = CLOOG_SCAT /\ is_max (scat_dims ds) n).
(** no call comes too late or names a variable that does not exist *)
Definition allowed (nb_par : nat) h : Prop :=
  forall h1 c h2, h = h1 ++ c :: h2 ->
  match c with
  | Add _ => forall type i s, In (SetName type i s) h1 -> type = CLOOG_PARAM
  | SetName type i _ => exists n, size nb_par (added h1) type n /\ (0 <= i < Z.of_nat n)%Z
  end.
(** the last name given to a variable *)
Inductive last_name (type : Z) (i : Z) : list (call D) -> option string -> Prop :=
| Last_none h : (forall s, ~ In (SetName type i s) h) -> last_name type i h None
| Last_some h1 s h2 : (forall s', ~ In (SetName type i s') h2) -> last_name type i (h1 ++ SetName type i s :: h2) (Some s).
End Hist.
