(** What the front end of the program is specified against: what the polyhedral library
    has to guarantee for scatterings, and when a statement of the input runs. *)
From Coq Require Import ZArith List Bool Arith.
From Verif Require Import LoopModel LoopSpec ProgramModel.
Import ListNotations.
Local Open Scope nat_scope.

(** The meaning of a scattering for one (arbitrary) value of the parameters:
    [rel s t i = true]: [t] is a date of iteration [i]. *)
Definition ScatSem {P} (C : Scat P) := smap C -> list Z -> list Z -> bool.

Record ScatLaws (P : Poly) (S : Sem P) (C : Scat P) (rel : ScatSem C) : Prop := {
  SC_len : forall s t i, rel s t i = true -> length t = s_dim C s;
  (** a dimension reported as scalar has this value at every date *)
  SC_scalar : forall s k v, s_scalar C s k = Some v -> k < s_dim C s /\
     forall t i, rel s t i = true -> nth k t 0%Z = v;
  (** erasing a dimension whose value is fixed drops this coordinate and nothing else *)
  SC_erase_dim : forall s k, k < s_dim C s -> s_dim C (s_erase C s k) = s_dim C s - 1;
  SC_erase : forall s k v t i, s_scalar C s k = Some v -> length t = s_dim C s - 1 ->
     rel (s_erase C s k) t i = rel s (firstn k t ++ v :: skipn k t) i;
  (** a reported difference is the difference of the dates of every iteration *)
  SC_delta : forall s1 s2 k v t1 t2 i, s_delta C s1 s2 k = Some v -> rel s1 t1 i = true -> rel s2 t2 i = true ->
     nth k t2 0%Z = (nth k t1 0 + v)%Z;
  (** scatterings reported as injective never give the same date to two iterations *)
  SC_injective : forall ss a b s1 s2 t i1 i2, s_injective C ss = true ->
     nth_error ss a = Some s1 -> nth_error ss b = Some s2 -> rel s1 t i1 = true -> rel s2 t i2 = true -> a = b /\ i1 = i2;
  SC_scatter_dim : forall d s, dim P (s_scatter C d s) = s_dim C s + dim P d;
  SC_scatter : forall d s t i, length t = s_dim C s ->
     mem S (s_scatter C d s) (t ++ i) = rel s t i && mem S d i;
  (** dimensions reported as constant are *)
  SC_isconstant : forall d k v x, lazy_isconstant P d k = Some v -> mem S d x = true -> nth k x 0%Z = v
}.

(** Every iteration of every domain has exactly one date. *)
Definition dated {P} (S : Sem P) {C : Scat P} (rel : ScatSem C) (input : list (dom P * smap C)) : Prop :=
  forall d s, In (d, s) input ->
    (forall i, mem S d i = true -> exists t, rel s t i = true) /\
    (forall i t t', mem S d i = true -> rel s t i = true -> rel s t' i = true -> t = t').
(** No two iterations of one statement have the same date. *)
Definition one_at_a_time {P} (S : Sem P) {C : Scat P} (rel : ScatSem C) (input : list (dom P * smap C)) : Prop :=
  forall d s, In (d, s) input -> forall i i' t, mem S d i = true -> mem S d i' = true ->
    rel s t i = true -> rel s t i' = true -> i = i'.

(** Every scattering dimension is either reported as scalar for all statements, or takes at
    least two values for each statement. *)
Definition moving {P} (S : Sem P) {C : Scat P} (rel : ScatSem C) (input : list (dom P * smap C)) : Prop :=
  forall d s, In (d, s) input -> forall n, n < s_dim C s ->
    (forall x, In x input -> s_scalar C (snd x) n <> None) \/
    exists i i' t t', mem S d i = true /\ mem S d i' = true /\ rel s t i = true /\ rel s t' i' = true /\
      nth n t 0%Z <> nth n t' 0%Z.

Definition all_scattered {P} {C : Scat P} (input : list (dom P * smap C)) : list (dom P * option (smap C)) :=
  map (fun x => (fst x, Some (snd x))) input.

(** The number of scattering dimensions that are still loop dimensions. *)
Definition scanned (scaldims : list nat) : nat := length (filter (fun r => r =? 0) scaldims).

(** [Runs S res n p k i]: statement number [k] (from 0, in the order of the input) is run on its
    iteration [i] at time [p], when the loops [res] are executed: a block runs its
    statements one after the other, and the iterators of a statement are those after the [n]
    scattering dimensions. *)
Definition Runs {P} (S : Sem P) (res : list (loop P)) (n : nat) (p : list Z) (k : nat) (i : list Z) : Prop :=
  exists q b y j, Exec P S res [] q b y /\ nth_error (b_stmts b) j = Some (Datatypes.S k) /\
    i = skipn n y /\ p = q ++ [Z.of_nat j].
(** A statement without iterators does not precede one that has iterators (see
    C03_statement_lost_refuted). *)
Definition flat_last {P} {C : Scat P} (input : list (dom P * smap C)) : Prop :=
  ForallOrdPairs (fun x y => 0 < dim P (fst y) -> 0 < dim P (fst x)) input.
