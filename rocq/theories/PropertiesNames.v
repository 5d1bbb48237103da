(** Properties C29 (generated names), C30 (scalarised names) and C33 (union domains).  Vocabulary: NamesSpec.v. *)
From Coq Require Import ZArith List Bool Arith String Lia.
From Verif Require Import PprintSpec NamesModel NamesSpec NamesProofs.
Import ListNotations.

(** ** C29 *)
(** A program whose variables the user has not named, with at most 28 parameters and at most 228 dimensions
    in every statement: all names are different. *)
Theorem C29_generated_names_distinct_partial :
  forall (D : Type) (nb_par : nat) (h : list (call D)) (ud : udom D) (nb_scattdims : nat) (n : names),
  (forall type i s, ~ In (SetName type i s) h) ->
  nb_par <= 28 -> (forall d, In (Add d) h -> d_dim d <= 228) ->
  run (ud_alloc nb_par) h = Some ud -> program_names ud nb_scattdims = Some n ->
  NoDup (all_names n).
Proof.
  intros D nb_par h ud ns n Hno Hp Hd Hr Hn. pose proof (run_spec nb_par h) as H. rewrite Hr in H. destruct H as [_ [_ In' It _]].
  assert (Hnone : forall t, u_name ud t = None).
  { intros t. specialize (It t). destruct (u_name ud t); [|reflexivity]. destruct It as (_ & (i & s & Hs) & _). destruct (Hno _ _ _ Hs). }
  unfold program_names, table in Hn. rewrite !Hnone in Hn. injection Hn as <-. unfold all_names. cbn.
  apply generated_distinct.
  - rewrite In'. unfold sz. cbn. destruct (maxs_max (map d_dim (added h))) as [_ [->|Hm]]; [lia|]. apply in_map_iff in Hm as (d & <- & Hin). apply Hd.
    clear - Hin. induction h as [|[d'|t i s] h IH]; cbn in *; [contradiction|destruct Hin as [->|Hin]; auto|auto].
  - rewrite In'. exact Hp.
Qed.
Print Assumptions C29_generated_names_distinct_partial.

Definition stm (name : option string) (dim : nat) (scat : option nat) (usr : nat) : named nat :=
  {| d_name := name; d_dom := usr; d_dim := dim; d_scat := scat; d_usr := usr |}.
Example C29_example :
  exists ud, run (ud_alloc 2) [Add (stm None 1 (Some 3) 0); Add (stm None 2 (Some 3) 1)] = Some ud /\
    program_names ud 3 = Some {| n_scalars := []; n_nb_scat := 3; n_scattering := ["c1"; "c2"; "c3"]%string; n_iterators := ["i"; "j"]%string; n_parameters := ["M"; "N"]%string |}.
Proof. eexists. split; reflexivity. Qed.

(** The full statement fails: the 29th parameter is called i, like the first iterator. *)
Theorem C29_names_collide_refuted :
  exists (h : list (call nat)) (ud : udom nat) (n : names),
    (forall type i s, ~ In (SetName type i s) h) /\ run (ud_alloc 29) h = Some ud /\ program_names ud 0 = Some n /\
    nth_error (n_parameters n) 28 = Some "i"%string /\ nth_error (n_iterators n) 0 = Some "i"%string /\ ~ NoDup (all_names n).
Proof.
  exists [Add (stm None 1 None 0)]. eexists. eexists. split; [intros t i s [H|[]]; discriminate|].
  split; [reflexivity|]. split; [reflexivity|]. split; [reflexivity|]. split; [reflexivity|].
  cbn. intros H. inversion H as [|x l Hn _]. apply Hn. do 28 right. left. reflexivity.
Qed.
Print Assumptions C29_names_collide_refuted.

(** With at most 14 parameters and 18 iterators every name is an identifier of C that is no keyword ... *)
Theorem C29_names_are_identifiers_partial :
  forall (D : Type) (nb_par : nat) (h : list (call D)) (ud : udom D) (nb_scattdims : nat) (n : names),
  (forall type i s, ~ In (SetName type i s) h) ->
  nb_par <= 14 -> (forall d, In (Add d) h -> d_dim d <= 18) ->
  run (ud_alloc nb_par) h = Some ud -> program_names ud nb_scattdims = Some n ->
  forall s, In s (all_names n) -> ident s = true.
Proof.
  intros D nb_par h ud ns n Hno Hp Hd Hr Hn. pose proof (run_spec nb_par h) as H. rewrite Hr in H. destruct H as [_ [_ In' It _]].
  assert (Hnone : forall t, u_name ud t = None).
  { intros t. specialize (It t). destruct (u_name ud t); [|reflexivity]. destruct It as (_ & (i & s & Hs) & _). destruct (Hno _ _ _ Hs). }
  unfold program_names, table in Hn. rewrite !Hnone in Hn. injection Hn as <-. unfold all_names. cbn [n_scattering n_iterators n_parameters].
  intros s Hs. apply in_app_iff in Hs as [Hs|Hs]; [|apply in_app_iff in Hs as [Hs|Hs]].
  - apply in_items_p in Hs as (i & _ & ->). apply c_ident.
  - apply in_items in Hs as (i & Hi & ->). apply iter_ident. rewrite In' in Hi. unfold sz in Hi. cbn in Hi.
    destruct (maxs_max (map d_dim (added h))) as [_ [E|Hm]]; [lia|]. apply in_map_iff in Hm as (d & Ed & Hin). specialize (Hd d).
    rewrite <- Ed in Hi. eapply Nat.lt_le_trans; [exact Hi|]. apply Hd.
    clear - Hin. induction h as [|[d'|t i s] h IH]; cbn in *; [contradiction|destruct Hin as [->|Hin]; auto|auto].
  - apply in_items in Hs as (i & Hi & ->). apply par_ident. rewrite In' in Hi. unfold sz in Hi. cbn in Hi. lia.
Qed.
Print Assumptions C29_names_are_identifiers_partial.
(** ... and with 15 parameters, or 19 iterators, one is not: "[" and "{". *)
Theorem C29_names_are_identifiers_refuted :
  (exists ud n, run (ud_alloc (D := nat) 15) [] = Some ud /\ program_names ud 0 = Some n /\
     nth_error (n_parameters n) 14 = Some "["%string /\ ident "[" = false) /\
  (exists ud n, run (ud_alloc 0) [Add (stm None 19 None 0)] = Some ud /\ program_names ud 0 = Some n /\
     nth_error (n_iterators n) 18 = Some "{"%string /\ ident "{" = false).
Proof. split; eexists; eexists; repeat split; reflexivity. Qed.
Print Assumptions C29_names_are_identifiers_refuted.

(** ** C30 *)
(** For every pattern of scalar dimensions: the levels that remain are the dimensions that are not scalar, in
    their order, each with its own name, and the iterators follow them; the names of the scalar dimensions are
    kept apart, in their order. *)
Theorem C30_scalarize :
  forall (n : names) (kinds : list bool),
  n_nb_scat n = List.length kinds -> List.length (n_scattering n) = List.length kinds ->
  exists n', scalarize n (List.length kinds) (Some kinds) = Some n' /\
    (forall j, nth_error kinds j = Some false -> name_at_level n' (1 + plain_before kinds j) = nth_error (n_scattering n) j) /\
    (forall k, k < List.length (n_iterators n) -> name_at_level n' (1 + plain_before kinds (List.length kinds) + k) = nth_error (n_iterators n) k) /\
    n_parameters n' = n_parameters n /\
    (In true kinds -> List.length (n_scalars n') = scalar_before kinds (List.length kinds) /\
                      forall j, nth_error kinds j = Some true -> nth_error (n_scalars n') (scalar_before kinds j) = nth_error (n_scattering n) j).
Proof.
  intros n kinds H1 H2. destruct (scalarize_full n kinds H1 H2) as (n' & E & L & Ls & Ei & Ep & Hj & Hs). exists n'. split; [exact E|].
  split; [|split; [|split; [exact Ep|exact Hs]]].
  - intros j Ej. unfold name_at_level. assert (Hl : nth_error kinds j <> None) by congruence. apply nth_error_Some in Hl.
    pose proof (plain_mono kinds j Hl Ej). cbn [plus Nat.eqb]. destruct (Nat.leb_spec (S (plain_before kinds j)) (n_nb_scat n')); [|lia].
    replace (S (plain_before kinds j) - 1) with (plain_before kinds j) by lia. apply Hj. exact Ej.
  - intros k Hk. unfold name_at_level. cbn [plus Nat.eqb]. destruct (Nat.leb_spec (S (plain_before kinds (List.length kinds) + k)) (n_nb_scat n')); [lia|].
    rewrite Ei, L. f_equal. lia.
Qed.
Print Assumptions C30_scalarize.

(** Dimensions c1 (plain), c2 (scalar), c3 (plain): levels c1, c3, i, j. *)
Definition names30 : names := {| n_scalars := []; n_nb_scat := 3; n_scattering := ["c1"; "c2"; "c3"]%string; n_iterators := ["i"; "j"]%string; n_parameters := ["M"]%string |}.
Example C30_example :
  n_nb_scat names30 = List.length [false; true; false] /\ List.length (n_scattering names30) = List.length [false; true; false] /\
  exists n', scalarize names30 3 (Some [false; true; false]) = Some n' /\
    map (name_at_level n') [1; 2; 3; 4; 5] = [Some "c1"; Some "c3"; Some "i"; Some "j"; None]%string /\ n_scalars n' = ["c2"%string].
Proof. split; [reflexivity|]. split; [reflexivity|]. eexists. repeat split; reflexivity. Qed.

(** ** C33 *)
(** A history of calls is accepted exactly when no domain is added after an iterator or a scattering dimension
    has been named, and every name is given to a variable that exists at that moment. *)
Theorem C33_union_domain_accepts :
  forall (D : Type) (nb_par : nat) (h : list (call D)),
  (exists ud, run (ud_alloc nb_par) h = Some ud) <-> allowed nb_par h.
Proof.
  intros D nb_par h. pose proof (run_spec nb_par h) as H. split.
  - intros (ud & E). rewrite E in H. apply H.
  - intros Ha. destruct (run (ud_alloc nb_par) h) as [ud|]; [eauto|]. contradiction.
Qed.
Print Assumptions C33_union_domain_accepts.

(** After an accepted history the union holds the domains in the order they were added, the numbers of
    variables are the maxima of what was added, and each variable has the last name given to it. *)
Theorem C33_union_domain_contents :
  forall (D : Type) (nb_par : nat) (h : list (call D)) (ud : udom D),
  run (ud_alloc nb_par) h = Some ud ->
  u_domains ud = added h /\
  (forall type n, size nb_par (added h) type n -> u_n ud type = n) /\
  (forall type, match u_name ud type with
                | None => forall i s, ~ In (SetName type i s) h
                | Some tab => List.length tab = u_n ud type /\ forall i, i < List.length tab -> exists o, nth_error tab i = Some o /\ last_name type (Z.of_nat i) h o
                end).
Proof.
  intros D nb_par h ud E. pose proof (run_spec nb_par h) as H. rewrite E in H. destruct H as [_ [Id In' It Iname]].
  split; [exact Id|]. split.
  - intros type n Hn. apply size_sz in Hn as [_ ->]. apply In'.
  - intros type. specialize (It type). pose proof (Iname type) as Hn. unfold name_of in Hn. destruct (u_name ud type) as [tab|].
    + destruct It as (_ & _ & Hl). split; [rewrite In'; exact Hl|]. intros i Hi. specialize (Hn (Z.of_nat i)).
      destruct (Z.ltb_spec (Z.of_nat i) 0); [lia|]. rewrite Nat2Z.id in Hn. destruct (nth_error tab i) as [o|] eqn:Eo; [|apply nth_error_None in Eo; lia].
      exists o. split; [reflexivity|]. rewrite (nth_error_nth _ _ None Eo) in Hn. exact Hn.
    + intros i s Hs. apply It. exists i, s. exact Hs.
Qed.
Print Assumptions C33_union_domain_contents.

(** Two statements, then a parameter, an iterator (twice) and a scattering dimension are named; an iterator
    that does not exist, or a statement added afterwards, is refused. *)
Definition history33 : list (call nat) :=
  [SetName CLOOG_PARAM 0 "N"; Add (stm (Some "S1"%string) 1 (Some 3) 0); Add (stm None 2 (Some 1) 7);
   SetName CLOOG_ITER 1 "x"; SetName CLOOG_ITER 1 "y"; SetName CLOOG_SCAT 2 "t"].
Example C33_example :
  (exists ud, run (ud_alloc 1) history33 = Some ud /\ u_n ud CLOOG_ITER = 2 /\ u_n ud CLOOG_SCAT = 3 /\
     u_name ud CLOOG_ITER = Some [None; Some "y"%string] /\ allowed 1 history33) /\
  run (ud_alloc 1) (history33 ++ [SetName CLOOG_ITER 2 "z"]) = None /\
  run (ud_alloc 1) (history33 ++ [Add (stm None 0 None 1)]) = None.
Proof.
  split; [|split; reflexivity]. eexists. split; [reflexivity|]. repeat (split; [reflexivity|]).
  apply (C33_union_domain_accepts nat). eexists. reflexivity.
Qed.
