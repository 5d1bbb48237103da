(** Property C47: union domains made from isl objects.  Vocabulary: IslSpec.v. *)
From Coq Require Import ZArith List Bool Arith String Ascii Lia.
From Verif Require Import NamesModel NamesSpec IslModel IslSpec IslProofs.
Import ListNotations.

(** A set becomes one statement with the name of its tuple; the parameters keep their names, every
    dimension gets a name, all these names are different, and a given name that does not start the
    name of a parameter or of an earlier dimension is kept. *)
Theorem C47_from_set_partial :
  forall (D : Type) (sp : isl_space) (d : D),
  exists ud its, from_isl_set sp d = Some ud /\
    u_domains ud = [{| d_name := sp_tuple sp; d_dom := d; d_dim := List.length (sp_dims sp); d_scat := None; d_usr := 0 |}] /\
    names_are ud CLOOG_PARAM (sp_params sp) /\ names_are ud CLOOG_ITER its /\ names_are ud CLOOG_SCAT [] /\
    List.length its = List.length (sp_dims sp) /\
    (names_safe sp -> NoDup (sp_params sp) -> NoDup (its ++ sp_params sp)) /\
    (forall i x, nth_error (sp_dims sp) i = Some (Some x) -> (forall y, In y (sp_params sp) -> String.prefix x y = false) ->
       (forall j y, j < i -> nth_error (sp_dims sp) j = Some (Some y) -> String.prefix x y = false) -> nth_error its i = Some x).
Proof.
  intros D sp d. destruct (from_set_ok sp d) as (ud & E & Dm & N1 & N2 & N3). exists ud, (iterators sp). repeat (split; [assumption|]). split; [|split].
  - unfold iterators. now rewrite map_length, seq_length.
  - apply all_distinct.
  - intros i x. apply kept.
Qed.
Print Assumptions C47_from_set_partial.

(** A union map becomes one statement for every map, with its name, its domain and its own
    scattering; the numbers of iterators and of scattering dimensions are the largest ones. *)
Theorem C47_from_union_map :
  forall (D : Type) (params : list string) (ms : list (isl_map D)),
  exists ud, from_isl_union_map params ms = Some ud /\
    map d_name (u_domains ud) = map m_tuple ms /\ map d_dom (u_domains ud) = map m_dom ms /\
    map d_dim (u_domains ud) = map m_in ms /\ map d_scat (u_domains ud) = map (fun m => Some (m_out m)) ms /\
    names_are ud CLOOG_PARAM params /\ u_name ud CLOOG_ITER = None /\ u_name ud CLOOG_SCAT = None /\
    is_max (map m_in ms) (u_n ud CLOOG_ITER) /\ is_max (map m_out ms) (u_n ud CLOOG_SCAT).
Proof.
  intros D params ms. destruct (from_map_ok params ms) as (ud & E & Dm & N & I & S & NI & NS). exists ud. split; [exact E|]. rewrite Dm, !map_map. repeat (split; [reflexivity|]).
  split; [exact N|]. split; [exact I|]. split; [exact S|]. rewrite NI, NS.
  assert (M : forall l, is_max l (list_max l)).
  { intros l. split; [|induction l as [|x l IH]; [now left|]].
    - intros x Hx. pose proof (proj1 (list_max_le l (list_max l)) (Nat.le_refl _)) as F. rewrite Forall_forall in F. now apply F.
    - right. cbn. destruct (Nat.max_spec x (list_max l)) as [[L Em]|[L Em]]; unfold list_max in *; rewrite Em; [|now left]. destruct IH as [Z|IH]; [lia|now right]. }
  split; apply M.
Qed.
Print Assumptions C47_from_union_map.

(** the dimensions of { S[i, 0, ii, i] } with a parameter n: the constant has no name *)
Definition space47 : isl_space := {| sp_tuple := Some "S"%string; sp_params := ["n"%string]; sp_dims := [Some "i"%string; None; Some "ii"%string; Some "i"%string] |}.
Example C47_from_set_example : names_safe space47 /\ exists ud, from_isl_set space47 0 = Some ud /\
  u_name ud CLOOG_ITER = Some (map Some ["i"; "i1"; "ii"; "i_2"]%string).
Proof.
  split; [|eexists; split; [vm_compute; reflexivity|reflexivity]].
  assert (G : forall x, given space47 x -> x = "n"%string \/ x = "i"%string \/ x = "ii"%string) by (intros x [H|H]; cbn in H; intuition congruence).
  assert (U : forall s a b, In s ["n"; "i"; "ii"]%string -> s <> append a (String "_"%char b)).
  { intros s a b [<-|[<-|[<-|[]]]] E; destruct a as [|c1 [|c2 [|c3 a]]]; discriminate E. }
  constructor.
  - intros x y k Hx _. apply U. destruct (G x Hx) as [->|[-> | ->]]; cbn; auto.
  - intros x i k Hx. apply U. destruct (G x Hx) as [->|[-> | ->]]; cbn; auto.
  - intros i j H L. assert (i = 1) as -> by (destruct i as [|[|[|[|[|i]]]]]; cbn in H; congruence). destruct j as [|[|[|[|[|j]]]]]; cbn; discriminate.
Qed.
Definition map47 (s : string) (i o : nat) : isl_map nat := {| m_tuple := Some s; m_in := i; m_out := o; m_dom := i |}.
Example C47_from_union_map_example : exists ud, from_isl_union_map ["n"; "m"]%string [map47 "A" 2 3; map47 "B" 1 3] = Some ud /\
  u_n ud CLOOG_ITER = 2 /\ u_n ud CLOOG_SCAT = 3 /\ map d_name (u_domains ud) = [Some "A"; Some "B"]%string.
Proof. eexists. split; [vm_compute; reflexivity|]. repeat split. Qed.

(** Names can coincide: a default name with a later given name (the dimensions of { S[0, i0] }), and a
    name made unique with a given one. *)
Theorem C47_names_distinct_refuted :
  (exists ud : udom nat, from_isl_set {| sp_tuple := None; sp_params := []; sp_dims := [None; Some "i0"%string] |} 0 = Some ud /\
    names_are ud CLOOG_ITER ["i0"; "i0"]%string) /\
  exists ud : udom nat, from_isl_set {| sp_tuple := None; sp_params := ["ab"%string]; sp_dims := [Some "a"%string; Some "a_1"%string] |} 0 = Some ud /\
    names_are ud CLOOG_ITER ["a_1"; "a_1"]%string.
Proof. split; (eexists; split; [vm_compute; reflexivity|split; reflexivity]). Qed.
Print Assumptions C47_names_distinct_refuted.

(** The documentation says that the names are those of the input; a name that starts the name of a
    parameter is changed although it is different from all others. *)
Theorem C47_names_kept_refuted :
  exists ud : udom nat, from_isl_set {| sp_tuple := None; sp_params := ["n"; "ib"]%string; sp_dims := [Some "i"%string; Some "j"%string] |} 0 = Some ud /\
    names_are ud CLOOG_ITER ["i_1"; "j"]%string.
Proof. eexists; split; [vm_compute; reflexivity|split; reflexivity]. Qed.
Print Assumptions C47_names_kept_refuted.
