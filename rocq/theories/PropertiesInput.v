(** C44: a dumped input file is read back as the same input.  Vocabulary: InputSpec.v, TextSpec.v *)
From Coq Require Import ZArith List Bool Arith String Ascii Lia.
From Verif Require Import PprintModel PprintSpec OptionsModel NamesModel NamesSpec TextModel TextSpec TextProofs PropertiesText InputModel InputSpec InputProofs.
Import ListNotations.
Local Open Scope string_scope.
Local Open Scope nat_scope.
Local Arguments Z.eqb : simpl never.

(** For any input made with the union-domain calls, provided that each polyhedron of it is read back by isl, that
    its names are words of less than 50 characters, all given or none of each kind, and fit on a line, and that
    all statements have a scattering or none has: the dump succeeds, reading it gives the language and the same
    input, and leaves nothing but empty lines.  Missing: the names of statements and the user's pointers, which
    are not in the file, and the inputs of the refutations below. *)
Theorem C44_round_trip_partial :
  forall (D Sc : Type) (print_dom : D -> string) (print_scat : Sc -> string)
    (read_ctx : string -> option (D * string)) (read_dom : nat -> string -> option (D * string)) (read_scat : D -> string -> option (Sc * string))
    (par_dim dom_dim : D -> nat) (scat_dim : Sc -> nat) (language : lang) (inp : input D Sc),
  built D Sc par_dim dom_dim scat_dim inp ->
  reads_back (print_dom (in_ctx _ _ inp)) read_ctx (in_ctx _ _ inp) ->
  Forall (fun s => good_label (d_name s) /\ reads_back (print_dom (fst (d_dom s))) (read_dom (par_dim (in_ctx _ _ inp))) (fst (d_dom s)) /\
                   forall c, snd (d_dom s) = Some c -> reads_back (print_scat c) (read_scat (fst (d_dom s))) c) (u_domains (in_ud _ _ inp)) ->
  (forall t, names_ok D Sc (in_ud _ _ inp) t) -> same_kind D Sc (u_domains (in_ud _ _ inp)) ->
  (Z.of_nat (List.length (u_domains (in_ud _ _ inp))) < 2 ^ 31 - 1)%Z ->
  exists text inp' rest,
    dump D Sc print_dom print_scat language inp = Some text /\
    input_read D Sc read_ctx read_dom read_scat par_dim dom_dim scat_dim text = Some (language, inp', rest) /\
    same_input D Sc inp' inp /\ noise rest.
Proof. intros. apply dump_read; assumption. Qed.
Print Assumptions C44_round_trip_partial.

(** An instance: polyhedra are matrices, in the format of C41, with as many parameters as the first row's first
    entry says (it is no constraint), all other columns but the last being iterators. *)
Definition mat_par (m : matrix) : nat := match mx_rows m with (z :: _) :: _ => Z.to_nat z | _ => 0 end.
Definition mat_dim (m : matrix) : nat := mx_cols m - mat_par m - 1.
Definition mat_ok (m : matrix) : Prop :=
  Forall (fun r => List.length r = mx_cols m /\ String.length (row_text r) <= 1022) (mx_rows m) /\ (mx_rows m <> [] -> 0 < mx_cols m) /\
  (Z.of_nat (List.length (mx_rows m)) < 2 ^ 32)%Z /\ (Z.of_nat (mx_cols m) < 2 ^ 32)%Z.
Lemma mat_reads m : mat_ok m -> reads_back (matrix_print m) matrix_read m.
Proof.
  intros (A & B & C & D) s rest N. exists (newline ++ rest). split; [|right; exists ""; split; reflexivity].
  rewrite <- app_assoc_s. apply C41_round_trip_partial; try assumption. destruct (C41_printed m) as (s' & t & N' & R & E). exists (s ++ s'), t. split; [apply noise_app; assumption|]. split; [exact R|].
  rewrite E, !app_assoc_s. reflexivity.
Qed.
Definition ex_ctx : matrix := {| mx_cols := 2; mx_rows := [[1; 4]]%Z |}.
Definition ex_dom (k : Z) : matrix := {| mx_cols := 4; mx_rows := [[1; 0; 0; 0]; [1; -1; 0; k]]%Z |}.
Definition ex_scat (k : Z) : matrix := {| mx_cols := 3; mx_rows := [[1; 0; k]]%Z |}.
Definition ex_made (name : string) (k : Z) : statement matrix matrix := made matrix matrix mat_dim mat_dim (Some name) (ex_dom k) (Some (ex_scat k)) 7.
Definition ex_history : list (call (matrix * option matrix)) :=
  [SetName CLOOG_PARAM 0 "N"; Add (ex_made "S1" 5); Add (ex_made "S2" (-3)); SetName CLOOG_ITER 0 "i"; SetName CLOOG_ITER 1 "j"].
Definition ex_ud : udom (matrix * option matrix) := match run (ud_alloc 1) ex_history with Some ud => ud | None => ud_alloc 0 end.
Definition ex_input : input matrix matrix := {| in_ctx := ex_ctx; in_ud := ex_ud |}.
Definition ex_dump : string := "# CLooG -> CLooG
# This is an automatic dump of a CLooG input file from a CloogInput data
# structure.

# Language: FORTRAN
f

# Context:
1 2
1 4 

1 # Parameter name(s)
N 

# Statement number:
2

# Iteration domain of statement 1 (S1).
2 4
1 0 0 0 
1 -1 0 5 

0 0 0 # For future options.

# Iteration domain of statement 2 (S2).
2 4
1 0 0 0 
1 -1 0 -3 

0 0 0 # For future options.


1 # Iterator name(s)
i j 
# --------------------- SCATTERING --------------------
2 # Scattering functions

# Scattering of statement 1 (S1).
1 3
1 0 5 

# Scattering of statement 2 (S2).
1 3
1 0 -3 

0 # Scattering dimension name(s)
".
Ltac small := repeat constructor; cbn; try lia; try (apply Nat.leb_le; vm_compute; reflexivity).
Example C44_round_trip_ex :
  dump matrix matrix matrix_print matrix_print LangFortran ex_input = Some ex_dump /\
  exists text inp' rest,
    dump matrix matrix matrix_print matrix_print LangFortran ex_input = Some text /\
    input_read matrix matrix matrix_read (fun _ => matrix_read) (fun _ => matrix_read) mat_par mat_dim mat_dim text = Some (LangFortran, inp', rest) /\
    same_input matrix matrix inp' ex_input /\ noise rest.
Proof.
  split; [vm_compute; reflexivity|].
  assert (R : run (ud_alloc 1) ex_history = Some ex_ud) by reflexivity.
  apply C44_round_trip_partial.
  - exists ex_history. split; [exact R|]. cbn [in_ud ex_input ex_history In]. intros s [H|[H|[H|[H|[H|[]]]]]]; try discriminate; injection H as <-; reflexivity.
  - apply mat_reads. small.
  - repeat constructor; cbn [ex_made made d_name d_dom fst snd good_label]; try (cbn; lia); try reflexivity; try (apply mat_reads; small); intros c [= <-]; apply mat_reads; small.
  - intro t. unfold names_ok.
    assert (Q : (t = CLOOG_PARAM \/ t = CLOOG_ITER) \/ u_name (in_ud matrix matrix ex_input) t = None).
    { destruct (Z.eq_dec t CLOOG_PARAM) as [->|A]; [auto|]. destruct (Z.eq_dec t CLOOG_ITER) as [->|B]; [auto|]. right.
      destruct t as [|[p|p|]|p]; [exfalso; apply A; reflexivity|reflexivity|reflexivity|exfalso; apply B; reflexivity|reflexivity]. }
    destruct Q as [[-> | ->]|Q]; [exists ["N"]|exists ["i"; "j"]|rewrite Q; exact I]; (split; [reflexivity|]); (split; [|apply Nat.leb_le; vm_compute; reflexivity]); repeat constructor; try discriminate; cbn; lia.
  - left. intros s [<-|[<-|[]]]; discriminate.
  - reflexivity.
Qed.

(** *** what is not read back *)
(** If the first statement has no scattering, the scatterings of the others are not in the file. *)
Theorem C44_lost_scattering_refuted :
  forall (D Sc : Type) (print_dom : D -> string) (print_scat print_scat' : Sc -> string) (language : lang) (ctx : D) (ud : udom (D * option Sc)) s l,
  u_domains ud = s :: l -> snd (d_dom s) = None ->
  dump D Sc print_dom print_scat language {| in_ctx := ctx; in_ud := ud |} = dump D Sc print_dom print_scat' language {| in_ctx := ctx; in_ud := ud |}.
Proof. intros D Sc pd p1 p2 lg ctx ud s l E N. unfold dump. cbn [in_ud in_ctx]. rewrite E, N. reflexivity. Qed.
Print Assumptions C44_lost_scattering_refuted.
(** If the first statement has a scattering and another one does not, the dump fails. *)
Theorem C44_missing_scattering_refuted :
  forall (D Sc : Type) (print_dom : D -> string) (print_scat : Sc -> string) (language : lang) (ctx : D) (ud : udom (D * option Sc)) s l s',
  u_domains ud = s :: l -> snd (d_dom s) <> None -> In s' l -> snd (d_dom s') = None ->
  dump D Sc print_dom print_scat language {| in_ctx := ctx; in_ud := ud |} = None.
Proof.
  intros D Sc pd ps lg ctx ud s l s' E N I N'. unfold dump. cbn [in_ud in_ctx]. rewrite E. destruct (snd (d_dom s)) eqn:ES; [|contradiction].
  assert (Q : scatterings_text D Sc ps 1 (s :: l) = None); [|rewrite Q; reflexivity].
  assert (G : forall l i, In s' l -> scatterings_text D Sc ps i l = None).
  { clear - N'. induction l as [|a l IH]; intros i H; [destruct H|]. destruct H as [->|H]; cbn [scatterings_text]; [rewrite N'; reflexivity|]. rewrite (IH (S i) H). destruct (snd (d_dom a)); reflexivity. }
  apply G. right. exact I.
Qed.
Print Assumptions C44_missing_scattering_refuted.

(** If only some names of a kind are given, the others are read back as "(null)". *)
Theorem C44_unnamed_refuted :
  exists h ud text inp' rest,
    run (ud_alloc 1) h = Some ud /\ u_name ud CLOOG_ITER = Some [None; Some "j"] /\
    dump matrix matrix matrix_print matrix_print LangC {| in_ctx := ex_ctx; in_ud := ud |} = Some text /\
    input_read matrix matrix matrix_read (fun _ => matrix_read) (fun _ => matrix_read) mat_par mat_dim mat_dim text = Some (LangC, inp', rest) /\
    u_name (in_ud _ _ inp') CLOOG_ITER = Some [Some "(null)"; Some "j"].
Proof.
  exists [Add (ex_made "S1" 5); SetName CLOOG_ITER 1 "j"]. eexists _, _, _, _. split; [reflexivity|]. split; [reflexivity|]. split; [reflexivity|]. split; [vm_compute; reflexivity|]. reflexivity.
Qed.
Print Assumptions C44_unnamed_refuted.
(** A name of 50 characters or more is written past its buffer by the reader. *)
Theorem C44_long_name_refuted : forall name n rest c, all_chars (fun c => negb (is_space c)) name = true -> starts_with hash name = false -> 50 <= String.length name -> is_space c = true ->
  read_names (S n) (name ++ String c rest) = None.
Proof.
  intros name n rest c A H L C. destruct name as [|d name']; [cbn in L; lia|]. set (w := String d name') in *.
  assert (NE : w <> "") by discriminate. pose proof (scan_word_app w c rest NE A C) as SW. cbn in A, H. apply andb_true_iff in A. destruct A as (A & _). apply negb_true_iff in A.
  cbn [read_names]. replace (skip_spaces (w ++ String c rest)) with (w ++ String c rest) by (cbn; rewrite A; reflexivity). unfold w at 1. cbn [append].
  change (String d (name' ++ String c rest)) with (w ++ String c rest). rewrite SW, H. destruct (Nat.ltb_spec (String.length w) MAX_NAME) as [B|B]; [unfold MAX_NAME in B; lia|reflexivity].
Qed.
Print Assumptions C44_long_name_refuted.
Example C44_long_name_ex : read_names 1 ("a_name_that_is_really_very_long_and_does_not_fit_in_50" ++ newline) = None.
Proof. apply C44_long_name_refuted; try reflexivity. apply Nat.leb_le. reflexivity. Qed.
(** The reader skips spaces before the language but looks at the first character of the line: a language written
    after spaces is read as C. *)
Theorem C44_indented_language_refuted :
  forall (D Sc : Type) read_ctx read_dom read_scat par_dim dom_dim scat_dim s b f rest language inp rest',
  noise s -> b <> "" -> all_chars blank b = true -> String.length b <= 1000 ->
  f = s ++ (b ++ "f") ++ newline ++ rest ->
  input_read D Sc read_ctx read_dom read_scat par_dim dom_dim scat_dim f = Some (language, inp, rest') -> language = LangC.
Proof.
  intros D Sc read_ctx read_dom read_scat par_dim dom_dim scat_dim s b f rest language inp rest' N NE B L -> E. unfold input_read in E. rewrite next_line_right in E; [|exact N|].
  - destruct b as [|c b]; [contradiction|]. cbn [append] in E. destruct (read_ctx rest) as [(ctx, f2)|]; [|discriminate].
    match type of E with context [union_domain_read ?a ?b ?c ?d ?e ?g ?h ?i] => destruct (union_domain_read a b c d e g h i) as [(ud, f3)|]; [|discriminate] end.
    injection E as E _ _. rewrite <- E. destruct (Ascii.eqb_spec c "f") as [->|]; [discriminate B|reflexivity].
  - split.
    + split; [rewrite all_app; rewrite (all_weaken blank not_nl); [reflexivity| |exact B]; intros c C; unfold blank in C; apply andb_true_iff in C; exact (proj2 C)|].
      rewrite length_app_s. cbn [String.length]. apply Nat.le_lt_trans with (1000 + 1); [lia|]. apply Nat.ltb_lt. vm_compute. reflexivity.
    + rewrite app_assoc_s, skip_blanks_app by exact B. reflexivity.
Qed.
Print Assumptions C44_indented_language_refuted.
Example C44_indented_language_ex :
  match input_read matrix matrix matrix_read (fun _ => matrix_read) (fun _ => matrix_read) mat_par mat_dim mat_dim
          ("  f" ++ newline ++ "0 1" ++ newline ++ "0" ++ newline ++ "0" ++ newline ++ "0" ++ newline ++ "0" ++ newline) with
  | Some (LangC, _, _) => True | _ => False end.
Proof. vm_compute. exact I. Qed.
