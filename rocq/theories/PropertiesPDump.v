(** C60: the dump of a program is an input file for it.  Vocabulary: PDumpSpec.v, InputSpec.v, TextSpec.v *)
From Coq Require Import ZArith List Bool Arith String Ascii Lia.
From Verif Require Import PprintModel PprintSpec OptionsModel NamesModel NamesSpec TextModel TextSpec TextProofs PropertiesText InputModel InputSpec InputProofs PropertiesInput PDumpModel PDumpSpec PDumpProofs.
Import ListNotations.
Local Open Scope string_scope.
Local Open Scope nat_scope.
Local Arguments Z.eqb : simpl never.

(** A program dumped without scatterings (they have been applied): the file is read as the language, the context,
    the domains in order, the parameters' names and, as iterators, the names of scattering dimensions and
    iterators.  Provided isl reads its polyhedra back, the names are words that fit on a line, one for each
    dimension, and there is a statement (see C60_no_statement_refuted). *)
Theorem C60_without_scattering_partial :
  forall (D Sc : Type) (print_plain : D -> option string) (print_dom : D -> string) (print_scat : Sc -> string)
    (read_ctx : string -> option (D * string)) (read_dom : nat -> string -> option (D * string)) (read_scat : D -> string -> option (Sc * string))
    (par_dim dom_dim : D -> nat) (scat_dim : Sc -> nat) (c : lang) (p : program D),
  dumpable D print_plain print_dom read_ctx read_dom par_dim dom_dim c p (p_scats D p ++ p_iters D p)%list ->
  exists text inp' rest,
    program_dump D Sc print_plain print_dom print_scat p [] = Some text /\
    input_read D Sc read_ctx read_dom read_scat par_dim dom_dim scat_dim text = Some (c, inp', rest) /\
    is_program D Sc p (p_scats D p ++ p_iters D p)%list [] (map (fun _ => None) (p_loops D p)) inp' /\ noise rest.
Proof. intros. apply dump_without. assumption. Qed.
Print Assumptions C60_without_scattering_partial.

(** A program dumped with the scatterings s, cs: the first line of the first scattering is printed behind the
    comment "# Scattering functions", so the file is read back if isl reads the first scattering from its text
    without that line (see C60_first_line_refuted). *)
Theorem C60_with_scattering_partial :
  forall (D Sc : Type) (print_plain : D -> option string) (print_dom : D -> string) (print_scat : Sc -> string)
    (read_ctx : string -> option (D * string)) (read_dom : nat -> string -> option (D * string)) (read_scat : D -> string -> option (Sc * string))
    (par_dim dom_dim : D -> nat) (scat_dim : Sc -> nat) (c : lang) (p : program D) (s : Sc) (cs : list Sc) (first_line others : string),
  dumpable D print_plain print_dom read_ctx read_dom par_dim dom_dim c p (p_iters D p) ->
  List.length (s :: cs) = List.length (p_loops D p) ->
  print_scat s = first_line ++ newline ++ others -> all_chars not_nl first_line = true -> String.length first_line <= 900 ->
  match p_loops D p with
  | d :: ds => reads_on others (read_scat d) s /\ Forall (fun q => reads_on (print_scat (snd q)) (read_scat (fst q)) (snd q)) (List.combine ds cs)
  | [] => False
  end -> (forall c, In c cs -> visible (print_scat c)) ->
  good_names (p_scats D p) -> greatest (List.length (p_scats D p)) (map scat_dim (s :: cs)) ->
  exists text inp' rest,
    program_dump D Sc print_plain print_dom print_scat p (s :: cs) = Some text /\
    input_read D Sc read_ctx read_dom read_scat par_dim dom_dim scat_dim text = Some (c, inp', rest) /\
    is_program D Sc p (p_iters D p) (p_scats D p) (map Some (s :: cs)) inp' /\ rest = "".
Proof. intros. eapply dump_with; eassumption. Qed.
Print Assumptions C60_with_scattering_partial.

(** The dump of a program without statements cannot be read. *)
Theorem C60_no_statement_refuted :
  forall (D Sc : Type) (print_plain : D -> option string) (print_dom : D -> string) (print_scat : Sc -> string)
    (read_ctx : string -> option (D * string)) (read_dom : nat -> string -> option (D * string)) (read_scat : D -> string -> option (Sc * string))
    (par_dim dom_dim : D -> nat) (scat_dim : Sc -> nat) (c : lang) (p : program D) (scattering : list Sc),
  p_lang D p = lang_letter c -> (exists t, print_plain (p_ctx D p) = Some t /\ reads_on t read_ctx (p_ctx D p)) ->
  good_names (p_pars D p) -> List.length (p_pars D p) = par_dim (p_ctx D p) -> (Z.of_nat (List.length (p_pars D p)) < 2 ^ 31 - 1)%Z ->
  p_loops D p = [] ->
  exists text, program_dump D Sc print_plain print_dom print_scat p scattering = Some text /\
    input_read D Sc read_ctx read_dom read_scat par_dim dom_dim scat_dim text = None.
Proof. intros. eapply dump_empty; eauto. Qed.
Print Assumptions C60_no_statement_refuted.

(** An instance.  Domains are matrices as in C44.  Scatterings are unions of matrices in a format like isl's: a line
    with the number of matrices, and each matrix after an empty line; a matrix alone is read too. *)
Definition union_print (l : list matrix) : string := nat_text (List.length l) ++ newline ++ fold_right (fun m t => newline ++ matrix_print m ++ t) "" l.
Fixpoint read_many (n : nat) (f : string) : option (list matrix * string) :=
  match n with
  | O => Some ([], f)
  | S n' => match matrix_read f with
            | Some (m, f1) => match read_many n' f1 with Some (l, f2) => Some (m :: l, f2) | None => None end
            | None => None
            end
  end.
Definition union_read (f : string) : option (list matrix * string) :=
  match next_line f with
  | None => None
  | Some (line, _, rest) =>
    match scan_number line with
    | None => None
    | Some (n, line') =>
      match scan_number line' with
      | None => read_many (Z.to_nat n) rest
      | Some _ => match matrix_read f with Some (m, f1) => Some ([m], f1) | None => None end
      end
    end
  end.
Definition union_dim (l : list matrix) : nat := match l with m :: _ => mat_dim m | [] => 0 end.
Lemma mat_reads_on m : mat_ok m -> reads_on (matrix_print m) matrix_read m.
Proof.
  intros (A & B & C & D) s n x N K V. exists n. split; [exact K|].
  rewrite <- app_assoc_s. apply C41_round_trip_partial; try assumption. destruct (C41_printed m) as (s' & t & N' & R & E). exists (s ++ s'), t. split; [apply noise_app; assumption|]. split; [exact R|].
  rewrite E, !app_assoc_s. reflexivity.
Qed.
Lemma count_reads_on m : mat_ok m -> reads_on (union_print [m]) union_read [m].
Proof.
  intros H s n x N K V. unfold union_read, union_print. cbn [fold_right List.length]. rewrite app_nil_s.
  replace (s ++ (nat_text 1 ++ newline ++ newline ++ matrix_print m) ++ n ++ x) with (s ++ (nat_text 1 ++ "") ++ newline ++ (newline ++ matrix_print m ++ n ++ x)) by (rewrite !app_assoc_s; reflexivity).
  destruct (number_next 1 "" s (newline ++ matrix_print m ++ n ++ x) N) as (q & ->); [reflexivity|reflexivity|cbn; lia|reflexivity|].
  change (scan_number ((nat_text 1 ++ "") ++ newline)) with (Some (1%Z, newline)). cbn iota. change (scan_number newline) with (@None (Z * string)). cbn iota.
  change (Z.to_nat 1) with 1. cbn [read_many]. destruct (mat_reads_on m H newline n x noise1 K V) as (n' & N' & ->). exists n'. split; [exact N'|reflexivity].
Qed.
Lemma lone_reads_on m : mat_ok m -> List.length (mx_rows m) = 1 -> mx_cols m = 3 -> reads_on (newline ++ matrix_print m) union_read [m].
Proof.
  intros H L C s n x N K V. destruct (mat_reads_on m H (s ++ newline) n x) as (n' & N' & E); [apply noise_app; [exact N|exact noise1]|exact K|exact V|].
  exists n'. split; [exact N'|]. unfold union_read.
  replace (s ++ (newline ++ matrix_print m) ++ n ++ x) with ((s ++ newline) ++ matrix_print m ++ n ++ x) by (rewrite !app_assoc_s; reflexivity).
  assert (Q : exists q rest, next_line ((s ++ newline) ++ matrix_print m ++ n ++ x) = Some ((nat_text 1 ++ " 3") ++ newline, q, rest)).
  { unfold matrix_print. rewrite L, C. destruct (number_next 1 " 3" (s ++ newline) (structure_text "" "" (mx_rows m) ++ n ++ x)) as (q & Q); [apply noise_app; [exact N|exact noise1]|reflexivity|reflexivity|cbn; lia|reflexivity|].
    exists q, (structure_text "" "" (mx_rows m) ++ n ++ x). rewrite <- Q. f_equal. }
  destruct Q as (q & rest & ->). change (scan_number ((nat_text 1 ++ " 3") ++ newline)) with (Some (1%Z, " 3" ++ newline)). cbn iota. change (scan_number (" 3" ++ newline)) with (Some (3%Z, newline)). cbn iota. rewrite E. reflexivity.
Qed.

(** two statements with two dimensions, one parameter, one scattering dimension *)
Definition ex_program (l : list matrix) : program matrix :=
  {| p_lang := "f"; p_ctx := ex_ctx; p_pars := ["N"]; p_scats := ["t"]; p_iters := ["i"; "j"]; p_loops := l |}.
Definition scat1 (k : Z) : matrix := {| mx_cols := 3; mx_rows := [[1; 0; k]]%Z |}.
Definition pdump := program_dump matrix (list matrix) (fun m => Some (matrix_print m)) matrix_print union_print.
Definition pread := input_read matrix (list matrix) matrix_read (fun _ => matrix_read) (fun _ => union_read) mat_par mat_dim union_dim.
Definition ex_pdump : string := "# CLooG -> CLooG
# This is an automatic dump of a CLooG input file from a CloogProgram data
# structure. WARNING: it is highly dangerous and MAY be correct ONLY if
# - it has been dumped before loop generation.
# - option -noscalars is used (it removes scalar dimensions otherwise)
# - option -l is at least the original scattering dimension number
# ASK THE AUTHOR IF YOU *NEED* SOMETHING MORE ROBUST
# Language: FORTRAN
f

# Context (1 parameter(s)):
1 2
1 4 
1 # Parameter name(s)
N 

# Statement number:
2

# Iteration domain of statement 1.
2 4
1 0 0 0 
1 -1 0 5 
0 0 0 # For future options.

# Iteration domain of statement 2.
2 4
1 0 0 0 
1 -1 0 -3 
0 0 0 # For future options.


1 # Iterator name(s)
i j 

# --------------------- SCATTERING --------------------
2 # Scattering functions1

1 3
1 0 5 
1

1 3
1 0 7 

1 # Scattering dimension name(s)
t ".
Lemma ex_dumpable : dumpable matrix (fun m => Some (matrix_print m)) matrix_print matrix_read (fun _ => matrix_read) mat_par mat_dim LangFortran (ex_program [ex_dom 5; ex_dom (-3)]) ["i"; "j"].
Proof.
  split; cbn [ex_program p_lang p_ctx p_pars p_iters p_loops].
  - reflexivity.
  - eexists. split; [reflexivity|]. apply mat_reads_on. small.
  - constructor; [|constructor; [|constructor]]; apply mat_reads_on; small.
  - split; [|reflexivity]. split; [|cbn; lia]. repeat constructor; try discriminate; cbn; lia.
  - split; [split; [|cbn; lia]; repeat constructor; try discriminate; cbn; lia|]. split; [left; reflexivity|]. intros m [<-|[<-|[]]]; apply Nat.leb_le; reflexivity.
  - split; reflexivity.
Qed.
Example C60_with_scattering_ex :
  pdump (ex_program [ex_dom 5; ex_dom (-3)]) [[scat1 5]; [scat1 7]] = Some ex_pdump /\
  exists inp' rest, pread ex_pdump = Some (LangFortran, inp', rest) /\
    is_program matrix (list matrix) (ex_program [ex_dom 5; ex_dom (-3)]) ["i"; "j"] ["t"] (map Some [[scat1 5]; [scat1 7]]) inp' /\ rest = "".
Proof.
  assert (E : pdump (ex_program [ex_dom 5; ex_dom (-3)]) [[scat1 5]; [scat1 7]] = Some ex_pdump) by (vm_compute; reflexivity). split; [exact E|].
  destruct (C60_with_scattering_partial matrix (list matrix) (fun m => Some (matrix_print m)) matrix_print union_print matrix_read (fun _ => matrix_read) (fun _ => union_read) mat_par mat_dim union_dim
    LangFortran (ex_program [ex_dom 5; ex_dom (-3)]) [scat1 5] [[scat1 7]] "1" (newline ++ matrix_print (scat1 5))) as (text & inp' & rest & ED & ER & HP & HR).
  - apply ex_dumpable.
  - reflexivity.
  - vm_compute. reflexivity.
  - reflexivity.
  - cbn. lia.
  - cbn [ex_program p_loops List.combine]. split; [apply lone_reads_on; [small|reflexivity|reflexivity]|]. constructor; [|constructor]. cbn [fst snd]. apply count_reads_on. small.
  - intros c [<-|[]]. vm_compute. reflexivity.
  - split; [|cbn; lia]. repeat constructor; try discriminate; cbn; lia.
  - split; [left; reflexivity|]. intros m [<-|[<-|[]]]; apply Nat.leb_le; reflexivity.
  - exists inp', rest. assert (T : text = ex_pdump). { unfold pdump in E. rewrite E in ED. symmetry. apply (f_equal (fun o => match o with Some t => t | None => "" end)) in ED. exact ED. }
    rewrite T in ER. split; [exact ER|]. split; [exact HP|exact HR].
Qed.
(** the same program with its scatterings applied *)
Example C60_without_scattering_ex :
  dumpable matrix (fun m => Some (matrix_print m)) matrix_print matrix_read (fun _ => matrix_read) mat_par mat_dim LangC
    {| p_lang := "c"; p_ctx := ex_ctx; p_pars := ["N"]; p_scats := ["t"]; p_iters := ["i"]; p_loops := [ex_dom 5] |} ["t"; "i"].
Proof.
  split; cbn [p_lang p_ctx p_pars p_iters p_loops].
  - reflexivity.
  - eexists. split; [reflexivity|]. apply mat_reads_on. small.
  - constructor; [|constructor]; apply mat_reads_on; small.
  - split; [|reflexivity]. split; [|cbn; lia]. repeat constructor; try discriminate; cbn; lia.
  - split; [split; [|cbn; lia]; repeat constructor; try discriminate; cbn; lia|]. split; [left; reflexivity|]. intros m [<-|[]]; apply Nat.leb_le; reflexivity.
  - split; reflexivity.
Qed.
Example C60_no_statement_ex : exists text, pdump (ex_program []) [] = Some text /\ pread text = None.
Proof.
  apply C60_no_statement_refuted with (c := LangFortran); try reflexivity.
  - eexists. split; [reflexivity|]. apply mat_reads_on. small.
  - split; [|cbn; lia]. repeat constructor; try discriminate; cbn; lia.
Qed.

(** When the first scattering is a union of several polyhedra the file is not read back: the same program with its
    scatterings in the other order is. *)
Theorem C60_first_line_refuted :
  reads_on (union_print [scat1 5; scat1 6]) union_read [scat1 5; scat1 6] /\ reads_on (union_print [scat1 7]) union_read [scat1 7] /\
  (exists text, pdump (ex_program [ex_dom 5; ex_dom (-3)]) [[scat1 5; scat1 6]; [scat1 7]] = Some text /\
    (forall c inp' rest, pread text = Some (c, inp', rest) -> map d_dom (u_domains (in_ud _ _ inp')) <> [(ex_dom 5, Some [scat1 5; scat1 6]); (ex_dom (-3), Some [scat1 7])])) /\
  exists text inp', pdump (ex_program [ex_dom 5; ex_dom (-3)]) [[scat1 7]; [scat1 5; scat1 6]] = Some text /\
    pread text = Some (LangFortran, inp', "") /\ map d_dom (u_domains (in_ud _ _ inp')) = [(ex_dom 5, Some [scat1 7]); (ex_dom (-3), Some [scat1 5; scat1 6])].
Proof.
  split; [|split; [|split]].
  - intros s n x N K V. unfold union_read, union_print. cbn [fold_right List.length]. rewrite app_nil_s.
    replace (s ++ (nat_text 2 ++ newline ++ newline ++ matrix_print (scat1 5) ++ newline ++ matrix_print (scat1 6)) ++ n ++ x)
      with (s ++ (nat_text 2 ++ "") ++ newline ++ (newline ++ matrix_print (scat1 5) ++ newline ++ (matrix_print (scat1 6) ++ n ++ x))) by (rewrite !app_assoc_s; reflexivity).
    match goal with |- context [(nat_text 2 ++ "") ++ newline ++ ?r] => destruct (number_next 2 "" s r N) as (q & ->); [reflexivity|reflexivity|cbn; lia|reflexivity|] end.
    change (scan_number ((nat_text 2 ++ "") ++ newline)) with (Some (2%Z, newline)). cbn iota. change (scan_number newline) with (@None (Z * string)). cbn iota.
    change (Z.to_nat 2) with 2. cbn [read_many].
    destruct (mat_reads_on (scat1 5) ltac:(small) newline newline (matrix_print (scat1 6) ++ n ++ x) noise1 noise1 eq_refl) as (n' & N' & ->).
    destruct (mat_reads_on (scat1 6) ltac:(small) n' n x N' K V) as (n2 & N2 & ->). exists n2. split; [exact N2|reflexivity].
  - apply count_reads_on. small.
  - eexists. split; [vm_compute; reflexivity|]. intros c inp' rest E. vm_compute in E. clear -E. inversion E; subst; clear E. intros H. vm_compute in H. discriminate H.
  - eexists _, _. split; [vm_compute; reflexivity|]. split; [vm_compute; reflexivity|vm_compute; reflexivity].
Qed.
Print Assumptions C60_first_line_refuted.
