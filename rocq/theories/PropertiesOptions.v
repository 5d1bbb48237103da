(** C27: the command line.  Vocabulary: OptionsSpec.v. *)
From Coq Require Import ZArith List Bool Arith String Ascii Lia.
From Verif Require Import OptionsModel OptionsSpec OptionsProofs.
Import ListNotations.
Local Open Scope Z_scope.

(** A command line with one input file, whose files can be opened and whose values are numbers that fit an int:
    it is accepted, every option has the value of its last occurrence, or its default, and the output goes to
    the last file given with -o, or to the standard output. *)
Theorem C27_last_value_wins_partial :
  forall (readable writable : string -> bool) (args : list string) (items : list item) (value : string -> Z) (name : string),
  reads args items ->
  (forall f s, In (Value f s) items -> number s (value s) /\ int_range (value s)) ->
  inputs items = [name] -> (name = "stdin"%string \/ readable name = true) ->
  (forall v, In v (outputs items) -> v = "stdout"%string \/ writable v = true) ->
  exists o, options_read readable writable args =
      Ready o name (if string_dec name "stdin" then Stdin else Infile name)
            (last (map (fun v => if string_dec v "stdout" then Stdout else Outfile v) (outputs items)) Stdout) /\
    forall f, o f = last_or (defaults f) (flat_map (given value f) items).
Proof.
  intros readable writable args items value name Hr Hv Hi Hn Ho.
  unfold options_read. rewrite (reads_run readable writable _ _ Hr). pose proof (run_result readable writable items defaults false None Stdout) as H.
  assert (Hcr : can_read readable name = true).
  { unfold can_read. destruct Hn as [->|Hn]; [reflexivity|]. rewrite Hn. apply orb_true_r. }
  assert (Hcw : forall v, In v (outputs items) -> can_write writable v = true).
  { intros v Hin. unfold can_write. destruct (Ho v Hin) as [->|E]; [reflexivity|]. rewrite E. apply orb_true_r. }
  destruct (run_items _ _ _ _ _ _ _) as [| |o n src out].
  - exfalso. destruct H as [(_ & E & _)|[(E & _)|[(_ & a & b & r & E)|[(v & Hin & E)|(v & Hin & E)]]]]; rewrite ?Hi in *; try discriminate; try congruence.
    + destruct Hin as [<-|[]]. congruence.
    + rewrite (Hcw v Hin) in E. discriminate.
  - destruct H as (E & _). congruence.
  - destruct H as (A & (B & _ & C) & _ & E). rewrite Hi in B. injection B as <-. exists o. split.
    + rewrite C, E. f_equal.
      * unfold step_src, streq. destruct (String.eqb_spec name "stdin") as [E'|E'], (string_dec name "stdin"); congruence.
      * f_equal. apply map_ext. intros v. unfold step_out, streq. destruct (String.eqb_spec v "stdout") as [E'|E'], (string_dec v "stdout"); congruence.
    + intros f. rewrite A. unfold last_or. f_equal. clear - Hv. induction items as [|it items IH]; [reflexivity|]. cbn [flat_map].
      rewrite IH by (intros g s Hin; apply Hv with g; right; exact Hin). f_equal. destruct it as [g s|fs| |v|a|]; try reflexivity. cbn [given].
      destruct (field_eq_dec g f); [|reflexivity]. destruct (Hv g s (or_introl eq_refl)) as [Hs Hr]. unfold numval. rewrite (int_value _ _ Hs Hr). reflexivity.
Qed.
Print Assumptions C27_last_value_wins_partial.

Example C27_example :
  let args := ["-l"; "3"; "-noblocks"; "-o"; "out.c"; "-l"; "-1"; "-zzz"; "in.cloog"; "-loopo"]%string in
  let items := [Value F_l "3"; Flag [(F_noblocks, 1)]; Output "out.c"; Value F_l "-1"; Unknown; Input "in.cloog"; Flag [(F_esp, 0); (F_block, 1)]]%string in
  reads args items /\ number "3" 3 /\ number "-1" (-1) /\ inputs items = ["in.cloog"%string] /\
  exists o, options_read (fun _ => true) (fun _ => true) args = Ready o "in.cloog" (Infile "in.cloog") (Outfile "out.c") /\
    map o [F_l; F_f; F_noblocks; F_esp; F_block; F_otl] = [-1; 1; 1; 0; 1; 1].
Proof.
  split; [|split; [|split; [|split]]].
  - apply R_value; [cbn; tauto|]. apply R_flag; [cbn; tauto|]. apply R_output. apply R_value; [cbn; tauto|].
    apply R_unknown; [eexists; reflexivity|cbn; intuition discriminate|]. apply R_input; [intros (s & E); discriminate|].
    apply R_flag; [cbn; tauto|]. apply R_nil.
  - apply N_plain. apply D_one. reflexivity.
  - apply (N_minus "1" 1). apply D_one. reflexivity.
  - reflexivity.
  - eexists. split; reflexivity.
Qed.

(** Whatever is accepted is a command line with one input file that can be read and outputs that can be
    written; options that no item mentions keep their defaults. *)
Theorem C27_accepted_lines :
  forall (readable writable : string -> bool) (args : list string) o name src out,
  options_read readable writable args = Ready o name src out ->
  exists items, reads args items /\ inputs items = [name] /\ (name = "stdin"%string \/ readable name = true) /\
    (forall v, In v (outputs items) -> v = "stdout"%string \/ writable v = true) /\
    forall f, (forall value it, In it items -> given value f it = []) -> o f = defaults f.
Proof.
  intros readable writable args o name src out E. unfold options_read in E.
  destruct (read_reads readable writable args defaults false None Stdout) as (items & Hr); [congruence|].
  rewrite (reads_run readable writable _ _ Hr) in E. pose proof (run_result readable writable items defaults false None Stdout) as H. rewrite E in H.
  destruct H as (A & (B & C & _) & D & _). exists items. split; [exact Hr|]. split; [exact B|]. split.
  - unfold can_read in C. apply orb_prop in C as [C|C]; [left; apply String.eqb_eq; exact C|right; exact C].
  - split.
    + intros v Hv. specialize (D v Hv). unfold can_write in D. apply orb_prop in D as [D|D]; [left; apply String.eqb_eq; exact D|right; exact D].
    + intros f Hf. rewrite A. replace (flat_map (given numval f) items) with (@nil Z); [reflexivity|]. symmetry. clear - Hf.
      induction items as [|it items IH]; [reflexivity|]. cbn. rewrite (Hf numval it) by (left; reflexivity). apply IH. intros value i Hi. apply Hf. right. exact Hi.
Qed.
Print Assumptions C27_accepted_lines.

(** A line ends with a refusal when an option lacks its argument, when there is no input or more than one ... *)
Example C27_refusals :
  options_read (fun _ => true) (fun _ => true) ["in"; "-l"]%string = Died /\
  options_read (fun _ => true) (fun _ => true) ["in"; "in2"]%string = Died /\
  options_read (fun _ => true) (fun _ => true) ["-q"]%string = Died /\
  options_read (fun _ => true) (fun _ => true) ["-h"]%string = Exited /\
  options_read (fun _ => false) (fun _ => true) ["in"]%string = Died.
Proof. repeat split; reflexivity. Qed.

(** ... but a malformed number is accepted: no text that is not a number is refused.  "abc" reads as 0, "12abc"
    as 12, 4294967301 as 5; in "-l -f 3 in" the value of -l is "-f". *)
Theorem C27_malformed_numbers_refuted :
  (forall (readable writable : string -> bool) (text : string), readable "in"%string = true ->
     exists o, options_read readable writable ["-l"; text; "in"]%string = Ready o "in" (Infile "in") Stdout) /\
  (forall v, ~ number "abc" v) /\
  (exists o, options_read (fun _ => true) (fun _ => true) ["-l"; "abc"; "in"]%string = Ready o "in" (Infile "in") Stdout /\ o F_l = 0) /\
  (exists o, options_read (fun _ => true) (fun _ => true) ["-l"; "12abc"; "in"]%string = Ready o "in" (Infile "in") Stdout /\ o F_l = 12) /\
  (exists o, options_read (fun _ => true) (fun _ => true) ["-l"; "4294967301"; "in"]%string = Ready o "in" (Infile "in") Stdout /\ o F_l = 5).
Proof.
  split; [|split; [|repeat split; eexists; split; reflexivity]].
  - intros readable writable text H. eexists. unfold options_read. cbn [read_args streq]. cbn. rewrite H. reflexivity.
  - intros v H. assert (Hs : forall w, ~ digits_of "abc" w).
    { intros w Hw. apply digits_of_first in Hw as (c & s & d & E & Hd). injection E as <- _. discriminate. }
    inversion H; subst. exact (Hs _ H0).
Qed.
Print Assumptions C27_malformed_numbers_refuted.

(** The defaults are those of cloog -help, except for -esp, which is documented as 0 and is 1. *)
Theorem C27_documented_defaults_partial :
  forall f v, In (f, v) documented -> f <> F_esp -> defaults f = v.
Proof. intros f v H Hn. cbn in H. repeat (destruct H as [E|H]; [injection E as <- <-; try reflexivity; congruence|]). contradiction. Qed.
Print Assumptions C27_documented_defaults_partial.
Theorem C27_documented_default_refuted : In (F_esp, 0) documented /\ defaults F_esp = 1.
Proof. split; [cbn; tauto|reflexivity]. Qed.
Print Assumptions C27_documented_default_refuted.
