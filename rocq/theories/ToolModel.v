(** The command as a whole: main of /repo/source/cloog.c, from the command line and the input file to
    the text that is written.  The parts are those of OptionsModel, InputModel, NamesModel,
    ProgramModel, LoopModel, ClastModel and FileModel; here is how they are put together.

    Left out: the lines that -leaks adds and the structure that -structure prints (the model gives None
    for these options), the message about allocations, OpenScop. *)
From Coq Require Import ZArith List Bool Arith String Ascii.
From Verif Require Import LoopModel ProgramModel ClastModel PprintModel FileModel EndSpec OptionsModel.
From Verif Require NamesModel InputModel.
Import ListNotations.
Local Open Scope string_scope.

(** an int used as a condition *)
Definition truth (z : Z) : bool := negb (z =? 0)%Z.
(** the fields of CloogOptions that the generator uses (loop.c, program.c:1027-1122); ls and fs cannot
    be set from the command line *)
Definition generator_options (o : opts) : options :=
  {| o_l := o F_l; o_f := o F_f; o_stop := o F_stop; o_strides := truth (o F_strides); o_sh := truth (o F_sh); o_otl := truth (o F_otl);
     o_backtrack := truth (o F_backtrack); o_first_unroll := o F_first_unroll; o_fs := None; o_ls := None;
     o_nosimplify := truth (o F_nosimplify); o_override := truth (o F_override) |}.
(** those used by cloog_program_alloc (program.c:926-935) *)
Definition alloc_options_of (o : opts) : alloc_options := {| a_noblocks := truth (o F_noblocks); a_noscalars := truth (o F_noscalars) |}.
(** those used by cloog_clast_create (clast.c:575-588, 1539, 1582, 1600, 1746); levels are at least 1, so a
    negative fsp is as good as 0 *)
Definition clast_options (o : opts) : copts :=
  {| co_otl := truth (o F_otl); co_fsp := Z.to_nat (o F_fsp); co_esp := truth (o F_esp); co_block := truth (o F_block); co_callable := truth (o F_callable) |}.
(** program.c:856-859 *)
Definition language_of (l : InputModel.lang) : language := match l with InputModel.LangC => LangC | InputModel.LangFortran => LangFortran end.

Section Tool.
Variable P : Poly.
Variable C : Scat P.
Variable rows_of : dom P -> list row.
Variable sort_exprs : list expr -> list expr.
Variable sort_eqns : list eqn -> list eqn.
Variable reduce : list (option (eqtype * row)) -> list row -> nat -> list row.
(** isl reads contexts, domains and scatterings (InputModel.v) *)
Variable read_ctx : string -> option (dom P * string).
Variable read_dom : nat -> string -> option (dom P * string).
Variable read_scat : dom P -> string -> option (smap C * string).
Variable par_dim : dom P -> nat.
(** cloog_version() and the time as it is printed in the first line *)
Variable version : string.
Variable time : option string.

Definition input := InputModel.input (dom P) (smap C).
Definition udom := NamesModel.udom (dom P * option (smap C)).
(** the domains and scatterings of the statements *)
Definition statements (ud : udom) : list (dom P * option (smap C)) := map NamesModel.d_dom (NamesModel.u_domains ud).
(** nb_scattdims: the dimension of the first scattering, program.c:909-911 *)
Definition nb_scattdims (l : list (dom P * option (smap C))) : nat :=
  match flat_map (fun x => match snd x with Some s => [s] | None => [] end) l with [] => 0 | s :: _ => s_dim C s end.
(** statement->name, program.c:892 *)
Definition statement_name (ud : udom) (n : nat) : option string :=
  match nth_error (NamesModel.u_domains ud) (n - 1) with Some d => NamesModel.d_name d | None => None end.
(** program->names as the printer sees them: nb_scattering entries of the array *)
Definition printed_names (n : NamesModel.names) : option names :=
  if (List.length (NamesModel.n_scattering n) <? NamesModel.n_nb_scat n)%nat then None
  else Some {| nm_scat := firstn (NamesModel.n_nb_scat n) (NamesModel.n_scattering n); nm_iter := NamesModel.n_iterators n; nm_par := NamesModel.n_parameters n |}.
(** cloog_program_alloc, program.c:844-955: names, scaldims and loops *)
Definition tool_alloc (ao : alloc_options) (ud : udom) : option (names * list nat * list (loop P)) :=
  let nb := nb_scattdims (statements ud) in
  match NamesModel.program_names ud nb, program_alloc P C ao (statements ud) with
  | Some n, Some (scaldims, ls) =>
    match NamesModel.scalarize n nb (Some (map (fun r => negb (r =? 0)%nat) scaldims)) with
    | Some n' => match printed_names n' with Some nm => Some (nm, scaldims, map (to_loop P) ls) | None => None end
    | None => None
    end
  | _, _ => None
  end.
(** cloog_program_generate and cloog_program_pprint, cloog.c:56-61 *)
Definition tool_print (fuel : nat) (o : opts) (name : string) (lang : language) (inp : input) : option string :=
  match tool_alloc (alloc_options_of o) (InputModel.in_ud _ _ inp) with
  | None => None
  | Some (nm, scaldims, ls) =>
    match cloog_program_generate P scaldims (generator_options o) fuel (InputModel.in_ctx _ _ inp) ls with
    | None => None
    | Some res =>
      let ns := List.length (nm_scat nm) in
      match clast_create (level_name nm) (param_name nm) sort_exprs sort_eqns reduce P rows_of (clast_options o) ns (List.length (nm_par nm)) res with
      | None => None
      | Some ss =>
        program_pprint {| fo_compilable := o F_compilable; fo_callable := truth (o F_callable); fo_lang := lang; fo_name := name; fo_version := version; fo_time := time |}
          (statement_name (InputModel.in_ud _ _ inp)) nm (blocks_of P ns ls) ss
      end
    end
  end.
(** main, cloog.c:43-97: where the text goes and what it is.  [contents]: what a file holds. *)
Definition cloog_main (fuel : nat) (readable writable : string -> bool) (contents : source -> string) (args : list string) : option (sink * string) :=
  match options_read readable writable args with
  | Ready o name src snk =>
    if truth (o F_leaks) || truth (o F_structure) then None
    else match InputModel.input_read (dom P) (smap C) read_ctx read_dom read_scat par_dim (dim P) (s_dim C) (contents src) with
         | None => None
         | Some (lang, inp, _) =>
           match tool_print fuel o name (language_of lang) inp with
           | Some text => Some (snk, text)
           | None => None
           end
         end
  | Died | Exited => None
  end.
End Tool.
