(** Dumping a program as an input file: cloog_program_dump_cloog (/repo/source/program.c:170-256).

    Printing a polyhedron is left to isl: [print_plain] is cloog_domain_print_constraints with print_number 0
    (/repo/source/isl/domain.c:73-95), [None] when its assert fails; [print_dom] is the same with print_number 1,
    [print_scat] is cloog_scattering_print_constraints (:98-107).  The counts of names are the lengths of the
    lists. *)
From Coq Require Import ZArith List Bool Arith String Ascii.
From Verif Require Import PprintModel NamesModel OptionsModel TextModel InputModel.
Import ListNotations.
Local Open Scope string_scope.

Section PDump.
Variables D Sc : Type.
Variable print_plain : D -> option string.
Variable print_dom : D -> string.
Variable print_scat : Sc -> string.

(** what is used of CloogProgram, include/cloog/program.h:49-63; the loops are the list program->loop, each with its
    domain *)
Record program := { p_lang : ascii; p_ctx : D; p_pars : list string; p_scats : list string; p_iters : list string; p_loops : list D }.

(** the loops that print names, each followed by a space: :203-204, 230-235, 254-255 *)
Definition words (l : list string) : string := names_text (map Some l).
(** the loop over the iteration domains, :216-226 *)
Fixpoint loops_text (i : nat) (l : list D) : string :=
  match l with
  | [] => ""
  | d :: l' => "# Iteration domain of statement " ++ nat_text i ++ "." ++ NL ++ print_dom d ++ "0 0 0 # For future options." ++ NL ++ NL ++ loops_text (S i) l'
  end.
Definition warning : string :=
  "# CLooG -> CLooG" ++ NL ++
  "# This is an automatic dump of a CLooG input file from a CloogProgram data" ++ NL ++
  "# structure. WARNING: it is highly dangerous and MAY be correct ONLY if" ++ NL ++
  "# - it has been dumped before loop generation." ++ NL ++
  "# - option -noscalars is used (it removes scalar dimensions otherwise)" ++ NL ++
  "# - option -l is at least the original scattering dimension number" ++ NL ++
  "# ASK THE AUTHOR IF YOU *NEED* SOMETHING MORE ROBUST" ++ NL.
(** cloog_program_dump_cloog; the scatterings are a NULL-terminated list, NULL when there are none *)
Definition program_dump (p : program) (scattering : list Sc) : option string :=
  match print_plain (p_ctx p) with
  | None => None
  | Some ctx =>
    Some (warning ++
      (if Ascii.eqb (p_lang p) "c" then "# Language: C" ++ NL else "# Language: FORTRAN" ++ NL) ++ String (p_lang p) "" ++ NL ++ NL ++
      "# Context (" ++ nat_text (List.length (p_pars p)) ++ " parameter(s)):" ++ NL ++ ctx ++
      "1 # Parameter name(s)" ++ NL ++ words (p_pars p) ++
      NL ++ NL ++ "# Statement number:" ++ NL ++ nat_text (List.length (p_loops p)) ++ NL ++ NL ++
      loops_text 1 (p_loops p) ++
      NL ++ "1 # Iterator name(s)" ++ NL ++ words (match scattering with [] => p_scats p ++ p_iters p | _ => p_iters p end)%list ++ NL ++ NL ++
      match scattering with
      | [] => "# No scattering functions." ++ NL ++ "0" ++ NL ++ NL
      | _ => "# --------------------- SCATTERING --------------------" ++ NL ++ nat_text (List.length scattering) ++ " # Scattering functions" ++
             fold_right (fun s t => print_scat s ++ t) "" scattering ++
             NL ++ "1 # Scattering dimension name(s)" ++ NL ++ words (p_scats p)
      end)
  end.
End PDump.
