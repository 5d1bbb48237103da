(** source/program.c: the whole file printed by cloog_program_pprint, with the texts around the
    statements for the options compilable and callable.

    Left out: OpenScop output (cloog_program_osl_pprint, program.c:410-640, returns 0 without an
    OpenScop input), the lines printed when the library is compiled with CLOOG_MEMORY. *)
From Coq Require Import ZArith List Bool Arith String Ascii.
From Verif Require Import ClastModel PprintModel.
Import ListNotations.
Local Open Scope string_scope.
Local Open Scope Z_scope.

(** program->names (include/cloog/names.h): scattering, iterators, parameters *)
Record names := { nm_scat : list string; nm_iter : list string; nm_par : list string }.
(** program->blocklist: the depth of each block and the numbers of its statements *)
Definition blocks := list (nat * list nat).
(** the options used here, and the texts in the first line: options->name, cloog_version(),
    options->time as printed by %.2f (None: without CLOOG_RUSAGE) *)
Record fopts := { fo_compilable : Z; fo_callable : bool; fo_lang : language; fo_name : string; fo_version : string; fo_time : option string }.
(** a string in quotes in the file *)
Definition quote : string := String (ascii_of_nat 34) "".
(** \ and n in the file *)
Definition escaped_n : string := "\n".

(** print_comment, program.c:271-286 *)
Definition print_comment (lang : language) (s : string) : string :=
  match lang with LangFortran => "! " ++ s ++ newline | LangC => "/* " ++ s ++ " */" ++ newline end.
(** print_macros, program.c:288-302 *)
Definition print_macros : string :=
  "/* Useful macros. */" ++ newline ++
  "#define floord(n,d) " ++ snd floord_macro ++ newline ++
  "#define ceild(n,d)  " ++ snd ceild_macro ++ newline ++
  "#define max(x,y)    " ++ snd max_macro ++ newline ++
  "#define min(x,y)    " ++ snd min_macro ++ newline ++ newline ++
  "#ifdef TIME " ++ newline ++ "#define IF_TIME(foo) foo; " ++ newline ++
  "#else" ++ newline ++ "#define IF_TIME(foo)" ++ newline ++ "#endif" ++ newline ++ newline.
(** print_declarations, program.c:304-314; names[0] is read: None without names *)
Definition print_declarations (l : list string) (indentation : nat) : option string :=
  match l with
  | [] => None
  | _ => Some (spaces indentation ++ "int " ++ String.concat ", " l ++ ";" ++ newline)
  end.
(** print_scattering_declarations, program.c:316-347: the names that are no iterators *)
Definition print_scattering_declarations (nm : names) (indentation : nat) : option string :=
  match filter (fun s => negb (existsb (String.eqb s) (nm_iter nm))) (nm_scat nm) with
  | [] => Some ""
  | l => cat (say (spaces indentation ++ "/* Scattering iterators. */" ++ newline)) (print_declarations l indentation)
  end.
(** print_iterator_declarations, program.c:349-360 *)
Definition print_iterator_declarations (nm : names) : option string :=
  cat (print_scattering_declarations nm 2)
      (match nm_iter nm with
       | [] => Some ""
       | l => cat (say ("  /* Original iterators. */" ++ newline)) (print_declarations l 2)
       end).
(** iterators[0], ..., iterators[depth-1]; None: outside of the array *)
Definition block_iterators (nm : names) (depth : nat) : option (list string) :=
  if (depth <=? List.length (nm_iter nm))%nat then Some (firstn depth (nm_iter nm)) else None.
(** a line for every statement of every block *)
Fixpoint statement_lines (line : list string -> nat -> string) (nm : names) (bs : blocks) : option string :=
  match bs with
  | [] => Some ""
  | (depth, stmts) :: bs' =>
    match stmts with
    | [] => statement_lines line nm bs'
    | _ => match block_iterators nm depth with
           | Some its => cat (Some (String.concat "" (map (line its) stmts))) (statement_lines line nm bs')
           | None => None
           end
    end
  end.
(** print_callable_preamble, program.c:362-398 *)
Definition callable_line (its : list string) (n : nat) : string :=
  "#define S" ++ nat_text n ++ "(" ++ String.concat "," its ++ ") { hash(" ++ nat_text n ++ ");" ++
  String.concat "" (map (fun i => " hash(" ++ i ++ ");") its) ++ " }" ++ newline.
Definition print_callable_preamble (nm : names) (bs : blocks) : option string :=
  cat (say ("extern void hash(int);" ++ newline ++ newline ++ print_macros ++ "#define S0 { hash(0); }" ++ newline))
 (cat (statement_lines callable_line nm bs)
 (cat (say (newline ++ "void test(" ++ String.concat ", " (map (append "int ") (nm_par nm)) ++ ")" ++ newline ++ "{" ++ newline))
      (print_iterator_declarations nm))).
(** print_callable_postamble, program.c:400-404 *)
Definition print_callable_postamble : string := "}" ++ newline.

(** cloog_program_pprint, program.c:720-782: the head of a compilable file *)
Definition compilable_line (its : list string) (n : nat) : string :=
  "#define S" ++ nat_text n ++ "(" ++ String.concat "," its ++ ") {total++;" ++
  match its with
  | [] => ""
  | _ => " printf(" ++ quote ++ "S" ++ nat_text n ++ String.concat "" (map (fun _ => " %d") its) ++ escaped_n ++ quote ++ "," ++ String.concat "," its ++ ");"
  end ++ "}" ++ newline.
(** #define PARVALi and the declarations of the parameters *)
Fixpoint parvals (k : Z) (i : nat) (ps : list string) : string :=
  match ps with [] => "" | _ :: ps' => "#define PARVAL" ++ nat_text i ++ " " ++ int_text k ++ newline ++ parvals k (S i) ps' end.
Fixpoint parameter_inits (i : nat) (ps : list string) : list string :=
  match ps with [] => [] | p :: ps' => (p ++ "=PARVAL" ++ nat_text i) :: parameter_inits (S i) ps' end.
Definition print_compilable_preamble (k : Z) (nm : names) (bs : blocks) : option string :=
  cat (say ("/* DON'T FORGET TO USE -lm OPTION TO COMPILE. */" ++ newline ++ newline ++ "/* Useful headers. */" ++ newline ++
            "#include <stdio.h>" ++ newline ++ "#include <stdlib.h>" ++ newline ++ "#include <math.h>" ++ newline ++ newline ++
            "/* Parameter value. */" ++ newline ++ parvals k 1 (nm_par nm) ++ print_macros ++ "/* Statement macros (please set). */" ++ newline))
 (cat (statement_lines compilable_line nm bs)
 (cat (say (newline ++ "int main() {" ++ newline))
 (cat (print_iterator_declarations nm)
      (say (match nm_par nm with
            | [] => ""
            | ps => "  /* Parameters. */" ++ newline ++ "  int " ++ String.concat ", " (parameter_inits 1 ps) ++ ";" ++ newline
            end ++ "  int total=0;" ++ newline ++ newline))))).
(** program.c:793-797 *)
Definition print_compilable_postamble : string :=
  newline ++ "  printf(" ++ quote ++ "Number of integral points: %d." ++ escaped_n ++ quote ++ ",total);" ++ newline ++ "  return 0;" ++ newline ++ "}" ++ newline.

(** cloog_program_pprint, program.c:684-802; [ss]: the statements made by cloog_clast_create *)
Definition program_pprint (o : fopts) (stmt_name : nat -> option string) (nm : names) (bs : blocks) (ss : list stmt) : option string :=
  let first := print_comment (fo_lang o) ("Generated from " ++ fo_name o ++ " by " ++ fo_version o ++
                                          match fo_time o with Some t => " in " ++ t ++ "s." | None => "." end) in
  let po := {| p_lang := fo_lang o; p_callable := fo_callable o |} in
  let c := match fo_lang o with LangC => true | LangFortran => false end in
  if (negb (fo_compilable o =? 0) && c)%bool then
    cat (say first) (cat (print_compilable_preamble (fo_compilable o) nm bs) (cat (clast_pprint po stmt_name 2 ss) (say print_compilable_postamble)))
  else if (fo_callable o && c)%bool then
    cat (say first) (cat (print_callable_preamble nm bs) (cat (clast_pprint po stmt_name 2 ss) (say print_callable_postamble)))
  else cat (say first) (clast_pprint po stmt_name 0 ss).
