(** Use as a library: a program makes a union domain with the functions of
    /repo/source/union_domain.c, calls cloog_clast_create_from_input (/repo/source/clast.c:1946-1961), and walks
    the result or prints it with clast_pprint (/repo/source/pprint.c).

    Left out: freeing (C31, C32). *)
From Coq Require Import ZArith List Bool Arith String.
From Verif Require Import LoopModel ProgramModel ClastModel PprintModel FileModel EndSpec OptionsModel ToolModel.
From Verif Require NamesModel InputModel.
Import ListNotations.

Section Library.
Variable P : Poly.
Variable C : Scat P.
Variable rows_of : dom P -> list row.
Variable sort_exprs : list expr -> list expr.
Variable sort_eqns : list eqn -> list eqn.
Variable reduce : list (option (eqtype * row)) -> list row -> nat -> list row.

(** calls of cloog_union_domain_add_domain and cloog_union_domain_set_name, union_domain.c:76-150 *)
Inductive api_call := AddDomain (name : option string) (d : dom P) (s : option (smap C)) (usr : nat) | SetDimName (type index : Z) (name : string).
(** union_domain.c:96-110: the dimensions that are recorded are those of the domain and of the scattering *)
Definition call_of (c : api_call) : NamesModel.call (dom P * option (smap C)) :=
  match c with
  | AddDomain name d s usr => NamesModel.Add (InputModel.made (dom P) (smap C) (dim P) (s_dim C) name d s usr)
  | SetDimName t i name => NamesModel.SetName t i name
  end.
(** cloog_union_domain_alloc(np) and then these calls *)
Definition build (np : nat) (h : list api_call) : option (udom P C) := NamesModel.run (NamesModel.ud_alloc np) (map call_of h).
(** cloog_clast_create_from_input, clast.c:1946-1961 *)
Definition clast_create_from_input (fuel : nat) (o : opts) (ctx : dom P) (ud : udom P C) : option (list stmt) :=
  match tool_alloc P C (alloc_options_of o) ud with
  | None => None
  | Some (nm, scaldims, ls) =>
    match cloog_program_generate P scaldims (generator_options o) fuel ctx ls with
    | None => None
    | Some res => clast_create (level_name nm) (param_name nm) sort_exprs sort_eqns reduce P rows_of (clast_options o) (List.length (nm_scat nm)) (List.length (nm_par nm)) res
    end
  end.
(** statement->usr, program.c:893; copied with the statement, statement.c:243 *)
Definition statement_usr (ud : udom P C) (n : nat) : option nat := option_map NamesModel.d_usr (nth_error (NamesModel.u_domains ud) (n - 1)).
(** clast_pprint, pprint.c:607-616: the names of the statements are those of the union domain; C output *)
Definition library_pprint (o : opts) (ud : udom P C) (indent : nat) (ss : list stmt) : option string :=
  clast_pprint {| p_lang := LangC; p_callable := truth (o F_callable) |} (statement_name P C ud) indent ss.
End Library.
Arguments AddDomain {P C}.
Arguments SetDimName {P C}.
