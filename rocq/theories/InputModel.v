(** Input files: cloog_input_read and cloog_input_dump_cloog (/repo/source/input.c:58-98, 127-219) and the part of
    cloog_union_domain_read they use (/repo/source/union_domain.c:168-294), without OpenScop.

    Reading and writing a polyhedron is left to isl: [read_ctx] is cloog_domain_read_context, [read_dom] is
    cloog_domain_union_read, [read_scat] is cloog_domain_read_scattering, and the printers are
    cloog_domain_print_constraints (with print_number 1) and cloog_scattering_print_constraints.  A statement of
    the union domain (NamesModel.named) has its domain and its scattering as [d_dom].  Printing a null string with
    %s writes "(null)", as the GNU library does.  The warning about similar scatterings is left out. *)
From Coq Require Import ZArith List Bool Arith String Ascii.
From Verif Require Import PprintModel NamesModel OptionsModel TextModel.
Import ListNotations.
Local Open Scope string_scope.

Inductive lang := LangC | LangFortran.

Section Input.
Variables D Sc : Type.
Variable print_dom : D -> string.
Variable print_scat : Sc -> string.
Variable read_ctx : string -> option (D * string).
Variable read_dom : nat -> string -> option (D * string).
Variable read_scat : D -> string -> option (Sc * string).
Variable par_dim : D -> nat.       (* cloog_domain_parameter_dimension *)
Variable dom_dim : D -> nat.       (* cloog_domain_dimension *)
Variable scat_dim : Sc -> nat.     (* cloog_scattering_dimension *)

Definition statement := named (D * option Sc).
Record input := { in_ctx : D; in_ud : udom (D * option Sc) }.
(** what cloog_union_domain_add_domain is given: union_domain.c:268-282 *)
Definition made (name : option string) (d : D) (s : option Sc) (usr : nat) : statement :=
  {| d_name := name; d_dom := (d, s); d_dim := dom_dim d; d_scat := option_map scat_dim s; d_usr := usr |}.

(** *** writing *)
Definition NL : string := String nl EmptyString.
Definition str (s : option string) : string := match s with Some s => s | None => "(null)" end.
(** print_names, input.c:127-140: n_name entries of the table *)
Definition names_text (tab : list (option string)) : string := fold_right (fun s t => str s ++ " " ++ t) "" tab.
Definition print_names (ud : udom (D * option Sc)) (t : Z) (label : string) : string :=
  NL ++ (match u_name ud t with Some _ => "1" | None => "0" end) ++ " # " ++ label ++ " name(s)" ++ NL ++
  match u_name ud t with Some tab => names_text (firstn (u_n ud t) tab) ++ NL | None => "" end.
(** the loop over the iteration domains, :180-191 *)
Fixpoint domains_text (i : nat) (l : list statement) : string :=
  match l with
  | [] => ""
  | s :: l' => "# Iteration domain of statement " ++ nat_text i ++ " (" ++ str (d_name s) ++ ")." ++ NL ++
               print_dom (fst (d_dom s)) ++ NL ++ "0 0 0 # For future options." ++ NL ++ NL ++ domains_text (S i) l'
  end.
(** the loop over the scatterings, :206-217; a statement without one is a NULL pointer given to isl: None *)
Fixpoint scatterings_text (i : nat) (l : list statement) : option string :=
  match l with
  | [] => Some ""
  | s :: l' =>
    match snd (d_dom s), scatterings_text (S i) l' with
    | Some c, Some t => Some (NL ++ "# Scattering of statement " ++ nat_text i ++ " (" ++ str (d_name s) ++ ")." ++ NL ++ print_scat c ++ t)
    | _, _ => None
    end
  end.
(** cloog_input_dump_cloog, :148-219 *)
Definition dump (language : lang) (inp : input) : option string :=
  let ud := in_ud inp in
  let l := u_domains ud in
  let start :=
    "# CLooG -> CLooG" ++ NL ++ "# This is an automatic dump of a CLooG input file from a CloogInput data" ++ NL ++ "# structure." ++ NL ++ NL ++
    match language with
    | LangFortran => "# Language: FORTRAN" ++ NL ++ "f" ++ NL ++ NL
    | LangC => "# Language: C" ++ NL ++ "c" ++ NL ++ NL
    end ++
    "# Context:" ++ NL ++ print_dom (in_ctx inp) ++ print_names ud CLOOG_PARAM "Parameter" ++
    NL ++ "# Statement number:" ++ NL ++ nat_text (List.length l) ++ NL ++ NL ++ domains_text 1 l ++ print_names ud CLOOG_ITER "Iterator" in
  match l with
  | [] => Some (start ++ "# No scattering functions." ++ NL ++ "0" ++ NL ++ NL)
  | s :: _ =>
    match snd (d_dom s) with
    | None => Some (start ++ "# No scattering functions." ++ NL ++ "0" ++ NL ++ NL)
    | Some _ =>
      match scatterings_text 1 l with
      | Some t => Some (start ++ "# --------------------- SCATTERING --------------------" ++ NL ++
                        nat_text (List.length l) ++ " # Scattering functions" ++ NL ++ t ++ print_names ud CLOOG_SCAT "Scattering dimension")
      | None => None
      end
    end
  end.

(** *** reading *)
(** set_names_from_list, union_domain.c:208-224, from index i on *)
Fixpoint set_names (ud : udom (D * option Sc)) (t : Z) (i : nat) (l : list string) : option (udom (D * option Sc)) :=
  match l with
  | [] => Some ud
  | s :: l' => match ud_set_name ud t (Z.of_nat i) s with Some ud' => set_names ud' t (S i) l' | None => None end
  end.
Definition set_names_opt (ud : udom (D * option Sc)) (t : Z) (l : option (list string)) : option (udom (D * option Sc)) :=
  match l with None => Some ud | Some l => set_names ud t 0 l end.
(** sscanf(line, " %d %d %d", ...) == 3 *)
Definition three_numbers (s : string) : bool :=
  match scan_number s with
  | Some (_, s) => match scan_number s with
                   | Some (_, s) => match scan_number s with Some _ => true | None => false end
                   | None => false end
  | None => false end.
(** the loop over the statements, union_domain.c:258-272 *)
Fixpoint read_domains (n nb_par : nat) (f : string) : option (list D * string) :=
  match n with
  | O => Some ([], f)
  | S n' =>
    match read_dom nb_par f with
    | None => None
    | Some (d, f1) =>
      match next_line f1 with
      | None => None
      | Some (line, _, f2) =>
        if three_numbers line
        then match read_domains n' nb_par f2 with Some (l, f3) => Some (d :: l, f3) | None => None end
        else None
      end
    end
  end.
(** cloog_scattering_list_read, union_domain.c:173-206 *)
Fixpoint read_scatterings (ds : list D) (f : string) : option (list Sc * string) :=
  match ds with
  | [] => Some ([], f)
  | d :: ds' =>
    match read_scat d f with
    | None => None
    | Some (s, f1) => match read_scatterings ds' f1 with Some (l, f2) => Some (s :: l, f2) | None => None end
    end
  end.
Definition scattering_list_read (ds : list D) (f : string) : option (option (list Sc) * string) :=
  match option_line (Some 0%Z) (S (String.length f)) f with
  | None => None
  | Some (n, f1) =>
    if (n =? 0)%Z then Some (None, f1)
    else if negb (n =? Z.of_nat (List.length ds))%Z then None
    else match read_scatterings ds f1 with Some (l, f2) => Some (Some l, f2) | None => None end
  end.
Fixpoint add_domains (ud : udom (D * option Sc)) (ds : list D) (ss : option (list Sc)) : option (udom (D * option Sc)) :=
  match ds with
  | [] => Some ud
  | d :: ds' =>
    let '(s, ss') := match ss with
                     | Some (s :: ss') => (Some s, Some ss')
                     | Some [] => (None, Some [])
                     | None => (None, None)
                     end in
    match ud_add ud (made None d s 0) with Some ud' => add_domains ud' ds' ss' | None => None end
  end.
(** cloog_union_domain_read, union_domain.c:231-294 *)
Definition union_domain_read (f : string) (nb_par : nat) : option (udom (D * option Sc) * string) :=
  match names_read_strings f (Z.of_nat nb_par) with
  | None => None
  | Some (pars, f1) =>
    match set_names_opt (ud_alloc nb_par) CLOOG_PARAM pars with
    | None => None
    | Some ud1 =>
      match next_line f1 with
      | None => None
      | Some (line, _, f2) =>
        match scan_number line with
        | None => None
        | Some (z, _) =>
          match as_int z with
          | None => None
          | Some n_dom =>
            if (n_dom <? 0)%Z then None
            else
            match read_domains (Z.to_nat n_dom) nb_par f2 with
            | None => None
            | Some (ds, f3) =>
              let n_iter := fold_left (fun n d => Z.max n (Z.of_nat (dom_dim d))) ds (-1)%Z in
              match names_read_strings f3 n_iter with
              | None => None
              | Some (iters, f4) =>
                match scattering_list_read ds f4 with
                | None => None
                | Some (ss, f5) =>
                  match add_domains ud1 ds ss with
                  | None => None
                  | Some ud2 =>
                    match set_names_opt ud2 CLOOG_ITER iters with
                    | None => None
                    | Some ud3 =>
                      match ss with
                      | None => Some (ud3, f5)
                      | Some _ =>
                        match names_read_strings f5 (Z.of_nat (u_n ud3 CLOOG_SCAT)) with
                        | None => None
                        | Some (scats, f6) =>
                          match set_names_opt ud3 CLOOG_SCAT scats with Some ud4 => Some (ud4, f6) | None => None end
                        end
                      end
                    end
                  end
                end
              end
            end
          end
        end
      end
    end
  end.
(** cloog_input_read, input.c:58-98: the language is the first character of the line, before any spaces are
    skipped *)
Definition input_read (f : string) : option (lang * input * string) :=
  match next_line f with
  | None => None
  | Some (line, _, f1) =>
    let language := match line with String c _ => if Ascii.eqb c "f" then LangFortran else LangC | EmptyString => LangC end in
    match read_ctx f1 with
    | None => None
    | Some (ctx, f2) =>
      match union_domain_read f2 (par_dim ctx) with
      | Some (ud, f3) => Some (language, {| in_ctx := ctx; in_ud := ud |}, f3)
      | None => None
      end
    end
  end.
End Input.
