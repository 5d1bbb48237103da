(** Reading and writing text: matrices (/repo/source/matrix.c:118-213), names (/repo/source/names.c:264-318) and
    the functions of the C library they use.

    A file is the string of the characters not read yet, without NUL.  [None]: cloog_die, a loop that never ends,
    or undefined behaviour (an uninitialised or too small buffer).  Integers are GMP integers. *)
From Coq Require Import ZArith List Bool Arith String Ascii.
From Verif Require Import PprintModel OptionsModel.
Import ListNotations.
Local Open Scope string_scope.
Local Open Scope nat_scope.

Definition nl : ascii := "010"%char.
Definition hash : ascii := "#"%char.

(** *** the C library *)
(** fgets into a buffer of n+1 characters: the line, with its newline, and what is left *)
Fixpoint fgets (n : nat) (f : string) : string * string :=
  match n, f with
  | O, _ => (EmptyString, f)
  | _, EmptyString => (EmptyString, EmptyString)
  | S n', String c r =>
    if Ascii.eqb c nl then (String c EmptyString, r) else let '(l, r') := fgets n' r in (String c l, r')
  end.
(** digits at the start of a string: the number so far and what follows *)
Fixpoint scan_digits (s : string) (acc : Z) : Z * string :=
  match s with
  | String c s' => match digit c with Some d => scan_digits s' (10 * acc + d)%Z | None => (acc, s) end
  | EmptyString => (acc, s)
  end.
Definition starts_digit (s : string) : bool := match s with String c _ => match digit c with Some _ => true | None => false end | EmptyString => false end.
(** %d and %u of sscanf: [None] when there is no number *)
Definition scan_number (s : string) : option (Z * string) :=
  let s := skip_spaces s in
  let '(sign, t) := match s with
                    | String c t => if Ascii.eqb c "-" then ((-1)%Z, t) else if Ascii.eqb c "+" then (1%Z, t) else (1%Z, s)
                    | EmptyString => (1%Z, s)
                    end in
  if starts_digit t then let '(v, r) := scan_digits t 0 in Some ((sign * v)%Z, r) else None.
(** the characters up to the next white space *)
Fixpoint word (s : string) : string * string :=
  match s with
  | String c s' => if is_space c then (EmptyString, s) else let '(w, r) := word s' in (String c w, r)
  | EmptyString => (EmptyString, EmptyString)
  end.
(** %s%n of sscanf: the word and the rest of the string; [None]: end of the string (sscanf returns EOF) *)
Definition scan_word (s : string) : option (string * string) :=
  match word (skip_spaces s) with (EmptyString, _) => None | p => Some p end.
(** mpz_set_str in base 10 for a word; if it is no number the variable keeps its value, 0 *)
Definition mpz_read (s : string) : Z :=
  let '(sign, t) := match s with String c t => if Ascii.eqb c "-" then ((-1)%Z, t) else (1%Z, s) | EmptyString => (1%Z, s) end in
  if starts_digit t then match scan_digits t 0 with (v, EmptyString) => (sign * v)%Z | _ => 0%Z end else 0%Z.

(** the inner loop of next_line: spaces other than newline *)
Fixpoint skip_blanks (s : string) : string :=
  match s with String c s' => if is_space c && negb (Ascii.eqb c nl) then skip_blanks s' else s | EmptyString => s end.
Definition starts_with (c : ascii) (s : string) : bool := match s with String d _ => Ascii.eqb d c | EmptyString => false end.
(** next_line, matrix.c:154-166, the same as input.c:12-24 and union_domain.c:154-166, with a buffer of 1024
    characters: the line, the part from its first character that is no space on (p), the rest of the file.
    Every round reads at least a character. *)
Definition BUF : nat := 1023.
Fixpoint next_line_loop (fuel : nat) (f : string) : option (string * string * string) :=
  match fuel with
  | O => None
  | S k =>
    let '(line, rest) := fgets BUF f in
    match line with
    | EmptyString => None
    | _ => let p := skip_blanks line in
           if starts_with hash p || starts_with nl p then next_line_loop k rest else Some (line, p, rest)
    end
  end.
Definition next_line (f : string) : option (string * string * string) := next_line_loop (S (String.length f)) f.

(** *** matrices *)
Record matrix := { mx_cols : nat; mx_rows : list (list Z) }.
(** cloog_matrix_print_structure, matrix.c:123-136 *)
Fixpoint row_text (r : list Z) : string :=
  match r with [] => EmptyString | z :: r' => int_text z ++ " " ++ row_text r' end.
Fixpoint structure_text (prefix suffix : string) (rows : list (list Z)) : string :=
  match rows with
  | [] => EmptyString
  | r :: rows' => prefix ++ row_text r ++ suffix ++ String nl EmptyString ++ structure_text prefix suffix rows'
  end.
(** cloog_matrix_print, matrix.c:143-151, for a matrix that is not NULL *)
Definition matrix_print (m : matrix) : string :=
  nat_text (List.length (mx_rows m)) ++ " " ++ nat_text (mx_cols m) ++ String nl EmptyString ++ structure_text "" "" (mx_rows m).

(** the loop over j of cloog_matrix_read_of_size, :204-211.  At the end of the line sscanf returns EOF, which is
    not 0, so that the code goes on with a stale or uninitialised val and offset: None. *)
Fixpoint read_entries (n : nat) (p : string) : option (list Z) :=
  match n with
  | O => Some []
  | S n' => match scan_word p with
            | Some (w, p') => option_map (cons (mpz_read w)) (read_entries n' p')
            | None => None
            end
  end.
(** cloog_matrix_read_of_size, :184-213: the rows and the rest of the file *)
Fixpoint read_rows (n_row n_col : nat) (f : string) : option (list (list Z) * string) :=
  match n_row with
  | O => Some ([], f)
  | S n' =>
    match next_line f with
    | None => None
    | Some (_, p, rest) =>
      match read_entries n_col p with
      | None => None
      | Some r => match read_rows n' n_col rest with Some (rs, rest') => Some (r :: rs, rest') | None => None end
      end
    end
  end.
(** unsigned int of 32 bits; a number out of range is undefined behaviour *)
Definition as_unsigned (z : Z) : option nat := if ((0 <=? z) && (z <? 2 ^ 32))%Z then Some (Z.to_nat z) else None.
(** cloog_matrix_read, :168-179 *)
Definition matrix_read (f : string) : option (matrix * string) :=
  match next_line f with
  | None => None
  | Some (line, _, rest) =>
    match scan_number line with
    | None => None
    | Some (a, l1) =>
      match scan_number l1 with
      | None => None
      | Some (b, _) =>
        match as_unsigned a, as_unsigned b with
        | Some n_row, Some n_col =>
          match read_rows n_row n_col rest with Some (rs, rest') => Some ({| mx_cols := n_col; mx_rows := rs |}, rest') | None => None end
        | _, _ => None
        end
      end
    end
  end.

(** *** names *)
Definition as_int (z : Z) : option Z := if ((- 2 ^ 31 <=? z) && (z <? 2 ^ 31))%Z then Some z else None.
(** the loop that looks for the naming option, names.c:269-272; at the end of the file it does not end.  Also the
    loop of cloog_scattering_list_read, union_domain.c:184-187, which does end there ([eof]). *)
Fixpoint option_line (eof : option Z) (fuel : nat) (f : string) : option (Z * string) :=
  match fuel with
  | O => None
  | S k =>
    let '(s, rest) := fgets BUF f in
    match s with
    | EmptyString => match eof with Some z => Some (z, rest) | None => None end
    | _ => if starts_with hash s || starts_with nl s then option_line eof k rest
           else match scan_number s with
                | Some (z, _) => match as_int z with Some z => Some (z, rest) | None => None end
                | None => option_line eof k rest
                end
    end
  end.
(** MAX_NAME, include/cloog/names.h:46: a longer name does not fit in its buffer *)
Definition MAX_NAME : nat := 50.
(** the loop over i, names.c:301-313 *)
Fixpoint read_names (n : nat) (c : string) : option (list string) :=
  match n with
  | O => Some []
  | S n' =>
    match skip_spaces c with
    | EmptyString => None
    | String h _ as c' =>
      if Ascii.eqb h hash then None
      else match scan_word c' with
           | None => None
           | Some (w, r) => if String.length w <? MAX_NAME then option_map (cons w) (read_names n' r) else None
           end
    end
  end.
(** cloog_names_read_strings, names.c:264-318: the names or NULL, and the rest of the file *)
Definition names_read_strings (f : string) (nb_items : Z) : option (option (list string) * string) :=
  match option_line None (S (String.length f)) f with
  | None => None
  | Some (o, rest) =>
    if (nb_items =? 0)%Z then Some (None, rest)
    else if (o =? 0)%Z then Some (None, rest)
    else if (nb_items <? 0)%Z then None
    else match next_line rest with
         | None => None
         | Some (_, p, rest') => match read_names (Z.to_nat nb_items) p with Some l => Some (Some l, rest') | None => None end
         end
  end.
