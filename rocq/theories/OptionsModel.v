(** The command line (/repo/source/options.c).

    Strings are C strings.  The file system is asked twice: whether a file can be opened for reading and for
    writing.  cloog_die ends the program ([Died]); exit(1) after -h or -v alone is [Exited].  The options
    with no integer value (ls, fs, scop, state) are never touched here and left out.  The build is the one
    without OpenScop (OSL_SUPPORT undefined), so -openscop dies. *)
From Coq Require Import ZArith List Bool Arith String Ascii.
Import ListNotations.
Local Open Scope Z_scope.

(** include/cloog/options.h:60-130 *)
Inductive field := F_l | F_f | F_fs_ls_size | F_stop | F_strides | F_sh | F_first_unroll | F_esp | F_fsp | F_otl | F_block | F_compilable | F_callable
  | F_quiet | F_save_domains | F_exact_clast_filtering | F_language | F_openscop | F_leaks | F_backtrack | F_override | F_structure
  | F_noblocks | F_noscalars | F_nosimplify.
Definition field_eq_dec : forall a b : field, {a = b} + {a <> b}.
Proof. decide equality. Defined.
Definition opts := field -> Z.
Definition set (o : opts) (f : field) (v : Z) : opts := fun g => if field_eq_dec g f then v else o g.

(** cloog_options_malloc, options.c:328-374 *)
Definition defaults : opts := fun f =>
  match f with
  | F_l => -1 | F_f => 1 | F_fs_ls_size => 0 | F_stop => -1 | F_strides => 0 | F_sh => 0 | F_first_unroll => -1
  | F_esp => 1 | F_fsp => 1 | F_otl => 1 | F_block => 0 | F_compilable => 0 | F_callable => 0 | F_quiet => 0 | F_save_domains => 0
  | F_exact_clast_filtering => 0 | F_language => 0 | F_openscop => 0
  | F_leaks => 0 | F_backtrack => 0 | F_override => 0 | F_structure => 0 | F_noblocks => 0 | F_noscalars => 0 | F_nosimplify => 0
  end.

(** strtol(s, NULL, 10) of the C library, with a 64-bit long *)
Definition is_space (c : ascii) : bool := let n := nat_of_ascii c in (n =? 32)%nat || ((9 <=? n)%nat && (n <=? 13)%nat).
Definition digit (c : ascii) : option Z :=
  let n := nat_of_ascii c in if (48 <=? n)%nat && (n <=? 57)%nat then Some (Z.of_nat n - 48) else None.
Fixpoint digits (s : string) (acc : Z) : Z :=
  match s with
  | String c s' => match digit c with Some d => digits s' (10 * acc + d) | None => acc end
  | EmptyString => acc
  end.
Definition clamp (v : Z) : Z := Z.max (- 2 ^ 63) (Z.min (2 ^ 63 - 1) v).
Fixpoint skip_spaces (s : string) : string :=
  match s with String c s' => if is_space c then skip_spaces s' else s | EmptyString => s end.
Definition strtol (s : string) : Z :=
  match skip_spaces s with
  | String c s' =>
    if (nat_of_ascii c =? 45)%nat then clamp (- digits s' 0)
    else if (nat_of_ascii c =? 43)%nat then clamp (digits s' 0)
    else clamp (digits (String c s') 0)
  | EmptyString => 0
  end.
(** conversion of a long to an int of 32 bits (gcc: modulo 2^32) *)
Definition to_int (v : Z) : Z := (v + 2 ^ 31) mod 2 ^ 32 - 2 ^ 31.

(** cloog_options_set, options.c:305-317: endptr is the null pointer, so the test on it never fires. [next]
    is argc[*number+1] if there is one. *)
Definition options_set (o : opts) (f : field) (next : option string) : option opts :=
  match next with
  | None => None
  | Some s => Some (set o f (to_int (strtol s)))
  end.

Inductive source := Stdin | Infile (name : string).
Inductive sink := Stdout | Outfile (name : string).
Inductive outcome := Died | Exited | Ready (o : opts) (name : string) (input : source) (output : sink).

Definition streq := String.eqb.
Section FS.
Variable readable writable : string -> bool.
(** cloog_options_read, options.c:386-523: the loop over the arguments from argv[1] on; infos, input_is_set
    (with the file) as in the function. *)
Fixpoint read_args (args : list string) (o : opts) (infos : bool) (input : option (string * source)) (output : sink) : outcome :=
  match args with
  | [] => match input with
          | Some (name, src) => Ready o name src output
          | None => if infos then Exited else Died
          end
  | a :: rest =>
    let num (f : field) :=
      match rest with
      | [] => Died
      | v :: rest' => match options_set o f (Some v) with Some o' => read_args rest' o' infos input output | None => Died end
      end in
    let flag (o' : opts) := read_args rest o' infos input output in
    match a with
    | String "-"%char _ =>
      if streq a "-l" then num F_l
      else if streq a "-f" then num F_f
      else if streq a "-stop" then num F_stop
      else if streq a "-strides" then num F_strides
      else if streq a "-sh" then num F_sh
      else if streq a "-first-unroll" then num F_first_unroll
      else if streq a "-otl" then num F_otl
      else if streq a "-openscop" then Died
      else if streq a "-esp" then num F_esp
      else if streq a "-fsp" then num F_fsp
      else if streq a "-block" then num F_block
      else if streq a "-compilable" then num F_compilable
      else if streq a "-callable" then num F_callable
      else if streq a "-exact-clast-filtering" then num F_exact_clast_filtering
      else if streq a "-loopo" then flag (set (set o F_esp 0) F_block 1)
      else if streq a "-bipbip" then flag (set o F_backtrack 0)
      else if streq a "-leaks" then flag (set o F_leaks 1)
      else if streq a "-nobacktrack" then flag (set o F_backtrack 0)
      else if streq a "-backtrack" then flag (set o F_backtrack 1)
      else if streq a "-override" then flag (set o F_override 1)
      else if streq a "-noblocks" then flag (set o F_noblocks 1)
      else if streq a "-noscalars" then flag (set o F_noscalars 1)
      else if streq a "-nosimplify" then flag (set o F_nosimplify 1)
      else if streq a "-struct" || streq a "-structure" then flag (set o F_structure 1)
      else if streq a "--help" || streq a "-h" then read_args rest o true input output
      else if streq a "--version" || streq a "-v" then read_args rest o true input output
      else if streq a "--quiet" || streq a "-q" then flag (set o F_quiet 1)
      else if streq a "-o" then
        match rest with
        | [] => Died
        | v :: rest' =>
          if streq v "stdout" then read_args rest' o infos input Stdout
          else if writable v then read_args rest' o infos input (Outfile v) else Died
        end
      else flag o
    | _ =>
      match input with
      | None =>
        if streq a "stdin" then read_args rest o infos (Some (a, Stdin)) output
        else if readable a then read_args rest o infos (Some (a, Infile a)) output else Died
      | Some _ => Died
      end
    end
  end.
(** argv without argv[0] *)
Definition options_read (args : list string) : outcome := read_args args defaults false None Stdout.
End FS.
