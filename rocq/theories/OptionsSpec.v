(** What a command line means. *)
From Coq Require Import ZArith List Bool Arith String Ascii.
From Verif Require Import OptionsModel.
Import ListNotations.
Local Open Scope Z_scope.

(** *** the options *)
(** with a value (cloog -help, and -sh, -exact-clast-filtering) *)
Definition valued : list (string * field) :=
  [("-l", F_l); ("-f", F_f); ("-stop", F_stop); ("-strides", F_strides); ("-first-unroll", F_first_unroll); ("-sh", F_sh);
   ("-otl", F_otl); ("-esp", F_esp); ("-fsp", F_fsp); ("-block", F_block); ("-compilable", F_compilable); ("-callable", F_callable);
   ("-exact-clast-filtering", F_exact_clast_filtering)]%string.
(** without *)
Definition flags : list (string * list (field * Z)) :=
  [("-loopo", [(F_esp, 0); (F_block, 1)]); ("-bipbip", [(F_backtrack, 0)]); ("-leaks", [(F_leaks, 1)]); ("-nobacktrack", [(F_backtrack, 0)]);
   ("-backtrack", [(F_backtrack, 1)]); ("-override", [(F_override, 1)]); ("-noblocks", [(F_noblocks, 1)]); ("-noscalars", [(F_noscalars, 1)]);
   ("-nosimplify", [(F_nosimplify, 1)]); ("-struct", [(F_structure, 1)]); ("-structure", [(F_structure, 1)]);
   ("--quiet", [(F_quiet, 1)]); ("-q", [(F_quiet, 1)])]%string.
Definition infos : list string := ["--help"; "-h"; "--version"; "-v"]%string.
Definition known : list string := map fst valued ++ map fst flags ++ infos ++ ["-o"; "-openscop"]%string.

(** *** numbers: an optional sign and digits *)
Inductive digits_of : string -> Z -> Prop :=
| D_one c d : digit c = Some d -> digits_of (String c "") d
| D_more s v c d : digits_of s v -> digit c = Some d -> digits_of (s ++ String c "") (10 * v + d).
Inductive number : string -> Z -> Prop :=
| N_plain s v : digits_of s v -> number s v
| N_plus s v : digits_of s v -> number (String "+" s) v
| N_minus s v : digits_of s v -> number (String "-" s) (- v).
Definition int_range (v : Z) : Prop := - 2 ^ 31 <= v < 2 ^ 31.

(** *** a command line as a list of items *)
Inductive item := Value (f : field) (text : string) | Flag (l : list (field * Z)) | Info | Output (name : string) | Input (name : string) | Unknown.
Definition starts_dash (s : string) : Prop := exists s', s = String "-" s'.
Inductive reads : list string -> list item -> Prop :=
| R_nil : reads [] []
| R_value a f v rest l : In (a, f) valued -> reads rest l -> reads (a :: v :: rest) (Value f v :: l)
| R_flag a fs rest l : In (a, fs) flags -> reads rest l -> reads (a :: rest) (Flag fs :: l)
| R_info a rest l : In a infos -> reads rest l -> reads (a :: rest) (Info :: l)
| R_output v rest l : reads rest l -> reads ("-o"%string :: v :: rest) (Output v :: l)
| R_unknown a rest l : starts_dash a -> ~ In a known -> reads rest l -> reads (a :: rest) (Unknown :: l)
| R_input a rest l : ~ starts_dash a -> reads rest l -> reads (a :: rest) (Input a :: l).

(** the values given to a field, in order; [text]: the value a text stands for *)
Definition given (text : string -> Z) (f : field) (i : item) : list Z :=
  match i with
  | Value g s => if field_eq_dec g f then [text s] else []
  | Flag l => map snd (filter (fun x => if field_eq_dec (fst x) f then true else false) l)
  | _ => []
  end.
Definition last_or (d : Z) (l : list Z) : Z := last l d.
Definition inputs (l : list item) : list string := flat_map (fun i => match i with Input s => [s] | _ => [] end) l.
Definition outputs (l : list item) : list string := flat_map (fun i => match i with Output s => [s] | _ => [] end) l.

(** the defaults that cloog -help shows *)
Definition documented : list (field * Z) :=
  [(F_l, -1); (F_f, 1); (F_stop, -1); (F_strides, 0); (F_otl, 1); (F_esp, 0); (F_fsp, 1); (F_block, 0); (F_compilable, 0); (F_callable, 0)].
