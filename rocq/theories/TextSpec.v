(** Lines a reader of input files has to skip. *)
From Coq Require Import ZArith List Bool Arith String Ascii.
From Verif Require Import OptionsModel PprintSpec TextModel.
Import ListNotations.
Local Open Scope string_scope.
Local Open Scope nat_scope.

Definition newline : string := String nl EmptyString.
Definition not_nl (c : ascii) : bool := negb (Ascii.eqb c nl).
Definition blank (c : ascii) : bool := is_space c && not_nl c.
(** a line (without its newline) that has at most 1022 characters *)
Definition line_ok (l : string) : Prop := all_chars not_nl l = true /\ String.length l < BUF.
(** an empty line or a comment, possibly after spaces *)
Definition skipped (l : string) : Prop :=
  line_ok l /\ exists b c, l = b ++ c /\ all_chars blank b = true /\ (c = EmptyString \/ exists c', c = String hash c').
(** any number of lines to skip *)
Inductive noise : string -> Prop :=
| Noise_nil : noise EmptyString
| Noise_line : forall l s, skipped l -> noise s -> noise (l ++ newline ++ s).

(** The text of a matrix with lines to skip before each of its lines. *)
Inductive rows_with_noise : list (list Z) -> string -> Prop :=
| Rows_nil : rows_with_noise [] EmptyString
| Rows_cons : forall r rs s t, noise s -> rows_with_noise rs t -> rows_with_noise (r :: rs) (s ++ row_text r ++ newline ++ t).
Definition matrix_with_noise (m : matrix) (text : string) : Prop :=
  exists s t, noise s /\ rows_with_noise (mx_rows m) t /\
  text = s ++ PprintModel.nat_text (List.length (mx_rows m)) ++ " " ++ PprintModel.nat_text (mx_cols m) ++ newline ++ t.
