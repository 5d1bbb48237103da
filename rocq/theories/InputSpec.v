(** Vocabulary of C44: inputs that a .cloog file can hold. *)
From Coq Require Import ZArith List Bool Arith String Ascii.
From Verif Require Import OptionsModel PprintSpec NamesModel TextModel TextSpec InputModel.
Import ListNotations.
Local Open Scope string_scope.

(** The file is left after the text of a polyhedron: at its last newline, or further but only past spaces. *)
Definition left_over (rest rest' : string) : Prop :=
  rest' = newline ++ rest \/ exists w, all_chars is_space w = true /\ rest = w ++ rest'.
(** Reading finds the polyhedron in the text printed for it, after lines to skip and before an empty line. *)
Definition reads_back {A : Type} (text : string) (read : string -> option (A * string)) (a : A) : Prop :=
  forall s rest, noise s -> exists rest', read (s ++ text ++ newline ++ rest) = Some (a, rest') /\ left_over (newline ++ rest) rest'.

(** a name that can be read: one word of less than 50 characters that is no comment *)
Definition good_name (s : string) : Prop :=
  s <> "" /\ all_chars (fun c => negb (is_space c)) s = true /\ starts_with hash s = false /\ String.length s < 50.
(** the name of a statement is printed in a comment *)
Definition good_label (o : option string) : Prop :=
  match o with Some s => all_chars not_nl s = true /\ String.length s <= 900 | None => True end.

Section Spec.
Variables D Sc : Type.
(** all names of a kind are given, or none; they fit on a line *)
Definition names_ok (ud : udom (D * option Sc)) (t : Z) : Prop :=
  match u_name ud t with
  | None => True
  | Some tab => exists l, tab = map Some l /\ Forall good_name l /\ String.length (names_text tab) <= 1022
  end.
(** all statements have a scattering, or none *)
Definition same_kind (l : list (statement D Sc)) : Prop :=
  (forall s, In s l -> snd (d_dom s) <> None) \/ (forall s, In s l -> snd (d_dom s) = None).
(** the same input up to the names of statements and the user's pointers *)
Definition same_input (a b : input D Sc) : Prop :=
  in_ctx _ _ a = in_ctx _ _ b /\
  map d_dom (u_domains (in_ud _ _ a)) = map d_dom (u_domains (in_ud _ _ b)) /\
  (forall t, u_n (in_ud _ _ a) t = u_n (in_ud _ _ b) t) /\
  (forall t, u_name (in_ud _ _ a) t = u_name (in_ud _ _ b) t).
(** The input comes from calls of cloog_union_domain_alloc, _add_domain and _set_name. *)
Definition built (par_dim dom_dim : D -> nat) (scat_dim : Sc -> nat) (inp : input D Sc) : Prop :=
  exists h, run (ud_alloc (par_dim (in_ctx _ _ inp))) h = Some (in_ud _ _ inp) /\
  forall s, In (Add s) h -> s = made D Sc dom_dim scat_dim (d_name s) (fst (d_dom s)) (snd (d_dom s)) (d_usr s).
End Spec.
