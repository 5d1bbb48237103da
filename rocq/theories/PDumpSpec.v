(** Vocabulary of C60: programs whose dump can be an input file. *)
From Coq Require Import ZArith List Bool Arith String Ascii.
From Verif Require Import OptionsModel PprintSpec NamesModel TextModel TextSpec InputModel InputSpec PDumpModel.
Import ListNotations.
Local Open Scope string_scope.

(** [x] begins with something to read *)
Definition visible (x : string) : Prop := match x with String c _ => is_space c = false | EmptyString => False end.
(** Reading finds the polyhedron in a text that has lines to skip before it, and leaves the file before the next
    line that is not to be skipped. *)
Definition reads_on {A : Type} (text : string) (read : string -> option (A * string)) (a : A) : Prop :=
  forall s n x, noise s -> noise n -> visible x -> exists n', noise n' /\ read (s ++ text ++ n ++ x) = Some (a, n' ++ x).
(** names that can be read, on one line *)
Definition good_names (l : list string) : Prop := Forall good_name l /\ String.length (names_text (map Some l)) <= 1022.
(** the names of a kind, after reading *)
Definition named_as (l : list string) : option (list (option string)) := match l with [] => None | _ => Some (map Some l) end.
(** [n] is the greatest of the numbers *)
Definition greatest (n : nat) (l : list nat) : Prop := In n l /\ forall m, In m l -> m <= n.
Definition lang_letter (c : lang) : ascii := match c with LangC => "c" | LangFortran => "f" end.

Section Spec.
Variables D Sc : Type.
Variable print_plain : D -> option string.
Variable print_dom : D -> string.
Variable read_ctx : string -> option (D * string).
Variable read_dom : nat -> string -> option (D * string).
Variables par_dim dom_dim : D -> nat.
(** isl reads the polyhedra back; names are words; there is one for each parameter and, with [its], for each
    dimension of the statement with most dimensions *)
Record dumpable (c : lang) (p : program D) (its : list string) : Prop := {
  D_lang : p_lang D p = lang_letter c;
  D_ctx : exists t, print_plain (p_ctx D p) = Some t /\ reads_on t read_ctx (p_ctx D p);
  D_loops : Forall (fun d => reads_on (print_dom d) (read_dom (par_dim (p_ctx D p))) d) (p_loops D p);
  D_pars : good_names (p_pars D p) /\ List.length (p_pars D p) = par_dim (p_ctx D p);
  D_iters : good_names its /\ greatest (List.length its) (map dom_dim (p_loops D p));
  D_small : (Z.of_nat (List.length (p_pars D p)) < 2 ^ 31 - 1)%Z /\ (Z.of_nat (List.length (p_loops D p)) < 2 ^ 31 - 1)%Z
}.
(** what is read: the program with these scatterings *)
Definition is_program (p : program D) (its : list string) (scats : list string) (ss : list (option Sc)) (inp : input D Sc) : Prop :=
  in_ctx _ _ inp = p_ctx D p /\
  map d_dom (u_domains (in_ud _ _ inp)) = List.combine (p_loops D p) ss /\
  u_name (in_ud _ _ inp) CLOOG_PARAM = named_as (p_pars D p) /\
  u_name (in_ud _ _ inp) CLOOG_ITER = named_as its /\
  u_name (in_ud _ _ inp) CLOOG_SCAT = named_as scats.
End Spec.
