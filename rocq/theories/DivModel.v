(** Expressions for existentially quantified dimensions (isl divs): /repo/source/isl/constraints.c:512-621.

    A div is an isl_aff: integer coefficients of the iterators, of the divs and of the parameters and an integer
    constant, over one common denominator; it stands for the floor of that quotient.
    isl_aff_get_coefficient_val and _constant_val give a quotient in lowest terms, of which the code takes the
    numerator; isl_aff_get_denominator_val gives the common denominator.  That is how isl documents and
    implements them; isl itself is not part of /repo. *)
From Coq Require Import ZArith List Bool Arith String.
From Verif Require Import ClastModel.
Import ListNotations.
Local Open Scope Z_scope.

Record div := { dv_den : Z; dv_iter : list Z; dv_div : list Z; dv_par : list Z; dv_const : Z }.

(** The numerator of c/den in lowest terms, as a C long of 64 bits (isl_val_get_num_si is an error when it does
    not fit: None). *)
Definition reduced (c den : Z) : Z := Z.quot c (Z.gcd c den).
Definition num_si (c den : Z) : option Z :=
  let v := reduced c den in if (- 2 ^ 63 <=? v) && (v <? 2 ^ 63) then Some v else None.

Section Div.
(** cloog_names_name_at_level for levels from 1, and names->parameters (from 0) *)
Variable iter_name : nat -> string.
Variable par_name : nat -> string.
Variable n : nat.                 (* number of iterators: isl_dim_set *)
Variable divs : list div.         (* isl_dim_div of the constraint *)

(** The terms for one kind of dimension: the loop :572-595 over the positions [i], [i+1], ... of that kind, with
    [var] the expression for a position.  Positions with coefficient 0 are skipped before their expression is
    made. *)
Fixpoint div_terms (den : Z) (var : nat -> option expr) (i : nat) (cs : list Z) : option (list expr) :=
  match cs with
  | [] => Some []
  | c :: cs' =>
    if c =? 0 then div_terms den var (S i) cs'
    else match var i, num_si c den, div_terms den var (S i) cs' with
         | Some e, Some v, Some l => Some (ETerm v (Some e) :: l)
         | _, _, _ => None
         end
  end.
(** div_expr, :534-612; iterators come first, then divs, then parameters (:512-532).  A div whose value is not
    known (denominator 0) is an error in isl_constraint_get_div. *)
Fixpoint div_expr (fuel pos : nat) : option expr :=
  match fuel with
  | O => None
  | S f =>
    match nth_error divs pos with
    | None => None
    | Some d =>
      if dv_den d =? 0 then None else
      match div_terms (dv_den d) (fun i => Some (EName (iter_name (S i)))) 0 (dv_iter d),
            div_terms (dv_den d) (div_expr f) 0 (dv_div d),
            div_terms (dv_den d) (fun i => Some (EName (par_name i))) 0 (dv_par d),
            (if dv_const d =? 0 then Some [] else option_map (fun v => [ETerm v None]) (num_si (dv_const d) (dv_den d))) with
      | Some a, Some b, Some c, Some k => Some (EBin BFdiv (ERed RSum (a ++ b ++ c ++ k)) (dv_den d))
      | _, _, _, _ => None
      end
    end
  end.
(** cloog_constraint_variable_expr, :618-637: [level] from 1.  Expressions of divs nest at most once per div. *)
Definition constraint_variable_expr (level : nat) : option expr :=
  let i := (level - 1)%nat in
  if (i <? n)%nat then Some (EName (iter_name level))
  else if (i <? n + List.length divs)%nat then div_expr (List.length divs) (i - n)
  else Some (EName (par_name (i - n - List.length divs))).
End Div.
