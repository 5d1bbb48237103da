(** What an existentially quantified dimension with a known value stands for. *)
From Coq Require Import ZArith List Bool Arith String.
From Verif Require Import ClastSpec DivModel.
Import ListNotations.
Local Open Scope Z_scope.

(** c1 x1 + c2 x2 + ... *)
Fixpoint lin (cs xs : list Z) : Z :=
  match cs, xs with c :: cs', x :: xs' => c * x + lin cs' xs' | _, _ => 0 end.
(** the numerator of a div at iterators [x], divs [q], parameters [p] *)
Definition numer (d : div) (x q p : list Z) : Z := lin (dv_iter d) x + lin (dv_div d) q + lin (dv_par d) p + dv_const d.
(** [q] are the values of the divs: each is the floor of its quotient *)
Definition div_values (divs : list div) (x p q : list Z) : Prop :=
  List.length q = List.length divs /\
  forall k d, nth_error divs k = Some d -> nth k q 0 * dv_den d <= numer d x q p < (nth k q 0 + 1) * dv_den d.

Definition coefs (d : div) : list Z := (dv_iter d ++ dv_div d ++ dv_par d ++ [dv_const d])%list.
(** What isl makes sure of: a positive denominator, a coefficient for each dimension, only divs before this one
    are used, something is divided; and all coefficients fit in a long. *)
Definition div_ok (n m np k : nat) (d : div) : Prop :=
  0 < dv_den d /\ List.length (dv_iter d) = n /\ List.length (dv_div d) = m /\ List.length (dv_par d) = np /\
  (forall j, (k <= j)%nat -> nth j (dv_div d) 0 = 0) /\
  Exists (fun c => c <> 0) (coefs d) /\ Forall (fun c => - 2 ^ 63 <= c < 2 ^ 63) (coefs d).
Definition divs_ok (n np : nat) (divs : list div) : Prop :=
  forall k d, nth_error divs k = Some d -> div_ok n (List.length divs) np k d.
(** no coefficient has a factor in common with the denominator *)
Definition lowest (d : div) : Prop := Forall (fun c => c <> 0 -> Z.gcd c (dv_den d) = 1) (coefs d).

(** the program's variables hold the iterators and parameters *)
Definition holds_values (iter_name par_name : nat -> string) (rho : env) (x p : list Z) : Prop :=
  (forall i v, nth_error x i = Some v -> rho (iter_name (S i)) = Some v) /\
  (forall i v, nth_error p i = Some v -> rho (par_name i) = Some v).
