(** * Integer layer: include/cloog/int.h.in and source/int.c

    Two builds exist.  The GMP build maps every helper to an [mpz] function, i.e.
    to exact integer arithmetic; here it is [Z] and Coq's [Z.div], [Z.modulo],
    [Z.gcd].  The fixed-width builds (int, long, long long) use C operators; they
    are modelled with an explicit width [w] and [None] for undefined behaviour
    (signed overflow, division by zero) or a failed [assert]. *)
From Coq Require Import ZArith List Bool.
Import ListNotations.
Open Scope Z_scope.

(** ** Fixed-width signed integers *)

(** Range of a [w]-bit two's complement signed type (int.h.in 28-42). *)
Definition int_min (w : Z) : Z := - 2 ^ (w - 1).
Definition int_max (w : Z) : Z := 2 ^ (w - 1) - 1.
Definition in_range (w z : Z) : bool := (int_min w <=? z) && (z <=? int_max w).

(** Result of a signed C operation: undefined when not representable. *)
Definition chk (w z : Z) : option Z := if in_range w z then Some z else None.

Definition bind {A B} (o : option A) (f : A -> option B) : option B :=
  match o with Some a => f a | None => None end.

Definition c_add (w a b : Z) := chk w (a + b).
Definition c_sub (w a b : Z) := chk w (a - b).
Definition c_neg (w a : Z) := chk w (- a).
(** C division truncates toward zero; [min / -1] and division by 0 are undefined. *)
Definition c_div (w a b : Z) := if b =? 0 then None else chk w (Z.quot a b).
(** C remainder: undefined whenever the quotient is. *)
Definition c_rem (w a b : Z) :=
  if b =? 0 then None
  else if in_range w (Z.quot a b) then Some (Z.rem a b) else None.

(** int.h.in 108-112: cloog_int_fdiv_q *)
Definition fw_fdiv_q (w i j : Z) : option Z :=
  if 0 <? j then
    if 0 <=? i then c_div w i j
    else bind (c_neg w i) (fun ni =>
         bind (c_add w ni j) (fun s =>
         bind (c_sub w s 1) (fun s1 =>
         bind (c_div w s1 j) (fun q => c_neg w q))))
  else None.

(** int.h.in 113-117: cloog_int_fdiv_r *)
Definition fw_fdiv_r (w i j : Z) : option Z :=
  if 0 <? j then
    if 0 <=? i then c_rem w i j
    else bind (c_sub w j 1) (fun j1 =>
         bind (c_neg w i) (fun ni =>
         bind (c_add w ni j) (fun s =>
         bind (c_sub w s 1) (fun s1 =>
         bind (c_rem w s1 j) (fun r => c_sub w j1 r)))))
  else None.

(** int.h.in 118-123: cloog_int_cdiv_q *)
Definition fw_cdiv_q (w i j : Z) : option Z :=
  if 0 <? j then
    if 0 <=? i then
      bind (c_add w i j) (fun s => bind (c_sub w s 1) (fun s1 => c_div w s1 j))
    else bind (c_neg w i) (fun ni => bind (c_div w ni j) (fun q => c_neg w q))
  else None.

(** int.h.in 105: cloog_int_abs *)
Definition fw_abs (w i : Z) : option Z := if 0 <? i then Some i else c_neg w i.

(** int.h.in 128: cloog_int_cmp, the value of [i - j]; callers use its sign. *)
Definition fw_cmp (w i j : Z) : option Z := c_sub w i j.

(** int.h.in 129: cloog_int_abs_cmp *)
Definition fw_abs_cmp (w i j : Z) : option Z :=
  bind (if 0 <? i then Some i else c_neg w i) (fun a =>
  bind (if 0 <? j then Some j else c_neg w j) (fun b => c_sub w a b)).

(** int.h.in 127: cloog_int_sgn *)
Definition c_sgn (i : Z) : Z := if 0 <? i then 1 else if i <? 0 then -1 else 0.

(** int.h.in 135: cloog_int_is_divisible_by *)
Definition fw_is_divisible_by (w i j : Z) : option bool :=
  bind (c_rem w i j) (fun r => Some (r =? 0)).

(** int.c 11-21: cloog_gcd.  [None]: undefined behaviour; the outer [option]
    inside the fuel is never exhausted when [fuel > |a|] (proved). *)
Fixpoint fw_gcd_loop (w : Z) (fuel : nat) (a b : Z) : option Z :=
  match fuel with
  | O => None
  | S n =>
      if a =? 0 then (if b <? 0 then c_neg w b else Some b)
      else bind (c_rem w b a) (fun t => fw_gcd_loop w n t a)
  end.
Definition fw_gcd (w a b : Z) : option Z := fw_gcd_loop w (S (Z.abs_nat a)) a b.

(** ** Vectors, source/int.c (exact integers) *)

(** int.c 72-80: cloog_seq_first_non_zero, [None] for -1. *)
Fixpoint seq_first_non_zero (p : list Z) : option nat :=
  match p with
  | [] => None
  | x :: r => if x =? 0
              then match seq_first_non_zero r with Some i => Some (S i) | None => None end
              else Some O
  end.

(** int.c 82-87: cloog_seq_neg *)
Definition seq_neg (p : list Z) : list Z := map Z.opp p.

(** int.c 96-101: cloog_seq_scale_down; [mpz_divexact] is exact division. *)
Definition seq_scale_down (p : list Z) (m : Z) : list Z := map (fun x => Z.quot x m) p.

(** int.c 103-116: cloog_seq_combine *)
Fixpoint seq_combine (m1 : Z) (p1 : list Z) (m2 : Z) (p2 : list Z) : list Z :=
  match p1, p2 with
  | a :: r1, b :: r2 => (m1 * a + m2 * b) :: seq_combine m1 r1 m2 r2
  | _, _ => []
  end.

(** int.c 118-130: cloog_seq_abs_min_non_zero.  [i] is the index of the head of
    [p], [best] the current minimum as (index, value). *)
Fixpoint seq_abs_min_loop (i : nat) (p : list Z) (best : nat * Z) : nat * Z :=
  match p with
  | [] => best
  | x :: r =>
      if x =? 0 then seq_abs_min_loop (S i) r best
      else if Z.abs x <? Z.abs (snd best)
           then seq_abs_min_loop (S i) r (i, x)
           else seq_abs_min_loop (S i) r best
  end.
Definition seq_abs_min_non_zero (p : list Z) : option (nat * Z) :=
  match seq_first_non_zero p with
  | None => None
  | Some k => Some (seq_abs_min_loop (S k) (skipn (S k) p) (k, nth k p 0))
  end.

(** int.c 132-148: cloog_seq_gcd *)
Fixpoint seq_gcd_loop (i min : nat) (p : list Z) (g : Z) : Z :=
  match p with
  | [] => g
  | x :: r =>
      if 1 <? g then
        if Nat.eqb i min then seq_gcd_loop (S i) min r g
        else if x =? 0 then seq_gcd_loop (S i) min r g
        else seq_gcd_loop (S i) min r (Z.gcd g x)
      else g
  end.
Definition seq_gcd (p : list Z) : Z :=
  match seq_abs_min_non_zero p with
  | None => 0
  | Some (k, v) => seq_gcd_loop 0 k p (Z.abs v)
  end.

(** int.c 150-163: cloog_seq_is_neg *)
Fixpoint seq_is_neg (p1 p2 : list Z) : bool :=
  match p1, p2 with
  | a :: r1, b :: r2 =>
      if negb (Z.abs a =? Z.abs b) then false
      else if a =? 0 then seq_is_neg r1 r2
      else if a =? b then false
      else seq_is_neg r1 r2
  | _, _ => true
  end.

(** int.c 165-177: cloog_seq_normalize *)
Definition seq_normalize (p : list Z) : list Z :=
  match p with
  | [] => []
  | _ => let g := seq_gcd p in
         if negb (g =? 0) && negb (g =? 1) then seq_scale_down p g else p
  end.
