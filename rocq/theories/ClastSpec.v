(** What the statements made by clast.c mean, and what it takes for them to be right. *)
From Coq Require Import ZArith List Bool Arith String Sorted Permutation.
From Verif Require Import LoopModel LoopSpec ClastModel.
Import ListNotations.
Local Open Scope Z_scope.

(** ** Expressions and statements *)
(** The values of the variables of the generated program; None: never assigned. *)
Definition env := string -> option Z.
Definition assign (rho : env) (x : string) (v : Z) : env := fun y => if String.eqb x y then Some v else rho y.

(** floor and ceiling division, the division of C, the (mathematical) remainder *)
Definition bin_val (t : bin_type) (a b : Z) : Z :=
  match t with BFdiv => a / b | BCdiv => - ((- a) / b) | BDiv => Z.quot a b | BMod => a mod b end.
Definition red_val (t : red_type) (a b : Z) : Z :=
  match t with RSum => a + b | RMin => Z.min a b | RMax => Z.max a b end.
Fixpoint eval (rho : env) (e : expr) : option Z :=
  match e with
  | EName x => rho x
  | ETerm v None => Some v
  | ETerm v (Some x) => match eval rho x with Some z => Some (v * z) | None => None end
  | EBin t l d => match eval rho l with Some z => Some (bin_val t z d) | None => None end
  | ERed t l =>
      let fix vals (l : list expr) : option (list Z) :=
        match l with
        | [] => Some []
        | e :: l' => match eval rho e, vals l' with Some z, Some zs => Some (z :: zs) | _, _ => None end
        end in
      match vals l with Some (z :: zs) => Some (fold_left (red_val t) zs z) | _ => None end
  end.
Definition eval_opt (rho : env) (e : option expr) : option Z := match e with Some e => eval rho e | None => None end.
Definition eqn_holds (rho : env) (q : eqn) : option bool :=
  match eval rho (e_lhs q), eval_opt rho (e_rhs q) with
  | Some a, Some b => Some (if e_sign q =? 0 then a =? b else if 0 <? e_sign q then b <=? a else a <=? b)
  | _, _ => None
  end.
Fixpoint all_hold (rho : env) (qs : list eqn) : option bool :=
  match qs with
  | [] => Some true
  | q :: qs' => match eqn_holds rho q, all_hold rho qs' with Some a, Some b => Some (a && b) | _, _ => None end
  end.
Fixpoint eval_all (rho : env) (es : list (option expr)) : option (list Z) :=
  match es with
  | [] => Some []
  | e :: es' => match eval_opt rho e, eval_all rho es' with Some z, Some zs => Some (z :: zs) | _, _ => None end
  end.

(** A call of a user statement: its number and the values of its arguments. *)
Definition event := (nat * list Z)%type.
(** [k] iterations from [v] on; the iterator keeps the first value not used *)
Fixpoint iterate (body : env -> option (env * list event)) (it : string) (step : Z) (k : nat) (v : Z) (rho : env)
  : option (env * list event) :=
  match k with
  | O => Some (assign rho it v, [])
  | S k' => match body (assign rho it v) with
            | None => None
            | Some (rho1, t1) => match iterate body it step k' (v + step) rho1 with
                                 | None => None
                                 | Some (rho2, t2) => Some (rho2, t1 ++ t2)
                                 end
            end
  end.
(** number of values of lb, lb + step, ... up to ub *)
Definition trip_count (lb ub step : Z) : nat := if ub <? lb then O else Z.to_nat ((ub - lb) / step + 1).
(** Execution: None when a variable is read that was never assigned, a bound is missing, or a
    loop does not make progress. *)
Fixpoint exec1 (s : stmt) (rho : env) {struct s} : option (env * list event) :=
  let fix execs (l : list stmt) (rho : env) : option (env * list event) :=
    match l with
    | [] => Some (rho, [])
    | s :: l' => match exec1 s rho with
                 | None => None
                 | Some (rho1, t1) => match execs l' rho1 with
                                      | None => None
                                      | Some (rho2, t2) => Some (rho2, t1 ++ t2)
                                      end
                 end
    end in
  match s with
  | SAss x e => match eval_opt rho e with Some v => Some (assign rho x v, []) | None => None end
  | SUser num subs => match eval_all rho subs with Some vs => Some (rho, [(num, vs)]) | None => None end
  | SBlock body => execs body rho
  | SFor it lb ub step body =>
      match eval_opt rho lb, eval_opt rho ub with
      | Some l, Some u => if 0 <? step then iterate (execs body) it step (trip_count l u step) l rho else None
      | _, _ => None
      end
  | SGuard qs th => match all_hold rho qs with
                    | Some true => execs th rho
                    | Some false => Some (rho, [])
                    | None => None
                    end
  end.
Fixpoint exec (l : list stmt) (rho : env) : option (env * list event) :=
  match l with
  | [] => Some (rho, [])
  | s :: l' => match exec1 s rho with
               | None => None
               | Some (rho1, t1) => match exec l' rho1 with
                                    | None => None
                                    | Some (rho2, t2) => Some (rho2, t1 ++ t2)
                                    end
               end
  end.

(** ** Constraints *)
Fixpoint dot (a w : list Z) : Z :=
  match a, w with z :: a', v :: w' => z * v + dot a' w' | _, _ => 0 end.
(** a constraint at the point [w] (iterators, then parameters) *)
Definition row_val (r : row) (w : list Z) : Z := dot (r_co r) w + r_k r.
Definition row_holds (w : list Z) (r : row) : Prop := if r_eq r then row_val r w = 0 else 0 <= row_val r w.

(** ** The calls a loop structure asks for *)
(** all blocks executed, in the order of execution: when, which block, which iterators *)
Definition runs {P} (Se : Sem P) (ls : list (loop P)) (x : list Z) (L : list (list Z * block * list Z)) : Prop :=
  StronglySorted lex_lt (map (fun e => fst (fst e)) L) /\
  forall p b y, In (p, b, y) L <-> Exec P Se ls x p b y.
(** the statements of a block one after the other; the [ns] scattering dimensions are no arguments *)
Definition calls (ns : nat) (L : list (list Z * block * list Z)) : list event :=
  flat_map (fun e => map (fun num => (num, skipn ns (snd e))) (b_stmts (snd (fst e)))) L.

(** ** What is expected of the loop structure, the names and isl *)
Section Expect.
Variable P : Poly.
Variable Se : Sem P.
Variable rows_of : dom P -> list row.
Variable pv : list Z.                      (* values of the parameters *)

(** Constraints without existential dimensions describe the points of a domain. *)
Definition rows_exact (d : dom P) : Prop :=
  Forall (fun r => List.length (r_co r) = dim P d + List.length pv)%nat (rows_of d) /\
  forall x, List.length x = dim P d -> (Forall (row_holds (x ++ pv)) (rows_of d) <-> mem Se d x = true).
(** isl keeps no constraint without variables and no two inequalities that contradict each other;
    an equality on the last iterator is used to eliminate that iterator from all other constraints *)
Definition rows_normal (d : dom P) : Prop :=
  Forall (fun r => exists i, involves r i = true) (rows_of d) /\
  (forall u l, In u (rows_of d) -> In l (rows_of d) -> r_eq u = false -> r_eq l = false -> opposite u l = true -> 0 <= r_k u + r_k l) /\
  forall pre r post, rows_of d = pre ++ r :: post -> r_eq r = true -> involves r (dim P d - 1) = true ->
    Forall (fun s => involves s (dim P d - 1) = false) (pre ++ post).
Definition rows_variable (d : dom P) : Prop := Forall (fun r => exists i, involves r i = true) (rows_of d).

Variable o : copts.
(** Is the iterator of this loop replaced by its value everywhere (and not assigned)? *)
Definition is_spread (d : dom P) : bool :=
  co_otl o && match defining_equality (dim P d) (rows_of d) (dim P d) with
              | Some r => equal_allow o (equal_type (dim P d) r (dim P d)) (dim P d)
              | None => false
              end.
Definition avoids (spread : list bool) (r : row) : Prop := forall i, nth i spread false = true -> coef r i = 0.
Definition has_equation (d : dom P) : bool :=
  match defining_equality (dim P d) (rows_of d) (dim P d), defining_inequalities (dim P d) (rows_of d) (dim P d) with
  | None, None => false
  | _, _ => true
  end.
(** A constant stride, when the loop has one: either implied by the constraints, or the loop has
    bounds, and its lower bounds are constants. *)
Definition stride_usable (l : loop P) : Prop :=
  match l_st P l with
  | None => True
  | Some (s, off, None) => 0 < s /\
      if has_equation (l_dom P l) then forall y, mem Se (l_dom P l) y = true -> st_ok P Se (l_st P l) y = true
      else Forall (fun r => is_lower_bound r (dim P (l_dom P l) - 1) = true ->
                    forall i, i <> (dim P (l_dom P l) - 1)%nat -> coef r i = 0) (rows_of (l_dom P l))
  | Some (_, _, Some _) => False
  end.
(** A loop that is not defined by equations has bounds on both sides. *)
Definition bounded (d : dom P) : Prop :=
  has_equation d = false ->
  Exists (fun r => is_lower_bound r (dim P d - 1) = true) (rows_of d) /\
  Exists (fun r => is_upper_bound r (dim P d - 1) = true) (rows_of d).
(** With -otl 0 an equality has to define an integer. *)
Definition unit_equation (d : dom P) : Prop :=
  forall r, defining_equality (dim P d) (rows_of d) (dim P d) = Some r -> Z.abs (coef r (dim P d - 1)) = 1.

(** "At most once" is promised only where it holds. *)
Inductive otl_right : list Z -> loop P -> Prop :=
| Otl_right : forall x l,
    (l_otl P l = true -> forall v v', enters P Se l (x ++ [v]) -> enters P Se l (x ++ [v']) -> v = v') ->
    (forall v, enters P Se l (x ++ [v]) -> Forall (otl_right (x ++ [v])) (l_inner P l)) ->
    (enters P Se l x -> Forall (otl_right x) (l_inner P l)) ->
    otl_right x l.
(** What isl promises for that mark (isl/domain.c:800-812): two points that differ only in the given
    coordinate are equal. *)
Definition otl_sound : Prop := forall d level x y, (1 <= level)%nat -> (level <= dim P d)%nat -> is_otl P d level = true ->
  mem Se d x = true -> mem Se d y = true -> (forall i, i <> (level - 1)%nat -> nth_error x i = nth_error y i) ->
  nth (level - 1) x 0 = nth (level - 1) y 0.
(** The loops of statements carry no such mark (cloog_loop_malloc, loop.c:410). *)
Definition unmarked (ls : list (loop P)) : Prop := Forall (fun l => l_otl P l = false) ls.

(** Reducing a modulo guard with the equalities of the enclosing levels (isl_basic_set_gist with
    the level's iterator projected out): it stays solvable for the same outer iterators, stays
    an equality or a pair of opposite inequalities (or disappears), and speaks of no new
    iterators. *)
Definition guard_rows (n : nat) (rows : list row) : Prop :=
  match rows with
  | [a] => r_eq a = true /\ involves a n = true
  | [a; b] => r_eq a = false /\ r_eq b = false /\ involves a n = true /\ opposite a b = true /\ 0 <= r_k a + r_k b
  | _ => False
  end.
Definition reduce_right (reduce : list (option (eqtype * row)) -> list row -> nat -> list row) : Prop :=
  forall (eqs : list (option (eqtype * row))) (rows : list row) (x : list Z),
  let n := List.length x in
  let rows' := reduce eqs rows (S n) in
  guard_rows n rows ->
  Forall (fun r => List.length (r_co r) = S n + List.length pv)%nat rows ->
  (forall i t r, nth_error eqs i = Some (Some (t, r)) -> row_holds (firstn (S i) x ++ pv) r) ->
  ((exists v, Forall (row_holds (x ++ v :: pv)) rows') <-> (exists v, Forall (row_holds (x ++ v :: pv)) rows)) /\
  Forall (fun r => List.length (r_co r) = S n + List.length pv)%nat rows' /\
  (forall i, (i < n)%nat -> Forall (fun r => coef r i = 0) rows ->
     (forall j t r, nth_error eqs j = Some (Some (t, r)) -> (i < j)%nat -> coef r i = 0) ->
     Forall (fun r => coef r i = 0) rows') /\
  (rows' = [] \/ List.length rows' = List.length rows /\ guard_rows n rows').
End Expect.

(** *** domains whose constraints may have existential dimensions *)
Definition row_holdsb (w : list Z) (r : row) : bool := if r_eq r then row_val r w =? 0 else 0 <=? row_val r w.
Section ReadyLoops.
Variable P : Poly.
Variable Se : Sem P.
Variable rows_of : dom P -> list row.
Variable pv : list Z.
Variable o : copts.
Notation np := (List.length pv).
Notation divs_of d := (n_divs (dim P d) np (rows_of d)).
(** The constraints of a domain describe its points: each has coefficients for iterators,
    existential dimensions and parameters. *)
Definition rows_describe (d : dom P) : Prop :=
  Forall (fun r => List.length (r_co r) = dim P d + divs_of d + np)%nat (rows_of d) /\
  forall x, List.length x = dim P d ->
    ((exists q, List.length q = divs_of d /\ Forall (row_holds (x ++ q ++ pv)) (rows_of d)) <-> mem Se d x = true).
(** Only needed with existential dimensions: some point of the domain, for some values of the
    parameters, lies on the strides of the enclosing loops. *)
Definition consistent (sts : list (option (Z * Z))) (d : dom P) : Prop :=
  (0 < divs_of d)%nat ->
  exists w q pv', List.length w = dim P d /\ List.length q = divs_of d /\ List.length pv' = np /\
    Forall (row_holds (w ++ q ++ pv')) (rows_of d) /\
    forall i s off, nth_error sts i = Some (Some (s, off)) -> (nth i w 0 - off) mod s = 0.
(** what the constraints without existential dimensions say *)
Notation flat := (flat_rows P rows_of np).
Definition flat_sem : Sem P :=
  {| mem := fun d y => forallb (row_holdsb (y ++ pv)) (flat d); sok := sok Se; lbv := lbv Se; pdisj := pdisj Se; polyh := polyh Se |}.
Definition stride_at (l : loop P) : option (Z * Z) := match const_stride P l with Some st => st | None => None end.

(** A loop at level [n + 1] inside [n] iterators: it has an iterator of its own, or is a
    statement; [spread]: which of the [n] outer iterators are replaced by their values; [sts]:
    their strides. *)
Inductive ready : list bool -> list (option (Z * Z)) -> loop P -> Prop :=
| Ready_stmt : forall spread sts l b,
    l_blk P l = Some b -> l_inner P l = [] -> dim P (l_dom P l) = List.length spread -> l_st P l = None ->
    rows_describe (l_dom P l) -> consistent sts (l_dom P l) -> rows_variable P flat (l_dom P l) ->
    Forall (avoids spread) (rows_of (l_dom P l)) ->
    ready spread sts l
| Ready_loop : forall spread sts l,
    l_blk P l = None -> dim P (l_dom P l) = S (List.length spread) ->
    rows_describe (l_dom P l) -> consistent sts (l_dom P l) -> rows_normal P flat (l_dom P l) ->
    Forall (avoids spread) (rows_of (l_dom P l)) ->
    stride_usable P flat_sem flat l -> bounded P flat (l_dom P l) -> (co_otl o = false -> unit_equation P flat (l_dom P l)) ->
    Forall (ready (spread ++ [is_spread P flat o (l_dom P l)]) (sts ++ [stride_at l])) (l_inner P l) ->
    ready spread sts l.
(** The outermost loops, of level 0: statements or conditions, without iterators. *)
Inductive ready0 : loop P -> Prop :=
| Ready0 : forall l,
    dim P (l_dom P l) = 0%nat -> l_st P l = None -> (l_blk P l <> None -> l_inner P l = []) ->
    rows_describe (l_dom P l) -> consistent [] (l_dom P l) -> rows_variable P flat (l_dom P l) ->
    Forall (ready [] []) (l_inner P l) -> ready0 l.
End ReadyLoops.

(** *** when the code can be created at all *)
(** Reducing a modulo guard (see [reduce_right]) leaves nothing, or constraints of the same kind. *)
Definition reduce_keeps (reduce : list (option (eqtype * row)) -> list row -> nat -> list row) : Prop :=
  forall eqs rows n, guard_rows n rows -> reduce eqs rows (S n) = [] \/ guard_rows n (reduce eqs rows (S n)).
(** Each existential dimension occurs in one equality, or in two opposite inequalities that are less apart than
    its coefficient; these involve neither another one nor the iterator of the loop. *)
Definition simple_rows (n nd level : nat) (rows : list row) : Prop :=
  forall r j, In r rows -> (n <= j < n + nd)%nat -> involves r j = true ->
    (forall j', (n <= j' < n + nd)%nat -> involves r j' = true -> j' = j) /\
    ((1 <= level <= n)%nat -> involves r (level - 1) = false) /\
    (r_eq r = true /\ (forall t, In t rows -> involves t j = true -> t = r) \/
     r_eq r = false /\ exists s, In s rows /\ r_eq s = false /\ opposite r s = true /\ 1 < Z.abs (coef r j) /\ Z.abs (r_k r + r_k s) < Z.abs (coef r j) /\
       forall t, In t rows -> involves t j = true -> t = r \/ t = s).
(** The two constraints leave exactly one value for iterator [n], whatever the other iterators and
    the parameters are: an equality that isl should have found (constraints.c:414-416). *)
Definition forced (n np : nat) (st : option (Z * Z)) (r s : row) : Prop :=
  forall x p, List.length x = n -> List.length p = np ->
    exists v, forall v', row_holds (x ++ v' :: p) r /\ row_holds (x ++ v' :: p) s /\
                         match st with None => True | Some (m, off) => (v' - off) mod m = 0 end <-> v' = v.
Section Clear.
Variable P : Poly.
Variable rows_of : dom P -> list row.
Variable np : nat.
Definition simple_divs (level : nat) (d : dom P) : Prop := simple_rows (dim P d) (n_divs (dim P d) np (rows_of d)) level (rows_of d).
Definition no_forced (l : loop P) : Prop :=
  let n := (dim P (l_dom P l) - 1)%nat in
  forall r s, In r (flat_rows P rows_of np (l_dom P l)) -> In s (flat_rows P rows_of np (l_dom P l)) ->
    r_eq r = false -> r_eq s = false -> 0 < coef r n -> coef s n < 0 -> ~ forced n np (stride_at P l) r s.
(** A loop of level [level], and all loops inside *)
Inductive clear : nat -> loop P -> Prop :=
| Clear : forall level l, simple_divs level (l_dom P l) -> (l_blk P l = None -> level <> 0%nat -> no_forced l) ->
    Forall (clear (S level)) (l_inner P l) -> clear level l.
End Clear.
