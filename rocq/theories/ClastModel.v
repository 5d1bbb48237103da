(** source/clast.c with the isl back end (source/isl/constraints.c): from a generated loop
    structure to statements with explicit bounds, guards and assignments.

    Scope.  A constraint has one coefficient per iterator, then one per existential dimension
    (isl div), then one per parameter, and a constant.  Existential dimensions are modelled where
    they say something about remainders (insert_extra_modulo_guards uses the constraints and
    removes them); a domain in which other constraints involve them (quotients: div_expr, C40)
    makes the model return None.  Strides whose offset is
    a constant (stride->constraint == NULL); a loop with another kind of stride makes the model
    return None.  A NULL expression is None.  Failing assertions return None.  Reference
    counting and memory management are left out (C31, C32), as are the fields of the output that
    do not influence execution (domain of a loop or user statement, parallel annotations). *)
From Coq Require Import ZArith List Bool Arith String Ascii.
From Verif Require Import LoopModel.
Import ListNotations.
Local Open Scope Z_scope.

(** include/cloog/clast.h:8-54 *)
Inductive bin_type := BFdiv | BCdiv | BDiv | BMod.
Inductive red_type := RSum | RMin | RMax.
Inductive expr :=
| EName (s : string)
| ETerm (val : Z) (var : option expr)
| EBin (t : bin_type) (lhs : expr) (rhs : Z)
| ERed (t : red_type) (elts : list expr).
(** include/cloog/clast.h:117-128; sign 0: ==, positive: >=, negative: <= *)
Record eqn := { e_lhs : expr; e_rhs : option expr; e_sign : Z }.
(** include/cloog/clast.h:68-128.  The [next] chain is a list; a user statement keeps its number
    and its substitutions. *)
Inductive stmt :=
| SAss (lhs : string) (rhs : option expr)
| SUser (num : nat) (subs : list (option expr))
| SBlock (body : list stmt)
| SFor (it : string) (lb ub : option expr) (stride : Z) (body : list stmt)
| SGuard (eqs : list eqn) (then_ : list stmt).

(** *** comparison of expressions, clast.c:383-460 *)
Definition bin_num (t : bin_type) : Z := match t with BFdiv => 0 | BCdiv => 1 | BDiv => 2 | BMod => 3 end.
Definition red_num (t : red_type) : Z := match t with RSum => 0 | RMin => 1 | RMax => 2 end.
Definition expr_num (e : expr) : Z := match e with EName _ => 0 | ETerm _ _ => 1 | EBin _ _ _ => 2 | ERed _ _ => 3 end.
(** the sign of strcmp, resp. of cloog_int_cmp (include/cloog/int.h.in) *)
Definition cmp_sign (c : comparison) : Z := match c with Eq => 0 | Lt => -1 | Gt => 1 end.
Definition str_cmp (a b : string) : Z := cmp_sign (String.compare a b).
Definition int_cmp (a b : Z) : Z := cmp_sign (a ?= b).
(** [if (c) return c; rest] *)
Definition first_nz (c rest : Z) : Z := if c =? 0 then rest else c.

Fixpoint expr_cmp (e1 e2 : expr) {struct e1} : Z :=
  match e1, e2 with
  | EName a, EName b => str_cmp a b
  | ETerm v1 None, ETerm v2 None => int_cmp v1 v2
  | ETerm _ None, ETerm _ (Some _) => -1
  | ETerm _ (Some _), ETerm _ None => 1
  | ETerm v1 (Some x1), ETerm v2 (Some x2) => first_nz (expr_cmp x1 x2) (int_cmp v1 v2)
  | EBin t1 l1 r1, EBin t2 l2 r2 =>
      if bin_num t1 =? bin_num t2 then first_nz (int_cmp r1 r2) (expr_cmp l1 l2) else bin_num t1 - bin_num t2
  | ERed t1 m1, ERed t2 m2 =>
      let fix elts (m1 m2 : list expr) : Z :=
        match m1, m2 with
        | a :: m1', b :: m2' => first_nz (expr_cmp a b) (elts m1' m2')
        | _, _ => 0
        end in
      if (List.length m1 =? 1)%nat && (List.length m2 =? 1)%nat then elts m1 m2
      else if negb (red_num t1 =? red_num t2) then red_num t1 - red_num t2
      else if negb (List.length m1 =? List.length m2)%nat then Z.of_nat (List.length m1) - Z.of_nat (List.length m2)
      else elts m1 m2
  | _, _ => expr_num e1 - expr_num e2
  end.
Definition expr_equal (e1 e2 : expr) : bool := expr_cmp e1 e2 =? 0.
(** qsort_eq_cmp, clast.c:499-515, for equations with a right hand side *)
Definition eqn_cmp (q1 q2 : eqn) : Z :=
  first_nz (expr_cmp (e_lhs q1) (e_lhs q2))
    (first_nz (match e_rhs q1, e_rhs q2 with Some a, Some b => expr_cmp a b | _, _ => 0 end) (e_sign q1 - e_sign q2)).

(** clast.c:465-487 *)
Fixpoint is_bigger_constant2 (v1 : Z) (e2 : expr) : bool :=
  match e2 with
  | ERed _ [x] => is_bigger_constant2 v1 x
  | ETerm v2 None => v1 >? v2
  | _ => false
  end.
Fixpoint is_bigger_constant1 (e1 : expr) (e2 : expr) : bool :=
  match e1 with
  | ERed _ [x] => is_bigger_constant1 x e2
  | ETerm v1 None => is_bigger_constant2 v1 e2
  | _ => false
  end.
Definition is_bigger_constant (e1 e2 : option expr) : bool :=
  match e1, e2 with Some a, Some b => is_bigger_constant1 a b | _, _ => false end.

(** *** constraints *)
(** An isl_constraint: equality or inequality ([>= 0]), coefficients (iterators, then
    parameters, as cloog numbers them: constraints.c:512-532), constant. *)
Record row := { r_eq : bool; r_co : list Z; r_k : Z }.
(** constraints.c:626-682; [v] starts at 0 *)
Definition coef (r : row) (v : nat) : Z := nth v (r_co r) 0.
Definition involves (r : row) (v : nat) : bool := negb (coef r v =? 0).
Definition is_lower_bound (r : row) (v : nat) : bool := 0 <? coef r v.
Definition is_upper_bound (r : row) (v : nat) : bool := coef r v <? 0.
(** constraints.c:766-784 *)
Fixpoint set_nth {A} (l : list A) (n : nat) (a : A) : list A :=
  match l, n with
  | [], _ => []
  | _ :: l', O => a :: l'
  | x :: l', S n' => x :: set_nth l' n' a
  end.
Definition set_coef (r : row) (v : nat) (z : Z) : row := {| r_eq := r_eq r; r_co := set_nth (r_co r) v z; r_k := r_k r |}.

Section Clast.
(** Names: cloog_names_name_at_level (names.c:522) for levels from 1, and names->parameters
    (from 0). *)
Variable iter_name : nat -> string.
Variable par_name : nat -> string.
(** qsort with clast_expr_cmp / qsort_eq_cmp (clast.c:489-521): any rearrangement *)
Variable sort_exprs : list expr -> list expr.
Variable sort_eqns : list eqn -> list eqn.

(** cloog_constraint_variable_expr (constraints.c:603-621) without divs: [n] iterators;
    [i] starts at 1 *)
Definition variable_expr (n i : nat) : expr :=
  EName (if (i <=? n)%nat then iter_name i else par_name (i - n - 1)).

(** clast.c:671-795 *)
Definition bound_terms (n : nat) (r : row) (level : nat) (sign : Z) : list expr :=
  flat_map (fun i => if (i =? level)%nat || (coef r (i - 1) =? 0) then []
                     else [ETerm (sign * coef r (i - 1)) (Some (variable_expr n i))])
           (seq 1 (List.length (r_co r))).
Definition bound_from_constraint (n : nat) (r : row) (level : nat) : option expr :=
  let a := coef r (level - 1) in
  if a =? 0 then None else
  let sign := - Z.sgn a in
  let elts := bound_terms n r level sign in
  let numerator := sign * r_k r in
  let denominator := Z.abs a in
  match elts with
  | _ :: _ =>
      let red := ERed RSum (elts ++ (if numerator =? 0 then [] else [ETerm numerator None])) in
      if (a =? 1) || (a =? -1) then Some red
      else if r_eq r then Some (EBin BDiv red denominator)
      else Some (EBin (if 0 <? a then BCdiv else BFdiv) red denominator)
  | [] =>
      if numerator =? 0 then Some (ETerm numerator None)
      else if denominator =? 1 then Some (ETerm numerator None)
      else if r_eq r then Some (EBin BDiv (ETerm numerator None) denominator)
      else if Z.rem numerator denominator =? 0 then Some (ETerm (Z.quot numerator denominator) None)
      else
        let division := Z.quot numerator denominator in
        Some (ETerm (if numerator <? 0 then (if 0 <? a then division else division - 1)
                     else (if 0 <? a then division + 1 else division)) None)
  end.

(** valid_bound, clast.c:818-840.  [guard = 0]: no guard. *)
Definition valid_bound (level : nat) (max : bool) (guard : nat) (no_earlier : bool) (c : row) : bool :=
  (if max then is_lower_bound c (level - 1) else is_upper_bound c (level - 1)) &&
  negb (r_eq c) &&
  negb (negb (guard =? 0)%nat && involves c (guard - 1)) &&
  negb (no_earlier && existsb (fun i => involves c i) (seq 0 (level - 1))).

(** A stride with a constant offset: value, offset.  update_lower_bound, clast.c:882-900 *)
Definition cdiv (a b : Z) : Z := - ((- a) / b).
Definition update_lower_bound (e : expr) (st : option (Z * Z)) : expr :=
  match st, e with
  | Some (s, o), ETerm v None => ETerm (cdiv (v - o) s * s + o) None
  | _, _ => e
  end.

(** clast_minmax and its callbacks, clast.c:845-986; [stride] is given for lower bounds of loops *)
Definition minmax (n : nat) (rows : list row) (level : nat) (max : bool) (guard : nat) (no_earlier : bool)
    (stride : option (Z * Z)) : option expr :=
  match filter (valid_bound level max guard no_earlier) rows with
  | [] => None
  | valid => match fold_right (fun c acc =>
                 match acc, bound_from_constraint n c level with
                 | Some l, Some e => Some (update_lower_bound e stride :: l)
                 | _, _ => None
                 end) (Some []) valid with
             | Some l => Some (ERed (if max then RMax else RMin) (sort_exprs l))
             | None => None
             end
  end.

(** insert_guard_constraint, clast.c:1075-1143: the constraints in turn, for dimension [i] (from
    1); [mn], [mx]: a min, resp. max was made already.  [n]: number of iterators. *)
Definition skip_guard (n : nat) (level i : nat) (j : row) : bool :=
  negb (involves j (i - 1)) ||
  existsb (fun k => involves j k) (seq 0 (i - 1)) ||
  (negb (level =? 0)%nat && (level <=? n)%nat && involves j (level - 1)).
Fixpoint guard_dim (n : nat) (all : list row) (level i : nat) (mn mx : bool) (rows : list row) : list eqn :=
  match rows with
  | [] => []
  | j :: rest =>
      if skip_guard n level i j then guard_dim n all level i mn mx rest
      else if (level =? 0)%nat || r_eq j then
        let a := coef j (i - 1) in
        let j' := set_coef j (i - 1) (if a <? 0 then -1 else 1) in
        {| e_lhs := ETerm (Z.abs a) (Some (variable_expr n i));
           e_rhs := bound_from_constraint n j' i;
           e_sign := if negb (level =? 0)%nat || r_eq j then 0 else if 0 <? a then 1 else -1 |}
        :: guard_dim n all level i mn mx rest
      else if (mx && is_lower_bound j (i - 1)) || (mn && is_upper_bound j (i - 1))
      then guard_dim n all level i mn mx rest
      else
        let low := is_lower_bound j (i - 1) in
        {| e_lhs := ETerm 1 (Some (variable_expr n i));
           e_rhs := minmax n all i low (if (level <=? n)%nat then level else 0%nat) true None;
           e_sign := if low then 1 else -1 |}
        :: guard_dim n all level i (mn || negb low) (mx || low) rest
  end.
(** insert_guard, clast.c:1170-1213, after the extra modulo guards; [np] parameters *)
Definition guard_eqns (n np : nat) (rows : list row) (level : nat) : list eqn :=
  flat_map (fun i => guard_dim n rows level i false false rows) (seq 1 (n + np)).

(** What is put around the code that follows. *)
Inductive frame :=
| FGuard (eqs : list eqn)
| FAss (lhs : string) (rhs : option expr)
| FBlock
| FFor (it : string) (lb ub : option expr) (stride : Z).
Definition plug1 (f : frame) (body : list stmt) : list stmt :=
  match f with
  | FGuard eqs => [SGuard eqs body]
  | FAss x e => SAss x e :: body
  | FBlock => [SBlock body]
  | FFor it lb ub s => [SFor it lb ub s body]
  end.
Definition plug (fs : list frame) (body : list stmt) : list stmt := fold_right plug1 body fs.

Definition insert_guard (n np : nat) (rows : list row) (level : nat) : list frame :=
  match guard_eqns n np rows level with [] => [] | eqs => [FGuard (sort_eqns eqs)] end.

(** *** equalities, constraints.c:278-447 *)
Inductive eqtype := TConstant | TPureitem | TExaffine.
(** cloog_constraint_equal_type, constraints.c:330-397, [n] iterators.  [scan] is each of the
    loops over a class of variables; it stops ([break]) when the type becomes EXAFFINE. *)
Fixpoint scan_type (cs : list Z) (type : option eqtype) : option eqtype :=
  match cs with
  | [] => type
  | c :: cs' =>
      if c =? 0 then scan_type cs' type
      else if (negb (Z.abs c =? 1)) || match type with None => false | Some _ => true end then Some TExaffine
      else scan_type cs' (Some TPureitem)
  end.
Definition equal_type (n : nat) (r : row) (level : nat) : eqtype :=
  let t0 := if r_k r =? 0 then None else Some TConstant in
  let t1 := if Z.abs (coef r (level - 1)) =? 1 then t0 else Some TExaffine in
  let t2 := scan_type (skipn n (r_co r)) t1 in
  let t3 := scan_type (set_nth (firstn n (r_co r)) (level - 1) 0) t2 in
  match t3 with None => TConstant | Some t => t end.

(** Options used here (include/cloog/options.h): otl, fsp, esp, block, callable *)
Record copts := { co_otl : bool; co_fsp : nat; co_esp : bool; co_block : bool; co_callable : bool }.
(** State of the recursion (CloogInfos): for each enclosing level, the equality recorded for it
    (type, iterators of the constraint, constraint) and its stride. *)
Record infos := { i_eqs : list (option (eqtype * row)); i_strides : list (option (Z * Z)) }.

(** clast_equal_allow, clast.c:575-588 *)
Definition equal_allow (o : copts) (t : eqtype) (level : nat) : bool :=
  negb (level <? co_fsp o)%nat && negb (match t with TExaffine => true | _ => false end && negb (co_esp o)).

(** *** modulo guards *)
(** cloog_constraint_set_reduce (constraints.c:952-1020) is isl_basic_set_gist relative to the
    recorded equalities: a parameter.  Its result lists the constraints left, in isl's order;
    without EXAFFINE equalities it is its argument. *)
Variable reduce : list (option (eqtype * row)) -> list row -> nat -> list row.

(** eliminate_using_stride_constraint, clast.c:1288-1330, for a constant offset; [line]: the
    coefficients, and the constant *)
Definition eliminate (m : Z) (line : list Z * Z) (is : nat * option (Z * Z)) : list Z * Z :=
  match snd is with
  | Some (s, o) =>
      if s mod m =? 0 then
        (set_nth (fst line) (fst is - 1) 0, (snd line + nth (fst is - 1) (fst line) 0 * o) mod m)
      else line
  | None => line
  end.
(** insert_modulo_guard_constraint, clast.c:1355-1443: whether the guard can be satisfied, and
    the guard.  [lower]: is there a lower constraint. *)
Definition modulo_guard_constraint (n : nat) (nfo : infos) (c : row) (lower : bool) (bound : Z) (level : nat) : option (bool * list frame) :=
  let a := coef c (level - 1) in
  let flip := 0 <? a in
  let co := if flip then map Z.opp (r_co c) else r_co c in
  let k := if flip then - r_k c + (if r_eq c then 0 else bound) else r_k c in
  let m := - nth (level - 1) co 0 in
  if m <=? 0 then None else
  let co1 := map (fun z => z mod m) (set_nth co (level - 1) 0) in
  let k1 := k mod m in
  if forallb (fun z => z =? 0) co1 && (k1 =? 0) then Some (true, []) else
  let '(co2, k2) := fold_left (eliminate m) (rev (List.combine (seq 1 (level - 1)) (firstn (level - 1) (i_strides nfo)))) (co1, k1) in
  let terms := flat_map (fun i => let z := nth (i - 1) co2 0 in if z =? 0 then [] else [ETerm z (Some (variable_expr n i))])
                        (seq 1 (List.length co2)) in
  match terms with
  | [] => Some (if lower then k2 <=? bound else k2 =? 0, [])
  | _ =>
      let red := ERed RSum (terms ++ if k2 =? 0 then [] else [ETerm k2 None]) in
      Some (true, [FGuard [{| e_lhs := EBin BMod red m; e_rhs := Some (ETerm (if lower then bound else 0) None);
                              e_sign := if lower then -1 else 0 |}]])
  end.
(** insert_modulo_guard, clast.c:1465-1515 *)
Definition modulo_guard (n : nat) (nfo : infos) (upper : row) (lower : option row) (level : nat) : option (bool * list frame) :=
  if Z.abs (coef upper (level - 1)) =? 1 then Some (true, []) else
  let redundant := match lower with
                   | Some l => (coef l (level - 1) - 1 =? r_k upper + r_k l)
                   | None => false end in
  if redundant then Some (true, []) else
  let rows := reduce (firstn (level - 1) (i_eqs nfo)) (upper :: match lower with Some l => [l] | None => [] end) level in
  let bound := fold_right (fun r s => r_k r + s) 0 rows in
  match rows with
  | [] => Some (true, [])
  | c :: _ => modulo_guard_constraint n nfo c (match lower with Some _ => true | None => false end) bound level
  end.

(** clast_for_bound, clast.c:116-146 *)
Definition for_bound (o : copts) (lb ub : option expr) : option expr * option expr :=
  if negb (co_callable o) then (lb, ub) else
  match lb, ub with
  | Some l, None => (lb, Some (ERed RSum [ETerm 1000 None; ETerm 1 (Some l)]))
  | None, Some u => (Some (ERed RSum [ETerm (-1000) None; ETerm 1 (Some u)]), ub)
  | None, None => (Some (ETerm (-1000) None), Some (ETerm 1000 None))
  | _, _ => (lb, ub)
  end.
Definition stride_of (st : option (Z * Z)) : Z := match st with Some (s, _) => s | None => 1 end.

(** insert_equation and insert_equation_as_loop, clast.c:1523-1624.  The result: [None] for a
    failed assertion; [Some None] when the loop is empty; otherwise what is put around the body
    and the equality recorded for this level. *)
Definition insert_equation (o : copts) (n : nat) (nfo : infos) (st : option (Z * Z)) (upper : row) (lower : option row) (level : nat)
  : option (option (list frame * option (eqtype * row))) :=
  if negb (co_otl o) then
    let e2 := bound_from_constraint n upper level in
    let e1 := match lower with None => e2 | Some l => bound_from_constraint n l level end in
    let '(e1', e2') := for_bound o e1 e2 in
    Some (Some ([FFor (iter_name level) e1' e2' (stride_of st)], None))
  else
    match modulo_guard n nfo upper lower level with
    | None => None
    | Some (false, _) => Some None
    | Some (true, fs) =>
        let t := equal_type n upper level in
        let spread := match lower with Some _ => false | None => equal_allow o t level end in
        let eq := match lower with Some _ => None | None => Some (t, upper) end in
        Some (Some (fs ++ if spread then [] else
                    (if co_block o then [FBlock] else []) ++ [FAss (iter_name level) (bound_from_constraint n upper level)], eq))
    end.

(** insert_for, insert_otl_for and insert_guarded_otl_for, clast.c:1634-1765.  insert_otl_for fails
    an assertion in cloog_equal_add (constraints.c:425). *)
Definition insert_for (o : copts) (n : nat) (rows : list row) (st : option (Z * Z)) (level : nat) (otl : bool)
  : option (option (list frame)) :=
  let e1 := minmax n rows level true 0 false st in
  let e2 := minmax n rows level false 0 false None in
  if is_bigger_constant e1 e2 then Some None
  else if match e1, e2 with Some a, Some b => co_otl o && expr_equal a b | _, _ => false end then None
  else if otl then
    Some (Some ((if co_block o then [FBlock] else []) ++
                [FAss (iter_name level) e1;
                 FGuard [{| e_lhs := ETerm 1 (Some (EName (iter_name level))); e_rhs := e2; e_sign := -1 |}]]))
  else
    let '(e1', e2') := for_bound o e1 e2 in
    Some (Some [FFor (iter_name level) e1' e2' (stride_of st)]).

(** cloog_constraint_set_defining_equality (constraints.c:151-166; isl_basic_set_has_defining_equality):
    an equality whose last iterator is the one of the level *)
Definition last_iterator (n : nat) (level : nat) (r : row) : bool :=
  involves r (level - 1) && forallb (fun i => negb (involves r i)) (seq level (n - level)).
Definition defining_equality (n : nat) (rows : list row) (level : nat) : option row :=
  find (fun r => r_eq r && last_iterator n level r) rows.
(** cloog_constraint_set_defining_inequalities (constraints.c:210-243;
    isl_basic_set_has_defining_inequalities): a pair of opposite inequalities, with coefficients
    other than 1 and -1 for the level, whose constants add up to less than that coefficient; no
    other constraint may involve the level. *)
Definition opposite (r s : row) : bool :=
  (List.length (r_co r) =? List.length (r_co s))%nat &&
  forallb (fun p => fst p + snd p =? 0) (List.combine (r_co r) (r_co s)).
Definition defining_pair (n : nat) (level : nat) (u l : row) : bool :=
  negb (r_eq u) && negb (r_eq l) && last_iterator n level u && opposite u l &&
  (coef u (level - 1) <? -1) && (Z.abs (r_k u + r_k l) <? - coef u (level - 1)).
Definition row_eqb (r s : row) : bool :=
  Bool.eqb (r_eq r) (r_eq s) && (r_k r =? r_k s) && if list_eq_dec Z.eq_dec (r_co r) (r_co s) then true else false.
Definition defining_inequalities (n : nat) (rows : list row) (level : nat) : option (row * row) :=
  match find (fun p => defining_pair n level (fst p) (snd p)) (list_prod rows rows) with
  | Some (u, l) =>
      if existsb (fun c => negb (row_eqb c u) && negb (row_eqb c l) && involves c (level - 1)) rows
      then None else Some (u, l)
  | None => None
  end.

(** clast_equal, clast.c:628-660; [ns]: number of scattering names *)
Definition clast_equal (ns : nat) (eqs : list (option (eqtype * row))) (level : nat) : list (option expr) :=
  map (fun i => match nth i eqs None with
                | Some (_, r) => bound_from_constraint (i + 1) r (i + 1)
                | None => Some (ETerm 1 (Some (EName (iter_name (i + 1)))))
                end) (seq ns (level - 1 - ns)).

(** *** insert_loop, clast.c:1838-1905 *)
Variable P : Poly.
(** cloog_domain_constraints (isl/domain.c); cloog_constraint_set_normalize and
    cloog_constraint_set_simplify do nothing (constraints.c:463-503) *)
Variable rows_of : dom P -> list row.

Definition const_stride (l : loop P) : option (option (Z * Z)) :=
  match l_st P l with
  | None => Some None
  | Some (s, o, None) => Some (Some (s, o))
  | Some (_, _, Some _) => None
  end.
(** insert_block, clast.c:1779-1800 *)
Definition insert_block (ns : nat) (nfo : infos) (b : option block) (level : nat) : list stmt :=
  match b with
  | None => []
  | Some b => map (fun num => SUser num (clast_equal ns (i_eqs nfo) level)) (b_stmts b)
  end.

(** Everything about the loop itself: what is put around the body, or [Some None] with the guard
    for a loop found empty; the equality recorded; whether it counts as an equality for the block *)
Definition insert_header (o : copts) (np : nat) (nfo : infos) (level : nat) (l : loop P) (st : option (Z * Z))
  : option (option (list frame * option (eqtype * row) * bool)) :=
  let n := dim P (l_dom P l) in
  let rows := rows_of (l_dom P l) in
  if negb (level =? 0)%nat && (level <=? n)%nat then
    match defining_equality n rows level with
    | Some i => match insert_equation o n nfo st i None level with
                | None => None
                | Some None => Some None
                | Some (Some (fs, e)) => Some (Some (fs, e, true))
                end
    | None =>
      match defining_inequalities n rows level with
      | Some (i, j) => match insert_equation o n nfo st i (Some j) level with
                       | None => None
                       | Some None => Some None
                       | Some (Some (fs, e)) => Some (Some (fs, e, false))
                       end
      | None => match insert_for o n rows st level (l_otl P l) with
                | None => None
                | Some None => Some None
                | Some (Some fs) => Some (Some (fs, None, false))
                end
      end
    end
  else Some (Some ([], None, false)).

End Clast.

(** *** existential dimensions *)
(** cloog_constraint_set_total_dimension minus iterators and parameters (constraints.c:243-256): the
    number of divs of a constraint set over [n] iterators and [np] parameters *)
Definition n_divs (n np : nat) (rows : list row) : nat :=
  match rows with [] => 0%nat | r :: _ => (List.length (r_co r) - (n + np))%nat end.
Definition has_div (n nd : nat) (r : row) : bool := existsb (fun i => involves r i) (seq n nd).
(** isl drops the divs no constraint involves; the parameters move up *)
Definition without_divs (n nd : nat) (r : row) : row :=
  {| r_eq := r_eq r; r_co := firstn n (r_co r) ++ skipn (n + nd) (r_co r); r_k := r_k r |}.
(** cloog_constraint_set_drop_constraint, constraints.c:683-734: all constraints with the same
    affine function are left out.  The columns of the other divs keep their places here; isl
    numbers them anew, which changes at most the order of the modulo guards. *)
Definition same_aff (r s : row) : bool :=
  (r_k r =? r_k s) && if list_eq_dec Z.eq_dec (r_co r) (r_co s) then true else false.
Definition drop_row (u : row) (rows : list row) : list row := filter (fun r => negb (same_aff r u)) rows.

Section ClastLoop.
Variable iter_name : nat -> string.
Variable par_name : nat -> string.
Variable sort_exprs : list expr -> list expr.
Variable sort_eqns : list eqn -> list eqn.
Variable reduce : list (option (eqtype * row)) -> list row -> nat -> list row.

(** insert_extra_modulo_guards, clast.c:983-1034: [divs] are the positions of the divs (from 1), in
    the order of the loop.  insert_modulo_guard does not reduce these constraints (clast.c:1500,
    constraints.c:850-866: only those on iterators), and its result, whether the condition can be satisfied at
    all, is not used.  A constraint with a second div, which has no name, is left out of the
    model. *)
Fixpoint extra_guards (n nd : nat) (nfo : infos) (level : nat) (divs : list nat) (rows : list row) {struct divs}
  : option (list frame * list row) :=
  match divs with
  | [] => Some ([], rows)
  | i :: divs' =>
      let use (u : row) (lower : option row) (rows' : list row) :=
        if (level =? 0)%nat || (n <? level)%nat || negb (involves u (level - 1)) then
          if existsb (fun j => negb (j =? i - 1)%nat && involves u j) (seq n nd) then None
          else match modulo_guard iter_name par_name (fun _ rows _ => rows) (n + nd) nfo u lower i, extra_guards n nd nfo level divs' rows' with
               | Some (_, fs), Some (gs, rest) => Some (fs ++ gs, rest)
               | _, _ => None
               end
        else extra_guards n nd nfo level divs' rows in
      match defining_equality (n + nd) rows i with
      | Some u => use u None (drop_row u rows)
      | None =>
          match defining_inequalities (n + nd) rows i with
          | Some (u, l) => use u (Some l) (drop_row l (drop_row u rows))
          | None => extra_guards n nd nfo level divs' rows
          end
      end
  end.
(** insert_guard as a whole, clast.c:1170-1213 *)
Definition insert_guards (n np : nat) (nfo : infos) (rows : list row) (level : nat) : option (list frame) :=
  let nd := n_divs n np rows in
  match extra_guards n nd nfo level (rev (seq (S n) nd)) rows with
  | None => None
  | Some (mods, rows1) =>
      if existsb (has_div n nd) rows1 then None
      else Some (mods ++ insert_guard iter_name par_name sort_exprs sort_eqns n np (map (without_divs n nd) rows1) level)
  end.
(** The constraints without divs.  insert_equation and insert_for look for constraints on the
    loop's own iterator; where [insert_guards] succeeds those with divs have been used up there and
    do not involve that iterator. *)
Definition plain_rows (n np : nat) (rows : list row) : list row :=
  let nd := n_divs n np rows in map (without_divs n nd) (filter (fun r => negb (has_div n nd r)) rows).

Variable P : Poly.
Variable rows_of : dom P -> list row.
Definition flat_rows (np : nat) (d : dom P) : list row := plain_rows (dim P d) np (rows_of d).

Fixpoint insert_loop (o : copts) (ns np : nat) (nfo : infos) (level : nat) (l : loop P) {struct l} : option (list stmt) :=
  match l with
  | Loop _ d ot sst b inner =>
    match const_stride P (Loop P d ot sst b inner) with
    | None => None
    | Some st =>
      let nfo1 := if (level =? 0)%nat then nfo else {| i_eqs := i_eqs nfo; i_strides := i_strides nfo ++ [st] |} in
      match insert_guards (dim P d) np nfo1 (rows_of d) level with
      | None => None
      | Some guard =>
      match insert_header iter_name par_name sort_exprs reduce P (flat_rows np) o np nfo1 level (Loop P d ot sst b inner) st with
      | None => None
      | Some None => Some (plug guard [])
      | Some (Some (fs, e, equality)) =>
          let nfo2 := if (level =? 0)%nat then nfo1 else {| i_eqs := i_eqs nfo1 ++ [e]; i_strides := i_strides nfo1 |} in
          let fix insert_loops (ls : list (loop P)) : option (list stmt) :=
            match ls with
            | [] => Some []
            | l :: ls' => match insert_loop o ns np nfo2 (S level) l, insert_loops ls' with
                          | Some a, Some b => Some (a ++ b)
                          | _, _ => None
                          end
            end in
          match insert_loops inner with
          | None => None
          | Some body =>
              Some (plug (guard ++ fs)
                      (insert_block iter_name par_name ns nfo2 b (if equality then S level else level) ++ body))
          end
      end
      end
    end
  end.
Fixpoint insert_loops (o : copts) (ns np : nat) (nfo : infos) (level : nat) (ls : list (loop P)) : option (list stmt) :=
  match ls with
  | [] => Some []
  | l :: ls' => match insert_loop o ns np nfo level l, insert_loops o ns np nfo level ls' with
                | Some a, Some b => Some (a ++ b)
                | _, _ => None
                end
  end.
(** cloog_clast_create, clast.c:1911-1942: [ns] scattering names, [np] parameters *)
Definition clast_create (o : copts) (ns np : nat) (ls : list (loop P)) : option (list stmt) :=
  insert_loops o ns np {| i_eqs := []; i_strides := [] |} 0 ls.
End ClastLoop.
