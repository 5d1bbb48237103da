(** Which statements can be printed in Fortran so that they can be read back, and what the printed
    program is run with. *)
From Coq Require Import ZArith List Bool Arith String Ascii.
From Verif Require Import ClastSpec ClastModel PprintModel CReader FReader PprintSpec.
Import ListNotations.
Local Open Scope string_scope.
Local Open Scope Z_scope.

(** A name of a variable or a statement: a letter, then letters, digits and underscores, at most 31
    characters, none of the words used by the reader and no intrinsic function. *)
Definition fname (s : string) : bool :=
  match s with EmptyString => false | String c s' => is_letter c && all_chars is_namechar s' end
  && negb (not_name (lower s)) && negb (is_intrinsic (lower s)).
(** Upper and lower case letters are the same in Fortran. *)
Definition case_distinct (vs : list string) : Prop := forall x y, In x vs -> In y vs -> lower x = lower y -> x = y.

(** *** expressions *)
(** what the text has to be: a primary expression, a product, a product with a sign or a sum (a sum
    starts with a product with a sign; the other products of a sum have no sign of their own) *)
Inductive plv := PPrim | PMul | PSigned | PSum.
Definition mul_ok (lv : plv) : bool := match lv with PPrim => false | _ => true end.
Definition signed_ok (lv : plv) : bool := match lv with PSigned | PSum => true | _ => false end.
Definition sum_ok (lv : plv) : bool := match lv with PSum => true | _ => false end.
Definition unsigned (lv : plv) : plv := match lv with PMul => PMul | _ => PSigned end.
Fixpoint fprintable (lv : plv) (e : expr) : bool :=
  match e with
  | EName s => fname s
  | ETerm v None => (0 <=? v) || signed_ok lv
  | ETerm v (Some x) =>
      if is_group x then ((v =? 1) || ((0 <=? v) && mul_ok lv) || signed_ok lv) && fprintable PSum x
      else if v =? 1 then fprintable lv x
      else (if 0 <=? v then mul_ok lv else signed_ok lv) && fprintable PPrim x
  | EBin BFdiv l r | EBin BCdiv l r => (0 <? r) && fprintable PSum l
  | EBin BDiv l r => (0 <? r) && mul_ok lv && (if is_group l then fprintable PSum l else fprintable (unsigned lv) l)
  | EBin BMod _ _ => false
  | ERed RSum [] => false
  | ERed RSum (x :: xs) =>
      is_term x && (match xs with [] => fprintable lv x | _ => sum_ok lv && fprintable PSigned x end) &&
      forallb (fun t => nonzero_term t && match t with ETerm v _ => fprintable (if 0 <? v then PMul else PSigned) t | _ => false end) xs
  | ERed _ [] => false
  | ERed _ [x] => fprintable lv x
  | ERed _ xs => forallb (fprintable PSum) xs
  end.
(** A condition: no remainder, or a remainder compared with zero for equality. *)
Definition fcond_printable (q : eqn) : bool :=
  match e_lhs q with
  | EBin BMod l r =>
      (0 <? r) && fprintable PSum l && (e_sign q =? 0) &&
      match e_rhs q with Some (ETerm v None) => v =? 0 | _ => false end
  | l => fprintable PSum l && opt_ok (fprintable PSum) (e_rhs q)
  end.

(** *** statements *)
Section Stmt.
Variable o : popts.
Variable stmt_name : nat -> option string.
(** No blocks (they are printed with braces), no strides (they are printed behind the upper bound,
    see C22). *)
Fixpoint fprintable_stmt (s : stmt) : bool :=
  match s with
  | SAss x e => fname x && opt_ok (fprintable PSum) e
  | SUser num subs => fname (stmt_label o stmt_name num) && forallb (opt_ok (fprintable PSum)) subs
  | SBlock _ => false
  | SFor it lb ub stride b =>
      fname it && opt_ok (fprintable PSum) lb && opt_ok (fprintable PSum) ub && (stride =? 1) &&
      negb (mem_str it (flat_map assigned b)) && forallb fprintable_stmt b
  | SGuard qs b => negb (List.length qs =? 0)%nat && forallb fcond_printable qs && forallb fprintable_stmt b
  end.
(** the calls made, with the names Fortran knows the statements by *)
Definition fnamed (t : list event) : list call := map (fun e => (lower (stmt_label o stmt_name (fst e)), snd e)) t.
End Stmt.

(** *** executions whose quotients are small enough for default reals *)
Definition small_quot (t : bin_type) (x d : Z) : bool :=
  match t with BFdiv | BCdiv => Z.abs x + d <=? 2 ^ 24 | BDiv | BMod => true end.
(** the value of an expression; None also when a floor or a ceiling is taken of a quotient that is
    not small *)
Fixpoint small_eval (rho : env) (e : expr) : option Z :=
  match e with
  | EName x => rho x
  | ETerm v None => Some v
  | ETerm v (Some x) => match small_eval rho x with Some z => Some (v * z) | None => None end
  | EBin t l d => match small_eval rho l with Some z => if small_quot t z d then Some (bin_val t z d) else None | None => None end
  | ERed t l =>
      let fix vals (l : list expr) : option (list Z) :=
        match l with
        | [] => Some []
        | e :: l' => match small_eval rho e, vals l' with Some z, Some zs => Some (z :: zs) | _, _ => None end
        end in
      match vals l with Some (z :: zs) => Some (fold_left (red_val t) zs z) | _ => None end
  end.
(** executions (ClastSpec.exec) that compute the values of expressions with [ev] *)
Section With.
Variable ev : env -> expr -> option Z.
Definition opt_with (rho : env) (e : option expr) : option Z := match e with Some e => ev rho e | None => None end.
Definition holds_with (rho : env) (q : eqn) : option bool :=
  match ev rho (e_lhs q), opt_with rho (e_rhs q) with
  | Some a, Some b => Some (if e_sign q =? 0 then a =? b else if 0 <? e_sign q then b <=? a else a <=? b)
  | _, _ => None
  end.
Fixpoint all_hold_with (rho : env) (qs : list eqn) : option bool :=
  match qs with
  | [] => Some true
  | q :: qs' => match holds_with rho q, all_hold_with rho qs' with Some a, Some b => Some (a && b) | _, _ => None end
  end.
Fixpoint all_with (rho : env) (es : list (option expr)) : option (list Z) :=
  match es with
  | [] => Some []
  | e :: es' => match opt_with rho e, all_with rho es' with Some z, Some zs => Some (z :: zs) | _, _ => None end
  end.
Fixpoint exec1_with (s : stmt) (rho : env) {struct s} : option (env * list event) :=
  let fix execs (l : list stmt) (rho : env) : option (env * list event) :=
    match l with
    | [] => Some (rho, [])
    | s :: l' => match exec1_with s rho with
                 | None => None
                 | Some (rho1, t1) => match execs l' rho1 with
                                      | None => None
                                      | Some (rho2, t2) => Some (rho2, t1 ++ t2)%list
                                      end
                 end
    end in
  match s with
  | SAss x e => match opt_with rho e with Some v => Some (assign rho x v, []) | None => None end
  | SUser num subs => match all_with rho subs with Some vs => Some (rho, [(num, vs)]) | None => None end
  | SBlock body => execs body rho
  | SFor it lb ub step body =>
      match opt_with rho lb, opt_with rho ub with
      | Some l, Some u => if 0 <? step then iterate (execs body) it step (trip_count l u step) l rho else None
      | _, _ => None
      end
  | SGuard qs th => match all_hold_with rho qs with
                    | Some true => execs th rho
                    | Some false => Some (rho, [])
                    | None => None
                    end
  end.
Fixpoint exec_with (l : list stmt) (rho : env) : option (env * list event) :=
  match l with
  | [] => Some (rho, [])
  | s :: l' => match exec1_with s rho with
               | None => None
               | Some (rho1, t1) => match exec_with l' rho1 with
                                    | None => None
                                    | Some (rho2, t2) => Some (rho2, t1 ++ t2)%list
                                    end
               end
  end.
End With.
(** The variables [vs] have the same values in the printed program. *)
Definition fagree (vs : list string) (rho rf : env) : Prop := forall x z, In x vs -> rho x = Some z -> rf (lower x) = Some z.
