(** source/pprint.c: the text printed for generated statements.

    Every function returns the characters it writes; [None]: a failed assertion, a NULL pointer
    that is read, or cloog_die.  Left out: OpenScop statement bodies (pprint_osl_body, used only
    with an OpenScop input), parallel and timing annotations of loops (set only by program.c from
    OpenScop extensions; without them lines 486-571 and 639-645 print nothing). *)
From Coq Require Import ZArith List Bool Arith String Ascii Decimal DecimalString.
From Verif Require Import ClastModel.
Import ListNotations.
Local Open Scope string_scope.
Local Open Scope Z_scope.

Inductive language := LangC | LangFortran.
(** the options used here (include/cloog/options.h) *)
Record popts := { p_lang : language; p_callable : bool }.

(** cloog_int_print (include/cloog/int.h.in:80-92, 143): decimal *)
Definition int_text (z : Z) : string := NilZero.string_of_int (Z.to_int z).
(** the decimal number printed by %d for a statement number *)
Definition nat_text (n : nat) : string := NilZero.string_of_uint (Nat.to_uint n).

Definition cat (a b : option string) : option string :=
  match a, b with Some x, Some y => Some (x ++ y) | _, _ => None end.
Local Notation "a +++ b" := (cat a b) (at level 60, right associativity).
Definition say (s : string) : option string := Some s.
Definition is_group (e : expr) : bool :=
  match e with ERed _ l => negb (List.length l <=? 1)%nat | _ => false end.

Section Expr.
Variable lang : language.
(** pprint_binary, pprint.c:144-194: what is written before, between and after *)
Definition binary_text (t : bin_type) (group : bool) : string * string * string :=
  match lang, t with
  | LangFortran, BFdiv => ("FLOOR(REAL(", ")/REAL(", "))")
  | LangFortran, BCdiv => ("CEILING(REAL(", ")/REAL(", "))")
  | LangFortran, BMod => ("MOD(", ", ", ")")
  | LangC, BFdiv => ("floord(", ",", ")")
  | LangC, BCdiv => ("ceild(", ",", ")")
  | LangC, BMod => if group then ("(", ")%", "") else ("", "%", "")
  | _, BDiv => if group then ("(", ")/", "") else ("", "/", "")
  end.
(** pprint_term 103-123, pprint_sum 125-142, pprint_minmax_f 196-208, pprint_minmax_c 210-222,
    pprint_reduction 224-244, pprint_expr 246-266 *)
Fixpoint pprint_expr (e : expr) : option string :=
  match e with
  | EName s => say s
  | ETerm v None => say (int_text v)
  | ETerm v (Some x) =>
      say (if v =? 1 then "" else if v =? -1 then "-" else int_text v ++ "*") +++
      say (if is_group x then "(" else "") +++ pprint_expr x +++ say (if is_group x then ")" else "")
  | EBin t l r =>
      let '(s1, s2, s3) := binary_text t (is_group l) in
      say s1 +++ pprint_expr l +++ say s2 +++ say (int_text r) +++ say s3
  | ERed RSum [] => None
  | ERed RSum (t :: ts) =>
      let fix more (ts : list expr) : option string :=
        match ts with
        | [] => say ""
        | t :: ts' => match t with
                      | ETerm v _ => say (if 0 <? v then "+" else "") +++ pprint_expr t +++ more ts'
                      | _ => None
                      end
        end in
      match t with ETerm _ _ => pprint_expr t +++ more ts | _ => None end
  | ERed _ [] => say ""
  | ERed _ [x] => pprint_expr x
  | ERed t (x :: xs) =>
      let name := match t with RMax => "max" | _ => "min" end in
      let NAME := match t with RMax => "MAX" | _ => "MIN" end in
      match lang with
      | LangC =>
          let fix opens (xs : list expr) : string := match xs with [] => "" | _ :: xs' => (name ++ "(") ++ opens xs' end in
          let fix more (xs : list expr) : option string :=
            match xs with [] => say "" | y :: xs' => say "," +++ pprint_expr y +++ say ")" +++ more xs' end in
          say (opens xs) +++ pprint_expr x +++ more xs
      | LangFortran =>
          let fix more (xs : list expr) : option string :=
            match xs with [] => say "" | y :: xs' => say "," +++ pprint_expr y +++ more xs' end in
          say (NAME ++ "(") +++ pprint_expr x +++ more xs +++ say ")"
      end
  end.
Definition pprint_opt (e : option expr) : option string := match e with Some e => pprint_expr e | None => say "" end.
(** pprint_equation, pprint.c:268-278 *)
Definition pprint_equation (q : eqn) : option string :=
  pprint_expr (e_lhs q) +++
  say (if e_sign q =? 0 then " == " else if 0 <? e_sign q then " >= " else " <= ") +++
  pprint_opt (e_rhs q).
(** pprint_assignment, pprint.c:280-286 *)
Definition pprint_assignment (lhs : option string) (rhs : option expr) : option string :=
  say (match lhs with Some x => x ++ " = " | None => "" end) +++ pprint_opt rhs.
End Expr.

(** pprint_parentheses_are_safer, pprint.c:388-402 (of an argument: no left hand side) *)
Definition parentheses_are_safer (e : expr) : bool :=
  match e with
  | ETerm _ _ => false
  | ERed _ [ETerm _ _] => false
  | _ => true
  end.
Fixpoint spaces (n : nat) : string := match n with O => "" | S n' => " " ++ spaces n' end.
Definition newline : string := String (ascii_of_nat 10) "".

Section Stmt.
Variable o : popts.
(** statement->name, NULL when it has none *)
Variable stmt_name : nat -> option string.
Definition stmt_label (num : nat) : string :=
  if p_callable o then "S" ++ nat_text num
  else match stmt_name num with Some n => n | None => "S" ++ nat_text num end.
(** pprint_user_stmt, pprint.c:404-443; [close]: parenthesis_to_close *)
Fixpoint pprint_args (close : bool) (subs : list (option expr)) : option string :=
  match subs with
  | [] => say (if close then ")" else "")
  | None :: _ => None
  | Some e :: subs' =>
      let safer := parentheses_are_safer e in
      say (if safer then "(" else "") +++ pprint_expr (p_lang o) e +++
      match subs' with
      | [] => say (if close || safer then ")" else "")
      | _ :: _ => say (if close || safer then ")" else "") +++ say "," +++ pprint_args false subs'
      end
  end.
Definition end_of_stmt : string := (match p_lang o with LangFortran => "" | LangC => ";" end) ++ newline.
Definition pprint_user (num : nat) (subs : list (option expr)) : option string :=
  say (stmt_label num ++ "(") +++ pprint_args false subs +++ say ")" +++ say end_of_stmt.
(** the conditions of pprint_guard, pprint.c:452-466 *)
Definition and_text : string := match p_lang o with LangFortran => " .AND. " | LangC => " && " end.
Fixpoint pprint_conds (first : bool) (qs : list eqn) : option string :=
  match qs with
  | [] => say ""
  | q :: qs' => say (if first then "" else and_text) +++ say "(" +++ pprint_equation (p_lang o) q +++ say ")" +++ pprint_conds false qs'
  end.
(** the first line of pprint_for, pprint.c:573-629 *)
Definition pprint_for_header (it : string) (lb ub : option expr) (stride : Z) : option string :=
  match p_lang o with
  | LangC =>
      say "for (" +++
      match lb with Some e => say (it ++ "=") +++ pprint_expr LangC e | None => say "" end +++ say ";" +++
      match ub with Some e => say (it ++ "<=") +++ pprint_expr LangC e | None => say "" end +++
      (if 1 <? stride then say (";" ++ it ++ "+=") +++ say (int_text stride) +++ say (") {" ++ newline)
       else say (";" ++ it ++ "++) {" ++ newline))
  | LangFortran =>
      say "DO " +++
      match lb with Some e => say (it ++ "=") +++ pprint_expr LangFortran e | None => None end +++ say ", " +++
      match ub with Some e => pprint_expr LangFortran e | None => None end +++
      (if 1 <? stride then say (int_text stride) else say "") +++ say newline
  end.
(** pprint_guard 445-480, pprint_for 482-646, pprint_stmt_list 648-682 (after the root) *)
Fixpoint pprint_stmt (indent : nat) (s : stmt) {struct s} : option string :=
  let fix pprint_list (indent : nat) (ss : list stmt) : option string :=
    match ss with [] => say "" | s :: ss' => pprint_stmt indent s +++ pprint_list indent ss' end in
  say (spaces indent) +++
  match s with
  | SAss x e => pprint_assignment (p_lang o) (Some x) e +++ say end_of_stmt
  | SUser num subs => pprint_user num subs
  | SBlock body => say ("{" ++ newline) +++ pprint_list (indent + 2)%nat body +++ say (spaces indent) +++ say ("}" ++ newline)
  | SFor it lb ub stride body =>
      pprint_for_header it lb ub stride +++ pprint_list (indent + 2)%nat body +++ say (spaces indent) +++
      say ((match p_lang o with LangFortran => "END DO" | LangC => "}" end) ++ newline)
  | SGuard qs th =>
      let many := negb (List.length qs <=? 1)%nat in
      say (match p_lang o with LangFortran => "IF " | LangC => "if " end) +++
      say (if many then "(" else "") +++ pprint_conds true qs +++ say (if many then ")" else "") +++
      say ((match p_lang o with LangFortran => " THEN" | LangC => " {" end) ++ newline) +++
      pprint_list (indent + 2)%nat th +++ say (spaces indent) +++
      say ((match p_lang o with LangFortran => "END IF" | LangC => "}" end) ++ newline)
  end.
Fixpoint pprint_stmts (indent : nat) (ss : list stmt) : option string :=
  match ss with [] => say "" | s :: ss' => pprint_stmt indent s +++ pprint_stmts indent ss' end.
(** clast_pprint, pprint.c:687-691: with the root at the head of the list *)
Definition clast_pprint (indent : nat) (ss : list stmt) : option string :=
  say (match ss with [] => if p_callable o then spaces indent ++ "S0" ++ newline else "" | _ => "" end) +++ pprint_stmts indent ss.
End Stmt.

(** print_macros, program.c:288-299 (the four arithmetic macros): parameters and body *)
Definition floord_macro : list string * string := (["n"; "d"], "(((n)<0) ? -((-(n)+(d)-1)/(d)) : (n)/(d))").
Definition ceild_macro : list string * string := (["n"; "d"], "(((n)<0) ? -((-(n))/(d)) : ((n)+(d)-1)/(d))").
Definition max_macro : list string * string := (["x"; "y"], "((x) > (y) ? (x) : (y))").
Definition min_macro : list string * string := (["x"; "y"], "((x) < (y) ? (x) : (y))").
