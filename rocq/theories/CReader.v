(** A reader for the C programs CLooG prints, independent of the printer: characters to tokens
    (longest match), tokens to syntax trees (the precedences of C), and their execution, with
    integers of unbounded size.  It accepts a subset of C: identifiers, decimal numbers, + - * / %
    unary -, comparisons, &&, ?:, parentheses, macro calls; assignments, calls, if and for with
    braces.  String literals are tokens, but no part of an expression.  Everything else is
    rejected. *)
From Coq Require Import ZArith List Bool Arith String Ascii.
From Verif Require Import ClastSpec.
Import ListNotations.
Local Open Scope string_scope.
Local Open Scope Z_scope.

(** ** Tokens *)
Inductive op := OPlus | OMinus | OStar | OSlash | OPercent | OLt | OGt | OLe | OGe | OEq | OAnd | OAssign | OInc | OAddEq
              | OLpar | ORpar | OLbrace | ORbrace | OComma | OSemi | OQuest | OColon.
Inductive token := TId (s : string) | TNum (z : Z) | TOp (o : op) | TStr (s : string) | TErr.

Definition code (c : ascii) : nat := nat_of_ascii c.
Definition is_digit (c : ascii) : bool := (48 <=? code c)%nat && (code c <=? 57)%nat.
Definition is_alpha (c : ascii) : bool :=
  ((65 <=? code c)%nat && (code c <=? 90)%nat) || ((97 <=? code c)%nat && (code c <=? 122)%nat) || (code c =? 95)%nat.
Definition is_idchar (c : ascii) : bool := is_alpha c || is_digit c.
Definition is_space (c : ascii) : bool := (code c =? 32)%nat || (code c =? 10)%nat || (code c =? 9)%nat.
(** operators of one character that no other operator of C (as far as it matters here) starts with *)
Definition plain_op (c : ascii) : option op :=
  if (c =? "(")%char then Some OLpar else if (c =? ")")%char then Some ORpar
  else if (c =? "{")%char then Some OLbrace else if (c =? "}")%char then Some ORbrace
  else if (c =? ",")%char then Some OComma else if (c =? ";")%char then Some OSemi
  else if (c =? "?")%char then Some OQuest else if (c =? ":")%char then Some OColon else None.
(** characters an operator of one or two characters can start with *)
Definition op_start (c : ascii) : bool :=
  ((c =? "+") || (c =? "-") || (c =? "*") || (c =? "/") || (c =? "%") || (c =? "<") || (c =? ">") || (c =? "=") || (c =? "&"))%char.
(** the operator alone, and followed by a character *)
Definition op1 (c : ascii) : token :=
  if (c =? "+")%char then TOp OPlus else if (c =? "-")%char then TOp OMinus else if (c =? "*")%char then TOp OStar
  else if (c =? "/")%char then TOp OSlash else if (c =? "%")%char then TOp OPercent else if (c =? "<")%char then TOp OLt
  else if (c =? ">")%char then TOp OGt else if (c =? "=")%char then TOp OAssign else TErr.
(** two characters that belong together; TErr: an operator or comment sign outside the subset *)
Definition op2 (c d : ascii) : option token :=
  if ((c =? "<") && (d =? "="))%char then Some (TOp OLe) else if ((c =? ">") && (d =? "="))%char then Some (TOp OGe)
  else if ((c =? "=") && (d =? "="))%char then Some (TOp OEq) else if ((c =? "&") && (d =? "&"))%char then Some (TOp OAnd)
  else if ((c =? "+") && (d =? "+"))%char then Some (TOp OInc) else if ((c =? "+") && (d =? "="))%char then Some (TOp OAddEq)
  else if (d =? "=")%char then Some TErr                                       (* -= *= /= %= &= *)
  else if ((c =? "-") && ((d =? "-") || (d =? ">")))%char then Some TErr       (* -- -> *)
  else if ((c =? "/") && ((d =? "/") || (d =? "*")))%char then Some TErr       (* comments *)
  else if (((c =? "<") && (d =? "<")) || ((c =? ">") && (d =? ">")))%char then Some TErr
  else None.

(** in a string literal, after a backslash in one *)
Inductive lstate := LNone | LId (s : string) | LNum (z : Z) | LOp (c : ascii) | LStr (s : string) | LEsc (s : string).
Definition flush (st : lstate) : list token :=
  match st with LNone => [] | LId s => [TId s] | LNum z => [TNum z] | LOp c => [op1 c] | LStr _ | LEsc _ => [TErr] end.
Definition snoc (s : string) (c : ascii) : string := s ++ String c "".
Definition digit_val (c : ascii) : Z := Z.of_nat (code c - 48).
Definition is_quote (c : ascii) : bool := (code c =? 34)%nat.
Definition is_newline (c : ascii) : bool := (code c =? 10)%nat.
(** the state after a character that starts something new *)
Definition start (c : ascii) : lstate * list token :=
  if is_alpha c then (LId (String c ""), [])
  else if is_digit c then (LNum (digit_val c), [])
  else if is_space c then (LNone, [])
  else match plain_op c with
       | Some o => (LNone, [TOp o])
       | None => if op_start c then (LOp c, []) else if is_quote c then (LStr "", []) else (LNone, [TErr])
       end.
Definition step (st : lstate) (c : ascii) : lstate * list token :=
  match st with
  | LId s => if is_idchar c then (LId (snoc s c), []) else let '(st', ts) := start c in (st', flush st ++ ts)%list
  | LNum z => if is_digit c then (LNum (10 * z + digit_val c), [])
              else if is_alpha c then (LNone, [TErr])                          (* 3x is no token *)
              else let '(st', ts) := start c in (st', flush st ++ ts)%list
  | LOp c0 => match op2 c0 c with
              | Some t => (LNone, [t])
              | None => let '(st', ts) := start c in (st', flush st ++ ts)%list
              end
  | LStr s => if is_quote c then (LNone, [TStr s])
              else if (c =? "\")%char then (LEsc s, [])
              else if is_newline c then (LNone, [TErr]) else (LStr (snoc s c), [])
  | LEsc s => if (c =? "n")%char then (LStr (snoc s (ascii_of_nat 10)), []) else (LNone, [TErr])   (* no other escape sequence *)
  | LNone => start c
  end.
Fixpoint lex (st : lstate) (s : string) : list token :=
  match s with
  | EmptyString => flush st
  | String c s' => let '(st', ts) := step st c in (ts ++ lex st' s')%list
  end.
Definition tokens (s : string) : list token := lex LNone s.

(** ** Syntax trees *)
Inductive binop := CAdd | CSub | CMul | CDiv | CMod | CLt | CGt | CLe | CGe | CEq | CAnd.
Inductive cexpr :=
| CVar (s : string)
| CInt (z : Z)
| CNeg (e : cexpr)
| COp (b : binop) (e f : cexpr)
| CIf (c e f : cexpr)
| CCall (f : string) (args : list cexpr).
Inductive cstmt :=
| CAssign (x : string) (e : cexpr)
| CProc (f : string) (args : list cexpr)
| CBlock (body : list cstmt)
| CWhen (c : cexpr) (body : list cstmt)
| CFor (it : string) (lb ub : cexpr) (step : Z) (body : list cstmt).   (* for (it = lb; it <= ub; it += step) *)

(** the keywords of C are no identifiers *)
Definition keywords : list string :=
  ["auto"; "break"; "case"; "char"; "const"; "continue"; "default"; "do"; "double"; "else"; "enum"; "extern"; "float"; "for"; "goto";
   "if"; "inline"; "int"; "long"; "register"; "restrict"; "return"; "short"; "signed"; "sizeof"; "static"; "struct"; "switch";
   "typedef"; "union"; "unsigned"; "void"; "volatile"; "while"; "_Bool"; "_Complex"; "_Imaginary"].
Definition is_keyword (s : string) : bool := existsb (String.eqb s) keywords.

(** Expressions by recursive descent: cond = and [? cond : cond]; and = cmp {&& cmp};
    cmp = add [op add]; add = mul {+- mul}; mul = unary {* / % unary}; unary = - unary | primary.
    [fuel] bounds the depth of the recursion. *)
Inductive level := LvCond | LvAnd | LvCmp | LvAdd | LvMul | LvUn | LvPrim.
Definition parse_t := list token -> option (cexpr * list token).
Definition cmp_op (o : op) : option binop :=
  match o with OLt => Some CLt | OGt => Some CGt | OLe => Some CLe | OGe => Some CGe | OEq => Some CEq | _ => None end.
Definition add_op (o : op) : option binop := match o with OPlus => Some CAdd | OMinus => Some CSub | _ => None end.
Definition mul_op (o : op) : option binop := match o with OStar => Some CMul | OSlash => Some CDiv | OPercent => Some CMod | _ => None end.
Fixpoint parse (fuel : nat) (lv : level) (ts : list token) {struct fuel} : option (cexpr * list token) :=
  match fuel with
  | O => None
  | S fuel =>
    match lv with
    | LvCond =>
        match parse fuel LvAnd ts with
        | Some (c, TOp OQuest :: ts1) =>
            match parse fuel LvCond ts1 with
            | Some (e, TOp OColon :: ts2) => match parse fuel LvCond ts2 with
                                             | Some (f, ts3) => Some (CIf c e f, ts3)
                                             | None => None
                                             end
            | _ => None
            end
        | r => r
        end
    | LvAnd => match parse fuel LvCmp ts with Some (e, ts1) => parse_and fuel e ts1 | None => None end
    | LvCmp =>
        match parse fuel LvAdd ts with
        | Some (e, TOp o :: ts1) =>
            match cmp_op o with
            | Some b => match parse fuel LvAdd ts1 with
                        | Some (f, ts2) => Some (COp b e f, ts2)
                        | None => None
                        end
            | None => Some (e, TOp o :: ts1)
            end
        | r => r
        end
    | LvAdd => match parse fuel LvMul ts with Some (e, ts1) => parse_add fuel e ts1 | None => None end
    | LvMul => match parse fuel LvUn ts with Some (e, ts1) => parse_mul fuel e ts1 | None => None end
    | LvUn =>
        match ts with
        | TOp OMinus :: ts1 => match parse fuel LvUn ts1 with Some (e, ts2) => Some (CNeg e, ts2) | None => None end
        | _ => parse fuel LvPrim ts
        end
    | LvPrim =>
        match ts with
        | TNum z :: ts1 => Some (CInt z, ts1)
        | TOp OLpar :: ts1 =>
            match parse fuel LvCond ts1 with
            | Some (e, TOp ORpar :: ts2) => Some (e, ts2)
            | _ => None
            end
        | TId f :: TOp OLpar :: ts1 =>
            if is_keyword f then None else
            match parse_args fuel ts1 with Some (es, ts2) => Some (CCall f es, ts2) | None => None end
        | TId x :: ts1 => if is_keyword x then None else Some (CVar x, ts1)
        | _ => None
        end
    end
  end
with parse_and (fuel : nat) (acc : cexpr) (ts : list token) {struct fuel} : option (cexpr * list token) :=
  match fuel with
  | O => None
  | S fuel => match ts with
              | TOp OAnd :: ts1 => match parse fuel LvCmp ts1 with Some (f, ts2) => parse_and fuel (COp CAnd acc f) ts2 | None => None end
              | _ => Some (acc, ts)
              end
  end
with parse_add (fuel : nat) (acc : cexpr) (ts : list token) {struct fuel} : option (cexpr * list token) :=
  match fuel with
  | O => None
  | S fuel => match ts with
              | TOp o :: ts1 => match add_op o with
                                | Some b => match parse fuel LvMul ts1 with Some (f, ts2) => parse_add fuel (COp b acc f) ts2 | None => None end
                                | None => Some (acc, ts)
                                end
              | _ => Some (acc, ts)
              end
  end
with parse_mul (fuel : nat) (acc : cexpr) (ts : list token) {struct fuel} : option (cexpr * list token) :=
  match fuel with
  | O => None
  | S fuel => match ts with
              | TOp o :: ts1 => match mul_op o with
                                | Some b => match parse fuel LvUn ts1 with Some (f, ts2) => parse_mul fuel (COp b acc f) ts2 | None => None end
                                | None => Some (acc, ts)
                                end
              | _ => Some (acc, ts)
              end
  end
(** the arguments of a call and the closing parenthesis *)
with parse_args (fuel : nat) (ts : list token) {struct fuel} : option (list cexpr * list token) :=
  match fuel with
  | O => None
  | S fuel => match ts with
              | TOp ORpar :: ts1 => Some ([], ts1)
              | _ => match parse fuel LvCond ts with
                     | Some (e, TOp ORpar :: ts1) => Some ([e], ts1)
                     | Some (e, TOp OComma :: ts1) =>
                         match ts1 with
                         | TOp ORpar :: _ => None
                         | _ => match parse_args fuel ts1 with Some (es, ts2) => Some (e :: es, ts2) | None => None end
                         end
                     | _ => None
                     end
              end
  end.
(** statements *)
Fixpoint parse_stmt (fuel : nat) (ts : list token) {struct fuel} : option (cstmt * list token) :=
  match fuel with
  | O => None
  | S fuel =>
    match ts with
    | TOp OLbrace :: ts1 => match parse_body fuel ts1 with Some (b, ts2) => Some (CBlock b, ts2) | None => None end
    | TId x :: ts1 =>
        if String.eqb x "if" then
          match ts1 with
          | TOp OLpar :: ts2 =>
              match parse fuel LvCond ts2 with
              | Some (c, TOp ORpar :: TOp OLbrace :: ts3) =>
                  match parse_body fuel ts3 with Some (b, ts4) => Some (CWhen c b, ts4) | None => None end
              | _ => None
              end
          | _ => None
          end
        else if String.eqb x "for" then
          match ts1 with
          | TOp OLpar :: TId it :: TOp OAssign :: ts2 =>
              if is_keyword it then None else
              match parse fuel LvCond ts2 with
              | Some (lb, TOp OSemi :: TId it1 :: TOp OLe :: ts3) =>
                  match parse fuel LvAdd ts3 with
                  | Some (ub, TOp OSemi :: TId it2 :: ts4) =>
                      if (String.eqb it it1 && String.eqb it it2)%bool then
                        match ts4 with
                        | TOp OInc :: TOp ORpar :: TOp OLbrace :: ts5 =>
                            match parse_body fuel ts5 with Some (b, ts6) => Some (CFor it lb ub 1 b, ts6) | None => None end
                        | TOp OAddEq :: TNum z :: TOp ORpar :: TOp OLbrace :: ts5 =>
                            match parse_body fuel ts5 with Some (b, ts6) => Some (CFor it lb ub z b, ts6) | None => None end
                        | _ => None
                        end
                      else None
                  | _ => None
                  end
              | _ => None
              end
          | _ => None
          end
        else if is_keyword x then None else
          match ts1 with
          | TOp OAssign :: ts2 => match parse fuel LvCond ts2 with
                                  | Some (e, TOp OSemi :: ts3) => Some (CAssign x e, ts3)
                                  | _ => None
                                  end
          | TOp OLpar :: ts2 => match parse_args fuel ts2 with
                                | Some (es, TOp OSemi :: ts3) => Some (CProc x es, ts3)
                                | _ => None
                                end
          | _ => None
          end
    | _ => None
    end
  end
(** statements up to the closing brace *)
with parse_body (fuel : nat) (ts : list token) {struct fuel} : option (list cstmt * list token) :=
  match fuel with
  | O => None
  | S fuel => match ts with
              | TOp ORbrace :: ts1 => Some ([], ts1)
              | _ => match parse_stmt fuel ts with
                     | Some (s, ts1) => match parse_body fuel ts1 with Some (b, ts2) => Some (s :: b, ts2) | None => None end
                     | None => None
                     end
              end
  end.
(** a whole program: the tokens are those of a list of statements followed by a closing brace *)
Definition reads_expr (text : string) (e : cexpr) : Prop := exists fuel, parse fuel LvCond (tokens text) = Some (e, []).
Definition reads (text : string) (p : list cstmt) : Prop :=
  exists fuel, parse_body fuel (tokens text ++ [TOp ORbrace])%list = Some (p, []).

(** ** What has to be declared *)
(** [vs]: variables that are declared; [fs], [ps]: the names that can be called in an expression
    and as a statement, with the number of their parameters *)
Definition callable (fs : list (string * nat)) (f : string) (n : nat) : bool := existsb (fun p => (String.eqb (fst p) f && (snd p =? n)%nat)%bool) fs.
Fixpoint known (vs : list string) (fs : list (string * nat)) (e : cexpr) : bool :=
  match e with
  | CVar x => existsb (String.eqb x) vs
  | CInt _ => true
  | CNeg a => known vs fs a
  | COp _ a b => known vs fs a && known vs fs b
  | CIf a b c => known vs fs a && known vs fs b && known vs fs c
  | CCall f l => callable fs f (List.length l) && forallb (known vs fs) l
  end.
Fixpoint known_stmt (vs : list string) (fs ps : list (string * nat)) (s : cstmt) : bool :=
  match s with
  | CAssign x e => existsb (String.eqb x) vs && known vs fs e
  | CProc f l => callable ps f (List.length l) && forallb (known vs fs) l
  | CBlock b => forallb (known_stmt vs fs ps) b
  | CWhen c b => known vs fs c && forallb (known_stmt vs fs ps) b
  | CFor it lb ub _ b => existsb (String.eqb it) vs && known vs fs lb && known vs fs ub && forallb (known_stmt vs fs ps) b
  end.

(** ** Meaning *)
(** Macro calls are replaced by the body, with the arguments for the parameters.  (Every
    occurrence of a parameter in the bodies has its own parentheses, so replacing text or
    subtrees is the same.) *)
Fixpoint subst (m : list (string * cexpr)) (e : cexpr) : cexpr :=
  match e with
  | CVar s => match find (fun p => String.eqb (fst p) s) m with Some (_, a) => a | None => e end
  | CInt z => e
  | CNeg a => CNeg (subst m a)
  | COp b a c => COp b (subst m a) (subst m c)
  | CIf a b c => CIf (subst m a) (subst m b) (subst m c)
  | CCall f l => CCall f (map (subst m) l)
  end.
Definition macros := list (string * (list string * cexpr)).
Fixpoint expand (ms : macros) (e : cexpr) : cexpr :=
  match e with
  | CVar _ | CInt _ => e
  | CNeg a => CNeg (expand ms a)
  | COp b a c => COp b (expand ms a) (expand ms c)
  | CIf a b c => CIf (expand ms a) (expand ms b) (expand ms c)
  | CCall f l =>
      let l' := map (expand ms) l in
      match find (fun m => String.eqb (fst m) f) ms with
      | Some (_, (ps, body)) => if (List.length ps =? List.length l')%nat then subst (List.combine ps l') body else CCall f l'
      | None => CCall f l'
      end
  end.
(** division and remainder of C truncate; a call that is left over has no meaning *)
Definition b2z (b : bool) : Z := if b then 1 else 0.
Definition bin_meaning (b : binop) (x y : Z) : option Z :=
  match b with
  | CAdd => Some (x + y) | CSub => Some (x - y) | CMul => Some (x * y)
  | CDiv => if y =? 0 then None else Some (Z.quot x y)
  | CMod => if y =? 0 then None else Some (Z.rem x y)
  | CLt => Some (b2z (x <? y)) | CGt => Some (b2z (y <? x)) | CLe => Some (b2z (x <=? y)) | CGe => Some (b2z (y <=? x))
  | CEq => Some (b2z (x =? y))
  | CAnd => Some (b2z (negb (x =? 0) && negb (y =? 0)))
  end.
Fixpoint cval (rho : env) (e : cexpr) : option Z :=
  match e with
  | CVar s => rho s
  | CInt z => Some z
  | CNeg a => match cval rho a with Some x => Some (- x) | None => None end
  | COp CAnd a b =>
      match cval rho a with
      | Some x => if x =? 0 then Some 0 else match cval rho b with Some y => Some (b2z (negb (y =? 0))) | None => None end
      | None => None
      end
  | COp b a c => match cval rho a, cval rho c with Some x, Some y => bin_meaning b x y | _, _ => None end
  | CIf a b c => match cval rho a with Some x => if x =? 0 then cval rho c else cval rho b | None => None end
  | CCall _ _ => None
  end.

(** Execution of a program; the bound of a loop is evaluated again before every iteration. *)
Definition call := (string * list Z)%type.
Section Run.
Variable ms : macros.
Definition value (rho : env) (e : cexpr) : option Z := cval rho (expand ms e).
Fixpoint values (rho : env) (l : list cexpr) : option (list Z) :=
  match l with
  | [] => Some []
  | e :: l' => match value rho e, values rho l' with Some z, Some zs => Some (z :: zs) | _, _ => None end
  end.
Inductive crun1 : cstmt -> env -> env -> list call -> Prop :=
| R_assign : forall x e rho z, value rho e = Some z -> crun1 (CAssign x e) rho (assign rho x z) []
| R_proc : forall f es rho zs, find (fun m => String.eqb (fst m) f) ms = None -> values rho es = Some zs -> crun1 (CProc f es) rho rho [(f, zs)]
| R_block : forall b rho rho' t, crun b rho rho' t -> crun1 (CBlock b) rho rho' t
| R_then : forall c b rho rho' t z, value rho c = Some z -> z <> 0 -> crun b rho rho' t -> crun1 (CWhen c b) rho rho' t
| R_skip : forall c b rho, value rho c = Some 0 -> crun1 (CWhen c b) rho rho []
| R_for : forall it lb ub st b rho z rho' t, value rho lb = Some z ->
    cloop it ub st b (assign rho it z) rho' t -> crun1 (CFor it lb ub st b) rho rho' t
with cloop : string -> cexpr -> Z -> list cstmt -> env -> env -> list call -> Prop :=
| R_stop : forall it ub st b rho v u, rho it = Some v -> value rho ub = Some u -> u < v -> cloop it ub st b rho rho []
| R_more : forall it ub st b rho v u rho1 t1 v1 rho2 t2, rho it = Some v -> value rho ub = Some u -> v <= u ->
    crun b rho rho1 t1 -> rho1 it = Some v1 -> cloop it ub st b (assign rho1 it (v1 + st)) rho2 t2 ->
    cloop it ub st b rho rho2 (t1 ++ t2)%list
with crun : list cstmt -> env -> env -> list call -> Prop :=
| R_nil : forall rho, crun [] rho rho []
| R_cons : forall s p rho rho1 t1 rho2 t2, crun1 s rho rho1 t1 -> crun p rho1 rho2 t2 -> crun (s :: p) rho rho2 (t1 ++ t2)%list.
End Run.
