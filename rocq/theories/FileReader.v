(** A reader for whole C files of one function, on top of CReader.v and independent of the printer:
    lines, directives and macros, declarations, the body of the function; what makes the file a
    correct one, and what running the function prints and calls.

    The preprocessor: a line that starts with # is a directive (#include is ignored, #define,
    #ifdef, #else, #endif without nesting; no directive after the first brace of the code), a line
    that starts with a comment has to end with it, everything else is code.  A name cannot be
    defined twice.  The names that are defined are those of the file.
    Macros are replaced as trees: the macros that stand for an expression have parentheses around
    their parameters, and the parameters of a macro that stands for statements are arguments of
    calls in its body, so that replacing text gives the same trees. *)
From Coq Require Import ZArith List Bool Arith String Ascii Decimal DecimalString.
From Verif Require Import ClastSpec CReader.
Import ListNotations.
Local Open Scope string_scope.
Local Open Scope Z_scope.

(** ** Lines *)
Fixpoint split_lines (cur s : string) : list string :=
  match s with
  | EmptyString => match cur with EmptyString => [] | _ => [cur] end
  | String c s' => if is_newline c then cur :: split_lines "" s' else split_lines (snoc cur c) s'
  end.
Fixpoint ltrim (s : string) : string :=
  match s with String c s' => if is_space c then ltrim s' else s | EmptyString => s end.
Definition starts (c : ascii) (s : string) : bool := match s with String d _ => Ascii.eqb d c | EmptyString => false end.
Definition tail (s : string) : string := match s with String _ s' => s' | EmptyString => s end.
(** the longest word at the start, and the rest *)
Fixpoint word (s : string) : string * string :=
  match s with
  | String c s' => if is_idchar c then let (w, r) := word s' in (String c w, r) else ("", s)
  | EmptyString => ("", "")
  end.
(** the rest of a comment and nothing else *)
Fixpoint comment_only (s : string) : bool :=
  match s with
  | EmptyString => false
  | String c r => if (Ascii.eqb c "*" && starts "/" r)%bool then String.eqb (ltrim (tail r)) "" else comment_only r
  end.

(** ** Directives *)
Record define := { d_name : string; d_params : option (list string); d_body : list token }.
(** what is known after some lines: macros, the condition of an #ifdef that is open, the code *)
Record pre := { p_defs : list define; p_cond : option bool; p_code : list token }.
Definition defined (ds : list define) (x : string) : bool := existsb (fun d => String.eqb (d_name d) x) ds.
Definition with_cond (st : pre) (c : option bool) : pre := {| p_defs := p_defs st; p_cond := c; p_code := p_code st |}.
Definition with_def (st : pre) (d : define) : pre := {| p_defs := (p_defs st ++ [d])%list; p_cond := p_cond st; p_code := p_code st |}.
Definition with_code (st : pre) (ts : list token) : pre := {| p_defs := p_defs st; p_cond := p_cond st; p_code := (p_code st ++ ts)%list |}.
Definition is_lbrace (t : token) : bool := match t with TOp OLbrace => true | _ => false end.
Definition skipping (st : pre) : bool := match p_cond st with Some false => true | _ => false end.
Fixpoint params1 (ts : list token) : option (list string * list token) :=
  match ts with
  | TId x :: TOp ORpar :: r => Some ([x], r)
  | TId x :: TOp OComma :: r => match params1 r with Some (l, r') => Some (x :: l, r') | None => None end
  | _ => None
  end.
Definition params (ts : list token) : option (list string * list token) :=
  match ts with TOp ORpar :: r => Some ([], r) | _ => params1 ts end.
(** t: the line after #define *)
Definition read_define (t : string) : option define :=
  let (x, r) := word (ltrim t) in
  match x with
  | EmptyString => None
  | String c _ =>
    if is_alpha c then
      if starts "(" r then
        match tokens r with
        | TOp OLpar :: ts => match params ts with Some (ps, b) => Some {| d_name := x; d_params := Some ps; d_body := b |} | None => None end
        | _ => None
        end
      else Some {| d_name := x; d_params := None; d_body := tokens r |}
    else None
  end.
Definition directive (st : pre) (t : string) : option pre :=
  let (w, r) := word (ltrim t) in
  if existsb is_lbrace (p_code st) then None
  else if String.eqb w "include" then Some st
  else if String.eqb w "ifdef" then
    match p_cond st with None => Some (with_cond st (Some (defined (p_defs st) (fst (word (ltrim r)))))) | Some _ => None end
  else if String.eqb w "else" then match p_cond st with Some b => Some (with_cond st (Some (negb b))) | None => None end
  else if String.eqb w "endif" then match p_cond st with Some _ => Some (with_cond st None) | None => None end
  else if String.eqb w "define" then
    if skipping st then Some st else
    match read_define r with
    | Some d => if defined (p_defs st) (d_name d) then None else Some (with_def st d)
    | None => None
    end
  else None.
Definition read_line (st : pre) (l : string) : option pre :=
  let t := ltrim l in
  if starts "#" t then directive st (tail t)
  else if (starts "/" t && starts "*" (tail t))%bool then if comment_only (tail (tail t)) then Some st else None
  else if skipping st then Some st else Some (with_code st (tokens l)).
Fixpoint read_lines (st : pre) (ls : list string) : option pre :=
  match ls with
  | [] => Some st
  | l :: ls' => match read_line st l with Some st' => read_lines st' ls' | None => None end
  end.
Definition pre0 : pre := {| p_defs := []; p_cond := None; p_code := [] |}.
Definition preprocess (text : string) : option (list define * list token) :=
  match read_lines pre0 (split_lines "" text) with
  | Some st => match p_cond st with None => Some (p_defs st, p_code st) | Some _ => None end
  | None => None
  end.

(** ** Trees *)
(** a statement in the body of a macro: an increment, a call of printf or of another function *)
Inductive mstmt := MInc (x : string) | MPrintf (fmt : string) (args : list cexpr) | MCall (f : string) (args : list cexpr).
Inductive mbody := MEmpty | MExpr (e : cexpr) | MStmts (b : list mstmt).
Record macro := { m_name : string; m_params : option (list string); m_body : mbody }.
(** a statement of the body of the function; [FUse]: the name of a macro without parameters that
    stands for statements *)
Inductive fstmt := FStmt (s : cstmt) | FUse (x : string) | FPrintf (fmt : string) (args : list cexpr) | FReturn (z : Z).
Record cfile := {
  f_externs : list string;                          (* functions of an int that are defined elsewhere *)
  f_macros : list macro;
  f_name : string;
  f_args : list string;                             (* parameters of type int *)
  f_vars : list (string * option cexpr);            (* local variables of type int and their initial values *)
  f_body : list fstmt
}.

(** after printf: the format and the arguments *)
Definition parse_printf (fuel : nat) (ts : list token) : option (string * list cexpr * list token) :=
  match ts with
  | TOp OLpar :: TStr fmt :: TOp ORpar :: TOp OSemi :: r => Some (fmt, [], r)
  | TOp OLpar :: TStr fmt :: TOp OComma :: r =>
      match r with
      | TOp ORpar :: _ => None
      | _ => match parse_args fuel r with Some (es, TOp OSemi :: r') => Some (fmt, es, r') | _ => None end
      end
  | _ => None
  end.
(** the body of a macro after its brace, up to the other brace *)
Fixpoint parse_mstmts (fuel : nat) (ts : list token) : option (list mstmt) :=
  match fuel with
  | O => None
  | S fuel =>
    match ts with
    | [TOp ORbrace] => Some []
    | TId x :: TOp OInc :: TOp OSemi :: r =>
        if is_keyword x then None else match parse_mstmts fuel r with Some l => Some (MInc x :: l) | None => None end
    | TId x :: r =>
        if is_keyword x then None
        else if String.eqb x "printf" then
          match parse_printf fuel r with
          | Some (fmt, es, r') => match parse_mstmts fuel r' with Some l => Some (MPrintf fmt es :: l) | None => None end
          | None => None
          end
        else
          match r with
          | TOp OLpar :: r1 =>
              match parse_args fuel r1 with
              | Some (es, TOp OSemi :: r') => match parse_mstmts fuel r' with Some l => Some (MCall x es :: l) | None => None end
              | _ => None
              end
          | _ => None
          end
    | _ => None
    end
  end.
Definition parse_mbody (fuel : nat) (ts : list token) : option mbody :=
  match ts with
  | [] => Some MEmpty
  | TOp OLbrace :: r => match parse_mstmts fuel r with Some l => Some (MStmts l) | None => None end
  | _ => match parse fuel LvCond ts with Some (e, []) => Some (MExpr e) | _ => None end
  end.
Fixpoint parse_macros (fuel : nat) (ds : list define) : option (list macro) :=
  match ds with
  | [] => Some []
  | d :: ds' =>
    match parse_mbody fuel (d_body d), parse_macros fuel ds' with
    | Some b, Some l => Some ({| m_name := d_name d; m_params := d_params d; m_body := b |} :: l)
    | _, _ => None
    end
  end.
(** extern void f(int); *)
Fixpoint parse_externs (ts : list token) : list string * list token :=
  match ts with
  | TId a :: TId b :: TId f :: TOp OLpar :: TId c :: TOp ORpar :: TOp OSemi :: r =>
      if (String.eqb a "extern" && String.eqb b "void" && String.eqb c "int")%bool then let (l, r') := parse_externs r in (f :: l, r') else ([], ts)
  | _ => ([], ts)
  end.
(** the parameters of the function, after the parenthesis *)
Fixpoint parse_fparams1 (ts : list token) : option (list string * list token) :=
  match ts with
  | TId t :: TId x :: TOp ORpar :: r => if (String.eqb t "int" && negb (is_keyword x))%bool then Some ([x], r) else None
  | TId t :: TId x :: TOp OComma :: r =>
      if (String.eqb t "int" && negb (is_keyword x))%bool then match parse_fparams1 r with Some (l, r') => Some (x :: l, r') | None => None end else None
  | _ => None
  end.
Definition parse_fparams (ts : list token) : option (list string * list token) :=
  match ts with TOp ORpar :: r => Some ([], r) | _ => parse_fparams1 ts end.
(** the variables of a declaration, after int *)
Fixpoint parse_decl (fuel : nat) (ts : list token) : option (list (string * option cexpr) * list token) :=
  match fuel with
  | O => None
  | S fuel =>
    match ts with
    | TId x :: ts1 =>
      if is_keyword x then None else
      match (match ts1 with
             | TOp OAssign :: ts2 => match parse fuel LvCond ts2 with Some (e, ts3) => Some (Some e, ts3) | None => None end
             | _ => Some (None, ts1)
             end) with
      | Some (i, TOp OComma :: ts3) => match parse_decl fuel ts3 with Some (l, r) => Some ((x, i) :: l, r) | None => None end
      | Some (i, TOp OSemi :: ts3) => Some ([(x, i)], ts3)
      | _ => None
      end
    | _ => None
    end
  end.
Fixpoint parse_decls (fuel : nat) (ts : list token) : option (list (string * option cexpr) * list token) :=
  match fuel with
  | O => None
  | S fuel =>
    match ts with
    | TId t :: r =>
        if String.eqb t "int" then
          match parse_decl fuel r with
          | Some (l, r1) => match parse_decls fuel r1 with Some (l', r2) => Some ((l ++ l')%list, r2) | None => None end
          | None => None
          end
        else Some ([], ts)
    | _ => Some ([], ts)
    end
  end.
(** the body of the function up to its brace, the last token; [objs]: the macros without
    parameters that stand for statements *)
Fixpoint parse_fbody (fuel : nat) (objs : list string) (ts : list token) : option (list fstmt) :=
  match fuel with
  | O => None
  | S fuel =>
    let stmt := match parse_stmt fuel ts with
                | Some (s, r) => match parse_fbody fuel objs r with Some l => Some (FStmt s :: l) | None => None end
                | None => None
                end in
    match ts with
    | [TOp ORbrace] => Some []
    | TId x :: r =>
        if String.eqb x "printf" then
          match parse_printf fuel r with
          | Some (fmt, es, r') => match parse_fbody fuel objs r' with Some l => Some (FPrintf fmt es :: l) | None => None end
          | None => None
          end
        else if String.eqb x "return" then
          match r with
          | TNum z :: TOp OSemi :: r' => match parse_fbody fuel objs r' with Some l => Some (FReturn z :: l) | None => None end
          | _ => None
          end
        else if existsb (String.eqb x) objs then match parse_fbody fuel objs r with Some l => Some (FUse x :: l) | None => None end
        else stmt
    | _ => stmt
    end
  end.
Definition statement_objects (ms : list macro) : list string :=
  flat_map (fun m => match m_params m, m_body m with None, MStmts _ => [m_name m] | _, _ => [] end) ms.
Definition parse_file (fuel : nat) (ds : list define) (ts : list token) : option cfile :=
  match parse_macros fuel ds with
  | None => None
  | Some ms =>
    let (ex, ts0) := parse_externs ts in
    match ts0 with
    | TId t :: TId f :: TOp OLpar :: ts1 =>
      if ((String.eqb t "int" || String.eqb t "void") && negb (is_keyword f))%bool then
        match parse_fparams ts1 with
        | Some (args, TOp OLbrace :: ts2) =>
          match parse_decls fuel ts2 with
          | Some (vars, ts3) =>
            match parse_fbody fuel (statement_objects ms) ts3 with
            | Some body => Some {| f_externs := ex; f_macros := ms; f_name := f; f_args := args; f_vars := vars; f_body := body |}
            | None => None
            end
          | None => None
          end
        | _ => None
        end
      else None
    | _ => None
    end
  end.
Definition reads_file (text : string) (f : cfile) : Prop :=
  exists fuel ds ts, preprocess text = Some (ds, ts) /\ parse_file fuel ds ts = Some f.

(** ** Which macros there are *)
Section File.
Variable f : cfile.
Definition expr_macros : macros :=
  flat_map (fun m => match m_params m, m_body m with Some ps, MExpr e => [(m_name m, (ps, e))] | _, _ => [] end) (f_macros f).
Definition expr_objects : list (string * cexpr) :=
  flat_map (fun m => match m_params m, m_body m with None, MExpr e => [(m_name m, e)] | _, _ => [] end) (f_macros f).
Definition stmt_macros : list (string * (list string * list mstmt)) :=
  flat_map (fun m => match m_params m, m_body m with Some ps, MStmts b => [(m_name m, (ps, b))] | _, _ => [] end) (f_macros f).
Definition stmt_objects : list (string * list mstmt) :=
  flat_map (fun m => match m_params m, m_body m with None, MStmts b => [(m_name m, b)] | _, _ => [] end) (f_macros f).

(** ** Correct files *)
Definition variables : list string := (f_args f ++ map fst (f_vars f))%list.
Definition functions : list string := "printf" :: f_externs f.
Definition callable_exprs : list (string * nat) := map (fun m => (fst m, List.length (fst (snd m)))) expr_macros.
Definition callable_stmts : list (string * nat) := map (fun m => (fst m, List.length (fst (snd m)))) stmt_macros.
(** the number of %d in a format; nothing else can follow % *)
Fixpoint conversions (fmt : string) : option nat :=
  match fmt with
  | EmptyString => Some O
  | String c r =>
      if Ascii.eqb c "%" then match r with
                              | String d r' => if Ascii.eqb d "d" then option_map S (conversions r') else None
                              | EmptyString => None
                              end
      else conversions r
  end.
(** [ps]: the parameters of the macro *)
Definition mstmt_ok (ps : list string) (m : mstmt) : Prop :=
  match m with
  | MInc x => In x variables /\ ~ In x ps
  | MPrintf fmt es => conversions fmt = Some (List.length es) /\ ~ In "printf" ps /\ forallb (known (ps ++ variables) callable_exprs) es = true
  | MCall g es => In g (f_externs f) /\ ~ In g ps /\ List.length es = 1%nat /\ forallb (known (ps ++ variables) callable_exprs) es = true
  end.
Definition macro_ok (m : macro) : Prop :=
  let ps := match m_params m with Some ps => ps | None => [] end in
  NoDup ps /\ Forall (fun x => is_keyword x = false) ps /\
  match m_body m with
  | MEmpty => True
  | MExpr e => known ps [] e = true
  | MStmts b => Forall (mstmt_ok ps) b
  end.
Definition fstmt_ok (s : fstmt) : Prop :=
  match s with
  | FStmt c => known_stmt variables callable_exprs callable_stmts c = true
  | FUse x => In x (map fst stmt_objects)
  | FPrintf fmt es => conversions fmt = Some (List.length es) /\ forallb (known variables callable_exprs) es = true
  | FReturn _ => True
  end.
(** Every name is declared once, no variable hides a function that is called or is replaced by a
    macro, everything that is used is declared and called with the right number of arguments, and
    the initial values are made of macros without parameters. *)
Record correct : Prop := {
  ok_declared_once : NoDup variables;
  ok_macros_once : NoDup (map m_name (f_macros f));
  ok_names : forall x, In x variables -> ~ In x functions /\ ~ In x (map fst expr_objects) /\ ~ In x (map fst stmt_objects);
  ok_functions : forall x, In x (f_name f :: functions) -> ~ In x (map m_name (f_macros f));
  ok_macros : Forall macro_ok (f_macros f);
  ok_initial : Forall (fun d => match snd d with Some e => known (map fst expr_objects) callable_exprs e = true | None => True end) (f_vars f);
  ok_body : Forall fstmt_ok (f_body f)
}.

(** ** Meaning *)
(** what can be seen from outside: the text printed, and calls of external functions *)
Inductive out := Printed (s : string) | Called (g : string) (zs : list Z).
Definition decimal (z : Z) : string := NilZero.string_of_int (Z.to_int z).
Fixpoint format (fmt : string) (zs : list Z) : option string :=
  match fmt with
  | EmptyString => match zs with [] => Some "" | _ => None end
  | String c r =>
      if Ascii.eqb c "%" then
        match r, zs with
        | String d r', z :: zs' => if Ascii.eqb d "d" then option_map (append (decimal z)) (format r' zs') else None
        | _, _ => None
        end
      else option_map (String c) (format r zs)
  end.
(** the value of an expression: names of macros stand for the value of their text *)
Definition object_value (x : string) : option (option Z) :=
  match find (fun m => String.eqb (fst m) x) expr_objects with
  | Some (_, e) => Some (cval (fun _ => None) (expand expr_macros e))
  | None => None
  end.
Definition visible (rho : env) : env := fun x => match object_value x with Some v => v | None => rho x end.
Definition fvalue (rho : env) (e : cexpr) : option Z := value expr_macros (visible rho) e.
Definition fvalues (rho : env) (l : list cexpr) : option (list Z) := values expr_macros (visible rho) l.
(** [sigma]: the arguments for the parameters *)
Definition mrun1 (sigma : list (string * cexpr)) (m : mstmt) (rho : env) : option (env * list out) :=
  match m with
  | MInc x => match rho x with Some v => Some (assign rho x (v + 1), []) | None => None end
  | MPrintf fmt es =>
      match fvalues rho (map (subst sigma) es) with
      | Some zs => match format fmt zs with Some s => Some (rho, [Printed s]) | None => None end
      | None => None
      end
  | MCall g es => match fvalues rho (map (subst sigma) es) with Some zs => Some (rho, [Called g zs]) | None => None end
  end.
Fixpoint mrun (sigma : list (string * cexpr)) (b : list mstmt) (rho : env) : option (env * list out) :=
  match b with
  | [] => Some (rho, [])
  | m :: b' =>
    match mrun1 sigma m rho with
    | Some (rho1, t1) => match mrun sigma b' rho1 with Some (rho2, t2) => Some (rho2, (t1 ++ t2)%list) | None => None end
    | None => None
    end
  end.
Inductive frun1 : cstmt -> env -> env -> list out -> Prop :=
| F_assign : forall x e rho z, fvalue rho e = Some z -> frun1 (CAssign x e) rho (assign rho x z) []
| F_proc : forall g es rho rho' t ps b, find (fun m => String.eqb (fst m) g) stmt_macros = Some (g, (ps, b)) -> List.length ps = List.length es ->
    mrun (List.combine ps es) b rho = Some (rho', t) -> frun1 (CProc g es) rho rho' t
| F_block : forall b rho rho' t, frun b rho rho' t -> frun1 (CBlock b) rho rho' t
| F_then : forall c b rho rho' t z, fvalue rho c = Some z -> z <> 0 -> frun b rho rho' t -> frun1 (CWhen c b) rho rho' t
| F_skip : forall c b rho, fvalue rho c = Some 0 -> frun1 (CWhen c b) rho rho []
| F_for : forall it lb ub st b rho z rho' t, fvalue rho lb = Some z ->
    floop it ub st b (assign rho it z) rho' t -> frun1 (CFor it lb ub st b) rho rho' t
with floop : string -> cexpr -> Z -> list cstmt -> env -> env -> list out -> Prop :=
| F_stop : forall it ub st b rho v u, rho it = Some v -> fvalue rho ub = Some u -> u < v -> floop it ub st b rho rho []
| F_more : forall it ub st b rho v u rho1 t1 v1 rho2 t2, rho it = Some v -> fvalue rho ub = Some u -> v <= u ->
    frun b rho rho1 t1 -> rho1 it = Some v1 -> floop it ub st b (assign rho1 it (v1 + st)) rho2 t2 ->
    floop it ub st b rho rho2 (t1 ++ t2)%list
with frun : list cstmt -> env -> env -> list out -> Prop :=
| F_nil : forall rho, frun [] rho rho []
| F_cons : forall s p rho rho1 t1 rho2 t2, frun1 s rho rho1 t1 -> frun p rho1 rho2 t2 -> frun (s :: p) rho rho2 (t1 ++ t2)%list.
Inductive brun : list fstmt -> env -> list out -> Prop :=
| B_end : forall rho, brun [] rho []
| B_return : forall z b rho, brun (FReturn z :: b) rho []
| B_stmt : forall s b rho rho1 t1 t2, frun1 s rho rho1 t1 -> brun b rho1 t2 -> brun (FStmt s :: b) rho (t1 ++ t2)%list
| B_use : forall x b rho rho1 l t1 t2, find (fun m => String.eqb (fst m) x) stmt_objects = Some (x, l) ->
    mrun [] l rho = Some (rho1, t1) -> brun b rho1 t2 -> brun (FUse x :: b) rho (t1 ++ t2)%list
| B_printf : forall fmt es b rho zs s t2, fvalues rho es = Some zs -> format fmt zs = Some s -> brun b rho t2 ->
    brun (FPrintf fmt es :: b) rho (Printed s :: t2).
(** the environment the body starts in: the arguments, then the declarations one after the other *)
Fixpoint bind (xs : list string) (zs : list Z) (rho : env) : option env :=
  match xs, zs with
  | [], [] => Some rho
  | x :: xs', z :: zs' => bind xs' zs' (assign rho x z)
  | _, _ => None
  end.
Fixpoint declare (ds : list (string * option cexpr)) (rho : env) : option env :=
  match ds with
  | [] => Some rho
  | (x, None) :: ds' => declare ds' rho
  | (x, Some e) :: ds' => match fvalue rho e with Some z => declare ds' (assign rho x z) | None => None end
  end.
(** calling the function with these arguments prints and calls this *)
Definition runs (zs : list Z) (t : list out) : Prop :=
  exists rho0 rho, bind (f_args f) zs (fun _ => None) = Some rho0 /\ declare (f_vars f) rho0 = Some rho /\ brun (f_body f) rho t.
End File.
