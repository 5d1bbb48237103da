(** A reader for the Fortran programs CLooG prints, independent of the printer: the free source
    form of Fortran 90 (the language named by doc/cloog.texi:534).  Characters to tokens, tokens to
    syntax trees (with the precedences of Fortran, where a sign is an operator of sums), and their
    execution, with integers of unbounded size and rounded reals.

    It accepts a subset of Fortran: names of at most 31 characters (upper and lower case letters
    are the same), decimal integers, + - * /, comparisons, .AND., parentheses, the intrinsic
    functions FLOOR, CEILING, REAL, MOD, MIN and MAX; assignments, IF ... THEN / END IF and
    DO / END DO blocks, lines of at most 132 characters, comments.  A statement of the input
    program is a line of its own, [name(arguments)] (CLooG leaves it to a preprocessor to replace
    it).  Everything else is rejected.  All variables are integers (a program that uses the
    printed text has to declare them). *)
From Coq Require Import ZArith List Bool Arith String Ascii QArith Qround Qabs.
From Verif Require Import ClastSpec CReader.
Import ListNotations.
Local Open Scope string_scope.
Local Open Scope Z_scope.

(** ** Tokens *)
Inductive fop := FPlus | FMinus | FStar | FSlash | FEq | FGe | FLe | FGt | FLt | FAnd | FAssign | FLpar | FRpar | FComma.
Inductive ftoken := FId (s : string) | FNum (z : Z) | FOp (o : fop) | FEol | FBad.

Definition is_upper (c : ascii) : bool := (65 <=? code c)%nat && (code c <=? 90)%nat.
Definition is_letter (c : ascii) : bool := is_upper c || ((97 <=? code c)%nat && (code c <=? 122)%nat).
Definition is_namechar (c : ascii) : bool := is_letter c || is_digit c || (code c =? 95)%nat.
Definition lower_char (c : ascii) : ascii := if is_upper c then ascii_of_nat (code c + 32) else c.
Fixpoint lower (s : string) : string := match s with EmptyString => EmptyString | String c s' => String (lower_char c) (lower s') end.

Inductive fstate := FNone | FWord (s : string) | FDigits (z : Z) | FSign (c : ascii) | FDot (s : string) | FComment.
(** signs that are an operator, alone or with the next character *)
Definition fsign_start (c : ascii) : bool := ((c =? "*") || (c =? "/") || (c =? "=") || (c =? "<") || (c =? ">"))%char.
Definition fsign1 (c : ascii) : ftoken :=
  if (c =? "*")%char then FOp FStar else if (c =? "/")%char then FOp FSlash else if (c =? "=")%char then FOp FAssign
  else if (c =? "<")%char then FOp FLt else if (c =? ">")%char then FOp FGt else FBad.
(** FBad: an operator outside the subset *)
Definition fsign2 (c d : ascii) : option ftoken :=
  if ((c =? "=") && (d =? "="))%char then Some (FOp FEq) else if ((c =? ">") && (d =? "="))%char then Some (FOp FGe)
  else if ((c =? "<") && (d =? "="))%char then Some (FOp FLe)
  else if (((c =? "*") && (d =? "*")) || ((c =? "/") && ((d =? "=") || (d =? "/"))) || ((c =? "=") && (d =? ">")))%char then Some FBad
  else None.
Definition fplain (c : ascii) : option ftoken :=
  if (c =? "(")%char then Some (FOp FLpar) else if (c =? ")")%char then Some (FOp FRpar) else if (c =? ",")%char then Some (FOp FComma)
  else if (c =? "+")%char then Some (FOp FPlus) else if (c =? "-")%char then Some (FOp FMinus) else None.
Definition fflush (st : fstate) : list ftoken :=
  match st with FNone | FComment => [] | FWord s => [FId s] | FDigits z => [FNum z] | FSign c => [fsign1 c] | FDot _ => [FBad] end.
Definition fstart (c : ascii) : fstate * list ftoken :=
  if is_letter c then (FWord (String (lower_char c) ""), [])
  else if is_digit c then (FDigits (digit_val c), [])
  else if is_newline c then (FNone, [FEol])
  else if (c =? " ")%char then (FNone, [])
  else if (c =? "!")%char then (FComment, [])
  else if (c =? ".")%char then (FDot "", [])
  else match fplain c with
       | Some t => (FNone, [t])
       | None => if fsign_start c then (FSign c, []) else (FNone, [FBad])
       end.
Definition fstep (st : fstate) (c : ascii) : fstate * list ftoken :=
  match st with
  | FWord s => if is_namechar c then (FWord (snoc s (lower_char c)), []) else let '(st', ts) := fstart c in (st', fflush st ++ ts)%list
  | FDigits z => if is_digit c then (FDigits (10 * z + digit_val c), [])
                 else if is_namechar c || (c =? ".")%char then (FNone, [FBad])            (* 3x, 3_8, 3. *)
                 else let '(st', ts) := fstart c in (st', fflush st ++ ts)%list
  | FSign c0 => match fsign2 c0 c with
                | Some t => (FNone, [t])
                | None => let '(st', ts) := fstart c in (st', fflush st ++ ts)%list
                end
  | FDot s => if is_letter c then (FDot (snoc s (lower_char c)), [])
              else if (c =? ".")%char then (FNone, [if String.eqb s "and" then FOp FAnd else FBad])
              else (FNone, [FBad])
  | FComment => if is_newline c then (FNone, [FEol]) else (FComment, [])
  | FNone => fstart c
  end.
Fixpoint flex (st : fstate) (s : string) : list ftoken :=
  match s with
  | EmptyString => fflush st
  | String c s' => let '(st', ts) := fstep st c in (ts ++ flex st' s')%list
  end.
Definition ftokens (s : string) : list ftoken := flex FNone s.
(** no line has more than 132 characters; [n]: the length of the line so far *)
Fixpoint lines_fit (n : nat) (s : string) : bool :=
  match s with
  | EmptyString => (n <=? 132)%nat
  | String c s' => if is_newline c then (n <=? 132)%nat && lines_fit 0 s' else lines_fit (S n) s'
  end.

(** ** Syntax trees *)
Inductive fexpr :=
| FVar (s : string)
| FInt (z : Z)
| FNeg (e : fexpr)
| FBin (b : binop) (e f : fexpr)
| FCall (f : string) (args : list fexpr).
Inductive fstmt :=
| FSet (x : string) (e : fexpr)
| FLine (f : string) (args : list fexpr)
| FWhen (c : fexpr) (body : list fstmt)
| FDo (it : string) (lb ub : fexpr) (step : option fexpr) (body : list fstmt).

(** Fortran has no reserved words; the reader does not take these as names, nor names that are
    too long. *)
Definition fkeyword (s : string) : bool := existsb (String.eqb s) ["do"; "if"; "then"; "end"].
Definition not_name (s : string) : bool := fkeyword s || (31 <? String.length s)%nat.

(** and = cmp {.AND. cmp}; cmp = sum [op sum]; sum = [-] product {+- product};
    product = primary {* / primary} *)
Inductive flevel := FLvAnd | FLvCmp | FLvSum | FLvMul | FLvPrim.
Definition fcmp_op (o : fop) : option binop :=
  match o with FLt => Some CLt | FGt => Some CGt | FLe => Some CLe | FGe => Some CGe | FEq => Some CEq | _ => None end.
Definition fadd_op (o : fop) : option binop := match o with FPlus => Some CAdd | FMinus => Some CSub | _ => None end.
Definition fmul_op (o : fop) : option binop := match o with FStar => Some CMul | FSlash => Some CDiv | _ => None end.
Fixpoint fparse (fuel : nat) (lv : flevel) (ts : list ftoken) {struct fuel} : option (fexpr * list ftoken) :=
  match fuel with
  | O => None
  | S fuel =>
    match lv with
    | FLvAnd => match fparse fuel FLvCmp ts with Some (e, ts1) => fparse_and fuel e ts1 | None => None end
    | FLvCmp =>
        match fparse fuel FLvSum ts with
        | Some (e, FOp o :: ts1) =>
            match fcmp_op o with
            | Some b => match fparse fuel FLvSum ts1 with Some (f, ts2) => Some (FBin b e f, ts2) | None => None end
            | None => Some (e, FOp o :: ts1)
            end
        | r => r
        end
    | FLvSum =>
        match ts with
        | FOp FMinus :: ts1 => match fparse fuel FLvMul ts1 with Some (e, ts2) => fparse_add fuel (FNeg e) ts2 | None => None end
        | _ => match fparse fuel FLvMul ts with Some (e, ts1) => fparse_add fuel e ts1 | None => None end
        end
    | FLvMul => match fparse fuel FLvPrim ts with Some (e, ts1) => fparse_mul fuel e ts1 | None => None end
    | FLvPrim =>
        match ts with
        | FNum z :: ts1 => Some (FInt z, ts1)
        | FOp FLpar :: ts1 =>
            match fparse fuel FLvAnd ts1 with
            | Some (e, FOp FRpar :: ts2) => Some (e, ts2)
            | _ => None
            end
        | FId f :: FOp FLpar :: ts1 =>
            if not_name f then None else
            match fparse_args fuel ts1 with Some (es, ts2) => Some (FCall f es, ts2) | None => None end
        | FId x :: ts1 => if not_name x then None else Some (FVar x, ts1)
        | _ => None
        end
    end
  end
with fparse_and (fuel : nat) (acc : fexpr) (ts : list ftoken) {struct fuel} : option (fexpr * list ftoken) :=
  match fuel with
  | O => None
  | S fuel => match ts with
              | FOp FAnd :: ts1 => match fparse fuel FLvCmp ts1 with Some (f, ts2) => fparse_and fuel (FBin CAnd acc f) ts2 | None => None end
              | _ => Some (acc, ts)
              end
  end
with fparse_add (fuel : nat) (acc : fexpr) (ts : list ftoken) {struct fuel} : option (fexpr * list ftoken) :=
  match fuel with
  | O => None
  | S fuel => match ts with
              | FOp o :: ts1 => match fadd_op o with
                                | Some b => match fparse fuel FLvMul ts1 with Some (f, ts2) => fparse_add fuel (FBin b acc f) ts2 | None => None end
                                | None => Some (acc, ts)
                                end
              | _ => Some (acc, ts)
              end
  end
with fparse_mul (fuel : nat) (acc : fexpr) (ts : list ftoken) {struct fuel} : option (fexpr * list ftoken) :=
  match fuel with
  | O => None
  | S fuel => match ts with
              | FOp o :: ts1 => match fmul_op o with
                                | Some b => match fparse fuel FLvPrim ts1 with Some (f, ts2) => fparse_mul fuel (FBin b acc f) ts2 | None => None end
                                | None => Some (acc, ts)
                                end
              | _ => Some (acc, ts)
              end
  end
(** the arguments of a call and the closing parenthesis *)
with fparse_args (fuel : nat) (ts : list ftoken) {struct fuel} : option (list fexpr * list ftoken) :=
  match fuel with
  | O => None
  | S fuel => match ts with
              | FOp FRpar :: ts1 => Some ([], ts1)
              | _ => match fparse fuel FLvAnd ts with
                     | Some (e, FOp FRpar :: ts1) => Some ([e], ts1)
                     | Some (e, FOp FComma :: ts1) =>
                         match ts1 with
                         | FOp FRpar :: _ => None
                         | _ => match fparse_args fuel ts1 with Some (es, ts2) => Some (e :: es, ts2) | None => None end
                         end
                     | _ => None
                     end
              end
  end.
(** statements; [ends w ts]: what follows a line END w *)
Definition ends (w : string) (ts : list ftoken) : option (list ftoken) :=
  match ts with
  | FId x :: FId y :: FEol :: ts1 => if (String.eqb x "end" && String.eqb y w)%bool then Some ts1 else None
  | _ => None
  end.
Fixpoint fparse_stmt (fuel : nat) (ts : list ftoken) {struct fuel} : option (fstmt * list ftoken) :=
  match fuel with
  | O => None
  | S fuel =>
    match ts with
    | FId x :: ts1 =>
        if String.eqb x "if" then
          match ts1 with
          | FOp FLpar :: ts2 =>
              match fparse fuel FLvAnd ts2 with
              | Some (c, FOp FRpar :: FId w :: FEol :: ts3) =>
                  if String.eqb w "then" then
                    match fparse_body fuel ts3 with
                    | Some (b, ts4) => match ends "if" ts4 with Some ts5 => Some (FWhen c b, ts5) | None => None end
                    | None => None
                    end
                  else None
              | _ => None
              end
          | _ => None
          end
        else if String.eqb x "do" then
          match ts1 with
          | FId it :: FOp FAssign :: ts2 =>
              if not_name it then None else
              match fparse fuel FLvSum ts2 with
              | Some (lb, FOp FComma :: ts3) =>
                  match fparse fuel FLvSum ts3 with
                  | Some (ub, FEol :: ts4) =>
                      match fparse_body fuel ts4 with
                      | Some (b, ts5) => match ends "do" ts5 with Some ts6 => Some (FDo it lb ub None b, ts6) | None => None end
                      | None => None
                      end
                  | Some (ub, FOp FComma :: ts4) =>
                      match fparse fuel FLvSum ts4 with
                      | Some (st, FEol :: ts5) =>
                          match fparse_body fuel ts5 with
                          | Some (b, ts6) => match ends "do" ts6 with Some ts7 => Some (FDo it lb ub (Some st) b, ts7) | None => None end
                          | None => None
                          end
                      | _ => None
                      end
                  | _ => None
                  end
              | _ => None
              end
          | _ => None
          end
        else if not_name x then None else
          match ts1 with
          | FOp FAssign :: ts2 => match fparse fuel FLvAnd ts2 with
                                  | Some (e, FEol :: ts3) => Some (FSet x e, ts3)
                                  | _ => None
                                  end
          | FOp FLpar :: ts2 => match fparse_args fuel ts2 with
                                | Some (es, FEol :: ts3) => Some (FLine x es, ts3)
                                | _ => None
                                end
          | _ => None
          end
    | _ => None
    end
  end
(** statements up to the end of the text or a line that starts with END; empty lines (and
    comments) are skipped *)
with fparse_body (fuel : nat) (ts : list ftoken) {struct fuel} : option (list fstmt * list ftoken) :=
  match fuel with
  | O => None
  | S fuel => match ts with
              | [] => Some ([], [])
              | FEol :: ts1 => fparse_body fuel ts1
              | FId x :: _ =>
                  if String.eqb x "end" then Some ([], ts)
                  else match fparse_stmt fuel ts with
                       | Some (s, ts1) => match fparse_body fuel ts1 with Some (b, ts2) => Some (s :: b, ts2) | None => None end
                       | None => None
                       end
              | _ => None
              end
  end.
Definition freads_expr (text : string) (e : fexpr) : Prop := exists fuel, fparse fuel FLvAnd (ftokens text) = Some (e, []).
Definition freads (text : string) (p : list fstmt) : Prop :=
  lines_fit 0 text = true /\ exists fuel, fparse_body fuel (ftokens text) = Some (p, []).

(** ** Meaning *)
(** Default reals have a significand of 24 bits (IEEE single precision); the exponent is not
    bounded here.  Conversions and quotients are rounded to a nearest real. *)
Definition single (q : Q) : Prop := exists m e : Z, Z.abs m <= 2 ^ 24 /\ (q == inject_Z m * (2 # 1) ^ e)%Q.
Definition nearest (rnd : Q -> Q) : Prop :=
  forall q, single (rnd q) /\ forall r, single r -> (Qabs (q - rnd q) <= Qabs (q - r))%Q.

Inductive fvalue := VInt (z : Z) | VReal (q : Q) | VLog (b : bool).
Definition compare_ints (b : binop) (x y : Z) : option bool :=
  match b with
  | CLt => Some (x <? y) | CGt => Some (y <? x) | CLe => Some (x <=? y) | CGe => Some (y <=? x) | CEq => Some (x =? y) | _ => None
  end.
Fixpoint all_ints (l : list fvalue) : option (list Z) :=
  match l with
  | [] => Some []
  | VInt z :: l' => match all_ints l' with Some zs => Some (z :: zs) | None => None end
  | _ => None
  end.
Section Run.
Variable rnd : Q -> Q.
(** operands of different types, and all operators on reals except the quotient, have no meaning
    here *)
Definition fbin_meaning (b : binop) (v w : fvalue) : option fvalue :=
  match v, w with
  | VInt x, VInt y =>
      match b with
      | CAdd => Some (VInt (x + y)) | CSub => Some (VInt (x - y)) | CMul => Some (VInt (x * y))
      | CDiv => if y =? 0 then None else Some (VInt (Z.quot x y))
      | _ => option_map VLog (compare_ints b x y)
      end
  | VReal p, VReal q => match b with CDiv => if Qeq_bool q 0 then None else Some (VReal (rnd (p / q))) | _ => None end
  | VLog p, VLog q => match b with CAnd => Some (VLog (p && q)) | _ => None end
  | _, _ => None
  end.
Definition intrinsics : list string := ["floor"; "ceiling"; "real"; "mod"; "min"; "max"].
Definition is_intrinsic (s : string) : bool := existsb (String.eqb s) intrinsics.
Definition fcall_meaning (f : string) (vs : list fvalue) : option fvalue :=
  if String.eqb f "real" then match vs with [VInt z] => Some (VReal (rnd (inject_Z z))) | _ => None end
  else if String.eqb f "floor" then match vs with [VReal q] => Some (VInt (Qfloor q)) | _ => None end
  else if String.eqb f "ceiling" then match vs with [VReal q] => Some (VInt (Qceiling q)) | _ => None end
  else if String.eqb f "mod" then match vs with [VInt x; VInt y] => if y =? 0 then None else Some (VInt (Z.rem x y)) | _ => None end
  else if String.eqb f "min" then match all_ints vs with Some (x :: y :: zs) => Some (VInt (fold_left Z.min (y :: zs) x)) | _ => None end
  else if String.eqb f "max" then match all_ints vs with Some (x :: y :: zs) => Some (VInt (fold_left Z.max (y :: zs) x)) | _ => None end
  else None.
Fixpoint feval (rho : env) (e : fexpr) : option fvalue :=
  match e with
  | FVar s => option_map VInt (rho s)
  | FInt z => Some (VInt z)
  | FNeg a => match feval rho a with Some (VInt x) => Some (VInt (- x)) | _ => None end
  | FBin b a c => match feval rho a, feval rho c with Some x, Some y => fbin_meaning b x y | _, _ => None end
  | FCall f l =>
      let fix fevals (l : list fexpr) : option (list fvalue) :=
        match l with
        | [] => Some []
        | e :: l' => match feval rho e, fevals l' with Some v, Some vs => Some (v :: vs) | _, _ => None end
        end in
      match fevals l with Some vs => fcall_meaning f vs | None => None end
  end.
Definition fint (rho : env) (e : fexpr) : option Z := match feval rho e with Some (VInt z) => Some z | _ => None end.
Fixpoint fints (rho : env) (l : list fexpr) : option (list Z) :=
  match l with
  | [] => Some []
  | e :: l' => match fint rho e, fints rho l' with Some z, Some zs => Some (z :: zs) | _, _ => None end
  end.
(** Execution.  The number of iterations of a DO loop is computed once, from the values the bounds
    have before the loop; its variable must not be changed by the body. *)
Definition iteration_count (l u s : Z) : nat := Z.to_nat (Z.quot (u - l + s) s).
Inductive frun1 : fstmt -> env -> env -> list call -> Prop :=
| F_set : forall x e rho z, fint rho e = Some z -> frun1 (FSet x e) rho (assign rho x z) []
| F_line : forall f es rho zs, is_intrinsic f = false -> fints rho es = Some zs -> frun1 (FLine f es) rho rho [(f, zs)]
| F_then : forall c b rho rho' t, feval rho c = Some (VLog true) -> frun b rho rho' t -> frun1 (FWhen c b) rho rho' t
| F_skip : forall c b rho, feval rho c = Some (VLog false) -> frun1 (FWhen c b) rho rho []
| F_do : forall it lb ub st b rho zl zu zs rho' t, fint rho lb = Some zl -> fint rho ub = Some zu ->
    match st with Some e => fint rho e | None => Some 1 end = Some zs -> zs <> 0 ->
    floop it zs b (iteration_count zl zu zs) (assign rho it zl) rho' t -> frun1 (FDo it lb ub st b) rho rho' t
with floop : string -> Z -> list fstmt -> nat -> env -> env -> list call -> Prop :=
| F_stop : forall it st b rho, floop it st b 0 rho rho []
| F_more : forall it st b n rho v rho1 t1 rho2 t2, rho it = Some v -> frun b rho rho1 t1 -> rho1 it = Some v ->
    floop it st b n (assign rho1 it (v + st)) rho2 t2 -> floop it st b (S n) rho rho2 (t1 ++ t2)%list
with frun : list fstmt -> env -> env -> list call -> Prop :=
| F_nil : forall rho, frun [] rho rho []
| F_cons : forall s p rho rho1 t1 rho2 t2, frun1 s rho rho1 t1 -> frun p rho1 rho2 t2 -> frun (s :: p) rho rho2 (t1 ++ t2)%list.
End Run.
