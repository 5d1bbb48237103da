(** Model of the messages on the standard error output: cloog_vmsg (/repo/source/options.c:58-81) and the places that
    call it between reading the input and generating the loops (/repo/source/union_domain.c:276-282,
    /repo/source/isl/domain.c:1346-1360, /repo/source/program.c:1044-1077, 1142-1241, 1258-1347, 1357-1400).

    The functions are those of ProgramModel.v and LoopModel.v, written again with the counters that only the messages
    use.  Left out: the message about the allocation counters (C32), the ones printed with OpenScop support and on a
    failing gettimeofday, and cloog_die's (the run is then [None]). *)
From Coq Require Import ZArith List Bool Arith String Ascii.
From Verif Require Import PprintModel LoopModel ProgramModel.
Import ListNotations.
Local Open Scope nat_scope.

(** include/cloog/options.h: enum cloog_msg_type *)
Inductive mtype := MError | MWarning | MInfo.
(** the messages *)
Inductive message :=
| Similar                        (* union_domain.c:280 *)
| Blocked (n : nat)              (* program.c:1240 *)
| Scalar (n nb : nat)            (* program.c:1345 *)
| NoScattering                   (* program.c:1393 *)
| FewConstraints (n : nat)       (* program.c:1397 *)
| Override                       (* program.c:1046 *)
| RaisedL                        (* program.c:1058 *)
| LoweredL.                      (* program.c:1075 *)
Definition mkind (m : message) : mtype := match m with Blocked _ | Scalar _ _ => MInfo | _ => MWarning end.
Definition nl : string := String (ascii_of_nat 10) EmptyString.
Definition gap : string := "                ".
Definition mtext (m : message) : string :=
  (match m with
   | Similar => "some scattering functions are similar." ++ nl
   | Blocked n => nat_text n ++ " domains have been blocked." ++ nl
   | Scalar n nb => nat_text n ++ " dimensions (over " ++ nat_text nb ++ ") are scalar." ++ nl
   | NoScattering => "there is not a scattering for each statement." ++ nl
   | FewConstraints n => "not enough constraints for " ++ nat_text n ++ " scattering function(s)." ++ nl
   | Override => "you are using -override option, be aware that the generated" ++ nl ++ gap ++ "code may be incorrect." ++ nl
   | RaisedL => "-l depth is less than the scattering dimension number (the " ++ nl ++ gap ++ "generated code may be incorrect), it has been automaticaly set" ++ nl ++ gap ++
                "to this value (use option -override to override)." ++ nl
   | LoweredL => "-f depth is more than one, -l depth has been automaticaly set" ++ nl ++ gap ++ "to the scattering dimension number (target code may have" ++ nl ++ gap ++
                 "duplicated iterations), -l depth has been automaticaly set to" ++ nl ++ gap ++ "this value (use option -override to override)." ++ nl
   end)%string.
(** options.c:58-81 cloog_vmsg: what is printed; [quiet] is false when there are no options (cloog_die) *)
Definition vmsg (quiet : bool) (t : mtype) (text : string) : string :=
  if quiet && (match t with MWarning | MInfo => true | MError => false end) then EmptyString
  else ("[CLooG] " ++ (match t with MWarning => "WARNING" | MInfo => "INFO" | MError => "ERROR" end) ++ ": " ++ text)%string.
(** what a run with the messages [ms] leaves on the standard error output *)
Fixpoint stderr_of (quiet : bool) (ms : list message) : string :=
  match ms with [] => EmptyString | m :: r => (vmsg quiet (mkind m) (mtext m) ++ stderr_of quiet r)%string end.
(** options.c:102-110 cloog_die: the message of a run that ends there *)
Definition die_text (text : string) : string := vmsg false MError text.

(** isl/domain.c:1346-1360 cloog_scattering_list_lazy_same; [same] is isl_map_plain_is_equal *)
Fixpoint lazy_same {A} (same : A -> A -> bool) (l : list A) : bool :=
  match l with [] => false | one :: rest => if existsb (same one) rest then true else lazy_same same rest end.
(** union_domain.c:276-282: nothing is asked without scatterings *)
Definition read_messages {A} (same : A -> A -> bool) (l : list A) : list message :=
  match l with [] => [] | _ => if lazy_same same l then [Similar] else [] end.

(** program.c:1044-1077, with the messages *)
Definition generate_messages (nb : nat) (o : options) : list message * options :=
  if o_override o then ([Override], o)
  else
    let n := Z.of_nat nb in
    let '(m1, l1) := if ((o_l o <? n)%Z && (0 <=? o_l o)%Z)%bool then ([RaisedL], n) else ([], o_l o) in
    let '(m2, l2) := if (((1 <? o_f o)%Z || (o_f o <? 0)%Z) && ((n <? l1)%Z || (l1 <? 0)%Z))%bool then ([LoweredL], n) else ([], l1) in
    (m1 ++ m2, with_l o l2).

Section Program.
Variable P : Poly.
Variable C : Scat P.
(** cloog_scattering_fully_specified, isl/domain.c:50-56: the relation is single valued *)
Variable fully : smap C -> bool.
Notation ploop := (ploop P).

(** program.c:1142-1241 cloog_program_block with nb_blocked ([k] so far) *)
Fixpoint block_scan_m (k : nat) (dl : list ploop) (ds : list (smap C)) (start : ploop) (sstart : smap C)
    (dref : dom P) (sref : smap C) (ls : list ploop) (ss : list (smap C)) : option (list ploop * list (smap C) * nat) :=
  match ls with
  | [] => Some (dl ++ [start], ds ++ sstart :: ss, k)
  | l :: ls' =>
    match ss with
    | [] => None
    | s :: ss' =>
      if lazy_equal P dref (pl_dom P l) && lazy_block P C sref s (ds ++ sstart :: ss)
      then block_scan_m (S k) dl ds (merge_loop P start l) sstart (pl_dom P l) s ls' ss'
      else block_scan_m k (dl ++ [start]) (ds ++ [sstart]) l s (pl_dom P l) s ls' ss'
    end
  end.
Definition program_block_m (ls : list ploop) (ss : list (smap C)) : option (list ploop * list (smap C) * list message) :=
  match ls with
  | [] | [_] => Some (ls, ss, [])                       (* :1148-1149 return without a message *)
  | l :: ls' =>
    match ss with
    | [] => None
    | s :: ss' =>
      match block_scan_m 0 [] [] l s (pl_dom P l) s ls' ss' with
      | Some (rl, rs, k) => Some (rl, rs, if k =? 0 then [] else [Blocked k])
      | None => None
      end
    end
  end.

(** program.c:1258-1347 cloog_program_extract_scalars with nb_scaldims *)
Definition extract_scalars_m (nb : nat) (ls : list ploop) (ss : list (smap C)) : option (list nat * list ploop * list (smap C) * list message) :=
  let n := List.length (filter (fun k => k) (scalar_dims P C nb ss)) in
  match extract_scalars P C nb ls ss with
  | Some (scaldims, ls', ss') => Some (scaldims, ls', ss', if n =? 0 then [] else [Scalar n nb])
  | None => None
  end.

(** program.c:1357-1400 cloog_program_scatter with not_enough_constraints ([k] so far); at the end, is there a loop
    or a scattering left? *)
Fixpoint scatter_rest_m (k n : nat) (ls : list ploop) (ss : list (smap C)) : option (list ploop * bool * nat) :=
  match ls, ss with
  | l :: ls', s :: ss' =>
    if s_dim C s =? n then
      match scatter_rest_m (if fully s then k else S k) n ls' ss' with
      | Some (r, more, k') => Some ({| pl_dom := s_scatter C (pl_dom P l) s; pl_stmts := pl_stmts P l; pl_scal := pl_scal P l |} :: r, more, k')
      | None => None
      end
    else None
  | [], [] => Some ([], false, k)
  | _, _ => Some (ls, true, k)
  end.
Definition program_scatter_m (ls : list ploop) (ss : list (smap C)) : option (list ploop * list message) :=
  match ss with
  | [] => Some (ls, [])
  | s :: _ =>
    match ls with
    | [] => None
    | _ =>
      match scatter_rest_m 0 (s_dim C s) ls ss with
      | Some (r, more, k) => Some (r, (if more then [NoScattering] else []) ++ (if k =? 0 then [] else [FewConstraints k]))
      | None => None
      end
    end
  end.

(** program.c:844-955 cloog_program_alloc with the messages *)
Definition program_alloc_m (o : alloc_options) (input : list (dom P * option (smap C))) : option (list nat * list ploop * list message) :=
  let ls := from_domains P 0 (map fst input) in
  let ss := flat_map (fun x => match snd x with Some s => [s] | None => [] end) input in
  match ss with
  | [] => Some ([], ls, [])
  | s :: _ =>
    let nb := s_dim C s in
    match (if a_noblocks o then Some (ls, ss, []) else program_block_m ls ss) with
    | None => None
    | Some (ls1, ss1, m1) =>
      match (if a_noscalars o then Some (repeat 0 nb, ls1, ss1, []) else extract_scalars_m nb ls1 ss1) with
      | None => None
      | Some (scaldims, ls2, ss2, m2) =>
        match program_scatter_m ls2 ss2 with
        | None => None
        | Some (ls3, m3) =>
          match (if a_noblocks o then Some ls3 else loop_block P scaldims ls3) with
          | None => None
          | Some ls4 => Some (scaldims, ls4, m1 ++ m2 ++ m3)
          end
        end
      end
    end
  end.
End Program.
