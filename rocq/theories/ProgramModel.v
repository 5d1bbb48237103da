(** Model of the front end of cloog_program_alloc (/repo/source/program.c): building the
    statement loops, blocking them (cloog_program_block), extracting the scalar scattering
    dimensions (cloog_program_extract_scalars), scattering (cloog_program_scatter) and
    blocking again (cloog_loop_block, /repo/source/loop.c).

    The polyhedral library is abstract, as in LoopModel.v: [Scat] adds the operations on
    scatterings.  [None] is a run that does not return (cloog_die or a NULL dereference).
    Names (cloog_names_...) are modelled in NamesModel.v; memory management is not part
    of this model. *)
From Coq Require Import ZArith List Bool Arith.
From Verif Require Import LoopModel.
Import ListNotations.
Local Open Scope nat_scope.

(** The operations on CloogScattering used by program.c (isl/domain.c). *)
Record Scat (P : Poly) := {
  smap : Type;
  s_dim : smap -> nat;                        (* cloog_scattering_dimension, isl/domain.c:1374 *)
  s_scalar : smap -> nat -> option Z;         (* cloog_scattering_lazy_isscalar, :1439 *)
  s_erase : smap -> nat -> smap;              (* cloog_scattering_erase_dimension, :1497 *)
  s_delta : smap -> smap -> nat -> option Z;  (* isl_set_plain_get_val_if_fixed of the differences
                                                 between the dates of equal iterators, :1289-1295 *)
  s_injective : list smap -> bool;            (* injective_scattering, :1225-1252 *)
  s_scatter : dom P -> smap -> dom P          (* cloog_domain_scatter, :1572 *)
}.
Arguments smap {P}. Arguments s_dim {P}. Arguments s_scalar {P}. Arguments s_erase {P}.
Arguments s_delta {P}. Arguments s_injective {P}. Arguments s_scatter {P}.

Section Program.
Variable P : Poly.
Variable C : Scat P.

(** A loop of program->loop before generation: its domain and its block, i.e. the numbers
    of the statements and the scalar dimensions ([None]: scaldims == NULL). *)
Record ploop := { pl_dom : dom P; pl_stmts : list nat; pl_scal : option (list Z) }.

(** loop.c:324-344 cloog_loop_from_domain, called with i = 0, 1, ... at program.c:889-891 *)
Fixpoint from_domains (i : nat) (ds : list (dom P)) : list ploop :=
  match ds with
  | [] => []
  | d :: r => {| pl_dom := d; pl_stmts := [S i]; pl_scal := None |} :: from_domains (S i) r
  end.

(** block.c:375-395 cloog_block_merge: the statements are appended; the scalar dimensions
    of the first block are kept. *)
Definition merge_loop (a b : ploop) : ploop :=
  {| pl_dom := pl_dom a; pl_stmts := pl_stmts a ++ pl_stmts b; pl_scal := pl_scal a |}.

(** isl/domain.c:1271-1325 cloog_scattering_lazy_block: the for loop over the dimensions,
    [r] iterations left, [i] the current one. *)
Fixpoint lazy_block_from (s1 s2 : smap C) (all : list (smap C)) (n r i : nat) : bool :=
  match r with
  | O => true
  | S r' =>
    match s_delta C s1 s2 i with
    | None => false
    | Some c =>
      if (c =? 0)%Z then lazy_block_from s1 s2 all n r' (S i)
      else if i + 1 <? n then false
      else if negb (c =? 1)%Z then false
      else if negb (s_injective C all) then false
      else lazy_block_from s1 s2 all n r' (S i)
    end
  end.
Definition lazy_block (s1 s2 : smap C) (all : list (smap C)) : bool :=
  if negb (s_dim C s1 =? s_dim C s2) then false
  else lazy_block_from s1 s2 all (s_dim C s1) (s_dim C s1) 0.

(** program.c:1142-1241 cloog_program_block.  The while loop: [dl]/[ds] are the finished
    loops and their scatterings, [start]/[sstart] the block being filled, [dref]/[sref]
    the last loop that was looked at, [ls]/[ss] what follows.  The list given to
    cloog_scattering_lazy_block is the scattering list as it is linked at that moment:
    scatterings of loops that were put in a block are no longer in it. *)
Fixpoint block_scan (dl : list ploop) (ds : list (smap C)) (start : ploop) (sstart : smap C)
    (dref : dom P) (sref : smap C) (ls : list ploop) (ss : list (smap C))
    : option (list ploop * list (smap C)) :=
  match ls with
  | [] => Some (dl ++ [start], ds ++ sstart :: ss)
  | l :: ls' =>
    match ss with
    | [] => None
    | s :: ss' =>
      if lazy_equal P dref (pl_dom l) && lazy_block sref s (ds ++ sstart :: ss)
      then block_scan dl ds (merge_loop start l) sstart (pl_dom l) s ls' ss'
      else block_scan (dl ++ [start]) (ds ++ [sstart]) l s (pl_dom l) s ls' ss'
    end
  end.
Definition program_block (ls : list ploop) (ss : list (smap C)) : option (list ploop * list (smap C)) :=
  match ls with
  | [] | [_] => Some (ls, ss)
  | l :: ls' =>
    match ss with
    | [] => None
    | s :: ss' => block_scan [] [] l s (pl_dom l) s ls' ss'
    end
  end.

(** program.c:1258-1347 cloog_program_extract_scalars.
    [scalar_dims]: the first loop (:1269-1285), which dimensions are scalar for all. *)
Definition is_some {A} (o : option A) : bool := match o with Some _ => true | None => false end.
Definition scalar_dims (nb : nat) (ss : list (smap C)) : list bool :=
  map (fun i => forallb (fun s => is_some (s_scalar C s i)) ss) (seq 0 nb).

(** The loop over the loops of the second part (:1314-1323) for dimension [i]; the entry
    written is the one before those written earlier ([current] counts down), so the values
    are collected in front of the list.  Reading past the end of the scattering list is a
    NULL dereference, a dimension that is no longer scalar is cloog_die. *)
Fixpoint fill_scalars (i : nat) (ls : list ploop) (ss : list (smap C)) : option (list ploop) :=
  match ls with
  | [] => Some []
  | l :: ls' =>
    match ss with
    | [] => None
    | s :: ss' =>
      match s_scalar C s i, pl_scal l with
      | Some v, Some vs =>
        match fill_scalars i ls' ss' with
        | Some r => Some ({| pl_dom := pl_dom l; pl_stmts := pl_stmts l; pl_scal := Some (v :: vs) |} :: r)
        | None => None
        end
      | _, _ => None
      end
    end
  end.
(** The loop i = nb_scattdims-1 downto 0 (:1311-1333): [n] dimensions left. *)
Fixpoint extract_from (kinds : list bool) (n : nat) (ls : list ploop) (ss : list (smap C))
    : option (list ploop * list (smap C)) :=
  match n with
  | O => Some (ls, ss)
  | S i =>
    if nth i kinds false
    then match fill_scalars i ls ss with
         | Some ls' => extract_from kinds i ls' (map (fun s => s_erase C s i) ss)
         | None => None
         end
    else extract_from kinds i ls ss
  end.
(** The last loop (:1339-1347): every non-zero entry is raised by the number of non-zero
    entries that directly follow it.  Only the current entry is written and only later
    ones are read. *)
Fixpoint leading_nonzero (l : list nat) : nat :=
  match l with
  | [] => 0
  | x :: r => if x =? 0 then 0 else S (leading_nonzero r)
  end.
Fixpoint count_runs (l : list nat) : list nat :=
  match l with
  | [] => []
  | x :: r => (if x =? 0 then x else x + leading_nonzero r) :: count_runs r
  end.
Definition extract_scalars (nb : nat) (ls : list ploop) (ss : list (smap C))
    : option (list nat * list ploop * list (smap C)) :=
  let kinds := scalar_dims nb ss in
  let scaldims := map (fun k : bool => if k then 1 else 0) kinds in
  if existsb (fun k => k) kinds then
    let ls0 := map (fun l => {| pl_dom := pl_dom l; pl_stmts := pl_stmts l; pl_scal := Some [] |}) ls in
    match extract_from kinds nb ls0 ss with
    | Some (ls', ss') => Some (count_runs scaldims, ls', ss')
    | None => None
    end
  else Some (scaldims, ls, ss).

(** program.c:1357-1400 cloog_program_scatter.  The warnings (:1385-1393) are left out. *)
Fixpoint scatter_rest (n : nat) (ls : list ploop) (ss : list (smap C)) : option (list ploop) :=
  match ls, ss with
  | l :: ls', s :: ss' =>
    if s_dim C s =? n then
      match scatter_rest n ls' ss' with
      | Some r => Some ({| pl_dom := s_scatter C (pl_dom l) s; pl_stmts := pl_stmts l; pl_scal := pl_scal l |} :: r)
      | None => None
      end
    else None
  | _, _ => Some ls
  end.
Definition program_scatter (ls : list ploop) (ss : list (smap C)) : option (list ploop) :=
  match ss with
  | [] => Some ls
  | s :: _ => match ls with [] => None | _ => scatter_rest (s_dim C s) ls ss end
  end.

(** loop.c:2092-2110 cloog_loop_next_scal_cmp, for a loop and the one after it; [scals]
    reads a missing scaldims array as the empty one (nb_scaldims is then 0). *)
Definition scals (l : ploop) : list Z := match pl_scal l with Some v => v | None => [] end.
Fixpoint scal_cmp (a b : list Z) : comparison :=
  match a, b with
  | [], [] => Eq
  | [], _ => Lt
  | _, [] => Gt
  | x :: a', y :: b' => match Z.compare x y with Eq => scal_cmp a' b' | c => c end
  end.
Definition next_scal_cmp (l : ploop) (next : list ploop) : comparison :=
  match next with [] => Lt | n :: _ => scal_cmp (scals l) (scals n) end.

(** loop.c:2117-2147 cloog_loop_equal_prefix: [all_const] is the second loop. *)
Fixpoint all_const (d : dom P) (scaldims : list nat) (dim : nat) : bool :=
  match scaldims with
  | [] => true
  | r :: ks => if r =? 0 then is_some (lazy_isconstant P d dim) && all_const d ks (S dim)
               else all_const d ks dim
  end.
Fixpoint equal_prefix_from (d : dom P) (scaldims : list nat) (a b : list Z) (dim : nat) : bool :=
  match scaldims with
  | [] => true
  | r :: ks =>
    if r =? 0 then equal_prefix_from d ks a b (S dim)
    else if (hd 0 a =? hd 0 b)%Z then equal_prefix_from d ks (tl a) (tl b) dim
    else all_const d ks dim
  end.
Definition equal_prefix (scaldims : list nat) (a b : ploop) : bool :=
  equal_prefix_from (pl_dom a) scaldims (scals a) (scals b) 0.

(** loop.c:2168-2210 cloog_loop_block.  [same_as]: the for loop over [end] (:2191-2197):
    the loops that can join [begin], end_after_previous, and the loops from [end] on. *)
Fixpoint same_as (scaldims : list nat) (begin : ploop) (after : bool) (ls : list ploop)
    : list ploop * bool * list ploop :=
  match ls with
  | [] => ([], after, [])
  | e :: r =>
    if equal_prefix scaldims begin e && lazy_equal P (pl_dom begin) (pl_dom e)
    then let '(taken, aft, rest) := same_as scaldims begin
               (match next_scal_cmp e r with Lt => true | _ => false end) r in
         (e :: taken, aft, rest)
    else ([], after, ls)
  end.
(** the for loop over [begin] (:2184-2207); the fuel is the number of loops *)
Fixpoint block_groups (fuel : nat) (scaldims : list nat) (after : bool) (ls : list ploop)
    : option (list ploop) :=
  match fuel with
  | O => None
  | S f =>
    match ls with
    | [] => Some []
    | begin :: r =>
      let lt l next := match next_scal_cmp l next with Lt => true | _ => false end in
      let keep := match block_groups f scaldims (lt begin r) r with
                  | Some r' => Some (begin :: r') | None => None end in
      if negb after then keep
      else
        let '(taken, aft, rest) := same_as scaldims begin (lt begin r) r in
        match taken with
        | [] => keep
        | _ =>
          if aft then
            match block_groups f scaldims (lt begin rest) rest with
            | Some r' => Some (fold_left merge_loop taken begin :: r')
            | None => None
            end
          else keep
        end
    end
  end.
Fixpoint increasing (ls : list ploop) : bool :=
  match ls with
  | [] => true
  | l :: r => is_some (pl_scal l) && (match next_scal_cmp l r with Gt => false | _ => true end) && increasing r
  end.
Definition loop_block (scaldims : list nat) (ls : list ploop) : option (list ploop) :=
  match ls with
  | [] => None
  | [_] => Some ls
  | _ => if increasing ls then block_groups (S (length ls)) scaldims true ls else Some ls
  end.

(** The loops as the generator (LoopModel.v) gets them. *)
Definition to_loop (l : ploop) : loop P :=
  @Loop P (pl_dom l) false None
    (Some {| b_pos := hd 0 (pl_stmts l); b_stmts := pl_stmts l; b_scal := scals l |}) [].

(** program.c:844-955 cloog_program_alloc: the scaldims array and the loops.  An input is
    the list of domains of the union domain with their scatterings (NULL allowed). *)
Record alloc_options := { a_noblocks : bool; a_noscalars : bool }.
Definition program_alloc (o : alloc_options) (input : list (dom P * option (smap C)))
    : option (list nat * list ploop) :=
  let ls := from_domains 0 (map fst input) in
  let ss := flat_map (fun x => match snd x with Some s => [s] | None => [] end) input in
  match ss with
  | [] => Some ([], ls)
  | s :: _ =>
    let nb := s_dim C s in
    match (if a_noblocks o then Some (ls, ss) else program_block ls ss) with
    | None => None
    | Some (ls1, ss1) =>
      match (if a_noscalars o then Some (repeat 0 nb, ls1, ss1) else extract_scalars nb ls1 ss1) with
      | None => None
      | Some (scaldims, ls2, ss2) =>
        match program_scatter ls2 ss2 with
        | None => None
        | Some ls3 =>
          match (if a_noblocks o then Some ls3 else loop_block scaldims ls3) with
          | None => None
          | Some ls4 => Some (scaldims, ls4)
          end
        end
      end
    end
  end.

(** cloog_program_alloc followed by cloog_program_generate (program.c:1027-1122). *)
Definition alloc_and_generate (ao : alloc_options) (o : options) (fuel : nat) (ctx : dom P)
    (input : list (dom P * option (smap C))) : option (list nat * list (loop P)) :=
  match program_alloc ao input with
  | None => None
  | Some (scaldims, ls) =>
    match cloog_program_generate P scaldims o fuel ctx (map to_loop ls) with
    | None => None
    | Some res => Some (scaldims, res)
    end
  end.
End Program.
