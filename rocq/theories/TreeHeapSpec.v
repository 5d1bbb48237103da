(** Who owns which nodes of the generated code, and what each call does to that. *)
From Coq Require Import ZArith List Bool Arith String Permutation.
From Verif Require Import ClastModel TreeHeapModel.
Import ListNotations.
Local Open Scope nat_scope.

(** A node with everything that hangs on it. *)
Inductive tree := T (x : nat) (l : label) (ks : list (option tree)).
Definition root (t : tree) : nat := match t with T x _ _ => x end.
Definition lab (t : tree) : label := match t with T _ l _ => l end.
Definition kids (t : tree) : list (option tree) := match t with T _ _ ks => ks end.
Definition at_root (o : option tree) : ptr := option_map root o.
Fixpoint nodes (t : tree) : list tree := t :: match t with T _ _ ks => flat_map (fun o => match o with Some k => nodes k | None => [] end) ks end.

(** expressions and statements *)
Definition is_expr (l : label) : bool := match l with LName _ | LTerm _ | LBin _ _ | LRed _ => true | _ => false end.
(** Field [i] of a node with this label is for an expression ([true]) or for a statement ([false]). *)
Definition for_expr (l : label) (i : nat) : bool :=
  match l with
  | LTerm _ | LBin _ _ | LRed _ => true
  | LAss _ => i =? 0
  | LFor _ _ _ => i <? 2
  | LGuard _ => 2 <=? i
  | _ => false
  end.
(** the place of the field next *)
Definition next_place (l : label) : nat := match l with LRoot _ => 0 | LFor _ _ _ => 3 | _ => 1 end.

(** What a node refers to besides other nodes. *)
Definition l_names (l : label) : list nat := match l with LRoot n => [n] | _ => [] end.
Definition opt (p : ptr) : list nat := match p with Some x => [x] | None => [] end.
Definition l_doms (l : label) : list nat := match l with LUser d _ => opt d | LFor d _ _ => opt d | _ => [] end.
Definition l_sts (l : label) : list nat := match l with LUser _ s => opt s | _ => [] end.
Definition l_int (l : label) : bool := match l with LTerm _ | LBin _ _ | LFor _ _ _ => true | _ => false end.

(** What the user owns: nodes with all that hangs on them, references to tables of names, to sets, statements. *)
Record view := { v_t : list tree; v_n : list nat; v_d : list nat; v_s : list nat }.
Definition v0 : view := {| v_t := []; v_n := []; v_d := []; v_s := [] |}.
Definition with_t v x := {| v_t := x; v_n := v_n v; v_d := v_d v; v_s := v_s v |}.
Definition with_n v x := {| v_t := v_t v; v_n := x; v_d := v_d v; v_s := v_s v |}.
Definition with_d v x := {| v_t := v_t v; v_n := v_n v; v_d := x; v_s := v_s v |}.
Definition with_s v x := {| v_t := v_t v; v_n := v_n v; v_d := v_d v; v_s := x |}.
Definition all_nodes (v : view) : list tree := flat_map nodes (v_t v).
(** all references *)
Definition names_refs (v : view) : list nat := v_n v ++ flat_map (fun t => l_names (lab t)) (all_nodes v).
Definition dom_refs (v : view) : list nat := v_d v ++ flat_map (fun t => l_doms (lab t)) (all_nodes v).
Definition st_refs (v : view) : list nat := v_s v ++ flat_map (fun t => l_sts (lab t)) (all_nodes v).
Definition int_owners (v : view) : list nat := map root (filter (fun t => l_int (lab t)) (all_nodes v)).

(** [p] is NULL, or an expression ([e = true]) or statement the user owns, which is taken from them. *)
Inductive takes (e : bool) : ptr -> option tree -> list tree -> list tree -> Prop :=
| Takes_null l : takes e None None l l
| Takes_one t l rest : Permutation l (t :: rest) -> is_expr (lab t) = e -> takes e (Some (root t)) (Some t) l rest.
Definition takes_ref (p : ptr) (from rest : list nat) : Prop := Permutation from (opt p ++ rest).

(** the tree after the field [i] of node [x] has got [k] *)
Fixpoint fill (x i : nat) (k : option tree) (t : tree) : tree :=
  match t with
  | T y l ks => if y =? x then T y l (set_nth i k ks) else T y l (map (option_map (fill x i k)) ks)
  end.
(** a tree of the same form at the addresses [new], each node before its children *)
Fixpoint renumber (new : list nat) (t : tree) : tree * list nat :=
  match t with
  | T x l ks =>
    let r := (fix go (new : list nat) (ks : list (option tree)) : list (option tree) * list nat :=
      match ks with
      | [] => ([], new)
      | None :: ks' => let r := go new ks' in (None :: fst r, snd r)
      | Some k :: ks' => let a := renumber new k in let r := go (snd a) ks' in (Some (fst a) :: fst r, snd r)
      end) (tl new) ks in
    (T (hd 0 new) l (fst r), snd r)
  end.
Definition somes {A} (o : option A) : list A := match o with Some a => [a] | None => [] end.

(** [user v o after]: the user, who owns [v], may make the call [o]; if the call allocates [new], they own
    [after new] then.  The rules: what is passed to a constructor or put in a field is the user's until then and
    the node's afterwards; a field that is written was NULL; only the user's own things are freed; what is copied,
    or referred to once more, exists. *)
Definition add (v : view) (rest : list tree) (l : label) (ks : list (option tree)) : list nat -> view :=
  fun new => with_t v (T (hd 0 new) l ks :: rest).
Inductive user (v : view) : op -> (list nat -> view) -> Prop :=
| U_name s : user v (MkName s) (add v (v_t v) (LName s) [])
| U_term z p k rest : takes true p k (v_t v) rest -> user v (MkTerm z p) (add v rest (LTerm z) [k])
| U_bin b p k z rest : takes true p k (v_t v) rest -> user v (MkBin b p z) (add v rest (LBin b z) [k])
| U_red b n : user v (MkRed b n) (add v (v_t v) (LRed b) (repeat None n))
| U_copy_null : user v (CopyExpr None) (fun _ => v)
| U_copy t : In t (all_nodes v) -> is_expr (lab t) = true ->
    user v (CopyExpr (Some (root t))) (fun new => with_t v (fst (renumber new t) :: v_t v))
| U_free_expr p k rest : takes true p k (v_t v) rest -> user v (FreeExpr p) (fun _ => with_t v rest)
| U_root n : In n (names_refs v) -> user v (MkRoot n) (add v (v_t v) (LRoot n) [None])
| U_ass s p k rest : takes true p k (v_t v) rest -> user v (MkAss s p) (add v rest (LAss s) [k; None])
| U_user d s p k rest : (forall x, d = Some x -> In x (dom_refs v)) -> (forall x, s = Some x -> In x (st_refs v)) ->
    takes false p k (v_t v) rest ->
    user v (MkUser d s p) (fun new => add v rest (LUser d (match s with Some _ => Some (hd 0 (tl new)) | None => None end)) [k; None] new)
| U_block : user v MkBlock (add v (v_t v) LBlock [None; None])
| U_for d it p q k k' z mid rest : (forall x, d = Some x -> In x (dom_refs v)) -> takes true p k (v_t v) mid -> takes true q k' mid rest ->
    user v (MkFor d it p q z) (add v rest (LFor d it z) [k; k'; None; None])
| U_guard n : user v (MkGuard n) (add v (v_t v) (LGuard (repeat 0%Z n)) (None :: None :: repeat None (2 * n)))
| U_free_stmt t rest : Permutation (v_t v) (t :: rest) -> is_expr (lab t) = false ->
    user v (FreeStmt (root t)) (fun _ => with_t v (somes (nth (next_place (lab t)) (kids t) None) ++ rest))
| U_free_clast p k rest : takes false p k (v_t v) rest -> user v (FreeClast p) (fun _ => with_t v rest)
| U_write x i p k t l ks mid rest : Permutation (v_t v) (t :: mid) -> In (T x l ks) (nodes t) -> nth_error ks i = Some None ->
    takes (for_expr l i) p k mid rest ->
    user v (Write x i p) (fun _ => with_t v (fill x i k t :: rest))
| U_names_new : user v NamesNew (fun new => with_n v (new ++ v_n v))
| U_names_copy n : In n (names_refs v) -> user v (NamesCopy n) (fun _ => with_n v (n :: v_n v))
| U_names_free n rest : takes_ref (Some n) (v_n v) rest -> user v (NamesFree n) (fun _ => with_n v rest)
| U_dom_new : user v DomNew (fun new => with_d v (new ++ v_d v))
| U_dom_free p rest : takes_ref p (v_d v) rest -> user v (DomFree p) (fun _ => with_d v rest)
| U_st_new : user v StNew (fun new => with_s v (new ++ v_s v))
| U_st_free p rest : takes_ref p (v_s v) rest -> user v (StFree p) (fun _ => with_s v rest).

(** Histories of calls. *)
Inductive history : heap -> view -> Prop :=
| H_start : history start v0
| H_call h v o after h' new : history h v -> user v o after -> exec h o = Some (h', new) -> history h' (after new).

(** The contents of the tree at a pointer, read from memory. *)
Inductive shape := Sh (l : label) (ks : list (option shape)).
Fixpoint shape_of (t : tree) : shape := match t with T _ l ks => Sh l (map (option_map shape_of) ks) end.
Inductive reads (h : heap) : ptr -> option shape -> Prop :=
| R_null : reads h None None
| R_node x c ks : get (h_cells h) x = Some c -> Forall2 (reads h) (c_fields c) ks -> reads h (Some x) (Some (Sh (c_lab c) ks)).
