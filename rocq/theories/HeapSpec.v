(** What the user of statements, blocks, lists, strides and loops owns, and what each call does to that. *)
From Coq Require Import ZArith List Bool Arith Permutation.
From Verif Require Import HeapModel.
Import ListNotations.

(** A loop: its address, block, stride and inner loops. *)
Inductive tree := T (a : nat) (b s : ptr) (inner : list tree).
Definition opt {A} (o : option A) : list A := match o with Some a => [a] | None => [] end.
Fixpoint t_addrs (t : tree) : list nat := match t with T a _ _ f => a :: flat_map t_addrs f end.
Fixpoint t_blocks (t : tree) : list nat := match t with T _ b _ f => opt b ++ flat_map t_blocks f end.
Fixpoint t_strides (t : tree) : list nat := match t with T _ _ s f => opt s ++ flat_map t_strides f end.
Definition root (t : tree) : nat := match t with T a _ _ _ => a end.
Definition kids (t : tree) : list tree := match t with T _ _ _ f => f end.
Definition own_block (t : tree) : list nat := match t with T _ b _ _ => opt b end.

(** The user's view.  A statement list is a list of addresses with numbers. *)
Record view := {
  v_sl : list (list (nat * Z));              (* statement lists that are in no block *)
  v_bl : list (nat * list (nat * Z));        (* blocks and their statements *)
  v_br : list nat;                           (* the user's own references to blocks, each as often as held *)
  v_ll : list (list (nat * nat));            (* block lists: nodes with their blocks *)
  v_sr : list nat;                           (* the user's own references to strides *)
  v_lo : list (list tree)                    (* loop lists *)
}.
Definition v0 : view := {| v_sl := []; v_bl := []; v_br := []; v_ll := []; v_sr := []; v_lo := [] |}.
(** all references to blocks: the user's, those of list nodes, those of loops *)
Definition block_refs (v : view) : list nat := v_br v ++ map snd (concat (v_ll v)) ++ flat_map t_blocks (concat (v_lo v)).
Definition stride_refs (v : view) : list nat := v_sr v ++ flat_map t_strides (concat (v_lo v)).
(** A block stays as long as there is a reference to it. *)
Definition alive (refs : list nat) (bl : list (nat * list (nat * Z))) : list (nat * list (nat * Z)) :=
  filter (fun p => if in_dec Nat.eq_dec (fst p) refs then true else false) bl.
Definition settle (v : view) : view :=
  {| v_sl := v_sl v; v_bl := alive (block_refs v) (v_bl v); v_br := v_br v; v_ll := v_ll v; v_sr := v_sr v; v_lo := v_lo v |}.

Definition head {A} (f : A -> nat) (l : list A) : ptr := match l with [] => None | x :: _ => Some (f x) end.
Definition with_sl v x := {| v_sl := x; v_bl := v_bl v; v_br := v_br v; v_ll := v_ll v; v_sr := v_sr v; v_lo := v_lo v |}.
Definition with_bl v x := {| v_sl := v_sl v; v_bl := x; v_br := v_br v; v_ll := v_ll v; v_sr := v_sr v; v_lo := v_lo v |}.
Definition with_br v x := {| v_sl := v_sl v; v_bl := v_bl v; v_br := x; v_ll := v_ll v; v_sr := v_sr v; v_lo := v_lo v |}.
Definition with_ll v x := {| v_sl := v_sl v; v_bl := v_bl v; v_br := v_br v; v_ll := x; v_sr := v_sr v; v_lo := v_lo v |}.
Definition with_srs v x := {| v_sl := v_sl v; v_bl := v_bl v; v_br := v_br v; v_ll := v_ll v; v_sr := x; v_lo := v_lo v |}.
Definition with_lo v x := {| v_sl := v_sl v; v_bl := v_bl v; v_br := v_br v; v_ll := v_ll v; v_sr := v_sr v; v_lo := x |}.

(** something non-empty taken out of a collection, or NULL and nothing taken *)
Definition takes {A} (f : A -> nat) (p : ptr) (l : list A) (from rest : list (list A)) : Prop :=
  p = head f l /\ ((l = [] /\ rest = from) \/ (l <> [] /\ Permutation from (l :: rest))).
Definition takes_ref (p : ptr) (from rest : list nat) : Prop := Permutation from (opt p ++ rest).
(** [shown]: a statement list the user can see *)
Definition shown (v : view) (l : list (nat * Z)) : Prop := l = [] \/ In l (v_sl v) \/ exists b, In (b, l) (v_bl v).

(** What lo_free_parts leaves to the user of the loops [f] it is called on: references to blocks, loop lists. *)
Fixpoint freed_parts (block inner : bool) (t : tree) : list nat * list (list tree) :=
  match t with
  | T _ b _ f =>
    if inner then
      let r := map (freed_parts block inner) f in
      ((if block then [] else opt b) ++ flat_map fst r, flat_map snd r)
    else ((if block then [] else opt b), match f with [] => [] | _ => [f] end)
  end.
Definition nonempty {A} (l : list A) : list (list A) := match l with [] => [] | _ => [l] end.

(** [user v o after]: the user, who owns [v], may make the call [o]; if the call allocates [new], the user owns
    [after new] then.  The rules say: a structure is given away or freed only by its owner, and a call that
    only adds a reference needs a reference to exist. *)
Inductive user (v : view) : op -> (list nat -> view) -> Prop :=
| U_st_alloc n : user v (StAlloc n) (fun new => with_sl v (map (fun x => [(x, n)]) new ++ v_sl v))
| U_st_free p l rest : takes fst p l (v_sl v) rest -> user v (StFree p) (fun _ => with_sl v rest)
| U_st_copy l : shown v l -> user v (StCopy (head fst l)) (fun new => with_sl v (nonempty (combine new (map snd l)) ++ v_sl v))
| U_st_link l x n p l' rest mid : Permutation (v_sl v) ((l ++ [(x, n)]) :: mid) -> takes fst p l' mid rest ->
    user v (StLink x p) (fun _ => with_sl v ((l ++ (x, n) :: l') :: rest))
| U_bl_malloc : user v BlMalloc (fun new => with_br (with_bl v (map (fun x => (x, [])) new ++ v_bl v)) (new ++ v_br v))
| U_bl_alloc p l rest : l <> [] -> takes fst p l (v_sl v) rest ->
    user v (BlAlloc p) (fun new => with_sl (with_br (with_bl v (map (fun x => (x, l)) new ++ v_bl v)) (new ++ v_br v)) rest)
| U_bl_copy p : (forall b, p = Some b -> In b (block_refs v)) -> user v (BlCopy p) (fun _ => with_br v (opt p ++ v_br v))
| U_bl_free p rest : takes_ref p (v_br v) rest -> user v (BlFree p) (fun _ => settle (with_br v rest))
| U_bl_merge_null p q : p = None \/ q = None -> user v (BlMerge p q) (fun _ => v)
| U_bl_merge b m lb lm others rest : b <> m -> In b (block_refs v) -> takes_ref (Some m) (v_br v) rest ->
    Permutation (v_bl v) ((b, lb) :: (m, lm) :: others) ->
    user v (BlMerge (Some b) (Some m)) (fun _ => settle (with_br (with_bl v ((b, lb ++ lm) :: (m, []) :: others)) rest))
| U_li_alloc b : In b (block_refs v) -> user v (LiAlloc (Some b)) (fun new => with_ll v (map (fun x => [(x, b)]) new ++ v_ll v))
| U_li_link l x b p l' rest mid : Permutation (v_ll v) ((l ++ [(x, b)]) :: mid) -> takes fst p l' mid rest ->
    user v (LiLink x p) (fun _ => with_ll v ((l ++ (x, b) :: l') :: rest))
| U_li_free p l rest : takes fst p l (v_ll v) rest -> user v (LiFree p) (fun _ => settle (with_ll v rest))
| U_sr_alloc : user v SrAlloc (fun new => with_srs v (new ++ v_sr v))
| U_sr_copy p : (forall s, p = Some s -> In s (stride_refs v)) -> user v (SrCopy p) (fun _ => with_srs v (opt p ++ v_sr v))
| U_sr_free p rest : takes_ref p (v_sr v) rest -> user v (SrFree p) (fun _ => with_srs v rest)
| U_lo_alloc b s inner next f_in f_next br mid lo : takes_ref b (v_br v) br -> (forall y, s = Some y -> In y (stride_refs v)) ->
    takes root inner f_in (v_lo v) mid -> takes root next f_next mid lo ->
    user v (LoAlloc b s inner next) (fun new => with_lo (with_br v br) (map (fun x => T x b s f_in :: f_next) new ++ lo))
| U_lo_free p f rest : takes root p f (v_lo v) rest -> user v (LoFree p) (fun _ => settle (with_lo v rest))
| U_lo_free_parts p f rest block inner next : takes root p f (v_lo v) rest ->
    user v (LoFreeParts p block inner next) (fun _ =>
      let freed := if next then f else firstn 1 f in
      let kept := if next then [] else nonempty (tl f) in
      let r := map (freed_parts block inner) freed in
      settle (with_lo (with_br v (flat_map fst r ++ v_br v)) (flat_map snd r ++ kept ++ rest))).

(** Histories: the memories so far (the last one first) and what the user owns now. *)
Inductive history : list heap -> heap -> view -> Prop :=
| H_start : history [start] start v0
| H_call past h v o after h' new : history past h v -> user v o after -> exec h o = Some (h', new) -> history (h' :: past) h' (after new).

(** allocated structures *)
Definition st_live (h : heap) (x : nat) : Prop := exists c, get (m_st (h_mem h)) x = Some c.
Definition bl_live (h : heap) (x : nat) : Prop := exists c, get (m_bl (h_mem h)) x = Some c.
Definition li_live (h : heap) (x : nat) : Prop := exists c, get (h_li h) x = Some c.
Definition sr_live (h : heap) (x : nat) : Prop := exists c, get (h_sr h) x = Some c.
Definition lo_live (h : heap) (x : nat) : Prop := exists c, get (h_lo h) x = Some c.
(** [n] is the number of addresses with [P] *)
Definition number_of (P : nat -> Prop) (n : nat) : Prop := exists l, NoDup l /\ (forall x, P x <-> In x l) /\ length l = n.
(** the chain of statements that starts at a pointer *)
Inductive chain (h : heap) : ptr -> list (nat * Z) -> Prop :=
| Ch_nil : chain h None []
| Ch_cons x c l : get (m_st (h_mem h)) x = Some c -> chain h (st_next c) l -> chain h (Some x) ((x, st_num c) :: l).
