(** source/isl/domain.c:1583-1732: union domains made from isl sets and union maps.  isl's objects
    are what the code asks of them: names and numbers of dimensions; [D] stands for the domain and
    the scattering made from them, as in NamesModel.v. *)
From Coq Require Import ZArith List Bool Arith String.
From Verif Require Import NamesModel.
Import ListNotations.

(** isl_set_get_space: the name of the tuple, the parameters (isl has names for all of them), the
    dimensions, of which some have no name *)
Record isl_space := { sp_tuple : option string; sp_params : list string; sp_dims : list (option string) }.

(** count_same_name, isl/domain.c:1641-1658, for the dimension [pos] of a set: the parameters and the
    dimensions before it; strncmp with the length of [name] *)
Definition count_same_name (sp : isl_space) (pos : nat) (name : string) : nat :=
  List.length (filter (fun n => match n with Some n => String.prefix name n | None => false end)
                      (map Some (sp_params sp) ++ firstn pos (sp_dims sp))).
(** the loop of add_domain, isl/domain.c:1678-1698: the name of dimension [i].  The buffers have room for
    "i%d" and for a suffix of 8 digits: fewer than 10^8 names. *)
Definition iterator_name (sp : isl_space) (i : nat) : string :=
  let name := match nth i (sp_dims sp) None with Some s => s | None => append "i" (dec i) end in
  let n := count_same_name sp i name in
  if n =? 0 then name else append name (append "_" (dec n)).

Section Isl.
Context {D : Type}.
(** the loops over the names (isl/domain.c:1678-1698, 1723-1726 and 1616-1619) *)
Fixpoint set_all (ud : udom D) (type : Z) (i : nat) (l : list string) : option (udom D) :=
  match l with
  | [] => Some ud
  | s :: l' => match ud_set_name ud type (Z.of_nat i) s with Some ud' => set_all ud' type (S i) l' | None => None end
  end.
(** add_domain, isl/domain.c:1660-1702 *)
Definition add_domain (ud : udom D) (sp : isl_space) (d : D) : option (udom D) :=
  match ud_add ud {| d_name := sp_tuple sp; d_dom := d; d_dim := List.length (sp_dims sp); d_scat := None; d_usr := 0 |} with
  | Some ud' => set_all ud' CLOOG_ITER 0 (map (iterator_name sp) (seq 0 (List.length (sp_dims sp))))
  | None => None
  end.
(** cloog_union_domain_from_isl_set, isl/domain.c:1710-1732 *)
Definition from_isl_set (sp : isl_space) (d : D) : option (udom D) :=
  match set_all (ud_alloc (List.length (sp_params sp))) CLOOG_PARAM 0 (sp_params sp) with
  | Some ud => add_domain ud sp d
  | None => None
  end.

(** a map of a union map: the name of its domain, the dimensions of its domain and of its range *)
Record isl_map := { m_tuple : option string; m_in : nat; m_out : nat; m_dom : D }.
(** add_domain_from_map, isl/domain.c:1583-1600, for the maps in the order isl_union_map_foreach_map
    gives them *)
Definition named_map (m : isl_map) : named D :=
  {| d_name := m_tuple m; d_dom := m_dom m; d_dim := m_in m; d_scat := Some (m_out m); d_usr := 0 |}.
Fixpoint add_maps (ud : udom D) (ms : list isl_map) : option (udom D) :=
  match ms with
  | [] => Some ud
  | m :: ms' => match ud_add ud (named_map m) with Some ud' => add_maps ud' ms' | None => None end
  end.
(** cloog_union_domain_from_isl_union_map, isl/domain.c:1612-1639 *)
Definition from_isl_union_map (params : list string) (ms : list isl_map) : option (udom D) :=
  match set_all (ud_alloc (List.length params)) CLOOG_PARAM 0 params with
  | Some ud => add_maps ud ms
  | None => None
  end.
End Isl.
Arguments isl_map : clear implicits.
