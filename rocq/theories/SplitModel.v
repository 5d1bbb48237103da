(** Model of the splitting that gives merged loops their bounds: /repo/source/isl/domain.c:1147-1220
    (constraint_bound_split, basic_set_bound_split, cloog_domain_bound_splitter).

    Sets and constraints are those of UnrollModel.v. *)
From Coq Require Import ZArith List Bool.
From Verif Require Import StrideModel UnrollModel.
Import ListNotations.
Local Open Scope Z_scope.

(** isl_set_split_dims(set, isl_dim_param, i, 1): every basic set is cut in the part where the
    parameter is not negative and the part where it is *)
Definition sign_of_param (np i : nat) (nonneg : bool) : con :=
  {| c_eq := false; c_iter := []; c_par := one_at (if nonneg then 1 else -1) i np; c_div := []; c_const := if nonneg then 0 else -1 |}.
Definition with_con (c : con) (b : bset) : bset := {| n_div := n_div b; cons_of := cons_of b ++ [c] |}.
Definition split_param (np : nat) (set : list bset) (i : nat) : list bset :=
  flat_map (fun b => [with_con (sign_of_param np i true) b; with_con (sign_of_param np i false) b]) set.

(** :1147-1152 struct cloog_bound_split (level is an argument below) *)
Record cbs := { s_set : list bset; s_lower : bool; s_upper : bool }.

(** :1163-1171: the loop over the parameters of the constraint *)
Definition split_constraint (np : nat) (c : con) (set : list bset) : list bset :=
  fold_left (fun s i => if nth i (c_par c) 0 =? 0 then s else split_param np s i) (seq 0 np) set.

(** :1154-1176 constraint_bound_split; the flag: -1 is returned *)
Definition constraint_bound_split (np level : nat) (u : cbs) (c : con) : cbs * bool :=
  let v := nth (level - 1) (c_iter c) 0 in
  let u' :=
    if negb (s_lower u) && (0 <? v) then {| s_set := split_constraint np c (s_set u); s_lower := true; s_upper := s_upper u |}
    else if negb (s_upper u) && (v <? 0) then {| s_set := split_constraint np c (s_set u); s_lower := s_lower u; s_upper := true |}
    else u in
  (u', s_lower u' && s_upper u').

(** isl_basic_set_foreach_constraint and isl_set_foreach_basic_set stop when the function returns a
    negative value, and return it *)
Fixpoint foreach_stop {A} (f : cbs -> A -> cbs * bool) (l : list A) (u : cbs) : cbs * bool :=
  match l with
  | [] => (u, false)
  | a :: t => let (u', r) := f u a in if r then (u', true) else foreach_stop f t u'
  end.

(** :1178-1188 basic_set_bound_split *)
Definition basic_set_bound_split (np level : nat) (u : cbs) (b : bset) : cbs * bool :=
  let (u', r) := foreach_stop (constraint_bound_split np level) (cons_of b) {| s_set := s_set u; s_lower := false; s_upper := false |} in
  (u', (negb (s_lower u') || negb (s_upper u')) && r).

(** :1208-1220 cloog_domain_bound_splitter; [None]: the assertion fails *)
Definition domain_bound_splitter (np : nat) (set : list bset) (level : nat) : option (list bset) :=
  let (u, r) := foreach_stop (basic_set_bound_split np level) set
                  {| s_set := [{| n_div := 0; cons_of := [] |}]; s_lower := false; s_upper := false |} in
  if r then None else Some (s_set u).
