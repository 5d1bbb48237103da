(** Concrete inputs used to show that the hypotheses of the theorems are met. *)
From Coq Require Import ZArith List Bool Arith.
From Verif Require Import LoopModel LoopSpec LoopBox LoopCube.
Import ListNotations.

(** Loop lists without the library as a parameter (to evaluate examples). *)
Inductive tree (D C : Type) := T (d : D) (ot : bool) (s : option (Z * Z * option C)) (b : option block) (i : list (tree D C)).
Arguments T {D C}.
Fixpoint strip P (l : loop P) : tree (dom P) (sconstr P) :=
  match l with Loop _ d ot s b i => T d ot s b (map (strip P) i) end.
Fixpoint unstrip P (t : tree (dom P) (sconstr P)) : loop P :=
  match t with T d ot s b i => @Loop P d ot s b (map (unstrip P) i) end.
Fixpoint unstrip_strip P (l : loop P) {struct l} : unstrip P (strip P l) = l.
Proof.
  destruct l as [d ot s b i]. cbn. f_equal. induction i as [|a i IH]; [reflexivity|]. cbn. rewrite unstrip_strip, IH. reflexivity.
Defined.
Lemma strip_eq P r t : option_map (map (strip P)) r = Some t -> r = Some (map (unstrip P) t).
Proof.
  destruct r as [r|]; [|discriminate]. cbn. intros H. injection H as <-. f_equal. rewrite map_map. rewrite <- (map_id r) at 1.
  apply map_ext. intros l. symmetry. apply unstrip_strip.
Qed.
Ltac run_result :=
  match goal with
  | |- exists _ : list (loop ?P), ?G = Some _ /\ _ =>
    let t := eval vm_compute in (option_map (map (strip P)) G) in
    match t with
    | Some ?u => exists (map (unstrip P) u); split;
        [apply strip_eq; vm_cast_no_check (@eq_refl (option (list (tree (dom P) (sconstr P)))) (Some u))|]
    end
  end.

(** default options (options.c:328-374) *)
Definition opts : options :=
  {| o_l := -1; o_f := 1; o_stop := -1; o_strides := false; o_sh := false; o_otl := true; o_backtrack := false;
     o_first_unroll := -1; o_fs := None; o_ls := None; o_nosimplify := false; o_override := false |}.
Definition opts_f (f l : Z) : options :=
  {| o_l := l; o_f := f; o_stop := -1; o_strides := false; o_sh := false; o_otl := true; o_backtrack := false;
     o_first_unroll := -1; o_fs := None; o_ls := None; o_nosimplify := false; o_override := true |}.

(** unions of boxes: [B n l] has the given intervals in each dimension *)
Definition B (n : nat) (l : list (list (Z * Z))) : dom BoxPoly :=
  {| bd := n; bs := map (map (fun p => (Some (fst p), Some (snd p)))) l |}.
Definition blk (p : nat) (sc : list Z) : block := {| b_pos := p; b_stmts := [S p]; b_scal := sc |}.
Definition st (d : dom BoxPoly) (p : nat) (sc : list Z) : loop BoxPoly := @Loop BoxPoly d false None (Some (blk p sc)) [].
Definition ctx0 : dom BoxPoly := B 0 [[]].

(** two statements S1 = {0..3}, S2 = {2..5}, scattering (0,i,0) and (0,i,1) *)
Definition kinds1 := [true; false; true].
Definition input1 : list (loop BoxPoly) := [st (B 1 [[(0, 3)]%Z]) 0 [0; 0]%Z; st (B 1 [[(2, 5)]%Z]) 1 [0; 1]%Z].
(** a two-dimensional example with a union of boxes *)
Definition kinds2 := [false; false].
Definition input2 : list (loop BoxPoly) :=
  [st (B 2 [[(0, 2); (0, 2)]; [(1, 4); (1, 1)]]%Z) 0 []; st (B 2 [[(1, 3); (0, 4)]]%Z) 1 []; st (B 3 [[(0, 9); (0, 9); (0, 1)]]%Z) 2 []].
(** a statement without iterators between deeper ones *)
Definition kinds3 := [true].
Definition input3 : list (loop BoxPoly) := [st (B 0 [[]]) 0 [0%Z]; st (B 1 [[(2, 5)]%Z]) 1 [0%Z]; st (B 0 [[]]) 2 [1%Z]].

(** two crossing diagonals, as sets that the library takes for convex *)
Definition kinds4 := [false; false].
Definition diag c (l : list (list Z)) (p : nat) : loop (CubePoly c) := @Loop (CubePoly c) {| cd := 2; cp := l |} false None (Some (blk p [])) [].
Definition ctx4 c : dom (CubePoly c) := {| cd := 0; cp := [[]] |}.
Definition input4 c : list (loop (CubePoly c)) := [diag c [[0; 0]; [1; 1]]%Z 0; diag c [[0; 1]; [1; 0]]%Z 1].
