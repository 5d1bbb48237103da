(** Property theorems: the code tree can be created (C51). *)
From Coq Require Import ZArith List Bool Arith String Permutation Lia.
From Verif Require Import LoopModel LoopSpec LoopCount ClastModel ClastSpec ClastReturns ClastReady ClastExamples PropertiesClast.
Import ListNotations.
Local Open Scope Z_scope.

(** The assertions of clast.c and constraints.c hold for all loop structures that can be written with linear bounds
    ([ready0], as in C16), as long as the constraints of a loop hide no equality and existential dimensions occur
    in simple constraints ([clear]). *)
Theorem C51_creation_returns_partial :
  forall (iter_name par_name : nat -> string) (sort_exprs : list expr -> list expr) (sort_eqns : list eqn -> list eqn)
         (reduce : list (option (eqtype * row)) -> list row -> nat -> list row)
         (P : Poly) (Se : Sem P) (rows_of : dom P -> list row) (pv : list Z) (o : copts) (ns : nat),
  (forall l, Permutation l (sort_exprs l)) ->
  (forall i j, iter_name (S i) = iter_name (S j) -> i = j) ->
  (forall i j, (j < List.length pv)%nat -> iter_name (S i) <> par_name j) ->
  (forall i j, (i < List.length pv)%nat -> (j < List.length pv)%nat -> par_name i = par_name j -> i = j) ->
  reduce_keeps reduce ->
  forall (ls : list (loop P)),
  Forall (ready0 P Se rows_of pv o) ls -> Forall (clear P rows_of (List.length pv) 0) ls ->
  exists ss, clast_create iter_name par_name sort_exprs sort_eqns reduce P rows_of o ns (List.length pv) ls = Some ss.
Proof. intros. eapply create_returns; eassumption. Qed.
Print Assumptions C51_creation_returns_partial.

(** two values, or none, are left for some values of the others *)
Lemma not_forced_two n np st r s x p v w : List.length x = n -> List.length p = np -> v <> w ->
  row_holds (x ++ v :: p) r -> row_holds (x ++ v :: p) s -> row_holds (x ++ w :: p) r -> row_holds (x ++ w :: p) s ->
  match st with None => True | Some (m, off) => (v - off) mod m = 0 /\ (w - off) mod m = 0 end -> ~ forced n np st r s.
Proof.
  intros Hx Hp Hn A1 A2 B1 B2 C H. destruct (H x p Hx Hp) as (z & Hz). apply Hn. rewrite (proj1 (Hz v)), (proj1 (Hz w)); [reflexivity| |]; (split; [assumption|split; [assumption|]]); destruct st as [[m off]|]; try exact Logic.I; apply C.
Qed.
Definition simple_rowsb (n nd level : nat) (rows : list row) : bool :=
  forallb (fun r => forallb (fun j => negb (involves r j) ||
    forallb (fun j' => negb (involves r j') || (j' =? j)%nat) (seq n nd) &&
    ((level =? 0)%nat || (n <? level)%nat || negb (involves r (level - 1))) &&
    (r_eq r && forallb (fun t => negb (involves t j) || row_eqb t r) rows ||
     negb (r_eq r) && existsb (fun s => negb (r_eq s) && opposite r s && (1 <? Z.abs (coef r j)) && (Z.abs (r_k r + r_k s) <? Z.abs (coef r j)) &&
                                        forallb (fun t => negb (involves t j) || row_eqb t r || row_eqb t s) rows) rows)) (seq n nd)) rows.
Lemma simple_rowsb_ok n nd level rows : simple_rowsb n nd level rows = true -> simple_rows n nd level rows.
Proof.
  unfold simple_rowsb. rewrite forallb_forall. intros H r j Hr Hj Ij. specialize (H r Hr). rewrite forallb_forall in H. specialize (H j ltac:(apply in_seq; lia)). rewrite Ij in H. cbn [negb orb] in H.
  apply andb_true_iff in H. destruct H as (H & H3). apply andb_true_iff in H. destruct H as (H1 & H2). rewrite forallb_forall in H1. split; [|split].
  - intros j' Hj' Ij'. specialize (H1 j' ltac:(apply in_seq; lia)). rewrite Ij' in H1. cbn [negb orb] in H1. apply Nat.eqb_eq. exact H1.
  - intros Hl. destruct (Nat.eqb_spec level 0); [lia|]. destruct (Nat.ltb_spec n level); [lia|]. cbn [orb] in H2. apply negb_true_iff. exact H2.
  - apply orb_true_iff in H3. destruct H3 as [H3|H3]; apply andb_true_iff in H3; destruct H3 as (Q & H3).
    + left. split; [exact Q|]. intros t Ht It. rewrite forallb_forall in H3. specialize (H3 t Ht). rewrite It in H3. apply ClastHeader.row_eqb_eq. exact H3.
    + right. apply negb_true_iff in Q. split; [exact Q|]. apply existsb_exists in H3. destruct H3 as (s & Hs & H3). rewrite !andb_true_iff in H3. destruct H3 as ((((A & B) & C) & D) & E). exists s. split; [exact Hs|].
      split; [apply negb_true_iff; exact A|]. split; [exact B|]. split; [apply Z.ltb_lt; exact C|]. split; [apply Z.ltb_lt; exact D|]. intros t Ht It. rewrite forallb_forall in E. specialize (E t Ht). rewrite It in E. cbn [negb orb] in E.
      apply orb_true_iff in E. destruct E as [E|E]; apply ClastHeader.row_eqb_eq in E; auto.
Qed.
Example C51_example :
  Forall (ready0 RowPoly (DivSem [20]) rrows [20] co1) loops49 /\ Forall (clear RowPoly rrows 1 0) loops49 /\ reduce_keeps keep_rows /\
  exists ss, clast_create iname pname (fun l => l) (fun l => l) keep_rows RowPoly rrows co1 0 1 loops49 = Some ss.
Proof.
  split; [apply C49_example|]. split; [|split; [intros eqs rows n H; right; exact H|eexists; reflexivity]].
  unfold loops49, rloop, rstmt.
  repeat match goal with
    | |- clear _ _ _ _ _ => constructor; [apply simple_rowsb_ok; reflexivity| |cbn [l_inner]]
    | |- Forall _ [] => constructor
    | |- Forall (clear _ _ _ _) (_ :: _) => constructor
    end.
  all: cbn [l_dom l_blk]; try (intros Hb; discriminate Hb); try (intros _ Hb; elim Hb; reflexivity).
  all: intros _ _ r s Hr Hs _ _; vm_compute in Hr, Hs; destruct Hr as [<- | [<- | []]], Hs as [<- | [<- | []]]; intros Hr Hs; try discriminate Hr; try discriminate Hs.
  all: eapply not_forced_two with (x := []) (p := [20]) (v := 0) (w := 2); try reflexivity; try discriminate; try exact Logic.I; try (vm_compute; discriminate). all: split; reflexivity.
Qed.

(** for (i = 1; i <= 2; i += 2) over the even numbers: the aligned lower bound is the upper bound, and the code for
    that case asks for an equality that is not there. *)
Definition loops51 : list (loop RowPoly) := [rloop 0 [] None [rloop 1 [ge [1] (-1); ge [-1] 2] (Some (2, 0)) [rstmt 1 [] 1]]].
Theorem C51_aligned_bound_refuted :
  Forall (ready0 RowPoly (DivSem []) rrows [] co1) loops51 /\ Forall (otl_right RowPoly (DivSem []) []) loops51 /\
  clast_create iname pname (fun l => l) (fun l => l) keep_rows RowPoly rrows co1 0 0 loops51 = None.
Proof.
  split; [|split; [|vm_compute; reflexivity]].
  - constructor; [|constructor]. apply ready0b_ok with (wit := fun _ => ([], [], [])); [|vm_compute; reflexivity]. unfold loops51, rloop, rstmt.
    repeat match goal with |- each_loop _ _ => constructor; cbn [l_dom l_inner] | |- Forall _ [] => constructor | |- Forall (each_loop _) (_ :: _) => constructor end.
    all: describe49.
  - constructor; [|constructor]. apply otl_none. apply eachb_ok with (q := fun l => negb (l_otl RowPoly l)); [|reflexivity]. intros l H. apply negb_true_iff. exact H.
Qed.
Print Assumptions C51_aligned_bound_refuted.
