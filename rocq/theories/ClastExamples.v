(** Concrete inputs used to show that the hypotheses of the theorems about clast.c are met. *)
From Coq Require Import ZArith List Bool Arith Ascii String Permutation Lia Sorted.
From Verif Require Import LoopModel LoopSpec LoopBox LoopExamples ClastModel ClastSpec.
Import ListNotations.
Local Open Scope Z_scope.

(** ** a library whose sets are given by constraints (one parameter, of value [N]); it is only
    used for loop structures that are written down, so the operations do nothing *)
Record rdom := { rd : nat; rrows : list row }.
Definition rempty : rdom := {| rd := 0; rrows := [] |}.
Definition RowPoly : Poly := {|
  dom := rdom; sconstr := unit; lbc := unit;
  dim := rd; isempty := fun _ => false; isconvex := fun _ => true; single := fun _ => true;
  simplify_union := fun d => d; cut_first := fun _ => None; difference := fun a _ => a; union := fun a _ => a;
  intersection := fun a _ => a; empty_like := fun d => d; extend := fun d _ => d; project := fun d _ => d;
  lazy_equal := fun _ _ => false; lazy_disjoint := fun _ _ => false; convex := fun d => d; simple_convex := fun d => d;
  is_bounded := fun _ _ => false; bound_splitter := fun d _ => d; compare_at := fun _ _ _ => 0; follows_at := fun _ _ _ => 1;
  lazy_isconstant := fun _ _ => None; can_stride := fun _ _ => false; list_stride := fun _ _ => None;
  domain_stride := fun _ _ => (1, 0); stride_lower_bound := fun d _ _ => d; add_stride_constraint := fun d _ => d;
  is_otl := fun _ _ => false; can_unroll := fun _ _ => None; fixed_offset := fun d _ _ _ => d; gist := fun d _ => d;
  never_integral := fun _ => false
|}.
Definition RowSem (pv : list Z) : Sem RowPoly := {|
  mem := (fun d x => (List.length x =? rd d)%nat && forallb (row_holdsb (x ++ pv)) (rrows d)) : dom RowPoly -> _;
  sok := fun _ _ => true; lbv := fun _ _ => 0; pdisj := fun _ => True; polyh := fun _ => True
|}.
Lemma row_holdsb_ok w r : row_holdsb w r = true <-> row_holds w r.
Proof. unfold row_holdsb, row_holds. destruct (r_eq r); [apply Z.eqb_eq|apply Z.leb_le]. Qed.
Lemma rows_exact_rows pv (d : rdom) : Forall (fun r => List.length (r_co r) = rd d + List.length pv)%nat (rrows d) -> rows_exact RowPoly (RowSem pv) rrows pv d.
Proof.
  intros H. split; [exact H|]. intros x Hx. cbn [mem RowSem dim RowPoly] in *. rewrite (proj2 (Nat.eqb_eq _ _) Hx). cbn [andb].
  rewrite forallb_forall, Forall_forall. split; intros G r Hr; apply row_holdsb_ok; apply G; exact Hr.
Qed.
Definition ge (co : list Z) (k : Z) : row := {| r_eq := false; r_co := co; r_k := k |}.
Definition eq0 (co : list Z) (k : Z) : row := {| r_eq := true; r_co := co; r_k := k |}.
Definition rstmt (n : nat) (rows : list row) (num : nat) : loop RowPoly :=
  @Loop RowPoly {| rd := n; rrows := rows |} false None (Some {| b_pos := num; b_stmts := [num]; b_scal := [] |}) [].
Definition rloop (n : nat) (rows : list row) (st : option (Z * Z)) (inner : list (loop RowPoly)) : loop RowPoly :=
  @Loop RowPoly {| rd := n; rrows := rows |} false (match st with Some (s, o) => Some (s, o, None) | None => None end) None inner.

(** names i_, i__, ... and p, p_, ... *)
Fixpoint ticks (n : nat) : string := match n with O => EmptyString | S m => String (Ascii.ascii_of_nat 95) (ticks m) end.
Definition iname (n : nat) : string := String (Ascii.ascii_of_nat 105) (ticks n).
Definition pname (n : nat) : string := String (Ascii.ascii_of_nat 112) (ticks n).
Lemma ticks_inj i j : ticks i = ticks j -> i = j.
Proof. revert j. induction i as [|i IH]; intros [|j] H; cbn in H; try discriminate; [reflexivity|]. injection H as H. f_equal. apply IH. exact H. Qed.
Lemma iname_inj i j : iname (S i) = iname (S j) -> i = j.
Proof. unfold iname. intros H. injection H as H. apply ticks_inj in H. lia. Qed.
Lemma iname_pname i j : iname (S i) <> pname j.
Proof. discriminate. Qed.
Definition params (pv : list Z) : env := fun s =>
  match find (fun i => String.eqb (pname i) s) (seq 0 (List.length pv)) with Some i => Some (nth i pv 0) | None => None end.
Lemma params_ok pv i : (i < List.length pv)%nat -> params pv (pname i) = Some (nth i pv 0).
Proof.
  intros H. unfold params. destruct (find _ _) as [j|] eqn:E.
  - apply find_some in E. destruct E as (_ & E). apply String.eqb_eq in E. unfold pname in E. injection E as E. apply ticks_inj in E. subst. reflexivity.
  - pose proof (find_none _ _ E i ltac:(apply in_seq; lia)) as F. cbv beta in F. rewrite String.eqb_refl in F. discriminate.
Qed.
(** the reduction that keeps its argument *)
Definition keep_rows (_ : list (option (eqtype * row))) (rows : list row) (_ : nat) : list row := rows.
Lemma keep_rows_right pv : reduce_right pv keep_rows.
Proof. intros eqs rows x n rows' H1 H2 H3. unfold rows', keep_rows. split; [reflexivity|]. split; [exact H2|]. split; [auto|]. right. auto. Qed.

(** if (N >= 2) for (i = 2; i <= N; i += 2) { S1(i); if (i >= 5) for (j = i; j <= 2N+1; j++) S2(i, j) };
    then k with 2k = N: S3(k) *)
Definition loops7 : list (loop RowPoly) :=
  [rloop 0 [ge [1] (-2)] None
     [rloop 1 [ge [1; 0] (-1); ge [-1; 1] 0] (Some (2, 0))
        [rstmt 1 [] 1;
         rloop 2 [ge [1; 0; 0] (-5); ge [-1; 1; 0] 0; ge [0; -1; 2] 1] None [rstmt 2 [] 2]];
      rloop 1 [eq0 [-2; 1] 0] None [rstmt 1 [] 3]]].
Definition co1 : copts := {| co_otl := true; co_fsp := 1; co_esp := true; co_block := false; co_callable := false |}.

(** Sets whose constraints have existential dimensions, the columns after the iterators.  Each of
    them is determined by an equality, or by a lower and an upper bound, from the other columns:
    [solve] computes it. *)
Definition solve1 (n nd : nat) (rows : list row) (y pv : list Z) (k : nat) : Z :=
  let w := y ++ repeat 0 nd ++ pv in
  match find (fun r => r_eq r && involves r (n + k)) rows with
  | Some r => - row_val r w / coef r (n + k)
  | None => match find (fun r => coef r (n + k) <? 0) rows with
            | Some r => row_val r w / - coef r (n + k)
            | None => 0
            end
  end.
Definition solve (n nd : nat) (rows : list row) (y pv : list Z) : list Z := map (solve1 n nd rows y pv) (seq 0 nd).
Definition DivSem (pv : list Z) : Sem RowPoly := {|
  mem := (fun d x => (List.length x =? rd d)%nat && forallb (row_holdsb (x ++ solve (rd d) (n_divs (rd d) (List.length pv) (rrows d)) (rrows d) x pv ++ pv)) (rrows d)) : dom RowPoly -> _;
  sok := fun _ _ => true; lbv := fun _ _ => 0; pdisj := fun _ => True; polyh := fun _ => True
|}.
(** N even: for (i = 0; i <= N; i++) { i = 1 mod 3: S1(i); i mod 4 <= 1 and 3 | N + i: S2(i) };
    for (i = 0; i <= N; i += 2) { i = 0 mod 4: S3(i) } *)
Definition loops49 : list (loop RowPoly) :=
  [rloop 0 [eq0 [-2; 1] 0] None
     [rloop 1 [ge [1; 0] 0; ge [-1; 1] 0] None
        [rstmt 1 [eq0 [1; -3; 0] (-1)] 1;
         rstmt 1 [ge [1; -4; 0; 0] 0; ge [-1; 4; 0; 0] 1; eq0 [1; 0; 3; 1] 0] 2];
      rloop 1 [ge [1; 0] 0; ge [-1; 1] 0] (Some (2, 0)) [rstmt 1 [eq0 [1; -4; 0] 0] 3]]].
(** inside a loop over the even numbers, a statement for the odd ones *)
Definition loops49o : list (loop RowPoly) :=
  [rloop 0 [] None [rloop 1 [ge [1] 0; ge [-1] 5] (Some (2, 0)) [rstmt 1 [eq0 [1; -2] (-1)] 1]]].
