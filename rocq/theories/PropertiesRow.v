(** C38: rows of the array based back end.  C39: pairs of inequalities that fix an iterator.
    Meaning of rows: RowSpec.v; the functions themselves: RowModel.v. *)
From Coq Require Import ZArith List Bool Arith Lia.
From Verif Require Import IntModel RowModel RowSpec RowProofs RowDefine RowReduce.
From Verif Require LoopModel ClastModel ClastSpec ClastBounds.
Import ListNotations.
Local Open Scope Z_scope.

Ltac rows_of_len H := cbn in H; repeat (destruct H as [<-|H]; [reflexivity|]); destruct H.

(** Normalising for a level keeps exactly the same points. *)
Theorem C38_normalize : forall np columns level rows it par, (np + 2 <= columns)%nat -> (1 <= level < columns)%nat -> (forall r, In r rows -> length r = columns) ->
  (all_hold np (set_normalize columns level rows) it par <-> all_hold np rows it par).
Proof. exact normalize_hold. Qed.
Print Assumptions C38_normalize.
(** After it, the element of the level is in no row after the first equality that has it. *)
Theorem C38_normalize_removes : forall columns level pre ref post, (1 <= level < columns - 1)%nat -> (forall r, In r (pre ++ ref :: post) -> length r = columns) ->
  (forall r, In r pre -> ~ (nth 0 r 0 = 0 /\ nth level r 0 <> 0)) -> nth 0 ref 0 = 0 -> nth level ref 0 <> 0 ->
  exists post', set_normalize columns level (pre ++ ref :: post) = pre ++ ref :: post' /\ length post' = length post /\ forall r, In r post' -> nth level r 0 = 0.
Proof.
  intros columns level pre ref post Hl Hlen Hpre H0 Hr. exists (map (eliminate level ref) post). split; [|split; [apply map_length|]].
  - unfold set_normalize. destruct (Nat.eqb_spec level (columns - 1)); [lia|]. clear Hlen. induction pre as [|p pre IH]; cbn.
    + assert (E : defines level ref = true) by (apply defines_spec; auto). rewrite E. reflexivity.
    + assert (E : defines level p = false). { destruct (defines level p) eqn:E; [|reflexivity]. apply defines_spec in E. exfalso. apply (Hpre p); [left; reflexivity|exact E]. }
      rewrite E, IH; [reflexivity|]. intros r Hin. apply Hpre. right. exact Hin.
  - intros r Hin. apply in_map_iff in Hin as (x & <- & Hx). assert (Lx : length x = columns) by (apply Hlen, in_or_app; right; right; exact Hx).
    assert (Lr : length ref = columns) by (apply Hlen, in_or_app; right; left; reflexivity). apply eliminate_zero; auto; lia.
Qed.
Print Assumptions C38_normalize_removes.
(** 2i - n = 0, i - j >= 0, i + j + 3 >= 0 (columns: type, i, j, n, constant), level 1 *)
Definition rows1 : list mrow := [[0; 2; 0; -1; 0]; [1; 1; -1; 0; 0]; [1; 1; 1; 0; 3]].
Example C38_normalize_example : (forall r, In r rows1 -> length r = 5%nat) /\ set_normalize 5 1 rows1 = [[0; 2; 0; -1; 0]; [1; 0; -2; 1; 0]; [1; 0; 2; 1; 6]] /\
  all_hold 1 rows1 (fun j => nth j [3; -2] 0) (fun _ => 6).
Proof.
  split; [intros r H; rows_of_len H|]. split; [reflexivity|]. intros r H. cbn in H. repeat (destruct H as [<-|H]; [vm_compute; congruence || reflexivity|]). destruct H.
Qed.

(** Equalities recorded on the way down a nest of loops: at every moment the rows kept are equivalent to
    the lines recorded and not yet removed, each is about its own level and outer ones only, and none is
    about another recorded level. *)
Theorem C38_equalities : forall n nb_levels np e st, recorded n nb_levels np e st ->
  (forall it par, equal_hold np e it par <-> forall level line, In (level, line) st -> value np line it par = 0) /\
  (forall i, nth i (eq_types e) 0%nat <> 0%nat <-> exists line, In (i + 1, line)%nat st) /\
  (forall i, nth i (eq_types e) 0%nat <> 0%nat -> length (nth i (eq_rows e) []) = (nb_levels + np + 1)%nat /\ about np (nth i (eq_rows e) []) (i + 1) /\
     forall j, (j < i)%nat -> nth j (eq_types e) 0%nat <> 0%nat -> nth (j + 1) (nth i (eq_rows e) []) 0 = 0) /\
  (forall level line, In (level, line) st -> nth (level - 1) (eq_types e) 0%nat = equal_type line level).
Proof.
  intros n nb_levels np e st H. apply recorded_inv in H as I. split; [|split; [apply (i_types _ _ _ _ _ I)|split; [|apply (i_kind _ _ _ _ _ I)]]].
  - intros it par. pose proof (i_value _ _ _ _ _ I n it par) as V. split; intros Hh.
    + intros l r Hlr. apply (proj2 V (fun i _ Ht => Hh i Ht) l r Hlr). apply (i_levels _ _ _ _ _ I) in Hlr. lia.
    + intros i Ht. apply (proj1 V (fun l r Hlr _ => Hh l r Hlr) i); [|exact Ht]. apply (i_types _ _ _ _ _ I) in Ht as (r & Hr). apply (i_levels _ _ _ _ _ I) in Hr. lia.
  - intros i Ht. split; [|split; [apply (i_about _ _ _ _ _ I); exact Ht|intros j Hj Htj; apply (i_simple _ _ _ _ _ I); auto]].
    apply (i_rows _ _ _ _ _ I). apply (i_types _ _ _ _ _ I) in Ht as (r & Hr). apply (i_levels _ _ _ _ _ I) in Hr. lia.
Qed.
Print Assumptions C38_equalities.
(** i = n + 1; then 2j = i; then k = j recorded and removed, then k = 3i + 1.  One parameter n. *)
Definition e0 := equal_alloc 3 4 1.
Definition line_i : mrow := [0; 1; 0; 0; -1; -1].
Definition line_j : mrow := [0; -1; 2; 0; 0; 0].
Definition line_k : mrow := [0; 0; 1; -1; 0; 0].
Definition line_k2 : mrow := [0; 3; 0; -1; 0; 1].
Definition add_ (e : equalities) (level : nat) (l : mrow) : equalities := match equal_add e [] level (Some l) 1 with Some (e', _) => e' | None => e end.
Definition e4 := add_ (equal_del (add_ (add_ (add_ e0 1 line_i) 2 line_j) 3 line_k) 3) 3 line_k2.
Example C38_equalities_example : recorded 3 4 1 e4 [(3%nat, line_k2); (2%nat, line_j); (1%nat, line_i)] /\
  eq_rows e4 = [[0; 1; 0; 0; -1; -1]; [0; 0; 2; 0; -1; -1]; [0; 0; 0; -1; 3; 4]] /\ eq_types e4 = [3; 3; 3]%nat.
Proof.
  split; [|split; reflexivity]. unfold e4.
  assert (A : forall e st level line, recorded 3 4 1 e st -> (forall l r, In (l, r) st -> (l < level)%nat) -> (level <= 3)%nat -> (3 <= length line <= 6)%nat -> about 1 line level -> recorded 3 4 1 (add_ e level line) ((level, line) :: st)).
  { intros e st level line H1 H2 H3 H4 H5. unfold add_. cbn [equal_add]. eapply (R_add 3 4 1 e st [] level line _ _ H1 H2 H3 H4 H5). reflexivity. }
  assert (B : forall line i, (1 <= i <= length line - 3)%nat -> nth i line 0 <> 0 -> forallb (fun k => nth k line 0 =? 0) (seq (i + 1) (length line - 3 - i)) = true -> about 1 line i).
  { intros line i H1 H2 H3. split; [lia|]. split; [exact H2|]. intros k Hk. rewrite forallb_forall in H3. apply Z.eqb_eq, H3, in_seq. lia. }
  assert (D : forall e level line st, recorded 3 4 1 e ((level, line) :: st) -> recorded 3 4 1 (equal_del e level) st) by (intros; eapply R_del; eauto).
  assert (K1 : recorded 3 4 1 (add_ e0 1 line_i) [(1%nat, line_i)]) by (apply A; [apply R_alloc|intros l r []|lia|cbn; lia|apply B; [cbn; lia|discriminate|reflexivity]]).
  assert (K2 : recorded 3 4 1 (add_ (add_ e0 1 line_i) 2 line_j) [(2%nat, line_j); (1%nat, line_i)]) by (apply A; [exact K1|intros l r [H|[]]; injection H as <- _; lia|lia|cbn; lia|apply B; [cbn; lia|discriminate|reflexivity]]).
  assert (K3 : recorded 3 4 1 (add_ (add_ (add_ e0 1 line_i) 2 line_j) 3 line_k) [(3%nat, line_k); (2%nat, line_j); (1%nat, line_i)]) by (apply A; [exact K2|intros l r [H|[H|[]]]; injection H as <- _; lia|lia|cbn; lia|apply B; [cbn; lia|discriminate|reflexivity]]).
  apply A; [exact (D _ _ _ _ K3)|intros l r [H|[H|[]]]; injection H as <- _; lia|lia|cbn; lia|apply B; [cbn; lia|discriminate|reflexivity]].
Qed.

Lemma recorded_ok n nb_levels np e st : recorded n nb_levels np e st -> eq_ok np e (nb_levels + np + 1).
Proof. intros H. destruct (C38_equalities _ _ _ _ _ H) as (_ & _ & G & _). intros i Ht. destruct (G i Ht) as (G1 & G2 & _). auto. Qed.
(** Simplifying a row with the recorded equalities: where they hold, the new value is the old one times a
    positive number; the row keeps its kind, and no longer has the recorded levels (but for the one excluded). *)
Theorem C38_vector_simplify : forall n nb_levels np e st row level, recorded n nb_levels np e st -> (np + 2 <= length row <= nb_levels + np + 1)%nat ->
  let s := vector_simplify e row level np in
  (forall it par, (forall l r, In (l, r) st -> value np r it par = 0) ->
     (exists c d, 0 < c /\ 0 < d /\ c * value np s it par = d * value np row it par) /\ (holds np s it par <-> holds np row it par) /\
     length s = length row /\ nth 0 s 0 = nth 0 row 0 /\
     forall l r, In (l, r) st -> (l <= length row - np - 2)%nat -> Z.of_nat l <> level -> nth l s 0 = 0).
Proof.
  intros n nb_levels np e st row level H HL s it par Hz. pose proof (recorded_ok _ _ _ _ _ H) as Hok. destruct (C38_equalities _ _ _ _ _ H) as (G1 & G2 & _).
  apply recorded_inv in H as I. pose proof (proj2 (G1 it par) Hz) as Hh.
  destruct (vector_simplify_spec np e _ level row it par Hok Hh HL) as (S1 & S2 & (c & d & S3 & S4 & S5) & S6). fold s in S1, S2, S5, S6.
  split; [exists c, d; auto|]. split; [apply (holds_scale np row s it par c d); auto|]. split; [exact S1|]. split; [exact S2|].
  intros l r Hlr Hll Hne. pose proof (i_levels _ _ _ _ _ I l r Hlr) as [Hl1 Hl2]. apply S6; auto; [lia|]. apply G2. exists r. replace (l - 1 + 1)%nat with l by lia. exact Hlr.
Qed.
Print Assumptions C38_vector_simplify.
(** Simplifying a set: the points are the same where the recorded equalities hold, and a row disappears
    (becomes 0 = 0) only when an earlier one is equal to it. *)
Theorem C38_simplify : forall n nb_levels np e st columns rows level, recorded n nb_levels np e st -> (np + 2 <= columns <= nb_levels + np + 1)%nat -> (forall r, In r rows -> length r = columns) ->
  let rows' := set_simplify columns e level np rows in let simple := fun k => vector_simplify e (nth k rows []) level np in
  (forall it par, (forall l r, In (l, r) st -> value np r it par = 0) -> (all_hold np rows' it par <-> all_hold np rows it par)) /\
  length rows' = length rows /\
  (forall k, (k < length rows)%nat -> nth k rows' [] = simple k \/ nth k rows' [] = repeat 0 columns /\ (simple k = repeat 0 columns \/ exists k', (k' < k)%nat /\ simple k' = simple k)).
Proof.
  intros n nb_levels np e st columns rows level H HL Hlen rows' simple. set (f := fun r => vector_simplify e r level np).
  assert (Hm : forall k, (k < length rows)%nat -> nth k (map f rows) [] = simple k) by (intros k Hk; rewrite (nth_indep _ [] (f [])) by (rewrite map_length; exact Hk); apply map_nth).
  assert (Hfl : (length (map f rows) <= length rows)%nat) by (rewrite map_length; apply le_n). split; [|split].
  - intros it par Hz. unfold rows', set_simplify. fold f. rewrite (drop_same_hold np columns it par (proj1 HL) (length rows) (map f rows) Hfl). unfold all_hold.
    assert (Hr : forall r, In r rows -> (holds np (f r) it par <-> holds np r it par)).
    { intros r Hin. apply (C38_vector_simplify n nb_levels np e st r level H ltac:(rewrite (Hlen r Hin); lia) it par Hz). }
    split; intros Hh r Hin; [apply (Hr r Hin), Hh, in_map; exact Hin|]. apply in_map_iff in Hin as (x & <- & Hx). apply (Hr x Hx), Hh, Hx.
  - unfold rows', set_simplify. fold f. destruct rows as [|r rows0]; [reflexivity|].
    destruct (drop_same_rows columns (length (r :: rows0)) (map f (r :: rows0)) 0 Hfl ltac:(cbn; lia)) as [E _]. refine (eq_trans E _). apply map_length.
  - intros k Hk. unfold rows', set_simplify. fold f. destruct (drop_same_rows columns (length rows) (map f rows) k Hfl ltac:(rewrite map_length; exact Hk)) as [_ E].
    rewrite Hm in E by exact Hk. destruct E as [E|[E1 [E2|(k' & E2 & E3)]]]; [left; exact E|right; auto|]. rewrite Hm in E3 by lia. right. split; [exact E1|]. right. exists k'. auto.
Qed.
Print Assumptions C38_simplify.
(** with e4 (i = n + 1, 2j = i, k = 3i + 1): j + k >= 0 and 7n + 9 >= 0 become the same row *)
Example C38_simplify_example : set_simplify 6 e4 4 1 [[1; 0; 1; 1; 0; 0]; [1; 0; 0; 0; 7; 9]; [1; 1; 0; 0; 0; 0]] = [[1; 0; 0; 0; 7; 9]; [0; 0; 0; 0; 0; 0]; [1; 0; 0; 0; 1; 1]] /\
  (forall l r, In (l, r) [(3%nat, line_k2); (2%nat, line_j); (1%nat, line_i)] -> value 1 r (fun j => nth j [6; 3; 19] 0) (fun _ => 5) = 0).
Proof. split; [reflexivity|]. intros l r H. cbn in H. repeat (destruct H as [H|H]; [injection H as <- <-; reflexivity|]). destruct H. Qed.

(** The kinds: "constant" means a fixed value for the element; "pure item" means plus or minus one other
    iterator or parameter. *)
Theorem C38_kinds : forall np r level it par, (np + 2 <= length r)%nat -> (1 <= level <= length r - np - 2)%nat ->
  (equal_type r level = EQ_CONSTANT <-> (nth level r 0 = 1 \/ nth level r 0 = -1) /\ forall k, (1 <= k <= length r - 2)%nat -> k <> level -> nth k r 0 = 0) /\
  (equal_type r level = EQ_CONSTANT -> (value np r it par = 0 <-> it (level - 1)%nat = - nth level r 0 * nth (length r - 1) r 0)) /\
  (equal_type r level = EQ_PUREITEM -> exists s, (s = 1 \/ s = -1) /\
     ((exists k, (k < length r - np - 2)%nat /\ k <> (level - 1)%nat /\ (value np r it par = 0 <-> it (level - 1)%nat = s * it k)) \/
      (exists k, (k < np)%nat /\ (value np r it par = 0 <-> it (level - 1)%nat = s * par k)))).
Proof.
  intros np r level it par HL Hl. split; [apply type_constant|].
  assert (Hv : var np (length r) it par level = it (level - 1)%nat) by (unfold var; destruct (Nat.leb_spec level (length r - np - 2)); [reflexivity|lia]). split.
  - intros H. apply type_constant in H as [Ha Hz]. rewrite (value_one np r it par level) by (auto; lia). rewrite Hv. destruct Ha as [-> | ->]; lia.
  - intros H. apply type_item in H as (Ha & Hc & k & Hk & Hn & Hb & Hz). exists (- nth level r 0 * nth k r 0). split; [lia|].
    pose proof (value_two np r it par level k HL ltac:(lia) Hk Hn Hz) as V. rewrite Hc, Hv in V. unfold var in V. destruct (Nat.leb_spec k (length r - np - 2)).
    + left. exists (k - 1)%nat. split; [lia|]. split; [lia|]. rewrite V. destruct Ha as [-> | ->], Hb as [-> | ->]; lia.
    + right. exists (k - (length r - np - 1))%nat. split; [lia|]. rewrite V. destruct Ha as [-> | ->], Hb as [-> | ->]; lia.
Qed.
Print Assumptions C38_kinds.
Example C38_kinds_example : equal_type [0; 0; -1; 0; 4] 2 = EQ_CONSTANT /\ equal_type [0; 0; 1; -1; 0] 2 = EQ_PUREITEM /\ equal_type [0; 0; 1; -1; 4] 2 = EQ_EXAFFINE.
Proof. repeat split. Qed.

(** A loop that runs once: an inequality about the element only is taken for the equality "the element is
    at the bound". *)
Theorem C38_once : forall np r level it par, (np + 2 <= length r)%nat -> (1 <= level <= length r - np - 2)%nat -> nth 0 r 0 <> 0 -> nth level r 0 <> 0 ->
  (forall j, (1 <= j <= length r - 2)%nat -> j <> level -> nth j r 0 = 0) ->
  exists b, (holds np r it par <-> if 0 <? nth level r 0 then b <= it (level - 1)%nat else it (level - 1)%nat <= b) /\
            (value np (otl_offset r level) it par = 0 <-> it (level - 1)%nat = b).
Proof. exact otl_spec. Qed.
Print Assumptions C38_once.
(** 2i >= 3 becomes i = 2; 3i <= 8 becomes i = 2 *)
Example C38_once_example : otl_offset [1; 2; 0; -3] 1 = [1; 1; 0; -2] /\ otl_offset [1; -3; 0; 8] 1 = [1; -1; 0; 2].
Proof. split; reflexivity. Qed.
(** Without "about the element only" it is false: for 2i >= n - 1 the equality recorded is i = n + 0, at n = 7
    the bound is 3. *)
Theorem C38_once_refuted : ~ (forall np r level it par, (np + 2 <= length r)%nat -> (1 <= level <= length r - np - 2)%nat -> nth 0 r 0 <> 0 -> nth level r 0 <> 0 ->
  value np (otl_offset r level) it par = 0 -> holds np r it par /\ ~ holds np r (with_value it (level - 1) (it (level - 1)%nat - Z.sgn (nth level r 0))) par).
Proof.
  intros H. destruct (H 1%nat [1; 2; -1; 1] 1%nat (fun _ => 7) (fun _ => 7)) as [_ H2]; try (cbn; lia); try reflexivity.
  apply H2. vm_compute. discriminate.
Qed.
Print Assumptions C38_once_refuted.

(** Reducing a modulo guard with the recorded equalities never fails and, where they hold, keeps the guarded
    expression modulo the coefficient of the level, for every value of that iterator. *)
Theorem C38_reduce : forall n nb_levels np e st level line, recorded n nb_levels np e st -> (1 <= level)%nat -> (np + 2 <= length line <= nb_levels + np + 1)%nat -> (level <= length line - np - 2)%nat -> nth level line 0 <> 0 ->
  forall it par, (forall l r, In (l, r) st -> value np r it par = 0) ->
  exists line', reduce e np line level = Some line' /\ length line' = length line /\ nth 0 line' 0 = nth 0 line 0 /\ nth level line' 0 = - Z.abs (nth level line 0) /\
  (value np line' it par - (- Z.sgn (nth level line 0)) * value np line it par) mod Z.abs (nth level line 0) = 0.
Proof.
  intros n nb_levels np e st level line H Hlev HL Hl Hnz it par Hz. destruct (C38_equalities _ _ _ _ _ H) as (G1 & _).
  destruct (reduce_spec np _ e it par (recorded_ok _ _ _ _ _ H) (proj2 (G1 it par) Hz) level line Hlev HL Hl Hnz) as (l' & R1 & R2 & R3 & R4 & R5).
  exists l'. repeat split; auto. apply Z.mod_divide; [lia|]. apply Z.divide_abs_l. exact R5.
Qed.
Print Assumptions C38_reduce.
(** 2i + 5j = n recorded for j; the guard i + n = 0 modulo 5 becomes 5i - n = 0 modulo 5 *)
Definition e5 := add_ e0 2 [0; 2; 5; 0; -1; 0].
Example C38_reduce_example : recorded 3 4 1 e5 [(2%nat, [0; 2; 5; 0; -1; 0])] /\ reduce e5 1 [0; 1; 0; -5; 1; 0] 3 = Some [0; 5; 0; -5; -1; 0].
Proof.
  split; [|reflexivity]. unfold e5, add_. eapply (R_add 3 4 1 e0 [] []); [apply R_alloc|intros l r []|lia|cbn; lia| |reflexivity]. split; [cbn; lia|]. split; [discriminate|]. intros k Hk. cbn in Hk. replace k with 3%nat by lia. reflexivity.
Qed.

(** ** C39 *)
(** Array back end: the two rows reported are in the set, no other row has the element, and for all values of
    the other variables the only value of the element that satisfies both is floor(e / m), where [e] is the
    upper row without the element and [-m] its coefficient there; it does exactly when e mod m <= k1 + k2. *)
Theorem C39_rows : forall columns level np rows u l, (np + 2 <= columns)%nat -> (1 <= level <= columns - np - 2)%nat -> (forall r, In r rows -> length r = columns) ->
  defining_inequalities rows columns level np = Some (u, l) ->
  (exists r1 r2 a b c, rows = a ++ r1 :: b ++ r2 :: c /\ (r1 = u /\ r2 = l \/ r1 = l /\ r2 = u) /\ (forall r, In r (a ++ b ++ c) -> nth level r 0 = 0)) /\
  (let m := - nth level u 0 in 1 < m /\ forall it par v, let e := value np u (with_value it (level - 1) 0) par in
    (holds np u (with_value it (level - 1) v) par /\ holds np l (with_value it (level - 1) v) par <-> v = e / m /\ e mod m <= nth (columns - 1) u 0 + nth (columns - 1) l 0)).
Proof.
  intros columns level np rows u l HL Hlev Hlen H. destruct (defining_spec columns level np rows u l HL Hlev Hlen H) as (P & r1 & r2 & a & b & c & E & Hz & Hor).
  split; [exists r1, r2, a, b, c; auto|]. assert (H1 : In r1 rows) by (rewrite E; apply in_or_app; right; left; reflexivity).
  assert (H2 : In r2 rows) by (rewrite E; apply in_or_app; right; right; apply in_or_app; right; left; reflexivity).
  assert (Hu : length u = columns /\ length l = columns) by (destruct Hor as [[<- <-]|[<- <-]]; auto). destruct Hu as [Hu Hl]. cbv zeta.
  split; [destruct P as (_ & _ & P & _); lia|]. intros it par v. apply pair_values; auto.
Qed.
Print Assumptions C39_rows.
(** 3i <= n and 3i >= n - 1 next to n >= 0: i = n / 3 when n mod 3 <= 1 *)
Example C39_rows_example : defining_inequalities [[1; 0; 1; 0]; [1; 3; -1; 1]; [1; -3; 1; 0]] 4 1 1 = Some ([1; -3; 1; 0], [1; 3; -1; 1]).
Proof. reflexivity. Qed.

(** isl back end, as used by the clast generator: at most one value, and the expression assigned to the
    iterator gives it. *)
Theorem C39_assigned : forall iter_name par_name n rows v u l, ClastModel.defining_inequalities n rows (S v) = Some (u, l) ->
  In u rows /\ In l rows /\
  (forall w w', (forall i, i <> v -> nth i w 0 = nth i w' 0) ->
     ClastSpec.row_holds w u -> ClastSpec.row_holds w l -> ClastSpec.row_holds w' u -> ClastSpec.row_holds w' l -> nth v w 0 = nth v w' 0) /\
  (forall w rho, ClastSpec.row_holds w u -> ClastSpec.row_holds w l ->
     (forall i, i <> v -> ClastModel.coef u i <> 0 -> ClastSpec.eval rho (ClastModel.variable_expr iter_name par_name n (S i)) = Some (nth i w 0)) ->
     exists e, ClastModel.bound_from_constraint iter_name par_name n u (S v) = Some e /\ ClastSpec.eval rho e = Some (nth v w 0)).
Proof.
  intros itn parn n rows v u l H. unfold ClastModel.defining_inequalities in H. destruct (find _ _) as [[u' l']|] eqn:Ef in H; [|discriminate]. destruct (existsb _ rows) in H; [discriminate|]. injection H as -> ->.
  apply find_some in Ef as [Hin Hp]. apply in_prod_iff in Hin as [H1 H2]. cbn [fst snd] in Hp. unfold ClastModel.defining_pair in Hp. rewrite Nat.sub_succ, Nat.sub_0_r in Hp.
  repeat (apply andb_prop in Hp; let Q := fresh "Q" in destruct Hp as [Hp Q]). apply negb_true_iff in Hp, Q3. apply Z.ltb_lt in Q, Q0.
  assert (Hval : forall w, ClastSpec.row_holds w u -> ClastSpec.row_holds w l -> nth v w 0 = ClastBounds.bound_val u v w).
  { intros w Hu Hl. pose proof (proj2 (ClastBounds.bound_upper u v w Hp ltac:(lia)) Hu) as B1.
    assert (E : ClastSpec.row_val l w = - ClastSpec.row_val u w + (ClastModel.r_k u + ClastModel.r_k l)).
    { unfold ClastSpec.row_val. assert (G : forall a b x, ((length a =? length b)%nat && forallb (fun p => fst p + snd p =? 0) (List.combine a b)) = true -> ClastSpec.dot b x = - ClastSpec.dot a x).
      { induction a as [|p a IH]; intros [|q b] [|z x] Hop; cbn in Hop; try discriminate; try reflexivity; cbn.
        apply andb_prop in Hop as [O1 O2]. apply andb_prop in O2 as [O2 O3]. apply Z.eqb_eq in O2. rewrite (IH b x); [cbn [fst snd] in O2; replace q with (- p) by lia; ring|].
        rewrite O3, andb_true_r. exact O1. }
      rewrite (G (ClastModel.r_co u) (ClastModel.r_co l) w Q1). ring. }
    unfold ClastSpec.row_holds in Hu, Hl. rewrite Hp in Hu. rewrite Q3 in Hl. rewrite E in Hl.
    assert (B2 : ClastBounds.bound_val u v w <= nth v w 0).
    { unfold ClastBounds.bound_val. rewrite Hp. destruct (Z.ltb_spec 0 (ClastModel.coef u v)); [lia|]. rewrite Z.abs_neq, Z.sgn_neg by lia.
      rewrite (ClastBounds.row_rest u v w) in Hl. set (m := ClastModel.coef u v) in *. set (rst := ClastBounds.rest u v w) in *.
      replace (- -1 * rst) with rst by ring. assert (Hd : rst / - m < nth v w 0 + 1); [|lia]. apply Z.div_lt_upper_bound; [lia|]. nia. }
    lia. }
  split; [exact H1|]. split; [exact H2|]. split.
  - intros w w' Hw Hu Hl Hu' Hl'. rewrite (Hval w Hu Hl), (Hval w' Hu' Hl'). apply ClastBounds.bound_ext. intros i Hi _. apply Hw. exact Hi.
  - intros w rho Hu Hl Hk. rewrite (Hval w Hu Hl). apply ClastBounds.bound_eval; [lia|exact Hk].
Qed.
Print Assumptions C39_assigned.
Definition r3u := {| ClastModel.r_eq := false; ClastModel.r_co := [-3; 1]; ClastModel.r_k := 0 |}.
Definition r3l := {| ClastModel.r_eq := false; ClastModel.r_co := [3; -1]; ClastModel.r_k := 1 |}.
Example C39_assigned_example : ClastModel.defining_inequalities 1 [r3l; r3u] 1 = Some (r3u, r3l) /\ ClastSpec.row_holds [2; 7] r3u /\ ClastSpec.row_holds [2; 7] r3l.
Proof. repeat split; vm_compute; discriminate. Qed.

(** A row with n iterators and np parameters has 1 + n + np + 1 columns: the levels it contains are 1 to n. *)
Theorem C38_levels : forall n np level : nat, contains_level (Z.of_nat (1 + n + np + 1)) (Z.of_nat level) (Z.of_nat np) = true <-> (level <= n)%nat.
Proof. intros n np level. unfold contains_level. rewrite Z.leb_le. lia. Qed.
Print Assumptions C38_levels.
Example C38_levels_ex : contains_level 6 3 1 = true /\ contains_level 6 4 1 = false.
Proof. split; reflexivity. Qed.
