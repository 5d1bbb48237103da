(** C62: the code generator reads every coefficient of a constraint where isl has it.

    Specification: [columns], the order in which PolyLib writes a row; UnrollSpec.v for the meaning of a constraint; and
    the rows of ClastModel.v, from which code is made. *)
From Coq Require Import String ZArith List Bool Arith Lia.
From Verif Require Import StrideModel UnrollModel UnrollSpec ClastSpec BackendCode ClastModel ColumnModel.
Import ListNotations.
Local Arguments Nat.ltb : simpl never. Local Arguments Nat.leb : simpl never. Local Arguments Nat.eqb : simpl never. Local Arguments Nat.sub : simpl never.
Local Open Scope Z_scope.
Local Notation length := List.length.

(** iterators, then quantified variables, then parameters *)
Definition columns (c : con) : list Z := c_iter c ++ c_div c ++ c_par c.

Lemma find_nth types c : forall pos, match find_dim types c pos with Some (t, k) => nth_error (part t c) k | None => None end = nth_error (concat (map (fun t => part t c) types)) pos.
Proof.
  induction types as [|t types IH]; intros pos; cbn [find_dim map concat]; [now destruct pos|]. destruct (Nat.ltb_spec pos (length (part t c))) as [H|H].
  - now rewrite nth_error_app1.
  - rewrite IH. now rewrite nth_error_app2.
Qed.
Lemma get_columns c v : coefficient_get c v = nth_error (columns c) v.
Proof. unfold coefficient_get, cloog_dim_to_isl_dim. rewrite find_nth. cbn [map concat part]. unfold columns. now rewrite app_nil_r. Qed.

(** Every dimension that isl has is read and written at exactly one number below the total dimension, and every such number
    is a dimension that isl has. *)
Theorem C62_numbers :
  forall (c : con),
  (forall t k, (k < length (part t c))%nat -> exists v, (v < total_dimension c)%nat /\ forall v', cloog_dim_to_isl_dim c v' = Some (t, k) <-> v' = v) /\
  (forall v, (v < total_dimension c)%nat <-> exists t k, cloog_dim_to_isl_dim c v = Some (t, k) /\ (k < length (part t c))%nat).
Proof.
  intros c. unfold cloog_dim_to_isl_dim, total_dimension. cbn [find_dim part].
  set (a := length (c_iter c)). set (b := length (c_div c)). set (d := length (c_par c)). split.
  - intros t k Hk. exists (match t with DSet => k | DDiv => a + k | DParam => a + b + k end)%nat. destruct t; cbn [part] in Hk; fold a b d in Hk; (split; [lia|]); intros v';
      destruct (Nat.ltb_spec v' a); [| |idtac| |idtac|]; try (split; [intros E; injection E as <-; lia|intros ->; first [reflexivity|exfalso; lia]]);
      try (split; [intros E; discriminate E|intros ->; exfalso; lia]);
      destruct (Nat.ltb_spec (v' - a) b); try (split; [intros E; discriminate E|intros ->; exfalso; lia]); try (split; [intros E; injection E as <-; lia|intros ->; f_equal; f_equal; lia]);
      destruct (Nat.ltb_spec (v' - a - b) d); (split; [intros E; first [discriminate E|injection E as <-; lia]|intros ->; first [exfalso; lia|f_equal; f_equal; lia]]).
  - intros v. destruct (Nat.ltb_spec v a) as [H1|H1]; [split; [intros _; exists DSet, v; split; [reflexivity|exact H1]|lia]|].
    destruct (Nat.ltb_spec (v - a) b) as [H2|H2]; [split; [intros _; exists DDiv, (v - a)%nat; split; [reflexivity|exact H2]|lia]|].
    destruct (Nat.ltb_spec (v - a - b) d) as [H3|H3]; [split; [intros _; exists DParam, (v - a - b)%nat; split; [reflexivity|exact H3]|lia]|].
    split; [lia|]. intros (t & k & E & _). discriminate E.
Qed.
Print Assumptions C62_numbers.

(** Reading, writing and copying go by the columns: a coefficient read is the column's, one written is read back and no
    other coefficient nor the constant is changed, and a copy is the whole row with the constant at its end (no call of
    isl with an undefined dimension). *)
Lemma put_length l n z : length (put l n z) = length l.
Proof. revert n. induction l as [|x l IH]; intros [|n]; cbn [put length]; auto. Qed.
Lemma put_nth l : forall n z k, nth_error (put l n z) k = if (k =? n)%nat then (if (n <? length l)%nat then Some z else None) else nth_error l k.
Proof.
  induction l as [|x l IH]; intros [|n] z k; cbn [put length nth_error].
  - destruct k; cbn; [reflexivity|]. reflexivity.
  - destruct k; cbn [nth_error]; [reflexivity|]. destruct (Nat.eqb_spec (S k) (S n)); reflexivity.
  - destruct k; cbn [nth_error]; reflexivity.
  - destruct k; cbn [nth_error]; [reflexivity|]. rewrite IH. change (S k =? S n)%nat with (k =? n)%nat. change (S n <? S (length l))%nat with (n <? length l)%nat. reflexivity.
Qed.
Lemma put_app a b n z : put (a ++ b) n z = if (n <? length a)%nat then put a n z ++ b else a ++ put b (n - length a) z.
Proof.
  revert n. induction a as [|x a IH]; intros n; cbn [app put length].
  - change (n <? 0)%nat with false. cbv iota. now rewrite Nat.sub_0_r.
  - destruct n as [|n]; [reflexivity|]. rewrite IH. change (S n <? S (length a))%nat with (n <? length a)%nat. change (S n - S (length a))%nat with (n - length a)%nat. destruct (n <? length a)%nat; reflexivity.
Qed.
Lemma put_none l n z : (length l <= n)%nat -> put l n z = l.
Proof. revert n. induction l as [|x l IH]; intros [|n] H; cbn [put length] in *; try reflexivity; [lia|]. rewrite IH by lia. reflexivity. Qed.
Lemma set_columns c v z : columns (coefficient_set c v z) = put (columns c) v z /\ c_eq (coefficient_set c v z) = c_eq c /\ c_const (coefficient_set c v z) = c_const c.
Proof.
  unfold coefficient_set, cloog_dim_to_isl_dim, columns. cbn [find_dim part]. rewrite !put_app.
  destruct (v <? length (c_iter c))%nat; [auto|]. destruct (v - length (c_iter c) <? length (c_div c))%nat; [auto|].
  destruct (Nat.ltb_spec (v - length (c_iter c) - length (c_div c)) (length (c_par c))) as [H|H]; [auto|]. rewrite put_none by exact H. auto.
Qed.
Lemma columns_length c : length (columns c) = total_dimension c.
Proof. unfold columns, total_dimension. rewrite !app_length. lia. Qed.
Theorem C62_coefficients :
  forall (c : con),
  (forall v, coefficient_get c v = nth_error (columns c) v) /\
  (forall v z w, (v < total_dimension c)%nat -> coefficient_get (coefficient_set c v z) w = (if (w =? v)%nat then Some z else coefficient_get c w)) /\
  (forall v z, c_eq (coefficient_set c v z) = c_eq c /\ c_const (coefficient_set c v z) = c_const c) /\
  copy_coefficients c = Some (columns c ++ [c_const c]).
Proof.
  intros c. split; [apply get_columns|]. split; [|split].
  - intros v z w Hv. rewrite !get_columns. rewrite (proj1 (set_columns c v z)), put_nth. rewrite <- columns_length in Hv. apply Nat.ltb_lt in Hv. now rewrite Hv.
  - intros v z. exact (proj2 (set_columns c v z)).
  - assert (G : forall n i, (i + n = total_dimension c)%nat -> copy_from c i n = Some (skipn i (columns c) ++ [c_const c])).
    { induction n as [|n IH]; intros i H; cbn [copy_from].
      - rewrite skipn_all2 by (rewrite columns_length; lia). reflexivity.
      - rewrite get_columns. destruct (nth_error (columns c) i) as [z|] eqn:E; [|apply nth_error_None in E; rewrite columns_length in E; lia]. rewrite (IH (S i)) by lia. f_equal.
        clear - E. revert i E. generalize (columns c) as l. induction l as [|x l IHl]; intros [|i] E; cbn [nth_error] in E; try discriminate; [injection E as ->; reflexivity|]. cbn [skipn]. now apply IHl. }
    unfold copy_coefficients. exact (G (total_dimension c) 0%nat eq_refl).
Qed.
Print Assumptions C62_coefficients.

(** So the rows that C15, C16 and C56 make code from are what the generator reads from isl: the same coefficients, lower and
    upper bounds, and the same changes; and a level is reduced exactly if it is an iterator's. *)
Theorem C62_rows :
  forall (np : nat) (c : con), length (c_par c) = np -> let r := con_row np c in
  copy_coefficients c = Some (r_co r ++ [r_k r]) /\
  (forall v, (v < total_dimension c)%nat -> coefficient_get c v = Some (coef r v)) /\
  (forall v, constraint_involves c v = involves r v /\ constraint_is_lower_bound c v = is_lower_bound r v /\ constraint_is_upper_bound c v = is_upper_bound r v) /\
  (forall v z, con_row np (coefficient_set c v z) = set_coef r v z) /\
  (forall level, (1 <= level <= total_dimension c)%nat -> needs_reduction c level = Some (level <=? length (c_iter c))%nat) /\
  (forall x p e, length x = length (c_iter c) -> length p = np -> length e = length (c_div c) ->
     value c x p e = dot (r_co r) (x ++ e ++ p) + r_k r).
Proof.
  intros np c Hp. assert (CI : forall l, coefs (length l) l = l) by (induction l as [|x l IH]; cbn [length coefs]; congruence).
  assert (CO : r_co (con_row np c) = columns c) by (unfold con_row, columns; cbn [r_co]; rewrite <- Hp, CI; reflexivity).
  cbv zeta. split; [rewrite CO; apply C62_coefficients|]. split; [|split; [|split; [|split]]].
  - intros v Hv. rewrite get_columns. unfold coef. rewrite CO. rewrite <- columns_length in Hv. destruct (nth_error (columns c) v) eqn:E; [|apply nth_error_None in E; lia]. f_equal. symmetry. now apply nth_error_nth.
  - intros v. unfold constraint_involves, constraint_is_lower_bound, constraint_is_upper_bound, coefficient_get_val, involves, is_lower_bound, is_upper_bound, coef. rewrite get_columns, CO.
    destruct (nth_error (columns c) v) as [z|] eqn:E; [rewrite (nth_error_nth _ _ 0 E); auto|]. apply nth_error_None in E. rewrite nth_overflow by exact E. auto.
  - intros v z. destruct (set_columns c v z) as (A & B & D). assert (S1 : forall l n y, set_nth l n y = put l n y) by (induction l as [|x l IH]; intros [|n] y; cbn; congruence).
    unfold set_coef. rewrite CO, S1, <- A. unfold con_row at 1, columns. rewrite B, D. f_equal. f_equal. f_equal.
    assert (L : length (c_par (coefficient_set c v z)) = np). { unfold coefficient_set. destruct (cloog_dim_to_isl_dim c v) as [[[| |] k]|]; cbn [c_par]; rewrite ?put_length; exact Hp. }
    rewrite <- L. apply CI.
  - intros level Hl. unfold needs_reduction, cloog_dim_to_isl_dim. cbn [find_dim part]. unfold total_dimension in Hl.
    destruct (Nat.ltb_spec (level - 1) (length (c_iter c))) as [H1|H1]; [f_equal; symmetry; apply Nat.leb_le; lia|].
    assert (N : (level <=? length (c_iter c))%nat = false) by (apply Nat.leb_gt; lia). rewrite N.
    destruct (Nat.ltb_spec (level - 1 - length (c_iter c)) (length (c_div c))) as [H2|H2]; [reflexivity|].
    destruct (Nat.ltb_spec (level - 1 - length (c_iter c) - length (c_div c)) (length (c_par c))) as [H3|H3]; [reflexivity|lia].
  - intros x p e Hx Hpl He. rewrite CO. unfold columns, value. cbn [con_row r_k].
    assert (DA : forall a b u w, length a = length u -> prod (a ++ b) (u ++ w) = prod a u + prod b w).
    { induction a as [|y a IH]; intros b [|v u] w H; cbn [length] in H; try lia; cbn [app prod]; [reflexivity|]. rewrite IH by lia. lia. }
    assert (DP : forall a u, dot a u = prod a u) by (induction a as [|y a IH]; intros [|v u]; cbn [dot prod]; try reflexivity; now rewrite IH).
    rewrite (DP (c_iter c ++ c_div c ++ c_par c) (x ++ e ++ p)), !DA by congruence. lia.
Qed.
Print Assumptions C62_rows.

(** Every level from 1 to the total dimension has a variable, and its value is the coordinate that the column is multiplied with:
    the names are those of ClastModel's rows, in which quotients are levels behind the iterators. *)
Theorem C62_variables :
  forall (c : con) (iter_name par_name : nat -> string) (rho : string -> option Z) (x e p : list Z),
  length x = length (c_iter c) -> length e = length (c_div c) -> length p = length (c_par c) ->
  (forall l, (1 <= l <= length x)%nat -> rho (iter_name l) = Some (nth (l - 1) x 0)) ->
  (forall k, (k < length p)%nat -> rho (par_name k) = Some (nth k p 0)) ->
  forall level, (1 <= level <= total_dimension c)%nat ->
  exists z, nth_error (x ++ e ++ p) (level - 1) = Some z /\
  match constraint_variable c level with
  | Some (V_iter l) => rho (iter_name l) = Some z /\ variable_expr iter_name par_name (length x + length e) level = EName (iter_name l)
  | Some (V_par k) => rho (par_name k) = Some z /\ variable_expr iter_name par_name (length x + length e) level = EName (par_name k)
  | Some (V_quotient k) => nth_error e k = Some z
  | None => False
  end.
Proof.
  intros c iter_name par_name rho x e p Hx He Hp HI HP level Hl. unfold total_dimension in Hl.
  destruct (nth_error (x ++ e ++ p) (level - 1)) as [z|] eqn:E; [|apply nth_error_None in E; rewrite !app_length in E; lia]. exists z. split; [reflexivity|].
  unfold constraint_variable, cloog_dim_to_isl_dim. cbn [find_dim part]. rewrite <- Hx, <- He, <- Hp. unfold variable_expr.
  destruct (Nat.ltb_spec (level - 1) (length x)) as [H1|H1].
  - rewrite nth_error_app1 in E by exact H1. split; [rewrite HI by lia; f_equal; now apply nth_error_nth|]. replace (level <=? length x + length e)%nat with true by (symmetry; apply Nat.leb_le; lia). reflexivity.
  - rewrite nth_error_app2 in E by exact H1. destruct (Nat.ltb_spec (level - 1 - length x) (length e)) as [H2|H2]; [rewrite nth_error_app1 in E by exact H2; exact E|].
    rewrite nth_error_app2 in E by exact H2. destruct (Nat.ltb_spec (level - 1 - length x - length e) (length p)) as [H3|H3]; [|lia].
    split; [rewrite HP by exact H3; f_equal; now apply nth_error_nth|]. replace (level <=? length x + length e)%nat with false by (symmetry; apply Nat.leb_gt; lia). do 2 f_equal. lia.
Qed.
Print Assumptions C62_variables.

(** 2 i - j + 3 e - N + 4 >= 0: the columns, a coefficient that is set, and the dimensions *)
Definition c62 : con := {| c_eq := false; c_iter := [2; -1]; c_div := [3]; c_par := [-1]; c_const := 4 |}.
Example C62_example :
  copy_coefficients c62 = Some [2; -1; 3; -1; 4] /\ coefficient_get c62 2 = Some 3 /\ copy_coefficients (coefficient_set c62 3 7) = Some [2; -1; 3; 7; 4] /\
  cloog_dim_to_isl_dim c62 3 = Some (DParam, 0%nat) /\ constraint_is_upper_bound c62 1 = true /\ needs_reduction c62 2 = Some true /\ needs_reduction c62 3 = Some false /\ total_dimension c62 = 4%nat /\ length (c_par c62) = 1%nat /\
  map (constraint_variable c62) [1; 2; 3; 4]%nat = [Some (V_iter 1); Some (V_iter 2); Some (V_quotient 0); Some (V_par 0)].
Proof. repeat split; reflexivity. Qed.

(** i1 = 7, i2 = 8, the quotient 5 and N0 = 9: names that meet the hypotheses of C62_variables *)
Local Open Scope string_scope.
Definition name62 (l : nat) : string := match l with 1%nat => "i1" | 2%nat => "i2" | _ => "?" end.
Definition env62 (s : string) : option Z := if String.eqb s "i1" then Some 7 else if String.eqb s "i2" then Some 8 else if String.eqb s "N0" then Some 9 else None.
Example C62_variables_example :
  (forall l, (1 <= l <= 2)%nat -> env62 (name62 l) = Some (nth (l - 1) [7; 8] 0)) /\ (forall k, (k < 1)%nat -> env62 "N0" = Some (nth k [9] 0)) /\
  constraint_variable c62 4 = Some (V_par 0) /\ nth_error ([7; 8] ++ [5] ++ [9])%list 3 = Some 9.
Proof.
  split; [intros [|[|[|l]]] H; try lia; reflexivity|]. split; [intros [|k] H; [reflexivity|lia]|]. split; reflexivity.
Qed.
