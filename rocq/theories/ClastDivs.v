(** Guards for domains with existential dimensions: the remainder conditions of
    insert_extra_modulo_guards, and the remaining constraints. *)
From Coq Require Import ZArith List Bool Arith String Sorted Permutation Lia.
From Verif Require Import LoopModel LoopSpec LoopCount ClastModel ClastSpec ClastBounds ClastGuards ClastModulo ClastHeader.
Import ListNotations.
Local Open Scope Z_scope.
Local Arguments Nat.ltb : simpl never. Local Arguments Nat.leb : simpl never. Local Arguments Nat.eqb : simpl never. Local Arguments Nat.sub : simpl never.
Local Arguments Z.mul : simpl never. Local Arguments Z.add : simpl never. Local Arguments Z.modulo : simpl never.

(** *** points *)
Lemma repeat_nth (k i : nat) : nth i (repeat 0 k) 0 = 0.
Proof. revert i. induction k as [|k IH]; intros [|i]; cbn; auto. Qed.
Lemma split_point (y pv : list Z) nd k v : (k < nd)%nat ->
  y ++ set_nth (repeat 0 nd) k v ++ pv = (y ++ repeat 0 k) ++ v :: (repeat 0 (nd - k - 1) ++ pv).
Proof.
  intros H. rewrite <- app_assoc. f_equal. revert nd H. induction k as [|k IH]; intros [|nd] H; try lia.
  - cbn [repeat set_nth app]. replace (S nd - 0 - 1)%nat with nd by lia. reflexivity.
  - cbn [repeat set_nth app]. f_equal. rewrite IH by lia. replace (S nd - S k - 1)%nat with (nd - k - 1)%nat by lia. reflexivity.
Qed.
Lemma set_nth_self (q : list Z) k : set_nth q k (nth k q 0) = q.
Proof. revert k. induction q as [|a q IH]; intros [|k]; cbn; [reflexivity|reflexivity|reflexivity|rewrite IH; reflexivity]. Qed.
(** a constraint that involves one existential dimension only *)
Lemma one_div (r : row) (y q pv : list Z) nd i : List.length q = nd -> (List.length y < i <= List.length y + nd)%nat ->
  (forall j, (List.length y <= j < List.length y + nd)%nat -> j <> (i - 1)%nat -> coef r j = 0) ->
  (row_holds (y ++ q ++ pv) r <-> row_holds (y ++ set_nth (repeat 0 nd) (i - 1 - List.length y) (nth (i - 1 - List.length y) q 0) ++ pv) r).
Proof.
  intros Hq Hi Hz. apply row_holds_ext. intros j Hj. destruct (Nat.lt_ge_cases j (List.length y)) as [G|G]; [rewrite !app_nth1 by exact G; reflexivity|].
  rewrite !(app_nth2 y) by exact G. destruct (Nat.lt_ge_cases (j - List.length y) nd) as [G2|G2].
  - rewrite !app_nth1 by (rewrite ?set_nth_length, ?repeat_length; lia). destruct (Nat.eq_dec j (i - 1)) as [->|Hne]; [rewrite set_nth_nth by (rewrite repeat_length; lia); rewrite Nat.eqb_refl; reflexivity|].
    exfalso. apply Hj. apply Hz; [lia|exact Hne].
  - rewrite !app_nth2 by (rewrite ?set_nth_length, ?repeat_length; lia). rewrite set_nth_length, repeat_length, Hq. reflexivity.
Qed.
Lemma no_div_any (r : row) (y q q' pv : list Z) : List.length q = List.length q' ->
  (forall j, (List.length y <= j < List.length y + List.length q)%nat -> nth (j - List.length y) q 0 <> nth (j - List.length y) q' 0 -> coef r j = 0) ->
  (row_holds (y ++ q ++ pv) r <-> row_holds (y ++ q' ++ pv) r).
Proof.
  intros Hq Hz. apply row_holds_ext. intros j Hj. destruct (Nat.lt_ge_cases j (List.length y)) as [G|G]; [rewrite !app_nth1 by exact G; reflexivity|].
  rewrite !(app_nth2 y) by exact G. destruct (Nat.lt_ge_cases (j - List.length y) (List.length q)) as [G2|G2].
  - rewrite !app_nth1 by lia. destruct (Z.eq_dec (nth (j - List.length y) q 0) (nth (j - List.length y) q' 0)) as [E|E]; [exact E|]. exfalso. apply Hj. apply Hz; [lia|exact E].
  - rewrite !app_nth2 by lia. rewrite Hq. reflexivity.
Qed.
Lemma has_div_not n nd r : has_div n nd r = false <-> forall j, (n <= j < n + nd)%nat -> coef r j = 0.
Proof.
  unfold has_div. split.
  - intros H j Hj. apply involves_not. destruct (involves r j) eqn:E; [|reflexivity]. exfalso. assert (existsb (fun i => involves r i) (seq n nd) = true) by (apply existsb_exists; exists j; split; [apply in_seq; lia|exact E]). congruence.
  - intros H. destruct (existsb (fun i => involves r i) (seq n nd)) eqn:E; [|reflexivity]. apply existsb_exists in E. destruct E as (j & Hj & Ej). apply in_seq in Hj. apply involves_ne in Ej. exfalso. apply Ej, H. lia.
Qed.
Lemma without_coef n nd r : (n + nd <= List.length (r_co r))%nat -> forall j, coef (without_divs n nd r) j = if (j <? n)%nat then coef r j else coef r (j + nd).
Proof.
  intros H j. unfold coef, without_divs. cbn [r_co]. destruct (Nat.ltb_spec j n) as [G|G].
  - rewrite app_nth1 by (rewrite firstn_length; lia). rewrite <- (firstn_skipn n (r_co r)) at 2. rewrite app_nth1 by (rewrite firstn_length; lia). reflexivity.
  - rewrite app_nth2 by (rewrite firstn_length; lia). rewrite firstn_length, Nat.min_l by lia. rewrite <- (firstn_skipn (n + nd) (r_co r)) at 2. rewrite app_nth2 by (rewrite firstn_length; lia).
    rewrite firstn_length, Nat.min_l by lia. f_equal. lia.
Qed.
Lemma dot_app a b w1 w2 : List.length a = List.length w1 -> dot (a ++ b) (w1 ++ w2) = dot a w1 + dot b w2.
Proof. revert w1. induction a as [|z a IH]; intros [|v w1] H; cbn in H; try discriminate; cbn [app dot]; [lia|]. rewrite IH by lia. lia. Qed.
Lemma dot_zero a w : (forall j, (j < List.length w)%nat -> nth j a 0 = 0) -> dot a w = 0.
Proof.
  revert w. induction a as [|z a IH]; intros [|v w] H; cbn [dot]; try reflexivity. rewrite (IH w); [|intros j Hj; apply (H (S j)); cbn; lia]. specialize (H 0%nat ltac:(cbn; lia)). cbn in H. subst z. lia.
Qed.
Lemma skipn_add {A} b : forall (l : list A) a, skipn a (skipn b l) = skipn (b + a) l.
Proof. induction b as [|b IH]; intros l a; [reflexivity|]. destruct l as [|x l]; [rewrite !skipn_nil; reflexivity|]. cbn [skipn Nat.add]. apply IH. Qed.
Lemma without_holds n nd (y pv : list Z) r : List.length y = n -> (n + nd <= List.length (r_co r))%nat -> has_div n nd r = false ->
  forall q, List.length q = nd -> (row_holds (y ++ q ++ pv) r <-> row_holds (y ++ pv) (without_divs n nd r)).
Proof.
  intros Hy Hl Hd q Hq. unfold row_holds, row_val, without_divs. cbn [r_eq r_co r_k].
  assert (E : dot (r_co r) (y ++ q ++ pv) = dot (firstn n (r_co r) ++ skipn (n + nd) (r_co r)) (y ++ pv)); [|rewrite E; reflexivity].
  assert (Er : r_co r = firstn n (r_co r) ++ firstn nd (skipn n (r_co r)) ++ skipn (n + nd) (r_co r)).
  { rewrite <- (firstn_skipn n (r_co r)) at 1. f_equal. rewrite <- (firstn_skipn nd (skipn n (r_co r))) at 1. f_equal. rewrite skipn_add. reflexivity. }
  rewrite Er at 1. rewrite !dot_app by (rewrite ?firstn_length, ?skipn_length; lia). rewrite (dot_zero (firstn nd (skipn n (r_co r))) q); [lia|].
  intros j Hj. pose proof (proj1 (has_div_not n nd r) Hd (n + j)%nat ltac:(lia)) as Z0. unfold coef in Z0. rewrite Er in Z0. rewrite app_nth2 in Z0 by (rewrite firstn_length; lia). rewrite firstn_length, Nat.min_l in Z0 by lia.
  replace (n + j - n)%nat with j in Z0 by lia. rewrite app_nth1 in Z0 by (rewrite firstn_length, skipn_length; lia). exact Z0.
Qed.

Section Divs.
Variable iter_name : nat -> string.
Variable par_name : nat -> string.
Notation variable_expr := (variable_expr iter_name par_name).
Notation no_reduce := (fun (_ : list (option (eqtype * row))) (rows : list row) (_ : nat) => rows).
Notation modulo_guard := (modulo_guard iter_name par_name no_reduce).
Notation extra_guards := (extra_guards iter_name par_name).

Definition div_shape (u : row) (lower : option row) (i : nat) : Prop :=
  match lower with
  | None => r_eq u = true
  | Some l => r_eq u = false /\ r_eq l = false /\ opposite u l = true /\ 0 <= r_k u + r_k l /\ coef u (i - 1) < -1
  end.
Definition strides_all (n nd : nat) (nfo : infos) (y pv : list Z) : Prop :=
  strides_hold (y ++ repeat 0 nd ++ pv) (List.combine (seq 1 (n + nd)) (firstn (n + nd) (i_strides nfo))).
Lemma combine_sub (f : nat) : forall (l : list (option (Z * Z))) a b, (a <= b)%nat -> incl (List.combine (seq f a) (firstn a l)) (List.combine (seq f b) (firstn b l)).
Proof.
  intros l a. revert f l. induction a as [|a IH]; intros f l b H; [intros x []|]. destruct b as [|b]; [lia|]. cbn [seq]. destruct l as [|s l]; [intros x []|]. cbn [firstn List.combine].
  intros x [Hx|Hx]; [left; exact Hx|right]. revert x Hx. apply IH. lia.
Qed.
(** what the rows of one existential dimension say *)
Lemma rows_solve (u : row) lower (y pv : list Z) nd i : (List.length y < i <= List.length y + nd)%nat -> coef u (i - 1) <> 0 -> div_shape u lower i ->
  let w := y ++ repeat 0 nd ++ pv in
  (exists v, Forall (row_holds (y ++ set_nth (repeat 0 nd) (i - 1 - List.length y) v ++ pv)) (the_rows u lower)) <->
  match lower with None => target u (i - 1) w 0 mod Z.abs (coef u (i - 1)) = 0
                 | Some l => target u (i - 1) w (r_k u + r_k l) mod Z.abs (coef u (i - 1)) <= r_k u + r_k l end.
Proof.
  intros Hi Hc Hsh w. set (k := (i - 1 - List.length y)%nat). set (x := y ++ repeat 0 k). set (pv2 := repeat 0 (nd - k - 1) ++ pv).
  assert (Hx : List.length x = (i - 1)%nat) by (unfold x; rewrite app_length, repeat_length; unfold k; lia).
  assert (Hw : w = x ++ 0 :: pv2). { unfold w, x, pv2. rewrite <- split_point by (unfold k; lia). f_equal. f_equal. pose proof (set_nth_self (repeat 0 nd) k) as E. rewrite repeat_nth in E. symmetry. exact E. }
  assert (Hp : forall v, y ++ set_nth (repeat 0 nd) k v ++ pv = x ++ v :: pv2) by (intros v; apply split_point; unfold k; lia).
  destruct lower as [l|]; cbn [div_shape the_rows] in *.
  - destruct Hsh as (H1 & H2 & H3 & H4 & H5). pose proof (solve_pair u l x pv2 H1 H2) as S0. cbv zeta in S0. rewrite Hx in S0. specialize (S0 Hc H3). rewrite Hw, S0. split.
    + intros (v & Hv). exists v. rewrite Hp in Hv. inversion Hv as [|? ? A B]; subst. inversion B; subst. auto.
    + intros (v & A & B). exists v. rewrite Hp. constructor; [exact A|]. constructor; [exact B|constructor].
  - pose proof (solve_eq u x pv2 Hsh) as S0. cbv zeta in S0. rewrite Hx in S0. specialize (S0 Hc). rewrite Hw, S0. split.
    + intros (v & Hv). exists v. rewrite Hp in Hv. inversion Hv; subst. assumption.
    + intros (v & A). exists v. rewrite Hp. constructor; [exact A|constructor].
Qed.
Lemma guard_cases N nfo u lower i : (0 < i)%nat -> div_shape u lower i -> coef u (i - 1) <> 0 ->
  (modulo_guard N nfo u lower i = Some (true, []) /\ forall w, match lower with None => target u (i - 1) w 0 mod Z.abs (coef u (i - 1)) = 0
                 | Some l => target u (i - 1) w (r_k u + r_k l) mod Z.abs (coef u (i - 1)) <= r_k u + r_k l end) \/
  modulo_guard N nfo u lower i = modulo_guard_constraint iter_name par_name N nfo u (match lower with Some _ => true | None => false end)
     (match lower with Some l => r_k u + r_k l | None => r_k u end) i.
Proof.
  intros H0 Hsh Hc. unfold ClastModel.modulo_guard. destruct (Z.eqb_spec (Z.abs (coef u (i - 1))) 1) as [E1|E1].
  { left. split; [reflexivity|]. intros w. destruct lower as [l|]; [destruct Hsh as (_ & _ & _ & _ & H5); lia|]. rewrite E1. apply Z.mod_1_r. }
  destruct lower as [l|].
  - destruct Hsh as (H1 & H2 & H3 & H4 & H5). destruct (Z.eqb_spec (coef l (i - 1) - 1) (r_k u + r_k l)) as [E2|E2].
    + left. split; [reflexivity|]. intros w. destruct (opposite_spec _ _ H3) as (_ & L6). rewrite L6 in E2. rewrite <- E2, Z.abs_neq by lia.
      pose proof (Z.mod_pos_bound (target u (i - 1) w (- coef u (i - 1) - 1)) (- coef u (i - 1)) ltac:(lia)). lia.
    + right. cbn [fold_right]. replace (r_k u + (r_k l + 0)) with (r_k u + r_k l) by lia. reflexivity.
  - right. cbn [fold_right]. replace (r_k u + 0) with (r_k u) by lia. reflexivity.
Qed.
Lemma div_guard rho n nd nfo (y pv : list Z) u lower i : List.length y = n -> (n < i <= n + nd)%nat -> coef u (i - 1) <> 0 -> div_shape u lower i ->
  (forall j, (n <= j < n + nd)%nat -> j <> (i - 1)%nat -> coef u j = 0) ->
  (forall j, coef u j <> 0 -> ~ (n <= j < n + nd)%nat -> eval rho (variable_expr (n + nd) (S j)) = Some (nth j (y ++ repeat 0 nd ++ pv) 0)) ->
  strides_all n nd nfo y pv ->
  exists sat fs b, modulo_guard (n + nd) nfo u lower i = Some (sat, fs) /\ opens fs rho b /\
    (sat && b = true <-> exists v, Forall (row_holds (y ++ set_nth (repeat 0 nd) (i - 1 - n) v ++ pv)) (the_rows u lower)).
Proof.
  intros Hy Hi Hc Hsh Hz K Hst. pose proof (rows_solve u lower y pv nd i) as RS. rewrite Hy in RS. specialize (RS Hi Hc Hsh). cbv zeta in RS. set (w := y ++ repeat 0 nd ++ pv) in *.
  destruct (guard_cases (n + nd) nfo u lower i ltac:(lia) Hsh Hc) as [(E & A)|E].
  - exists true, [], true. split; [exact E|]. split; [apply opens_nil|]. split; [|reflexivity]. intros _. apply RS. apply A.
  - assert (Hs : strides_hold w (List.combine (seq 1 (i - 1)) (firstn (i - 1) (i_strides nfo)))).
    { intros j s o Hj. apply (Hst j s o). revert Hj. apply combine_sub. lia. }
    assert (Hw0 : nth (i - 1) w 0 = 0). { unfold w. rewrite app_nth2 by lia. rewrite app_nth1 by (rewrite repeat_length; lia). apply repeat_nth. }
    assert (K' : forall j, j <> (i - 1)%nat -> coef u j <> 0 -> eval rho (variable_expr (n + nd) (S j)) = Some (nth j w 0)).
    { intros j Hj Hcj. apply K; [exact Hcj|]. intros Hr. apply Hcj. apply Hz; assumption. }
    destruct (modulo_constraint iter_name par_name rho (n + nd) nfo u (match lower with Some _ => true | None => false end)
     (match lower with Some l => r_k u + r_k l | None => r_k u end) (i - 1) w Hc Hw0 K' Hs) as (sat & fs & b & M1 & M2 & M3).
    { destruct lower as [l|]; [intros _; apply Hsh|discriminate]. }
    replace (S (i - 1)) with i in M1 by lia. exists sat, fs, b. split; [rewrite E; exact M1|]. split; [exact M2|]. rewrite M3, RS. destruct lower as [l|]; [tauto|].
    cbn in Hsh. unfold target. rewrite Hsh. tauto.
Qed.
Lemma div_sat n nd nfo (y q pv : list Z) u lower i sat fs : List.length y = n -> List.length q = nd -> (n < i <= n + nd)%nat -> coef u (i - 1) <> 0 -> div_shape u lower i ->
  (forall r, In r (the_rows u lower) -> forall j, (n <= j < n + nd)%nat -> j <> (i - 1)%nat -> coef r j = 0) ->
  strides_all n nd nfo y pv -> modulo_guard (n + nd) nfo u lower i = Some (sat, fs) -> Forall (row_holds (y ++ q ++ pv)) (the_rows u lower) -> sat = true.
Proof.
  intros Hy Hq Hi Hc Hsh Hz Hst Hm HF. pose proof (rows_solve u lower y pv nd i) as RS. rewrite Hy in RS. specialize (RS Hi Hc Hsh). cbv zeta in RS. set (w := y ++ repeat 0 nd ++ pv) in *.
  destruct (guard_cases (n + nd) nfo u lower i ltac:(lia) Hsh Hc) as [(E & A)|E]; [rewrite E in Hm; injection Hm as <- <-; reflexivity|]. rewrite E in Hm.
  assert (Hs : strides_hold w (List.combine (seq 1 (i - 1)) (firstn (i - 1) (i_strides nfo)))).
  { intros j s o Hj. apply (Hst j s o). revert Hj. apply combine_sub. lia. }
  assert (Hw0 : nth (i - 1) w 0 = 0). { unfold w. rewrite app_nth2 by lia. rewrite app_nth1 by (rewrite repeat_length; lia). apply repeat_nth. }
  assert (HV : exists v, Forall (row_holds (y ++ set_nth (repeat 0 nd) (i - 1 - n) v ++ pv)) (the_rows u lower)).
  { exists (nth (i - 1 - n) q 0). rewrite Forall_forall in *. intros r Hr. rewrite <- Hy. apply (one_div r y q pv nd i); [exact Hq|lia|rewrite Hy; apply Hz; exact Hr|apply HF; exact Hr]. }
  apply RS in HV. replace i with (S (i - 1)) in Hm by lia.
  apply (modulo_sat iter_name par_name (n + nd) nfo u (match lower with Some _ => true | None => false end) (match lower with Some l => r_k u + r_k l | None => r_k u end) (i - 1) w sat fs Hc Hw0 Hs Hm).
  destruct lower as [l|]; [exact HV|]. cbn in Hsh. unfold target in *. rewrite Hsh in *. exact HV.
Qed.

(** *** all existential dimensions *)
Lemma same_aff_spec r s : same_aff r s = true -> r_k r = r_k s /\ r_co r = r_co s.
Proof. unfold same_aff. intros H. apply andb_true_iff in H. destruct H as (A & B). apply Z.eqb_eq in A. destruct (list_eq_dec Z.eq_dec (r_co r) (r_co s)); [auto|discriminate]. Qed.
Lemma same_aff_self r : same_aff r r = true.
Proof. unfold same_aff. rewrite Z.eqb_refl. destruct (list_eq_dec Z.eq_dec (r_co r) (r_co r)); [reflexivity|contradiction]. Qed.
Definition dropped (u : row) (lower : option row) (r : row) : bool := same_aff r u || match lower with Some l => same_aff r l | None => false end.
Definition after (u : row) (lower : option row) (rows : list row) : list row := match lower with Some l => drop_row l (drop_row u rows) | None => drop_row u rows end.
Lemma after_filter u lower rows : after u lower rows = filter (fun r => negb (dropped u lower r)) rows.
Proof.
  unfold after, dropped, drop_row. destruct lower as [l|].
  - induction rows as [|r rows IH]; [reflexivity|]. cbn [filter]. destruct (same_aff r u) eqn:E1; cbn [negb orb].
    + exact IH.
    + cbn [filter]. destruct (same_aff r l) eqn:E2; cbn [negb]; [exact IH|rewrite IH; reflexivity].
  - apply filter_ext. intros r. rewrite orb_false_r. reflexivity.
Qed.
(** what the code finds for one existential dimension *)
Definition finds (N : nat) (rows : list row) (i : nat) : option (row * option row) :=
  match defining_equality N rows i with
  | Some u => Some (u, None)
  | None => match defining_inequalities N rows i with Some (u, l) => Some (u, Some l) | None => None end
  end.
Lemma extra_eq n nd nfo level i divs rows : extra_guards n nd nfo level (i :: divs) rows =
  match finds (n + nd) rows i with
  | None => extra_guards n nd nfo level divs rows
  | Some (u, lower) =>
      if own n level u then extra_guards n nd nfo level divs rows
      else if existsb (fun j => negb (j =? i - 1)%nat && involves u j) (seq n nd) then None
      else match modulo_guard (n + nd) nfo u lower i, extra_guards n nd nfo level divs (after u lower rows) with
           | Some (_, fs), Some (gs, rest) => Some (fs ++ gs, rest)
           | _, _ => None
           end
  end.
Proof.
  cbn [ClastModel.extra_guards]. unfold finds.
  assert (O : forall u (A B : option (list frame * list row)), (if (level =? 0)%nat || (n <? level)%nat || negb (involves u (level - 1)) then A else B) = if own n level u then B else A).
  { intros u A B. unfold own. rewrite Nat.ltb_antisym. destruct (level =? 0)%nat, (level <=? n)%nat, (involves u (level - 1)); reflexivity. }
  destruct (defining_equality (n + nd) rows i) as [u|]; [rewrite O; reflexivity|]. destruct (defining_inequalities (n + nd) rows i) as [[u l]|]; [rewrite O; reflexivity|reflexivity].
Qed.
Lemma finds_spec N rows i u lower : finds N rows i = Some (u, lower) ->
  incl (the_rows u lower) rows /\ coef u (i - 1) <> 0 /\ last_iterator N i u = true /\
  match lower with
  | None => r_eq u = true
  | Some l => r_eq u = false /\ r_eq l = false /\ opposite u l = true /\ coef u (i - 1) < -1 /\ forall r, In r rows -> r_eq r = true -> last_iterator N i r = false
  end.
Proof.
  unfold finds. destruct (defining_equality N rows i) as [u'|] eqn:E.
  - intros H. injection H as <- <-. unfold defining_equality in E. apply find_some in E. destruct E as (A & B). apply andb_true_iff in B. destruct B as (B & C).
    split; [intros r [<-|[]]; exact A|]. split; [unfold last_iterator in C; apply andb_true_iff in C; apply involves_ne; apply C|]. split; [exact C|exact B].
  - unfold defining_inequalities. destruct (find (fun p => defining_pair N i (fst p) (snd p)) (list_prod rows rows)) as [[u' l']|] eqn:F; [|discriminate].
    destruct (existsb _ rows); [discriminate|]. intros H. injection H as <- <-. apply find_some in F. destruct F as (A & B). cbn [fst snd] in B. apply in_prod_iff in A. destruct A as (A1 & A2).
    unfold defining_pair in B. rewrite !andb_true_iff in B. destruct B as (((((B1 & B2) & B3) & B4) & B5) & B6). apply negb_true_iff in B1, B2. apply Z.ltb_lt in B5.
    split; [intros r [<-|[<-|[]]]; assumption|]. split; [lia|]. split; [exact B3|]. split; [exact B1|]. split; [exact B2|]. split; [exact B4|]. split; [exact B5|].
    intros r Hr Hq. unfold defining_equality in E. apply find_none with (x := r) in E; [|exact Hr]. rewrite Hq in E. exact E.
Qed.
Lemma alone_spec n nd u i : existsb (fun j => negb (j =? i - 1)%nat && involves u j) (seq n nd) = false ->
  forall j, (n <= j < n + nd)%nat -> j <> (i - 1)%nat -> coef u j = 0.
Proof.
  intros H j Hj Hne. apply involves_not. destruct (involves u j) eqn:E; [|reflexivity]. exfalso.
  assert (X : existsb (fun j => negb (j =? i - 1)%nat && involves u j) (seq n nd) = true); [|congruence].
  apply existsb_exists. exists j. split; [apply in_seq; lia|]. rewrite E, andb_true_r. apply negb_true_iff, Nat.eqb_neq. exact Hne.
Qed.
(** coefficients of what is dropped *)
Lemma dropped_coef u lower r : (forall l, lower = Some l -> opposite u l = true) -> dropped u lower r = true -> (forall j, coef u j = 0 <-> coef r j = 0).
Proof.
  intros Hl H j. unfold dropped in H. apply orb_true_iff in H. destruct H as [H|H].
  - apply same_aff_spec in H. destruct H as (_ & E). unfold coef. rewrite E. tauto.
  - destruct lower as [l|]; [|discriminate]. apply same_aff_spec in H. destruct H as (_ & E). destruct (opposite_spec _ _ (Hl l eq_refl)) as (_ & O). specialize (O j). unfold coef in *. rewrite E. lia.
Qed.
Lemma own_coef n level r s : (forall j, coef r j = 0 <-> coef s j = 0) -> own n level r = own n level s.
Proof.
  intros H. unfold own. f_equal. unfold involves. specialize (H (level - 1)%nat). destruct (Z.eqb_spec (coef r (level - 1)) 0), (Z.eqb_spec (coef s (level - 1)) 0); try reflexivity; tauto.
Qed.
Lemma the_rows_dropped u lower r : In r (the_rows u lower) -> dropped u lower r = true.
Proof. unfold dropped. destruct lower as [l|]; intros [<-|H]; [rewrite same_aff_self; reflexivity|destruct H as [<-|[]]; rewrite same_aff_self; apply orb_true_r|rewrite same_aff_self; reflexivity|destruct H]. Qed.

Lemma extra_inv n nd nfo level : forall divs rows mods rows1, (forall i, In i divs -> (n < i <= n + nd)%nat) -> extra_guards n nd nfo level divs rows = Some (mods, rows1) ->
  exists f, rows1 = filter f rows /\
  forall r, In r rows -> f r = false -> own n level r = false /\ exists i, In i divs /\ coef r (i - 1) <> 0 /\ forall j, (n <= j < n + nd)%nat -> j <> (i - 1)%nat -> coef r j = 0.
Proof.
  induction divs as [|i divs IH]; intros rows mods rows1 HD H.
  - cbn in H. injection H as <- <-. exists (fun _ => true). split; [induction rows as [|r rows IHr]; cbn; [reflexivity|rewrite <- IHr; reflexivity]|discriminate].
  - rewrite extra_eq in H. assert (HD' : forall i, In i divs -> (n < i <= n + nd)%nat) by (intros j Hj; apply HD; right; exact Hj).
    assert (SKIP : extra_guards n nd nfo level divs rows = Some (mods, rows1) -> exists f, rows1 = filter f rows /\
      forall r, In r rows -> f r = false -> own n level r = false /\ exists j, In j (i :: divs) /\ coef r (j - 1) <> 0 /\ forall k, (n <= k < n + nd)%nat -> k <> (j - 1)%nat -> coef r k = 0).
    { intros H1. destruct (IH rows mods rows1 HD' H1) as (f & F1 & F2). exists f. split; [exact F1|]. intros r Hr Hf. destruct (F2 r Hr Hf) as (A & j & B & C & D). split; [exact A|]. exists j. split; [right; exact B|auto]. }
    destruct (finds (n + nd) rows i) as [[u lower]|] eqn:E; [|apply SKIP; exact H]. destruct (own n level u) eqn:Eo; [apply SKIP; exact H|].
    destruct (existsb (fun j => negb (j =? i - 1)%nat && involves u j) (seq n nd)) eqn:Ea; [discriminate|].
    destruct (modulo_guard (n + nd) nfo u lower i) as [[sat fs]|]; [|discriminate]. destruct (extra_guards n nd nfo level divs (after u lower rows)) as [[gs rest]|] eqn:Er; [|discriminate].
    injection H as <- <-. destruct (IH _ _ _ HD' Er) as (f & F1 & F2). apply finds_spec in E. destruct E as (E1 & E2 & E3 & E4).
    exists (fun r => negb (dropped u lower r) && f r). split.
    + rewrite F1, after_filter. clear. induction rows as [|r rows IHr]; [reflexivity|]. cbn [filter]. destruct (dropped u lower r); cbn [negb andb]; [exact IHr|]. cbn [filter]. destruct (f r); rewrite IHr; reflexivity.
    + intros r Hr Hf. assert (HC : dropped u lower r = true -> forall j, coef u j = 0 <-> coef r j = 0).
      { apply dropped_coef. intros l ->. apply E4. }
      destruct (dropped u lower r) eqn:Ed.
      * specialize (HC eq_refl). split; [rewrite <- (own_coef n level u r HC); exact Eo|]. exists i. split; [left; reflexivity|]. split; [rewrite <- HC; exact E2|].
        intros j Hj Hne. apply HC. apply (alone_spec n nd u i Ea); assumption.
      * cbn [negb andb] in Hf. destruct (F2 r) as (A & j & B & C & D); [rewrite after_filter; apply filter_In; rewrite Ed; auto|exact Hf|]. split; [exact A|]. exists j. split; [right; exact B|auto].
Qed.
Lemma filter_pair {A} (f g : A -> bool) rows : (forall r, In r rows -> f r = false -> g r = false) -> Forall (fun r => g r = true) (filter f rows) -> filter f rows = filter g rows.
Proof.
  induction rows as [|r rows IH]; intros H HF; [reflexivity|]. cbn [filter] in *. destruct (f r) eqn:E.
  - inversion HF as [|? ? G1 G2]; subst. rewrite G1. f_equal. apply IH; [intros r' Hr'; apply H; right; exact Hr'|exact G2].
  - rewrite (H r (or_introl eq_refl) E). apply IH; [intros r' Hr'; apply H; right; exact Hr'|exact HF].
Qed.
(** the constraints left are those without existential dimensions *)
Lemma extra_rows n nd nfo level divs rows mods rows1 : (forall i, In i divs -> (n < i <= n + nd)%nat) -> extra_guards n nd nfo level divs rows = Some (mods, rows1) ->
  existsb (has_div n nd) rows1 = false -> rows1 = filter (fun r => negb (has_div n nd r)) rows.
Proof.
  intros HD H HN. destruct (extra_inv n nd nfo level divs rows mods rows1 HD H) as (f & -> & F2). apply filter_pair.
  - intros r Hr Hf. destruct (F2 r Hr Hf) as (_ & i & Hi & Hc & _). apply negb_false_iff. destruct (has_div n nd r) eqn:E; [reflexivity|]. exfalso. apply Hc. apply (proj1 (has_div_not n nd r) E). specialize (HD i Hi). lia.
  - apply Forall_forall. intros r Hr. apply negb_true_iff. destruct (has_div n nd r) eqn:E; [|reflexivity]. exfalso.
    assert (existsb (has_div n nd) (filter f rows) = true) by (apply existsb_exists; exists r; auto). congruence.
Qed.
Lemma opens_app fs gs rho b c : opens fs rho b -> opens gs rho c -> opens (fs ++ gs) rho (b && c).
Proof. intros H1 H2 body. rewrite plug_app, H1. destruct b; [apply H2|reflexivity]. Qed.

Lemma extra_ok rho n nd nfo level (y pv : list Z) : List.length y = n -> strides_all n nd nfo y pv ->
  forall divs rows mods rows1, NoDup divs -> (forall i, In i divs -> (n < i <= n + nd)%nat) ->
  extra_guards n nd nfo level divs rows = Some (mods, rows1) -> existsb (has_div n nd) rows1 = false ->
  (forall r, In r rows -> own n level r = false -> forall j, coef r j <> 0 -> ~ (n <= j < n + nd)%nat -> eval rho (variable_expr (n + nd) (S j)) = Some (nth j (y ++ repeat 0 nd ++ pv) 0)) ->
  (exists y' q' pv', List.length y' = n /\ List.length q' = nd /\ strides_all n nd nfo y' pv' /\ Forall (fun r => own n level r = false -> row_holds (y' ++ q' ++ pv') r) rows) ->
  exists b, opens mods rho b /\
    ((exists q, List.length q = nd /\ forall r, In r rows -> has_div n nd r = true -> row_holds (y ++ q ++ pv) r) <-> b = true).
Proof.
  intros Hy Hst. induction divs as [|i divs IH]; intros rows mods rows1 HN HD H Hnd K W.
  - cbn in H. injection H as <- <-. exists true. split; [apply opens_nil|]. split; [reflexivity|]. intros _. exists (repeat 0 nd). split; [apply repeat_length|].
    intros r Hr Hd. exfalso. assert (existsb (has_div n nd) rows = true) by (apply existsb_exists; exists r; auto). congruence.
  - rewrite extra_eq in H. assert (HD' : forall i, In i divs -> (n < i <= n + nd)%nat) by (intros j Hj; apply HD; right; exact Hj). inversion HN as [|? ? Hni HN']; subst x l.
    destruct (finds (n + nd) rows i) as [[u lower]|] eqn:E; [|apply (IH rows mods rows1 HN' HD' H Hnd K W)]. destruct (own n level u) eqn:Eo; [apply (IH rows mods rows1 HN' HD' H Hnd K W)|].
    destruct (existsb (fun j => negb (j =? i - 1)%nat && involves u j) (seq n nd)) eqn:Ea; [discriminate|]. pose proof (alone_spec n nd u i Ea) as Hz.
    destruct (modulo_guard (n + nd) nfo u lower i) as [[sat fs]|] eqn:Em; [|discriminate]. destruct (extra_guards n nd nfo level divs (after u lower rows)) as [[gs rest]|] eqn:Er; [|discriminate].
    injection H as <- <-. pose proof (finds_spec _ _ _ _ _ E) as FS. destruct FS as (E1 & E2 & E3 & E4). specialize (HD i (or_introl eq_refl)).
    assert (HC : forall r, dropped u lower r = true -> forall j, coef u j = 0 <-> coef r j = 0).
    { intros r. apply dropped_coef. intros l ->. apply E4. }
    destruct W as (y' & q' & pv' & W1 & W2 & W3 & W4).
    assert (HW : Forall (row_holds (y' ++ q' ++ pv')) (the_rows u lower)).
    { rewrite Forall_forall in *. intros r Hr. apply W4; [apply E1; exact Hr|]. rewrite <- (own_coef n level u r); [exact Eo|]. apply HC. apply the_rows_dropped. exact Hr. }
    assert (Hsh : div_shape u lower i).
    { unfold div_shape. destruct lower as [l|]; [|exact E4]. destruct E4 as (A & B & C & D & _). split; [exact A|]. split; [exact B|]. split; [exact C|]. split; [|exact D].
      cbn [the_rows] in HW. inversion HW as [|? ? X1 X2]; subst. inversion X2 as [|? ? X3 _]; subst. unfold row_holds in X1, X3. rewrite A in X1. rewrite B in X3.
      set (w := y' ++ q' ++ pv') in *. pose proof (row_rest u (i - 1) w) as R1. pose proof (row_rest l (i - 1) w) as R2. pose proof (opposite_rest u l (i - 1) w C) as R3. destruct (opposite_spec _ _ C) as (_ & O). specialize (O (i - 1)%nat). nia. }
    assert (Hza : forall r, In r (the_rows u lower) -> forall j, (n <= j < n + nd)%nat -> j <> (i - 1)%nat -> coef r j = 0).
    { intros r Hr j Hj Hne. apply (HC r (the_rows_dropped u lower r Hr)). apply Hz; assumption. }
    assert (Hsat : sat = true) by (apply (div_sat n nd nfo y' q' pv' u lower i sat fs W1 W2 HD E2 Hsh Hza W3 Em HW)). subst sat.
    destruct (div_guard rho n nd nfo y pv u lower i Hy HD E2 Hsh Hz) as (sat' & fs' & b1 & G1 & G2 & G3); [|exact Hst|].
    { apply K; [apply E1; left; reflexivity|exact Eo]. }
    rewrite Em in G1. injection G1 as <- <-. cbn [andb] in G3.
    assert (Hsub : incl (after u lower rows) rows) by (rewrite after_filter; intros r Hr; apply filter_In in Hr; apply Hr).
    destruct (IH (after u lower rows) gs rest HN' HD' Er Hnd) as (b2 & B1 & B2).
    { intros r Hr. apply K. apply Hsub. exact Hr. }
    { exists y', q', pv'. split; [exact W1|]. split; [exact W2|]. split; [exact W3|]. rewrite Forall_forall in *. intros r Hr. apply W4. apply Hsub. exact Hr. }
    exists (b1 && b2). split; [apply opens_app; assumption|].
    assert (Hfree : forall r, In r (after u lower rows) -> coef r (i - 1) = 0).
    { intros r Hr. destruct (extra_inv n nd nfo level divs (after u lower rows) gs rest HD' Er) as (f & F1 & F2). destruct (f r) eqn:Ef.
      - assert (Hin : In r rest) by (rewrite F1; apply filter_In; auto). assert (Hr0 : has_div n nd r = false) by (destruct (has_div n nd r) eqn:Eh; [|reflexivity]; rewrite <- Hnd; symmetry; apply existsb_exists; exists r; auto).
        apply (proj1 (has_div_not n nd r) Hr0). lia.
      - destruct (F2 r Hr Ef) as (_ & j & Hj & _ & Hj2). apply Hj2; [lia|]. intros Eij. apply Hni. specialize (HD' j Hj). replace i with j by lia. exact Hj. }
    assert (Hhd : forall r, In r (the_rows u lower) -> has_div n nd r = true).
    { intros r Hr. destruct (has_div n nd r) eqn:Eh; [reflexivity|]. exfalso. apply E2. apply (HC r (the_rows_dropped u lower r Hr)). apply (proj1 (has_div_not n nd r) Eh). lia. }
    rewrite andb_true_iff, <- B2, G3. split.
    + intros (q & Hq & HF). split; [|exists q; split; [exact Hq|]; intros r Hr; apply HF, Hsub; exact Hr].
      exists (nth (i - 1 - n) q 0). rewrite Forall_forall in *. intros r Hr. rewrite <- Hy. apply (one_div r y q pv nd i); [exact Hq|lia|rewrite Hy; apply Hza; exact Hr|apply HF; [apply E1; exact Hr|apply Hhd; exact Hr]].
    + intros ((v & Hv) & (q & Hq & HF)). exists (set_nth q (i - 1 - n) v). split; [rewrite set_nth_length; exact Hq|]. rewrite Forall_forall in *. intros r Hr Hdr.
      assert (HU : forall r, In r (the_rows u lower) -> row_holds (y ++ set_nth q (i - 1 - n) v ++ pv) r).
      { intros r' Hr'. rewrite <- Hy. apply (one_div r' y (set_nth q (i - 1 - List.length y) v) pv nd i); [rewrite set_nth_length; exact Hq|lia|rewrite Hy; apply Hza; exact Hr'|].
        rewrite (set_nth_nth 0 v) by lia. rewrite Nat.eqb_refl, Hy. apply Hv. exact Hr'. }
      destruct (dropped u lower r) eqn:Ed.
      * unfold dropped in Ed. apply orb_true_iff in Ed. destruct Ed as [Ed|Ed].
        -- pose proof (HU u (or_introl eq_refl)) as Hu. apply same_aff_spec in Ed. destruct Ed as (D1 & D2). unfold row_holds, row_val in *. rewrite D1, D2. destruct (r_eq r) eqn:Er1; destruct (r_eq u) eqn:Eu1; try exact Hu; [|lia].
           exfalso. destruct lower as [l|]; [|cbn in Hsh; congruence]. destruct E4 as (_ & _ & _ & _ & E5). specialize (E5 r Hr Er1).
           unfold last_iterator, involves, coef in E3, E5. rewrite D2 in E5. congruence.
        -- destruct lower as [l|]; [|discriminate]. pose proof (HU l (or_intror (or_introl eq_refl))) as Hl. destruct E4 as (A & B & C & _ & E5). apply same_aff_spec in Ed. destruct Ed as (D1 & D2). unfold row_holds, row_val in *. rewrite B in Hl. rewrite D1, D2.
           destruct (r_eq r) eqn:Er1; [|exact Hl]. exfalso. specialize (E5 r Hr Er1). destruct (opposite_spec _ _ C) as (_ & O).
           assert (EQ : last_iterator (n + nd) i r = last_iterator (n + nd) i u); [|congruence].
           assert (EI : forall j, involves r j = involves u j). { intros j. unfold involves. specialize (O j). unfold coef in *. rewrite D2. destruct (Z.eqb_spec (nth j (r_co l) 0) 0), (Z.eqb_spec (nth j (r_co u) 0) 0); try reflexivity; lia. }
           unfold last_iterator. rewrite EI. f_equal. induction (seq i (n + nd - i)) as [|j s IHs]; [reflexivity|]. cbn [forallb]. rewrite EI, IHs. reflexivity.
      * apply (no_div_any r y q (set_nth q (i - 1 - n) v) pv); [rewrite set_nth_length; reflexivity| |apply HF; [rewrite after_filter; apply filter_In; rewrite Ed; auto|exact Hdr]].
        intros j Hj Hne. destruct (Nat.eq_dec (j - List.length y) (i - 1 - n)) as [Ej|Ej].
        -- replace j with (i - 1)%nat by lia. apply Hfree. rewrite after_filter. apply filter_In. rewrite Ed. auto.
        -- exfalso. apply Hne. rewrite (set_nth_nth 0 v) by lia. destruct (Nat.eqb_spec (j - List.length y) (i - 1 - n)); [contradiction|reflexivity].
Qed.

(** *** insert_guard as a whole *)
Variable sort_exprs : list expr -> list expr.
Variable sort_eqns : list eqn -> list eqn.
Hypothesis sort_exprs_perm : forall l, Permutation l (sort_exprs l).
Hypothesis sort_eqns_perm : forall l, Permutation l (sort_eqns l).
Notation insert_guards := (insert_guards iter_name par_name sort_exprs sort_eqns).

(** what the constraints with existential dimensions say *)
Definition remainders (n nd : nat) (rows : list row) (y pv : list Z) : Prop :=
  exists q, List.length q = nd /\ forall r, In r rows -> has_div n nd r = true -> row_holds (y ++ q ++ pv) r.
Lemma plain_in n np rows s : In s (plain_rows n np rows) <-> exists r, In r rows /\ has_div n (n_divs n np rows) r = false /\ s = without_divs n (n_divs n np rows) r.
Proof.
  unfold plain_rows. rewrite in_map_iff. split.
  - intros (r & <- & H). apply filter_In in H. destruct H as (A & B). apply negb_true_iff in B. exists r. auto.
  - intros (r & A & B & ->). exists r. split; [reflexivity|]. apply filter_In. rewrite B. auto.
Qed.
Lemma describe_split n np rows (y pv : list Z) : let nd := n_divs n np rows in List.length y = n ->
  Forall (fun r => List.length (r_co r) = n + nd + np)%nat rows ->
  ((exists q, List.length q = nd /\ Forall (row_holds (y ++ q ++ pv)) rows) <-> remainders n nd rows y pv /\ Forall (row_holds (y ++ pv)) (plain_rows n np rows)).
Proof.
  intros nd Hy Hl. rewrite Forall_forall in Hl. split.
  - intros (q & Hq & HF). rewrite Forall_forall in HF. split; [exists q; split; [exact Hq|]; intros r Hr _; apply HF; exact Hr|]. apply Forall_forall. intros s Hs. apply plain_in in Hs. destruct Hs as (r & A & B & ->). fold nd.
    apply (without_holds n nd y pv r Hy) with (q := q); [rewrite (Hl r A); lia|exact B|exact Hq|apply HF; exact A].
  - intros ((q & Hq & HR) & HF). exists q. split; [exact Hq|]. rewrite Forall_forall in *. intros r Hr. destruct (has_div n nd r) eqn:E; [apply HR; assumption|].
    apply (without_holds n nd y pv r Hy); [rewrite (Hl r Hr); lia|exact E|exact Hq|]. apply HF. apply plain_in. exists r. auto.
Qed.
Lemma without_own n nd level r : (n + nd <= List.length (r_co r))%nat -> own n level (without_divs n nd r) = own n level r.
Proof.
  intros H. unfold own. destruct (Nat.eqb_spec level 0); [reflexivity|]. destruct (Nat.leb_spec level n); [|reflexivity]. cbn [negb andb]. unfold involves. rewrite without_coef by exact H.
  destruct (Nat.ltb_spec (level - 1) n); [reflexivity|lia].
Qed.
Lemma divs_range n nd i : In i (rev (seq (S n) nd)) -> (n < i <= n + nd)%nat.
Proof. intros H. apply in_rev in H. apply in_seq in H. lia. Qed.
Lemma divs_nodup n nd : NoDup (rev (seq (S n) nd)).
Proof. apply NoDup_rev, seq_NoDup. Qed.
(** constraints with existential dimensions do not involve the loop's own iterator *)
Lemma guards_own n np nfo level rows guard : insert_guards n np nfo rows level = Some guard ->
  forall r, In r rows -> has_div n (n_divs n np rows) r = true -> own n level r = false.
Proof.
  unfold ClastModel.insert_guards. set (nd := n_divs n np rows). destruct (extra_guards n nd nfo level (rev (seq (S n) nd)) rows) as [[mods rows1]|] eqn:E; [|discriminate].
  destruct (existsb (has_div n nd) rows1) eqn:En; [discriminate|]. intros _ r Hr Hd. destruct (extra_inv n nd nfo level _ rows mods rows1 (divs_range n nd) E) as (f & F1 & F2).
  destruct (f r) eqn:Ef; [|apply (F2 r Hr Ef)]. exfalso. assert (existsb (has_div n nd) rows1 = true); [|congruence]. apply existsb_exists. exists r. split; [rewrite F1; apply filter_In; auto|exact Hd].
Qed.
Lemma guards_ok rho n np nfo level rows (y pv : list Z) guard : let nd := n_divs n np rows in List.length y = n ->
  insert_guards n np nfo rows level = Some guard ->
  Forall (fun r => List.length (r_co r) = n + nd + np)%nat rows -> Forall (fun r => exists i, involves r i = true) (plain_rows n np rows) ->
  (forall r, In r rows -> own n level r = false -> forall j, coef r j <> 0 -> ~ (n <= j < n + nd)%nat -> eval rho (variable_expr (n + nd) (S j)) = Some (nth j (y ++ repeat 0 nd ++ pv) 0)) ->
  (nd <> 0%nat -> strides_all n nd nfo y pv /\
   exists y' q' pv', List.length y' = n /\ List.length q' = nd /\ strides_all n nd nfo y' pv' /\ Forall (fun r => own n level r = false -> row_holds (y' ++ q' ++ pv') r) rows) ->
  exists b, opens guard rho b /\
    (b = true <-> remainders n nd rows y pv /\ Forall (fun r => own n level r = false -> row_holds (y ++ pv) r) (plain_rows n np rows)).
Proof.
  intros nd Hy Hg Hl Hv K W. unfold ClastModel.insert_guards in Hg. fold nd in Hg. destruct (extra_guards n nd nfo level (rev (seq (S n) nd)) rows) as [[mods rows1]|] eqn:E; [|discriminate].
  destruct (existsb (has_div n nd) rows1) eqn:En; [discriminate|]. injection Hg as <-.
  assert (HM : exists b1, opens mods rho b1 /\ (remainders n nd rows y pv <-> b1 = true)).
  { destruct (Nat.eq_dec nd 0) as [E0|E0].
    - rewrite E0 in E. cbn in E. injection E as <- <-. exists true. split; [apply opens_nil|]. split; [reflexivity|]. intros _. exists []. split; [cbn; lia|]. intros r _ Hd. rewrite E0 in Hd. discriminate.
    - destruct (W E0) as (W1 & W2). apply (extra_ok rho n nd nfo level y pv Hy W1 (rev (seq (S n) nd)) rows mods rows1 (divs_nodup n nd) (divs_range n nd) E En K W2). }
  destruct HM as (b1 & O1 & HM). rewrite (extra_rows n nd nfo level _ rows mods rows1 (divs_range n nd) E En). fold (plain_rows n np rows).
  change (map (without_divs n nd) (filter (fun r => negb (has_div n nd r)) rows)) with (plain_rows n np rows).
  rewrite Forall_forall in Hl.
  assert (Hinf : informed iter_name par_name rho n level (plain_rows n np rows) (y ++ pv)).
  { intros s Hs Ho j Hc. apply plain_in in Hs. destruct Hs as (r & A & B & ->). fold nd in Ho, Hc, B. assert (Hlr : (n + nd <= List.length (r_co r))%nat) by (rewrite (Hl r A); lia).
    rewrite without_own in Ho by exact Hlr. rewrite without_coef in Hc by exact Hlr. specialize (K r A Ho). unfold ClastModel.variable_expr in *. destruct (Nat.ltb_spec j n) as [G|G].
    - specialize (K j Hc ltac:(lia)). destruct (Nat.leb_spec (S j) (n + nd)); [|lia]. destruct (Nat.leb_spec (S j) n); [|lia]. rewrite app_nth1 by lia. rewrite app_nth1 in K by lia. exact K.
    - specialize (K (j + nd)%nat Hc ltac:(lia)). destruct (Nat.leb_spec (S (j + nd)) (n + nd)); [lia|]. destruct (Nat.leb_spec (S j) n); [lia|]. replace (S (j + nd) - (n + nd) - 1)%nat with (S j - n - 1)%nat in K by lia.
      rewrite K. f_equal. rewrite app_nth2 by lia. rewrite app_nth2 by (rewrite repeat_length; lia). rewrite app_nth2 by lia. rewrite repeat_length. f_equal. lia. }
  assert (Hlv : Forall (fun r => (List.length (r_co r) <= n + np)%nat /\ exists i, involves r i = true) (plain_rows n np rows)).
  { rewrite Forall_forall in *. intros s Hs. split; [|apply Hv; exact Hs]. apply plain_in in Hs. destruct Hs as (r & A & B & ->). unfold without_divs. cbn [r_co]. fold nd. rewrite app_length, firstn_length, skipn_length, (Hl r A). lia. }
  assert (HX : forall body, _) by (intros body; exact (exec_guard iter_name par_name sort_exprs sort_eqns sort_exprs_perm sort_eqns_perm rho n np (plain_rows n np rows) level (y ++ pv) body Hinf Hlv)). cbv beta in HX.
  assert (HG : exists b2, opens (insert_guard iter_name par_name sort_exprs sort_eqns n np (plain_rows n np rows) level) rho b2 /\ (b2 = true <-> Forall (fun r => own n level r = false -> row_holds (y ++ pv) r) (plain_rows n np rows))).
  { destruct (HX []) as [(G & _)|(G & _)]; [exists true|exists false].
    - split; [|tauto]. intros body. destruct (HX body) as [(_ & X)|(G' & _)]; [exact X|contradiction].
    - split; [|split; [discriminate|contradiction]]. intros body. destruct (HX body) as [(G' & _)|(_ & X)]; [contradiction|exact X]. }
  destruct HG as (b2 & O2 & HG). exists (b1 && b2). split; [apply opens_app; assumption|]. rewrite andb_true_iff, HM, HG. tauto.
Qed.
(** without existential dimensions nothing changes *)
Lemma plain_same n np rows : Forall (fun r => List.length (r_co r) = n + np)%nat rows -> n_divs n np rows = 0%nat /\ plain_rows n np rows = rows.
Proof.
  intros H. assert (E : n_divs n np rows = 0%nat) by (destruct rows as [|r rows]; [reflexivity|]; inversion H as [|? ? A _]; subst; unfold n_divs; lia). split; [exact E|].
  unfold plain_rows. rewrite E. unfold has_div. cbn [seq existsb negb]. rewrite Forall_forall in H. clear E. induction rows as [|r rows IH]; [reflexivity|]. cbn [filter map]. rewrite IH by (intros s Hs; apply H; right; exact Hs). f_equal.
  unfold without_divs. rewrite Nat.add_0_r, firstn_skipn. destruct r; reflexivity.
Qed.
Lemma guards_same n np nfo rows level : Forall (fun r => List.length (r_co r) = n + np)%nat rows ->
  insert_guards n np nfo rows level = Some (insert_guard iter_name par_name sort_exprs sort_eqns n np rows level).
Proof.
  intros H. destruct (plain_same n np rows H) as (E & EP). unfold ClastModel.insert_guards. rewrite E. cbn [seq rev ClastModel.extra_guards].
  assert (EN : existsb (has_div n 0) rows = false). { clear. induction rows as [|r rows IH]; [reflexivity|]. cbn [existsb]. rewrite IH. reflexivity. }
  rewrite EN. cbn [app]. do 2 f_equal. rewrite <- EP at 2. unfold plain_rows. rewrite E. f_equal. clear. induction rows as [|r rows IH]; [reflexivity|]. cbn [filter]. unfold has_div at 1. cbn [seq existsb negb]. rewrite <- IH. reflexivity.
Qed.
(** what the guards of a loop are made of *)
Lemma extra_shape n nd nfo level : forall divs rows mods rows1, (forall i, In i divs -> (n < i <= n + nd)%nat) -> extra_guards n nd nfo level divs rows = Some (mods, rows1) ->
  forall f, In f mods -> exists u lower i sat fs, In u rows /\ (n < i <= n + nd)%nat /\ coef u (i - 1) <> 0 /\ (lower = None \/ r_eq u = false) /\
    (forall j, (n <= j < n + nd)%nat -> j <> (i - 1)%nat -> coef u j = 0) /\ modulo_guard (n + nd) nfo u lower i = Some (sat, fs) /\ In f fs.
Proof.
  induction divs as [|i divs IH]; intros rows mods rows1 HD H f Hf.
  - cbn in H. injection H as <- <-. destruct Hf.
  - rewrite extra_eq in H. assert (HD' : forall j, In j divs -> (n < j <= n + nd)%nat) by (intros j Hj; apply HD; right; exact Hj).
    destruct (finds (n + nd) rows i) as [[u lower]|] eqn:E; [|apply (IH rows mods rows1 HD' H f Hf)]. destruct (own n level u); [apply (IH rows mods rows1 HD' H f Hf)|].
    destruct (existsb (fun j => negb (j =? i - 1)%nat && involves u j) (seq n nd)) eqn:Ea; [discriminate|].
    destruct (modulo_guard (n + nd) nfo u lower i) as [[sat fs]|] eqn:Em; [|discriminate]. destruct (extra_guards n nd nfo level divs (after u lower rows)) as [[gs rest]|] eqn:Er; [|discriminate].
    injection H as <- <-. apply in_app_or in Hf. destruct Hf as [Hf|Hf].
    + destruct (finds_spec _ _ _ _ _ E) as (A & B & _ & C). exists u, lower, i, sat, fs. split; [apply A; unfold the_rows; destruct lower; left; reflexivity|]. split; [apply HD; left; reflexivity|]. split; [exact B|].
      split; [destruct lower; [right; apply C|left; reflexivity]|]. split; [apply alone_spec; exact Ea|]. split; [exact Em|exact Hf].
    + destruct (IH _ _ _ HD' Er f Hf) as (u' & lower' & i' & sat' & fs' & A & B). exists u', lower', i', sat', fs'. split; [|exact B]. rewrite after_filter in A. apply filter_In in A. apply A.
Qed.
Lemma guards_shape n np nfo level rows guard : let nd := n_divs n np rows in insert_guards n np nfo rows level = Some guard ->
  exists mods, guard = mods ++ insert_guard iter_name par_name sort_exprs sort_eqns n np (plain_rows n np rows) level /\
  forall f, In f mods -> exists u lower i sat fs, In u rows /\ (n < i <= n + nd)%nat /\ coef u (i - 1) <> 0 /\ (lower = None \/ r_eq u = false) /\
    (forall j, (n <= j < n + nd)%nat -> j <> (i - 1)%nat -> coef u j = 0) /\ modulo_guard (n + nd) nfo u lower i = Some (sat, fs) /\ In f fs.
Proof.
  intros nd Hg. unfold ClastModel.insert_guards in Hg. fold nd in Hg. destruct (extra_guards n nd nfo level (rev (seq (S n) nd)) rows) as [[mods rows1]|] eqn:E; [|discriminate].
  destruct (existsb (has_div n nd) rows1) eqn:En; [discriminate|]. injection Hg as <-. exists mods. split.
  - rewrite (extra_rows n nd nfo level _ rows mods rows1 (divs_range n nd) E En). reflexivity.
  - apply (extra_shape n nd nfo level _ rows mods rows1 (divs_range n nd) E).
Qed.
Lemma plain_len n np rows : Forall (fun r => List.length (r_co r) = n + n_divs n np rows + np)%nat rows -> Forall (fun r => List.length (r_co r) = n + np)%nat (plain_rows n np rows).
Proof.
  intros H. rewrite Forall_forall in *. intros s Hs. apply plain_in in Hs. destruct Hs as (r & A & _ & ->). cbn [without_divs r_co]. rewrite app_length, firstn_length, skipn_length, (H r A). lia.
Qed.
End Divs.
