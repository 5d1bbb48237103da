(** cloog_clast_create comes to an end: none of its assertions fails. *)
From Coq Require Import ZArith List Bool Arith String Sorted Permutation Lia.
From Verif Require Import LoopModel LoopSpec LoopCount ClastModel ClastSpec ClastBounds ClastGuards ClastModulo ClastHeader ClastDivs ClastMain ClastCmp.
Import ListNotations.
Local Open Scope Z_scope.
Local Arguments Nat.ltb : simpl never. Local Arguments Nat.leb : simpl never. Local Arguments Nat.eqb : simpl never. Local Arguments Nat.sub : simpl never.
Local Arguments Z.mul : simpl never. Local Arguments Z.add : simpl never. Local Arguments Z.modulo : simpl never.

(** an assignment of values to names *)
Definition find_index {A} (f : A -> bool) : list A -> option nat :=
  fix go l := match l with [] => None | a :: l' => if f a then Some 0%nat else match go l' with Some i => Some (S i) | None => None end end.
Lemma find_index_nth (l : list string) : NoDup l -> forall i d, (i < List.length l)%nat -> find_index (String.eqb (nth i l d)) l = Some i.
Proof.
  induction 1 as [|a l Ha Hl IH]; intros i d Hi; [cbn in Hi; lia|]. destruct i as [|i]; cbn [nth find_index].
  - rewrite String.eqb_refl. reflexivity.
  - cbn in Hi. destruct (String.eqb_spec (nth i l d) a) as [E|E]; [exfalso; apply Ha; rewrite <- E; apply nth_In; lia|]. rewrite IH by lia. reflexivity.
Qed.

Lemma nodup_two {A} (a b : list A) : NoDup a -> NoDup b -> (forall s, In s a -> In s b -> False) -> NoDup (a ++ b).
Proof.
  induction 1 as [|x a Hx Ha IH]; intros Hb Hd; [exact Hb|]. cbn. constructor; [|apply IH; [exact Hb|intros s H1 H2; apply (Hd s); [right; exact H1|exact H2]]].
  rewrite in_app_iff. intros [H|H]; [contradiction|]. apply (Hd x); [left; reflexivity|exact H].
Qed.

Section Returns.
Variable iter_name : nat -> string.
Variable par_name : nat -> string.
Variable sort_exprs : list expr -> list expr.
Variable sort_eqns : list eqn -> list eqn.
Variable reduce : list (option (eqtype * row)) -> list row -> nat -> list row.
Variable P : Poly.
Variable Se : Sem P.
Variable rows_of : dom P -> list row.
Variable pv : list Z.
Variable o : copts.
Variable ns : nat.
Notation np := (List.length pv).
Hypothesis sort_exprs_perm : forall l, Permutation l (sort_exprs l).
Hypothesis sort_eqns_perm : forall l, Permutation l (sort_eqns l).
Hypothesis iter_inj : forall i j, iter_name (S i) = iter_name (S j) -> i = j.
Hypothesis iter_par : forall i j, (j < np)%nat -> iter_name (S i) <> par_name j.
Hypothesis par_inj : forall i j, (i < np)%nat -> (j < np)%nat -> par_name i = par_name j -> i = j.
Hypothesis reduce_ok : reduce_keeps reduce.
Notation variable_expr := (variable_expr iter_name par_name).
Notation minmax := (minmax iter_name par_name sort_exprs).
Notation flat := (flat_rows P rows_of np).
Notation insert_loops := (insert_loops iter_name par_name sort_exprs sort_eqns reduce P rows_of).
Notation insert_loop := (insert_loop iter_name par_name sort_exprs sort_eqns reduce P rows_of).
Notation insert_for := (insert_for iter_name par_name sort_exprs).
Notation insert_equation := (insert_equation iter_name par_name reduce).
Notation insert_guards := (insert_guards iter_name par_name sort_exprs sort_eqns).
Notation extra_guards := (extra_guards iter_name par_name).

Lemma env_exists (x p : list Z) : List.length p = np -> exists rho : env,
  (forall i, (i < List.length x)%nat -> rho (iter_name (S i)) = Some (nth i x 0)) /\
  (forall i, (i < np)%nat -> rho (par_name i) = Some (nth i p 0)).
Proof.
  intros Hp. set (names := map (fun i => iter_name (S i)) (seq 0 (List.length x)) ++ map par_name (seq 0 np)).
  assert (ND : NoDup names).
  { apply nodup_two.
    - apply FinFun.Injective_map_NoDup; [intros i j; apply iter_inj|apply seq_NoDup].
    - assert (G : forall l, (forall i, In i l -> (i < np)%nat) -> NoDup l -> NoDup (map par_name l)).
      { induction l as [|i l IH]; intros H N; [constructor|]. inversion N; subst. cbn [map]. constructor; [|apply IH; [intros; apply H; right; assumption|assumption]].
        intros Hi. apply in_map_iff in Hi. destruct Hi as (j & E & Hj). apply par_inj in E; [subst; contradiction|apply H; right; exact Hj|apply H; left; reflexivity]. }
      apply G; [intros i Hi; apply in_seq in Hi; lia|apply seq_NoDup].
    - intros s H1 H2. apply in_map_iff in H1, H2. destruct H1 as (i & <- & _), H2 as (j & E & Hj). apply in_seq in Hj. symmetry in E. revert E. apply iter_par. lia. }
  exists (fun s => match find_index (String.eqb s) names with Some i => Some (nth i (x ++ p) 0) | None => None end).
  assert (LN : List.length names = (List.length x + np)%nat) by (unfold names; rewrite app_length, !map_length, !seq_length; reflexivity). split.
  - intros i Hi. assert (E : iter_name (S i) = nth i names EmptyString). { unfold names. rewrite app_nth1 by (rewrite map_length, seq_length; exact Hi). set (f := fun i => iter_name (S i)). rewrite nth_indep with (d' := f 0%nat) by (rewrite map_length, seq_length; exact Hi). rewrite map_nth, seq_nth by exact Hi. reflexivity. }
    rewrite E, find_index_nth by (try assumption; lia). rewrite app_nth1 by exact Hi. reflexivity.
  - intros i Hi. assert (E : par_name i = nth (List.length x + i) names EmptyString).
    { unfold names. rewrite app_nth2 by (rewrite map_length, seq_length; lia). rewrite map_length, seq_length. replace (List.length x + i - List.length x)%nat with i by lia. rewrite nth_indep with (d' := par_name 0%nat) by (rewrite map_length, seq_length; exact Hi). rewrite map_nth, seq_nth by exact Hi. reflexivity. }
    rewrite E, find_index_nth by (try assumption; lia). rewrite app_nth2 by lia. replace (List.length x + i - List.length x)%nat with i by lia. reflexivity.
Qed.

(** *** modulo guards *)
Lemma constraint_returns N nfo c lower bound level : coef c (level - 1) <> 0 ->
  exists r, modulo_guard_constraint iter_name par_name N nfo c lower bound level = Some r.
Proof.
  intros Hc. unfold modulo_guard_constraint. set (co := if 0 <? coef c (level - 1) then map Z.opp (r_co c) else r_co c).
  assert (Hm : 0 < - nth (level - 1) co 0). { unfold co. destruct (Z.ltb_spec 0 (coef c (level - 1))) as [G|G]; [rewrite nth_map_opp|]; fold (coef c (level - 1)); lia. }
  cbv zeta. destruct (Z.leb_spec (- nth (level - 1) co 0) 0) as [G|G]; [lia|]. destruct (_ && _); [eexists; reflexivity|]. destruct (fold_left _ _ _) as [co2 k2]. destruct (flat_map _ _); eexists; reflexivity.
Qed.
Lemma modulo_returns red N nfo u lower n : reduce_keeps red -> guard_rows n (the_rows u lower) ->
  exists r, modulo_guard iter_name par_name red N nfo u lower (S n) = Some r.
Proof.
  intros HR HG. unfold ClastModel.modulo_guard. rewrite Nat.sub_succ, Nat.sub_0_r. destruct (Z.abs (coef u n) =? 1); [eexists; reflexivity|].
  destruct (match lower with Some l => _ | None => false end); [eexists; reflexivity|]. fold (the_rows u lower).
  specialize (HR (firstn n (i_eqs nfo)) (the_rows u lower) n HG). destruct (red (firstn n (i_eqs nfo)) (the_rows u lower) (S n)) as [|c cs] eqn:E; [eexists; reflexivity|].
  destruct HR as [HR|HR]; [discriminate|]. apply constraint_returns. rewrite Nat.sub_succ, Nat.sub_0_r. apply involves_ne. unfold guard_rows in HR. destruct cs as [|c' [|]]; [apply HR|apply HR|destruct HR].
Qed.

(** *** conditions *)
Lemma simple_filter n nd level rows u lower i : simple_rows n nd level rows -> finds (n + nd) rows i = Some (u, lower) -> (n < i <= n + nd)%nat ->
  simple_rows n nd level (after u lower rows) /\ forall t, In t (after u lower rows) -> coef t (i - 1) = 0.
Proof.
  intros Hs F Hi. destruct (finds_spec _ _ _ _ _ F) as (F1 & F2 & F3 & F4). assert (Hu : In u rows) by (apply F1; left; reflexivity).
  assert (Iu : involves u (i - 1) = true) by (unfold involves; apply negb_true_iff, Z.eqb_neq; exact F2).
  destruct (Hs u (i - 1)%nat Hu ltac:(lia) Iu) as (S2 & S3 & S4).
  assert (Hl : forall t, In t (after u lower rows) -> In t rows /\ dropped u lower t = false) by (intros t Ht; rewrite after_filter in Ht; apply filter_In in Ht; destruct Ht as (A & B); apply negb_true_iff in B; auto).
  assert (G : forall t, In t (after u lower rows) -> coef t (i - 1) = 0).
  { intros t Ht. destruct (Hl t Ht) as (T1 & T2). destruct (involves t (i - 1)) eqn:It; [|apply involves_not; exact It]. exfalso. destruct S4 as [(Q1 & Q2)|(Q1 & s & Q2 & Q3 & Q4 & Q5 & Q6 & Q7)].
    - rewrite (Q2 t T1 It) in T2. unfold dropped in T2. rewrite same_aff_self in T2. discriminate.
    - destruct lower as [l|]; [|congruence]. destruct F4 as (_ & _ & F4 & F5 & _).
      assert (Il : involves l (i - 1) = true) by (destruct (opposite_spec _ _ F4) as (_ & O); unfold involves in *; rewrite O; apply negb_true_iff, Z.eqb_neq; lia).
      assert (l = s). { destruct (Q7 l (F1 l (or_intror (or_introl eq_refl))) Il) as [-> | ->]; [|reflexivity]. exfalso. destruct (opposite_spec _ _ F4) as (_ & O). specialize (O (i - 1)%nat). lia. }
      subst l. unfold dropped in T2. destruct (Q7 t T1 It) as [-> | ->]; rewrite same_aff_self, ?orb_true_r in T2; discriminate. }
  split; [|exact G]. intros r j Hr Hj Ij. destruct (Hl r Hr) as (Hr1 & _). destruct (Hs r j Hr1 Hj Ij) as (T2 & T3 & T4). split; [exact T2|]. split; [exact T3|]. destruct T4 as [(Q1 & Q2)|(Q1 & s & Q2 & Q3 & Q4 & Q5 & Q6 & Q7)].
  - left. split; [exact Q1|]. intros t Ht. apply Q2. apply Hl. exact Ht.
  - right. split; [exact Q1|]. exists s. split; [|split; [exact Q3|split; [exact Q4|split; [exact Q5|split; [exact Q6|]]]]; intros t Ht; apply Q7; apply Hl; exact Ht].
    rewrite after_filter. apply filter_In. split; [exact Q2|]. apply negb_true_iff. destruct (dropped u lower s) eqn:D; [|reflexivity]. exfalso.
    assert (Fo : forall l, lower = Some l -> opposite u l = true) by (intros l El; rewrite El in F4; destruct F4 as (_ & _ & F4 & _); exact F4). assert (Z1 := dropped_coef iter_name par_name u lower s Fo D (i - 1)%nat).
    destruct (opposite_spec _ _ Q4) as (_ & O). specialize (O (i - 1)%nat). assert (coef r (i - 1) = 0) by (apply G; exact Hr). apply F2, Z1. lia.
Qed.
Lemma opposite_flip u l : opposite u l = true -> opposite l u = true.
Proof.
  unfold opposite. intros H. apply andb_true_iff in H. destruct H as (A & B). apply andb_true_iff. split; [apply Nat.eqb_eq; apply Nat.eqb_eq in A; lia|]. clear A.
  revert B. generalize (r_co l) as b. induction (r_co u) as [|x a IH]; intros [|y b]; try reflexivity. cbn [List.combine forallb fst snd]. intros B. apply andb_true_iff in B. destruct B as (B1 & B2). apply Z.eqb_eq in B1. apply andb_true_iff. split; [apply Z.eqb_eq; lia|apply IH; exact B2].
Qed.
Lemma row_eqb_self r : row_eqb r r = true.
Proof. unfold row_eqb. rewrite Bool.eqb_reflx, Z.eqb_refl. destruct (list_eq_dec Z.eq_dec (r_co r) (r_co r)); [reflexivity|contradiction]. Qed.
Lemma simple_none n nd level rows i : simple_rows n nd level rows -> finds (n + nd) rows i = None -> (n < i <= n + nd)%nat -> forall r, In r rows -> coef r (i - 1) = 0.
Proof.
  intros Hs F Hi r Hr. destruct (involves r (i - 1)) eqn:Ir; [|apply involves_not; exact Ir]. exfalso.
  assert (HL : forall t, In t rows -> involves t (i - 1) = true -> last_iterator (n + nd) i t = true).
  { intros t Ht It. destruct (Hs t (i - 1)%nat Ht ltac:(lia) It) as (S2 & _). unfold last_iterator. rewrite It. cbn [andb]. apply forallb_forall. intros j Hj. apply in_seq in Hj. apply negb_true_iff. destruct (involves t j) eqn:Ij; [|reflexivity]. apply S2 in Ij; lia. }
  unfold finds in F. destruct (defining_equality (n + nd) rows i) eqn:E; [discriminate|]. destruct (Hs r (i - 1)%nat Hr ltac:(lia) Ir) as (_ & _ & [(Q1 & _)|(Q1 & s & Q2 & Q3 & Q4 & Q5 & Q6 & Q7)]).
  - unfold defining_equality in E. apply find_none with (x := r) in E; [|exact Hr]. rewrite Q1, (HL r Hr Ir) in E. discriminate.
  - destruct (opposite_spec _ _ Q4) as (_ & O). specialize (O (i - 1)%nat).
    assert (Is : involves s (i - 1) = true) by (unfold involves in *; rewrite O; apply negb_true_iff in Ir; apply Z.eqb_neq in Ir; apply negb_true_iff, Z.eqb_neq; lia).
    assert (D : exists u l, In u rows /\ In l rows /\ defining_pair (n + nd) i u l = true).
    { destruct (Z.lt_ge_cases (coef r (i - 1)) 0) as [G|G]; [exists r, s|exists s, r]; (split; [assumption|split; [assumption|]]); unfold defining_pair; rewrite Q1, Q3, HL by assumption; cbn [negb andb].
      - rewrite Q4. cbn [andb]. apply andb_true_iff. split; apply Z.ltb_lt; lia.
      - rewrite (opposite_flip _ _ Q4). cbn [andb]. apply andb_true_iff. split; apply Z.ltb_lt; lia. }
    destruct D as (u & l & D1 & D2 & D3). unfold defining_inequalities in F. destruct (find (fun p => defining_pair (n + nd) i (fst p) (snd p)) (list_prod rows rows)) as [[u' l']|] eqn:X.
    + apply find_some in X. cbn [fst snd] in X. destruct X as (X1 & X2). apply in_prod_iff in X1. destruct X1 as (X1 & X3). unfold defining_pair in X2. rewrite !andb_true_iff in X2. destruct X2 as (((((B1 & B2) & B3) & B4) & B5) & B6). apply Z.ltb_lt in B5.
      destruct (opposite_spec _ _ B4) as (_ & O2). specialize (O2 (i - 1)%nat). assert (Iu' : involves u' (i - 1) = true) by (unfold involves; apply negb_true_iff, Z.eqb_neq; lia). assert (Il' : involves l' (i - 1) = true) by (unfold involves; apply negb_true_iff, Z.eqb_neq; lia).
      destruct (existsb _ rows) eqn:Y; [|discriminate]. apply existsb_exists in Y. destruct Y as (t & Y1 & Y2). apply andb_true_iff in Y2. destruct Y2 as (Y2 & Y3). apply andb_true_iff in Y2. destruct Y2 as (Y2 & Y4). apply negb_true_iff in Y2, Y4.
      destruct (Q7 u' X1 Iu') as [-> | ->], (Q7 l' X3 Il') as [-> | ->]; try lia; destruct (Q7 t Y1 Y3) as [-> | ->]; rewrite row_eqb_self in *; discriminate.
    + apply find_none with (x := (u, l)) in X; [cbn [fst snd] in X; congruence|apply in_prod_iff; auto].
Qed.
Lemma extra_returns n nd nfo level : forall divs rows, (forall i, In i divs -> (n < i <= n + nd)%nat) ->
  simple_rows n nd level rows -> exists mods rows1, extra_guards n nd nfo level divs rows = Some (mods, rows1) /\ incl rows1 rows /\
    forall i r, In i divs -> In r rows1 -> coef r (i - 1) = 0.
Proof.
  induction divs as [|i divs IH]; intros rows Hd Hs.
  - exists [], rows. split; [reflexivity|]. split; [apply incl_refl|]. intros i r [].
  - assert (Hi := Hd i (or_introl eq_refl)). rewrite extra_eq. destruct (finds (n + nd) rows i) as [[u lower]|] eqn:F.
    + destruct (finds_spec _ _ _ _ _ F) as (F1 & F2 & F3 & F4). assert (Hu : In u rows) by (apply F1; left; reflexivity).
      assert (Iu : involves u (i - 1) = true) by (unfold involves; apply negb_true_iff, Z.eqb_neq; exact F2).
      destruct (Hs u (i - 1)%nat Hu ltac:(lia) Iu) as (S2 & S3 & _). destruct (simple_filter _ _ _ _ _ _ _ Hs F Hi) as (SF & SZ).
      assert (Eo : own n level u = false). { unfold own. destruct (Nat.eqb_spec level 0); [reflexivity|]. destruct (Nat.leb_spec level n); [|reflexivity]. cbn [negb andb]. apply S3. lia. } rewrite Eo.
      assert (Ea : existsb (fun j => negb (j =? i - 1)%nat && involves u j) (seq n nd) = false).
      { destruct (existsb _ _) eqn:X; [|reflexivity]. apply existsb_exists in X. destruct X as (j & X1 & X2). apply in_seq in X1. apply andb_true_iff in X2. destruct X2 as (X2 & X3). apply negb_true_iff, Nat.eqb_neq in X2. elim X2. apply S2; [lia|exact X3]. } rewrite Ea.
      destruct (IH (after u lower rows) (fun k Hk => Hd k (or_intror Hk)) SF) as (mods & rows1 & E & I1 & Z1). rewrite E.
      assert (EM : exists r, modulo_guard iter_name par_name (fun _ rows _ => rows) (n + nd) nfo u lower i = Some r).
      { unfold ClastModel.modulo_guard. destruct (Z.abs _ =? 1); [eexists; reflexivity|]. destruct (match lower with Some l => _ | None => false end); [eexists; reflexivity|]. apply constraint_returns. exact F2. }
      destruct EM as ([sat fs] & EM). rewrite EM. exists (fs ++ mods), rows1. split; [reflexivity|]. split.
      * intros r Hr. apply I1 in Hr. rewrite after_filter in Hr. apply filter_In in Hr. apply Hr.
      * intros k r [<-|Hk] Hr; [apply SZ, I1; exact Hr|apply Z1; assumption].
    + assert (N := simple_none _ _ _ _ _ Hs F Hi).
      destruct (IH rows (fun k Hk => Hd k (or_intror Hk)) Hs) as (mods & rows1 & E & I1 & Z1). exists mods, rows1. split; [exact E|]. split; [exact I1|].
      intros k r [<-|Hk] Hr; [apply N, I1; exact Hr|apply Z1; assumption].
Qed.
Lemma guards_return n nfo level rows : simple_rows n (n_divs n np rows) level rows -> exists guard, insert_guards n np nfo rows level = Some guard.
Proof.
  intros Hs. unfold ClastModel.insert_guards. destruct (extra_returns n (n_divs n np rows) nfo level (rev (seq (S n) (n_divs n np rows))) rows) as (mods & rows1 & E & _ & Z1); [intros i; apply divs_range|exact Hs|].
  rewrite E. destruct (existsb (has_div n (n_divs n np rows)) rows1) eqn:X; [|eexists; reflexivity]. exfalso. apply existsb_exists in X. destruct X as (r & Hr & Hd). unfold has_div in Hd. apply existsb_exists in Hd. destruct Hd as (j & Hj & Ij).
  apply in_seq in Hj. apply involves_ne in Ij. apply Ij. replace j with (S j - 1)%nat by lia. apply Z1; [apply in_rev; rewrite rev_involutive; apply in_seq; lia|exact Hr].
Qed.

(** *** loops *)
Lemma minmax_shape n rows level low st e : minmax n rows level low 0 false st = Some e ->
  exists es, e = ERed (if low then RMax else RMin) es /\ List.length es = List.length (filter (valid_bound level low 0 false) rows).
Proof.
  unfold ClastModel.minmax. set (V := filter (valid_bound level low 0 false) rows). intros H. destruct V as [|v0 V0] eqn:EV; [discriminate|]. rewrite <- EV in *.
  set (F := fun (c : row) (acc : option (list expr)) => match acc with Some l => match bound_from_constraint iter_name par_name n c level with Some e0 => Some (update_lower_bound e0 st :: l) | None => None end | None => None end) in H.
  assert (G : forall W l, fold_right F (Some []) W = Some l -> List.length l = List.length W).
  { induction W as [|c W IH]; intros l; cbn [fold_right]; [intros E; injection E as <-; reflexivity|]. unfold F at 1. destruct (fold_right F (Some []) W) as [l'|]; [|discriminate]. destruct (bound_from_constraint iter_name par_name n c level); [|discriminate]. intros E. injection E as <-. cbn. rewrite (IH l' eq_refl). reflexivity. }
  destruct (fold_right F (Some []) V) as [l|] eqn:E; [|discriminate]. injection H as <-. exists (sort_exprs l). split; [reflexivity|]. rewrite <- (Permutation_length (sort_exprs_perm l)). apply G. exact E.
Qed.
Lemma for_returns n rows st otl : Forall (fun r => List.length (r_co r) = S n + np)%nat rows ->
  match st with None => True | Some (s, off) => 0 < s /\ Forall (fun r => r_eq r = false -> 0 < coef r n -> forall i, i <> n -> coef r i = 0) rows end ->
  (forall r s, In r rows -> In s rows -> r_eq r = false -> r_eq s = false -> 0 < coef r n -> coef s n < 0 -> ~ forced n np st r s) ->
  exists res, insert_for o (S n) rows st (S n) otl = Some res.
Proof.
  intros Hl Hst Hf. unfold ClastModel.insert_for. destruct (is_bigger_constant _ _); [eexists; reflexivity|].
  destruct (minmax (S n) rows (S n) true 0 false st) as [e1|] eqn:E1; [destruct (minmax (S n) rows (S n) false 0 false None) as [e2|] eqn:E2|].
  2: { destruct otl; [eexists; reflexivity|]. destruct (for_bound o _ _). eexists; reflexivity. }
  2: { destruct otl; [eexists; reflexivity|]. destruct (for_bound o _ _). eexists; reflexivity. }
  destruct (co_otl o && expr_equal e1 e2) eqn:X; [|destruct otl; [eexists; reflexivity|]; destruct (for_bound o _ _); eexists; reflexivity]. exfalso.
  apply andb_true_iff in X. destruct X as (_ & X). unfold expr_equal in X. apply Z.eqb_eq in X.
  destruct (minmax_shape _ _ _ _ _ _ E1) as (es1 & -> & L1). destruct (minmax_shape _ _ _ _ _ _ E2) as (es2 & -> & L2).
  apply red_equal in X as X'. destruct X' as (X1 & X2 & _). destruct X2 as [X2|X2]; [|discriminate]. rewrite X1 in X2. rewrite X2 in X1. rewrite L1 in X1. rewrite L2 in X2.
  fold (valid_low (S n) 0 false rows) in X1. fold (valid_up (S n) 0 false rows) in X2.
  destruct (valid_low (S n) 0 false rows) as [|r [|]] eqn:EL; try discriminate. destruct (valid_up (S n) 0 false rows) as [|s [|]] eqn:EU; try discriminate.
  assert (HL : In r (valid_low (S n) 0 false rows)) by (rewrite EL; left; reflexivity). assert (HU : In s (valid_up (S n) 0 false rows)) by (rewrite EU; left; reflexivity).
  apply valid_low_in in HL. apply valid_up_in in HU. destruct HL as (R1 & R2 & R3), HU as (U1 & U2 & U3).
  apply (Hf r s R1 U1 R3 U3 R2 U2). intros x p Hx Hp. destruct (env_exists x p Hp) as (rho & Rx & Rp).
  assert (K : forall c, In c rows -> knows iter_name par_name rho (S n) c n (x ++ 0 :: p)).
  { intros c Hc. rewrite Forall_forall in Hl. specialize (Hl c Hc). intros i Hi Hne. unfold ClastModel.variable_expr. cbn [eval]. assert (i < List.length (r_co c))%nat by (apply involves_lt; unfold involves; apply negb_true_iff, Z.eqb_neq; exact Hne).
    destruct (Nat.leb_spec (S i) (S n)) as [G|G].
    - rewrite app_nth1 by lia. apply Rx. lia.
    - rewrite app_nth2 by lia. replace (S i - S n - 1)%nat with (i - S n)%nat by lia. rewrite Rp by lia. rewrite Hx. replace (i - n)%nat with (S (i - S n)) by lia. reflexivity. }
  destruct (minmax_low iter_name par_name sort_exprs sort_exprs_perm rho (S n) rows n 0 false st (x ++ 0 :: p)) as (e1' & z1 & M1 & M2 & M3 & M4).
  { rewrite EL. discriminate. } { rewrite EL. constructor; [apply K; exact R1|constructor]. }
  { destruct st as [[s0 off]|]; [|exact I]. destruct Hst as (S1 & S2). split; [exact S1|]. rewrite EL. constructor; [|constructor]. rewrite Forall_forall in S2. apply (S2 r R1 R3 R2). }
  destruct (minmax_up iter_name par_name sort_exprs sort_exprs_perm rho (S n) rows n 0 false (x ++ 0 :: p)) as (e2' & z2 & N1 & N2 & N4).
  { rewrite EU. discriminate. } { rewrite EU. constructor; [apply K; exact U1|constructor]. }
  rewrite E1 in M1. injection M1 as <-. rewrite E2 in N1. injection N1 as <-. rewrite (equal_eval rho _ _ X) in M2. rewrite M2 in N2. injection N2 as <-.
  rewrite EL in M4. rewrite EU in N4.
  assert (AT : forall v, at_v (x ++ 0 :: p) n v (x ++ v :: p)).
  { intros v. unfold at_v. rewrite <- Hx. split; [apply nth_mid|]. intros i Hi. apply nth_other. exact Hi. }
  exists z1. intros v. specialize (N4 v _ (AT v)).
  assert (F1 : forall c, Forall (row_holds (x ++ v :: p)) [c] <-> row_holds (x ++ v :: p) c) by (intros c; split; [intros H; inversion H; assumption|repeat constructor; assumption]). rewrite F1 in N4. split.
  - intros (A & B & C). assert (z1 <= v) by (apply (M4 v _ (AT v)); [destruct st as [[? ?]|]; [exact C|exact I]|apply F1; exact A]). apply N4 in B. lia.
  - intros ->. split; [apply F1; apply (M4 z1 _ (AT z1)); [exact M3|lia]|]. split; [apply N4; lia|]. destruct st as [[? ?]|]; [exact M3|exact I].
Qed.
Lemma equation_returns nfo st u lower n : guard_rows n (the_rows u lower) -> exists res, insert_equation o (S n) nfo st u lower (S n) = Some res.
Proof.
  intros HG. unfold ClastModel.insert_equation. destruct (negb (co_otl o)); [destruct (for_bound _ _ _); eexists; reflexivity|].
  destruct (modulo_returns reduce (S n) nfo u lower n reduce_ok HG) as ([[] fs] & E); rewrite E; eexists; reflexivity.
Qed.
Lemma header_returns nfo l st spread sts : const_stride P l = Some st -> l_blk P l = None -> ready P Se rows_of pv o spread sts l -> no_forced P rows_of np l ->
  exists res, insert_header iter_name par_name sort_exprs reduce P flat o np nfo (S (List.length spread)) l st = Some res.
Proof.
  intros Hcs Hb Hr Hf. inversion Hr as [? ? ? b Hb'|? ? ? _ Hd Hex Hcons Hnorm Hav Hst Hbd Huni Hin]; subst; [congruence|]. set (n := List.length spread) in *. set (d := l_dom P l) in *.
  unfold insert_header. fold d. rewrite Hd. cbn [Nat.eqb negb andb]. rewrite Nat.leb_refl. change (S n =? 0)%nat with false. cbn [negb andb].
  destruct Hnorm as (N1 & N2 & N3). assert (Hlen : Forall (fun r => List.length (r_co r) = S n + np)%nat (flat d)) by (rewrite <- Hd; apply plain_len; apply Hex).
  unfold has_equation in *. destruct (defining_equality (S n) (flat d) (S n)) as [u|] eqn:E.
  - assert (Eu := E). unfold defining_equality in E. apply find_some in E. destruct E as (A & B). apply andb_true_iff in B. destruct B as (B & C). rewrite last_iterator_self in C.
    destruct (equation_returns nfo st u None n) as ([[fs e]|] & ER); [cbn; auto| |]; rewrite ER; eexists; reflexivity.
  - destruct (defining_inequalities (S n) (flat d) (S n)) as [[u lo]|] eqn:F.
    + assert (F0 : finds (S n) (flat d) (S n) = Some (u, Some lo)) by (unfold finds; rewrite E, F; reflexivity). destruct (finds_spec _ _ _ _ _ F0) as (F1 & F2 & F3 & F4 & F5 & F6 & F7 & _).
      rewrite Nat.sub_succ, Nat.sub_0_r in F2, F7. destruct (equation_returns nfo st u (Some lo) n) as ([[fs e]|] & ER).
      { cbn. split; [exact F4|]. split; [exact F5|]. split; [unfold involves; apply negb_true_iff, Z.eqb_neq; exact F2|]. split; [exact F6|]. apply N2; try assumption; apply F1; [left; reflexivity|right; left; reflexivity]. }
      all: rewrite ER; eexists; reflexivity.
    + assert (He : has_equation P flat d = false) by (unfold has_equation; rewrite Hd, E, F; reflexivity).
      destruct (for_returns n (flat d) st (l_otl P l) Hlen) as ([fs|] & ER).
      * unfold stride_usable in Hst. unfold const_stride in Hcs. destruct (l_st P l) as [[[s off] [c|]]|]; try discriminate; injection Hcs as <-; [|exact I]. fold d in Hst. rewrite He in Hst. destruct Hst as (H1 & H2). split; [exact H1|].
        apply Forall_forall. intros r Hr0 _ Hc. rewrite Forall_forall in H2. specialize (H2 r Hr0). rewrite Hd, Nat.sub_succ, Nat.sub_0_r in H2. apply H2. unfold is_lower_bound. apply Z.ltb_lt. exact Hc.
      * intros r s H1 H2 H3 H4 H5 H6. unfold no_forced in Hf. fold d in Hf. rewrite Hd, Nat.sub_succ, Nat.sub_0_r in Hf. unfold stride_at in Hf. rewrite Hcs in Hf. apply Hf; assumption.
      * rewrite ER. eexists; reflexivity.
      * rewrite ER. eexists; reflexivity.
Qed.
Lemma list_returns nfo level : forall ls, (forall l, In l ls -> exists ss, insert_loop o ns np nfo level l = Some ss) -> exists ss, insert_loops o ns np nfo level ls = Some ss.
Proof.
  induction ls as [|l ls IH]; intros H; [exists []; reflexivity|]. destruct (H l (or_introl eq_refl)) as (a & A). destruct IH as (b & B); [intros; apply H; right; assumption|]. exists (a ++ b). cbn [ClastModel.insert_loops]. rewrite A, B. reflexivity.
Qed.
Theorem loop_returns l : forall spread sts nfo, ready P Se rows_of pv o spread sts l -> clear P rows_of np (S (List.length spread)) l ->
  exists ss, insert_loop o ns np nfo (S (List.length spread)) l = Some ss.
Proof.
  induction l as [d ot sst b inner IH] using (loop_ind' P). intros spread sts nfo Hr Hc. rewrite insert_loop_eq. inversion Hc as [? ? C1 C2 C3]; subst. set (l := Loop P d ot sst b inner) in *. 
  assert (Hcs : exists st, const_stride P l = Some st).
  { inversion Hr as [? ? ? ? _ _ _ Hst|? ? ? _ _ _ _ _ _ Hst _ _ _]; subst; unfold const_stride; [rewrite Hst; eexists; reflexivity|]. unfold stride_usable in Hst. destruct (l_st P l) as [[[s off] [c|]]|]; [destruct Hst|eexists; reflexivity|eexists; reflexivity]. }
  destruct Hcs as (st & Hcs). rewrite Hcs. cbv zeta. change (S (List.length spread) =? 0)%nat with false. cbv iota. cbn [i_eqs i_strides].
  destruct (guards_return (dim P (l_dom P l)) {| i_eqs := i_eqs nfo; i_strides := i_strides nfo ++ [st] |} (S (List.length spread)) (rows_of (l_dom P l)) C1) as (guard & EG). rewrite EG.
  inversion Hr as [? ? ? b' Hb Hi Hd|? ? ? Hb Hd Hex Hcons Hnorm Hav Hst Hbd Huni Hin]; subst.
  - unfold insert_header. rewrite Hd. destruct (Nat.leb_spec (S (List.length spread)) (List.length spread)) as [G|G]; [lia|]. rewrite andb_false_r. cbv iota beta. rewrite Hi. eexists; reflexivity.
  - destruct (header_returns {| i_eqs := i_eqs nfo; i_strides := i_strides nfo ++ [st] |} l st spread sts Hcs Hb Hr (C2 Hb ltac:(discriminate))) as ([[[fs e] eq]|] & EH); rewrite EH; [|eexists; reflexivity].
    match goal with |- context [insert_loops _ _ _ ?nf _ _] => destruct (list_returns nf (S (S (List.length spread))) (l_inner P l)) as (body & EB) end.
    + intros l' Hl'. rewrite Forall_forall in Hin, C3. rewrite Forall_forall in IH. specialize (Hin l' Hl'). specialize (C3 l' Hl').
      replace (S (List.length spread)) with (List.length (spread ++ [is_spread P flat o (l_dom P l)])) in * by (rewrite app_length; cbn; lia). eapply IH; eassumption.
    + rewrite EB. eexists; reflexivity.
Qed.
Theorem create_returns ls : Forall (ready0 P Se rows_of pv o) ls -> Forall (clear P rows_of np 0) ls ->
  exists ss, clast_create iter_name par_name sort_exprs sort_eqns reduce P rows_of o ns np ls = Some ss.
Proof.
  intros H C. unfold clast_create. apply list_returns. intros l Hl. rewrite Forall_forall in H, C. specialize (H l Hl). specialize (C l Hl). inversion H as [? Hd Hst Hblk Hex Hcons Hvar Hinner]; subst. inversion C as [? ? C1 _ C3]; subst.
  rewrite insert_loop_eq. unfold const_stride. rewrite Hst. cbv zeta. rewrite Nat.eqb_refl.
  destruct (guards_return (dim P (l_dom P l)) {| i_eqs := []; i_strides := [] |} 0 (rows_of (l_dom P l)) C1) as (guard & EG). rewrite EG. unfold insert_header. rewrite Nat.eqb_refl. cbn [negb andb].
  destruct (list_returns {| i_eqs := []; i_strides := [] |} 1 (l_inner P l)) as (body & EB).
  - intros l' Hl'. rewrite Forall_forall in Hinner, C3. eapply (loop_returns l' [] []); [apply Hinner; exact Hl'|apply C3; exact Hl'].
  - rewrite EB. eexists; reflexivity.
Qed.
End Returns.
