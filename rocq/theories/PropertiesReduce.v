(** C58: simplifying a modulo guard with the equalities of the enclosing levels does not change what it lets
    through. *)
From Coq Require Import ZArith List Bool Arith String Permutation Lia.
From Verif Require Import StrideModel UnrollModel UnrollSpec LoopModel ClastModel ClastSpec BackendCode PropertiesBackendCode ReduceModel ReduceSpec ReduceSets.
Import ListNotations.
Local Arguments Nat.ltb : simpl never. Local Arguments Nat.leb : simpl never. Local Arguments Nat.eqb : simpl never. Local Arguments Nat.sub : simpl never.
Local Open Scope Z_scope.
Local Notation length := List.length.

Lemma dot_split r a b : dot r (a ++ b) = dot (firstn (length a) r) a + dot (skipn (length a) r) b.
Proof.
  revert r. induction a as [|v a IH]; intros [|z r]; cbn [app length firstn skipn dot]; try lia. rewrite IH. lia.
Qed.
Lemma dot_comm_nil x : dot [] x = 0. Proof. destruct x; reflexivity. Qed.
Lemma coefs_app n l x y : (length l <= length x)%nat -> length (x ++ y) = n -> dot (coefs n l) (x ++ y) = dot l x.
Proof.
  intros Hl Hn. rewrite (coefs_dot n l (x ++ y) Hn). change prod with dot. clear n Hn. revert x Hl. induction l as [|z l IH]; intros x Hl; [rewrite !dot_comm_nil; reflexivity|].
  destruct x as [|v x]; cbn [length] in Hl; [lia|]. cbn [app dot]. rewrite IH by lia. reflexivity.
Qed.

(** the value of a constraint is not changed by its translation *)
Lemma row_con_holds' np r n total x y p : length x = n -> length (x ++ y) = total -> length p = np ->
  (holds (row_con np n total r) (x ++ y) p [] <-> row_holds (x ++ p) r).
Proof.
  intros Hx Ht Hp. unfold holds, row_holds, value, row_val, row_con. cbn [c_iter c_par c_div c_const c_eq prod]. rewrite (dot_split (r_co r)), Hx.
  change prod with dot. pose proof (coefs_dot np (skipn n (r_co r)) p Hp) as E0. change prod with dot in E0. rewrite E0. pose proof (coefs_app total (firstn n (r_co r)) x y ltac:(rewrite firstn_length; lia) Ht) as E. rewrite E. cbn [dot].
  destruct (r_eq r); lia.
Qed.
Lemma row_con_shape np n total r : length (c_iter (row_con np n total r)) = total /\ length (c_par (row_con np n total r)) = np /\ length (c_div (row_con np n total r)) = 0%nat.
Proof. cbn [row_con c_iter c_par c_div]. rewrite !coefs_length. auto. Qed.
Lemma coefs_zero n l k : (length l <= k)%nat -> nth k (coefs n l) 0 = 0.
Proof.
  revert l k. induction n as [|n IH]; intros l k H; [destruct k; reflexivity|]. destruct l as [|z l]; destruct k as [|k]; cbn [length] in H; try lia; cbn [coefs nth]; [reflexivity|apply IH; cbn; lia|apply IH; lia].
Qed.
Lemma back_holds n np c x p : length (c_iter c) = n -> length (c_par c) = np -> c_div c = [] -> length x = n -> length p = np ->
  (row_holds (x ++ p) (con_back c) <-> holds c x p []).
Proof.
  intros H1 H2 H3 Hx Hp. unfold holds, row_holds, value, row_val, con_back. cbn [r_co r_k r_eq]. rewrite H3. cbn [app]. rewrite dot_app by congruence. change prod with dot.
  replace (dot [] (@nil Z)) with 0 by reflexivity. destruct (c_eq c); lia.
Qed.
Lemma rows_back_inside n np b x p : n_div b = 0%nat -> formed n np b -> length x = n -> length p = np ->
  (Forall (row_holds (x ++ p)) (rows_back b) <-> inside b x p).
Proof.
  intros H0 H Hx Hp. unfold rows_back, inside. rewrite Forall_map, H0. unfold formed in H. rewrite H0 in H. rewrite Forall_forall in H. split.
  - intros F. exists []. split; [reflexivity|]. rewrite Forall_forall in *. intros c Hc. destruct (H c Hc) as (A & B & C). apply length_zero_iff_nil in C. apply (back_holds n np c x p A B C Hx Hp). auto.
  - intros ([|] & E & F); [|discriminate]. rewrite Forall_forall in *. intros c Hc. destruct (H c Hc) as (A & B & C). apply length_zero_iff_nil in C. apply (back_holds n np c x p A B C Hx Hp). auto.
Qed.
Lemma rows_inside np rows n x p : Forall (fun r => length (r_co r) = n + np)%nat rows -> length x = n -> length p = np ->
  (inside {| n_div := 0; cons_of := map (row_con np n n) rows |} x p <-> Forall (row_holds (x ++ p)) rows).
Proof.
  intros Hl Hx Hp. assert (G : forall r, holds (row_con np n n r) x p [] <-> row_holds (x ++ p) r).
  { intros r. pose proof (row_con_holds' np r n n x [] p Hx ltac:(rewrite app_nil_r; exact Hx) Hp) as Q. rewrite app_nil_r in Q. exact Q. }
  unfold inside. cbn [n_div cons_of]. rewrite !Forall_forall. split.
  - intros ([|] & E & F); [|discriminate]. rewrite Forall_forall in F. intros r Hr. apply G. apply F. apply in_map. exact Hr.
  - intros F. exists []. split; [reflexivity|]. apply Forall_forall. intros c Hc. apply in_map_iff in Hc. destruct Hc as (r & <- & Hr). apply G. auto.
Qed.

(** the equalities used hold, and involve only outer levels *)
Lemma used_in np eqs : forall i total c, In c (used_equalities np eqs i total) ->
  exists j r, nth_error eqs j = Some (Some (TExaffine, r)) /\ c = row_con np (i + j) total r.
Proof.
  induction eqs as [|[[[] r]|] eqs IH]; intros i total c H; cbn [used_equalities] in H; try (destruct (IH _ _ _ H) as (j & r' & A & B); exists (S j), r'; split; [exact A|]; rewrite B; f_equal; lia); [destruct H|].
  destruct H as [<-|H]; [exists 0%nat, r; split; [reflexivity|]; f_equal; lia|]. destruct (IH _ _ _ H) as (j & r' & A & B). exists (S j), r'. split; [exact A|]. rewrite B. f_equal. lia.
Qed.
Lemma used_formed np eqs i total : formed total np {| n_div := 0; cons_of := used_equalities np eqs i total |}.
Proof. apply Forall_forall. cbn [cons_of n_div]. intros c Hc. destruct (used_in _ _ _ _ _ Hc) as (j & r & _ & ->). apply row_con_shape. Qed.

Section Reduce.
Variable np : nat.
Variable G : Gist.
Hypothesis ok : GistOk np G.

Lemma reduce_solvable eqs rows x pv : length pv = np -> Forall (fun r => length (r_co r) = S (length x) + np)%nat rows ->
  (forall i t r, nth_error eqs i = Some (Some (t, r)) -> row_holds (firstn (S i) x ++ pv) r) ->
  let rows' := reduce_isl G np eqs rows (S (length x)) in
  ((exists v, Forall (row_holds (x ++ v :: pv)) rows') <-> (exists v, Forall (row_holds (x ++ v :: pv)) rows)) /\
  Forall (fun r => length (r_co r) = S (length x) + np)%nat rows'.
Proof.
  intros Hp Hl He. unfold reduce_isl. replace (S (length x) - 1)%nat with (length x) by lia. set (n := length x) in *. cbv zeta.
  assert (F : forall v, inside {| n_div := 0; cons_of := used_equalities np (firstn n eqs) 1 (S n) |} (x ++ [v]) pv).
  { intros v. exists []. split; [reflexivity|]. cbn [cons_of]. apply Forall_forall. intros c Hc. destruct (used_in _ _ _ _ _ Hc) as (j & r & Hj & ->).
    assert (Lj : (j < n)%nat). { assert (L : (j < length (firstn n eqs))%nat) by (apply nth_error_Some; congruence). rewrite firstn_length in L. lia. }
    replace (x ++ [v]) with (firstn (S j) x ++ (skipn (S j) x ++ [v])) by (rewrite app_assoc, firstn_skipn; reflexivity).
    apply (row_con_holds' np r (1 + j) (S n)); [rewrite firstn_length; unfold n in Lj; lia|rewrite app_assoc, firstn_skipn, app_length; cbn; unfold n; lia|exact Hp|].
    apply (He j TExaffine). rewrite <- Hj. symmetry. rewrite <- (firstn_skipn n eqs) at 2. rewrite nth_error_app1; [reflexivity|]. apply nth_error_Some. congruence. }
  assert (U : without_dim n {| n_div := 0; cons_of := used_equalities np (firstn n eqs) 1 (S n) |}).
  { apply Forall_forall. cbn [cons_of]. intros c Hc. destruct (used_in _ _ _ _ _ Hc) as (j & r & Hj & ->).
    assert (Lj : (j < n)%nat). { assert (L : (j < length (firstn n eqs))%nat) by (apply nth_error_Some; congruence). rewrite firstn_length in L. lia. }
    cbn [row_con c_iter]. apply coefs_zero. rewrite firstn_length. lia. }
  pose proof (used_formed np (firstn n eqs) 1 (S n)) as UF.
  destruct (used_equalities np (firstn n eqs) 1 (S n)) as [|e0 el]; [split; [reflexivity|exact Hl]|]. set (eq := {| n_div := 0; cons_of := e0 :: el |}) in *.
  set (b := {| n_div := 0; cons_of := map (row_con np (S n) (S n)) rows |}).
  assert (Fb : formed (S n) np b) by (apply Forall_forall; intros c Hc; apply in_map_iff in Hc; destruct Hc as (r & <- & _); apply row_con_shape).
  destruct (go_freed np G ok (S n) n b Fb ltac:(lia)) as (F1 & F2 & F3).
  destruct (go_gist np G ok (S n) n (freed G b n) eq F1 UF) as (G1 & G2 & G3). specialize (G2 F2 U).
  set (g := gist G (freed G b n) eq) in *.
  assert (Hx : forall v, length (x ++ [v]) = S n) by (intros v; rewrite app_length; cbn; unfold n; lia).
  assert (Q : forall v, inside g (x ++ [v]) pv <-> exists w, Forall (row_holds (x ++ w :: pv)) rows).
  { intros v. rewrite (G3 (x ++ [v]) pv (Hx v) Hp (F v)), (F3 (x ++ [v]) pv (Hx v) Hp).
    assert (R : forall w, replace n w (x ++ [v]) = x ++ [w]).
    { intros w. unfold replace. rewrite firstn_app. unfold n. rewrite firstn_all, Nat.sub_diag. cbn [firstn]. rewrite app_nil_r. f_equal. f_equal. rewrite skipn_all2; [reflexivity|]. rewrite app_length; cbn; lia. }
    split; intros (w & H); exists w.
    - rewrite R in H. apply (rows_inside np rows (S n) (x ++ [w]) pv Hl (Hx w) Hp) in H. rewrite <- app_assoc in H. exact H.
    - rewrite R. apply (rows_inside np rows (S n) (x ++ [w]) pv Hl (Hx w) Hp). rewrite <- app_assoc. exact H. }
  assert (RL : forall c, formed (S n) np c -> n_div c = 0%nat -> Forall (fun r => length (r_co r) = S n + np)%nat (rows_back c)).
  { intros c Hc H0. unfold rows_back. apply Forall_map. unfold formed in Hc. rewrite H0 in Hc. eapply Forall_impl; [|exact Hc]. intros k (A & B & C). cbn [con_back r_co]. rewrite !app_length. lia. }
  destruct (1 <? n_div g)%nat eqn:D1; [split; [reflexivity|exact Hl]|]. apply Nat.ltb_ge in D1.
  destruct (n_div g <? 1)%nat eqn:D2.
  - apply Nat.ltb_lt in D2. assert (D : n_div g = 0%nat) by lia. split; [|exact (RL g G1 D)]. split.
    + intros (v & H). apply (Q v). apply (rows_back_inside (S n) np g (x ++ [v]) pv D G1 (Hx v) Hp). rewrite <- app_assoc. exact H.
    + intros H. exists 0. replace (x ++ 0 :: pv) with ((x ++ [0]) ++ pv) by (rewrite <- app_assoc; reflexivity). apply (rows_back_inside (S n) np g (x ++ [0]) pv D G1 (Hx 0) Hp). apply Q. exact H.
  - apply Nat.ltb_ge in D2. assert (D : n_div g = 1%nat) by lia. destruct (go_tied np G ok (S n) n g G1 D ltac:(lia)) as (T1 & T2 & T3).
    split; [|exact (RL _ T2 T1)].
    assert (N : forall v, nth n (x ++ [v]) 0 = v) by (intros v; rewrite app_nth2 by (unfold n; lia); unfold n; rewrite Nat.sub_diag; reflexivity).
    assert (K : forall c v w q, In c (cons_of g) -> holds c (x ++ [v]) pv q <-> holds c (x ++ [w]) pv q).
    { intros c v w q Hc. unfold without_dim in G2. rewrite Forall_forall in G2. specialize (G2 c Hc). unfold formed in G1. rewrite Forall_forall in G1. destruct (G1 c Hc) as (A & _).
      assert (V : forall u, prod (c_iter c) (x ++ [u]) = prod (firstn n (c_iter c)) x).
      { intros u. change prod with dot. rewrite dot_split. fold n. assert (Z0 : exists z, skipn n (c_iter c) = [z]).
        { pose proof (skipn_length n (c_iter c)) as SL. rewrite A in SL. destruct (skipn n (c_iter c)) as [|z [|]]; cbn [length] in SL; try lia. exists z. reflexivity. }
        destruct Z0 as (z & E). assert (z = 0). { rewrite <- (firstn_skipn n (c_iter c)), E in G2. rewrite app_nth2 in G2 by (rewrite firstn_length; lia). rewrite firstn_length in G2. replace (n - Nat.min n (length (c_iter c)))%nat with 0%nat in G2 by lia. exact G2. }
        rewrite E. cbn [dot]. subst z. lia. }
      unfold holds, value. rewrite !V. reflexivity. }
    split.
    + intros (v & H). apply (Q v). exists [v]. split; [cbn; congruence|]. replace (x ++ v :: pv) with ((x ++ [v]) ++ pv) in H by (rewrite <- app_assoc; reflexivity).
      apply (rows_back_inside (S n) np _ (x ++ [v]) pv T1 T2 (Hx v) Hp) in H. apply (T3 _ _ (Hx v) Hp) in H. rewrite N in H. exact H.
    + intros H. apply (Q 0) in H. destruct H as (e & E & H). rewrite D in E. destruct e as [|v [|]]; cbn [length] in E; try discriminate. exists v.
      replace (x ++ v :: pv) with ((x ++ [v]) ++ pv) by (rewrite <- app_assoc; reflexivity). apply (rows_back_inside (S n) np _ (x ++ [v]) pv T1 T2 (Hx v) Hp). apply (T3 _ _ (Hx v) Hp). rewrite N.
      rewrite Forall_forall in *. intros c Hc. apply (K c 0 v [v] Hc). auto.
Qed.
End Reduce.

(** [x]: the values of the outer iterators; the equalities recorded for the enclosing levels hold for them.
    There is a value of the guard's iterator for the reduced constraints if and only if there is one for
    the constraints given. *)
Theorem C58_reduction_same_guard :
  forall (np : nat) (G : Gist), GistOk np G ->
  forall (eqs : list (option (eqtype * row))) (rows : list row) (x pv : list Z),
  length pv = np -> Forall (fun r => length (r_co r) = S (length x) + np)%nat rows ->
  (forall i t r, nth_error eqs i = Some (Some (t, r)) -> row_holds (firstn (S i) x ++ pv) r) ->
  (exists v, Forall (row_holds (x ++ v :: pv)) (reduce_isl G np eqs rows (S (length x)))) <->
  (exists v, Forall (row_holds (x ++ v :: pv)) rows).
Proof. intros np G ok eqs rows x pv Hp Hl He. exact (proj1 (reduce_solvable np G ok eqs rows x pv Hp Hl He)). Qed.
Print Assumptions C58_reduction_same_guard.

(** So it is what C16 and the theorems built on it ask of the reduction, if its result has the form its
    caller handles. *)
Theorem C58_reduction_usable :
  forall (np : nat) (G : Gist), GistOk np G -> keeps_form np (reduce_isl G np) ->
  forall pv, length pv = np -> reduce_right pv (reduce_isl G np).
Proof.
  intros np G ok K pv Hp eqs rows x. cbv zeta. intros Hg Hl He. rewrite Hp in *.
  destruct (reduce_solvable np G ok eqs rows x pv Hp Hl He) as [A B]. destruct (K eqs rows (length x) Hg Hl) as [C D].
  split; [exact A|]. split; [exact B|]. split; [exact C|exact D].
Qed.
Print Assumptions C58_reduction_usable.

(** Inside i2 = 2 i1 + 4 M the guard "i2 is even" (i2 = 2 e) is always passed and disappears; inside
    i2 = 2 i1 + 1 it stays (and is never passed). *)
Definition eq58 (co : list Z) (k : Z) : option (eqtype * row) := Some (TExaffine, {| r_eq := true; r_co := co; r_k := k |}).
Definition even58 : list row := [{| r_eq := true; r_co := [0; 1; -2; 0]; r_k := 0 |}].
Example C58_example :
  GistOk 1 SmallGist /\ keeps_form 1 (reduce_isl SmallGist 1) /\ guard_rows 2 even58 /\
  reduce_isl SmallGist 1 [None; eq58 [2; -1; 4] 0] even58 3 = [] /\
  reduce_isl SmallGist 1 [None; eq58 [2; -1; 0] 1] even58 3 = even58 /\
  forall i M, exists v, Forall (row_holds ([i; 2 * i + 4 * M] ++ v :: [M])) even58.
Proof.
  split; [apply small_ok|]. split; [apply small_form|]. split; [split; reflexivity|]. split; [reflexivity|]. split; [reflexivity|].
  intros i M. apply (C58_reduction_same_guard 1 SmallGist (small_ok 1) [None; eq58 [2; -1; 4] 0] even58 [i; 2 * i + 4 * M] [M]); [reflexivity|repeat constructor| |].
  - intros [|[|[|j]]] t r H; cbn [nth_error] in H; try discriminate. injection H as <- <-. unfold row_holds, row_val. cbn [r_eq r_co r_k firstn app dot]. lia.
  - exists 0. constructor.
Qed.

(** What the form is needed for: inside i2 = 6 i1 + 2 the pair 0 <= 4 e - i2 <= 1 is equivalent to the
    equality 2 e = 3 i1 + 1 (4 e - i2 is even).  If isl's simplification returns this equality, which is
    correct, insert_modulo_guard (clast.c:1501-1508) still treats its constant as the width of an interval
    and makes a guard that never holds, although every other iteration of the outer loop passes. *)
Definition eq58b : con := {| c_eq := true; c_iter := [6; -1; 0]; c_par := []; c_div := []; c_const := 2 |}.
Definition pair58 : list row := [{| r_eq := false; r_co := [0; 1; -4]; r_k := 1 |}; {| r_eq := false; r_co := [0; -1; 4]; r_k := 0 |}].
Definition found58 : bset := {| n_div := 1; cons_of := [{| c_eq := true; c_iter := [-3; 0; 0]; c_par := []; c_div := [2]; c_const := -1 |}] |}.
Definition bset_dec (a b : bset) : {a = b} + {a <> b}.
Proof. decide equality; [apply (list_eq_dec BackendSets.con_dec)|apply Nat.eq_dec]. Defined.
Definition freed58 : bset := freed SmallGist {| n_div := 0; cons_of := map (row_con 0 3 3) pair58 |} 2.
Definition context58 : bset := {| n_div := 0; cons_of := [eq58b] |}.
Definition FindGist : Gist := {|
  freed := freed SmallGist; tied := tied SmallGist;
  gist := fun b c => if bset_dec b freed58 then if bset_dec c context58 then found58 else b else b
|}.
Lemma find_ok : GistOk 0 FindGist.
Proof.
  constructor; cbn [FindGist freed gist tied]; [apply (go_freed _ _ (small_ok 0))| |apply (go_tied _ _ (small_ok 0))].
  intros n k b c Fb Fc. destruct (bset_dec b freed58) as [->|]; [|tauto]. destruct (bset_dec c context58) as [->|]; [|tauto].
  unfold formed in Fc. cbn [context58 cons_of] in Fc. rewrite Forall_cons_iff in Fc. destruct Fc as [(Hn & _) _]. cbn [eq58b c_iter length] in Hn. subst n.
  split; [repeat constructor|]. split.
  - intros _ H. unfold without_dim in *. cbn [context58 cons_of found58] in *. rewrite Forall_cons_iff in H. destruct H as (H & _). cbn [eq58b c_iter] in H.
    constructor; [|constructor]. cbn [c_iter]. destruct k as [|[|[|k]]]; try reflexivity; [discriminate H|destruct k; reflexivity].
  - intros x p Hx Hp (e & He & Hc). destruct p; [|discriminate Hp]. destruct x as [|a [|b [|c [|]]]]; try discriminate Hx.
    cbn [context58 cons_of] in Hc. rewrite Forall_cons_iff in Hc. destruct Hc as [Hc _]. unfold holds, value in Hc. cbn [eq58b c_eq c_iter c_par c_div c_const prod] in Hc.
    unfold inside. cbn [found58 n_div cons_of freed58 SmallGist freed pair58 map row_con free_con].
    split; intros ([|v [|]] & Hv & H); try discriminate Hv; exists [v]; (split; [reflexivity|]); rewrite !Forall_cons_iff in *; unfold free_con, row_con, holds, value, replace in *; cbn [free_con row_con map c_eq c_iter c_par c_div c_const prod coefs firstn skipn r_co r_eq r_k app nth] in H |- *; [split; [lia|split; [lia|constructor]]|split; [lia|constructor]].
Qed.
Theorem C58_equality_found_refuted :
  GistOk 0 FindGist /\ exists qs,
  modulo_guard ClastExamples.iname ClastExamples.pname (reduce_isl FindGist 0) 3 {| i_eqs := [None; eq58 [6; -1] 2]; i_strides := [None; None] |}
    (nth 0 pair58 {| r_eq := true; r_co := []; r_k := 0 |}) (nth_error pair58 1) 3 = Some (true, [FGuard qs]) /\
  forall i1 rho, rho (ClastExamples.iname 1) = Some i1 -> rho (ClastExamples.iname 2) = Some (6 * i1 + 2) ->
    all_hold rho qs = Some false /\
    (i1 mod 2 = 1 -> exists v, Forall (row_holds ([i1; 6 * i1 + 2] ++ [v])) pair58).
Proof.
  split; [exact find_ok|]. eexists. split; [vm_compute; reflexivity|]. intros i1 rho H1 H2. split.
  - cbn [all_hold]. unfold eqn_holds. cbn [e_lhs e_rhs e_sign eval eval_opt]. vm_compute in H1. rewrite ?H1. cbn [fold_left red_val bin_val].
    match goal with |- context [(?a mod 2)] => pose proof (Z.mod_pos_bound a 2 ltac:(lia)) as B; set (m := a mod 2) in * end.
    change (-1 =? 0) with false. change (0 <? -1) with false. cbv iota. destruct (Z.leb_spec m (-1)); [lia|]. reflexivity.
  - intros Hm. exists (3 * (i1 / 2) + 2). pose proof (Z.div_mod i1 2 ltac:(lia)) as E. rewrite Hm in E. unfold pair58, row_holds, row_val.
    constructor; [|constructor; [|constructor]]; cbn [r_eq r_co r_k dot app]; lia.
Qed.
Print Assumptions C58_equality_found_refuted.
