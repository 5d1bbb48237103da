From Coq Require Import ZArith List Bool Arith Lia Relations Permutation.
From Verif Require Import SortModel.
Import ListNotations.
Local Arguments Nat.ltb : simpl never.
Local Arguments Nat.modulo : simpl never.

(** The relation a run of cloog_domain_sort is asked to respect: [must cmp i j]
    when the comparison of the pair says that [i] comes after [j]. The pair is only
    ever compared with the larger index first. *)
Definition must (cmp : nat -> nat -> Z) (i j : nat) : Prop :=
  (j < i /\ (0 < cmp i j)%Z) \/ (i < j /\ (cmp j i < 0)%Z).

Definition mustn cmp n (i j : nat) : Prop := i < n /\ j < n /\ must cmp i j.

Section Matrix.
Variable cmp : nat -> nat -> Z.
Variable n : nat.
Let R := mustn cmp n.
Let Rp := clos_trans nat R.

(** soundness: entries only relate elements of the closure *)
Definition sound (F : matrix) := forall a b, F a b = true -> Rp a b.

Lemma sort_step_sound i j F : i < n -> j < i -> sound F -> sound (sort_step cmp i F j).
Proof.
  intros Hi Hj HF. unfold sort_step.
  destruct (F i j || F j i) eqn:E0; [exact HF|].
  destruct (Z.eqb_spec (cmp i j) 0) as [Hz|Hz]; [exact HF|].
  destruct (Z.ltb_spec 0 (cmp i j)) as [Hp|Hp].
  - assert (Hij : Rp i j) by (apply t_step; unfold R, mustn, must; lia).
    intros a b. unfold or_row, mset.
    destruct (Nat.eqb_spec a i) as [->|Ha]; cbn [andb].
    + destruct (Nat.ltb_spec b i) as [Hb|Hb].
      * destruct (Nat.eqb_spec b j) as [->|Hbj].
        -- intros _; exact Hij.
        -- destruct (Nat.eqb_spec j i) as [->|_]; [lia|].
           cbn [andb]. rewrite orb_true_iff. intros [H|H]; [apply HF; exact H|].
           eapply t_trans; [exact Hij|apply HF; exact H].
      * destruct (Nat.eqb_spec b j) as [->|Hbj]; [lia|]. intros H; apply HF; exact H.
    + intros H; apply HF; exact H.
  - assert (Hji : Rp j i) by (apply t_step; unfold R, mustn, must; lia).
    intros a b. unfold or_col, mset.
    destruct (Nat.eqb_spec b i) as [->|Hb]; cbn [andb].
    + destruct (Nat.ltb_spec a i) as [Ha|Ha].
      * destruct (Nat.eqb_spec a j) as [->|Haj]; cbn [andb].
        -- intros _; exact Hji.
        -- rewrite orb_true_iff. intros [H|H]; [apply HF; exact H|].
           eapply t_trans; [apply HF; exact H|exact Hji].
      * destruct (Nat.eqb_spec a j) as [->|Haj]; [lia|]. cbn. intros H; apply HF; exact H.
    + rewrite andb_false_r. intros H; apply HF; exact H.
Qed.

Lemma sort_step_mono i j F a b : F a b = true -> sort_step cmp i F j a b = true.
Proof.
  intros H. unfold sort_step.
  destruct (F i j || F j i); [exact H|].
  destruct (cmp i j =? 0)%Z; [exact H|].
  destruct (0 <? cmp i j)%Z.
  - unfold or_row, mset.
    assert (HX : (if (a =? i)%nat && (b =? j)%nat then true else F a b) = true)
      by (destruct ((a =? i)%nat && (b =? j)%nat); auto).
    rewrite HX. destruct ((a =? i)%nat && (b <? i)%nat); reflexivity.
  - unfold or_col, mset.
    assert (HX : (if (a =? j)%nat && (b =? i)%nat then true else F a b) = true)
      by (destruct ((a =? j)%nat && (b =? i)%nat); auto).
    rewrite HX. destruct ((b =? i)%nat && (a <? i)%nat); reflexivity.
Qed.

(** after the step for (i,j), the pair is settled if it must be *)
Lemma sort_step_settles i j F : j < i ->
  let G := sort_step cmp i F j in
  cmp i j <> 0%Z -> G i j = true \/ G j i = true.
Proof.
  intros Hj G Hc. unfold G, sort_step.
  destruct (F i j || F j i) eqn:E0; [apply orb_true_iff; exact E0|].
  destruct (Z.eqb_spec (cmp i j) 0) as [Hz|Hz]; [contradiction|].
  destruct (0 <? cmp i j)%Z.
  - left. unfold or_row, mset. rewrite !Nat.eqb_refl. cbn [andb orb].
    destruct (Nat.ltb_spec j i); [reflexivity|lia].
  - right. unfold or_col, mset. rewrite !Nat.eqb_refl. cbn [andb orb].
    destruct (Nat.ltb_spec j i); [reflexivity|lia].
Qed.

Definition settled (F : matrix) i j := cmp i j <> 0%Z -> F i j = true \/ F j i = true.

Lemma row_fold i l F :
  i < n -> (forall j, In j l -> j < i) -> sound F ->
  let G := fold_left (sort_step cmp i) l F in
  sound G /\ (forall a b, F a b = true -> G a b = true) /\ (forall j, In j l -> settled G i j).
Proof.
  revert F; induction l as [|j l IH]; intros F Hi Hl HF; cbn.
  - split; [exact HF|]. split; [auto|]. intros j [].
  - destruct (IH (sort_step cmp i F j) Hi) as (H1 & H2 & H3).
    + intros; apply Hl; right; assumption.
    + apply sort_step_sound; auto. apply Hl; left; reflexivity.
    + split; [exact H1|]. split.
      * intros a b H. apply H2. apply sort_step_mono; exact H.
      * intros k [<-|Hk]; [|apply H3; exact Hk].
        intros Hc. destruct (sort_step_settles i j F (Hl j (or_introl eq_refl)) Hc) as [H|H]; [left|right]; apply H2; exact H.
Qed.

Lemma matrix_fold l F :
  (forall i, In i l -> i < n) -> sound F ->
  let G := fold_left (sort_row cmp) l F in
  sound G /\ (forall a b, F a b = true -> G a b = true) /\
  (forall i j, In i l -> j < i -> settled G i j).
Proof.
  revert F; induction l as [|i l IH]; intros F Hl HF; cbn.
  - split; [exact HF|]. split; [auto|]. intros i j [].
  - destruct (row_fold i (seq 0 i) F (Hl i (or_introl eq_refl))) as (R1 & R2 & R3); auto.
    { intros j Hj. apply in_seq in Hj. lia. }
    destruct (IH (sort_row cmp F i)) as (H1 & H2 & H3); auto.
    { intros; apply Hl; right; assumption. }
    split; [exact H1|]. split.
    + intros a b H. apply H2, R2, H.
    + intros k j [<-|Hk] Hj; [|apply H3; auto].
      intros Hc. destruct (R3 j ltac:(apply in_seq; lia) Hc) as [H|H]; [left|right]; apply H2; exact H.
Qed.

Lemma matrix_spec :
  let G := sort_matrix cmp n in
  sound G /\ (forall i j, i < n -> j < i -> settled G i j).
Proof.
  destruct (matrix_fold (seq 1 (n - 1)) mzero) as (H1 & _ & H3).
  { intros i Hi. apply in_seq in Hi. lia. }
  { intros a b H; discriminate. }
  split; [exact H1|]. intros i j Hi Hj. apply H3; [apply in_seq; lia|exact Hj].
Qed.

Lemma matrix_acyclic_complete :
  (forall a, ~ Rp a a) -> forall i j, R i j -> sort_matrix cmp n i j = true.
Proof.
  intros Hac i j HR. destruct matrix_spec as [Hs Hset].
  destruct HR as (Hi & Hj & Hm).
  assert (HRp : Rp i j) by (apply t_step; unfold R, mustn; auto).
  destruct Hm as [[Hlt Hc]|[Hlt Hc]].
  - destruct (Hset i j Hi Hlt) as [H|H]; [lia|exact H|].
    exfalso. apply (Hac i). eapply t_trans; [exact HRp|apply Hs; exact H].
  - destruct (Hset j i Hj Hlt) as [H|H]; [lia| |exact H].
    exfalso. apply (Hac i). eapply t_trans; [exact HRp|apply Hs; exact H].
Qed.
End Matrix.

(** ** Phase 2 *)

(** state of the emission loop: [F0] is the initial matrix, [out] the 1-based
    emitted list (reversed) *)
Definition emitted (out : list nat) j := In (S j) out.

Record einv (F0 : matrix) (n : nat) (F : matrix) (out : list nat) : Prop := {
  ei_row : forall a, a < n -> emitted out a -> F a a = true;
  ei_col : forall a b, ~ emitted out a -> F a b = true -> ~ emitted out b /\ F0 a b = true;
  ei_keep : forall a b, ~ emitted out a -> ~ emitted out b -> F0 a b = true -> F a b = true;
  ei_nd : NoDup out;
  ei_rng : forall x, In x out -> 1 <= x <= n;
  ei_ord : forall a b, emitted out a -> b < n -> F0 a b = true ->
           exists l1 l2 l3, out = l1 ++ S a :: l2 ++ S b :: l3
}.

Lemma row_busy_false F n j : row_busy F n j = false -> forall k, k < n -> F j k = false.
Proof.
  unfold row_busy. intros H k Hk. destruct (F j k) eqn:E; [|reflexivity].
  assert (existsb (F j) (seq 0 n) = true); [|congruence].
  apply existsb_exists. exists k. split; [apply in_seq; lia|exact E].
Qed.
Lemma row_busy_true F n j : row_busy F n j = true -> exists k, k < n /\ F j k = true.
Proof. unfold row_busy. intros H. apply existsb_exists in H as (k & Hk & E). apply in_seq in Hk. exists k; split; [lia|exact E]. Qed.

Lemma einv_emit F0 n F out j :
  einv F0 n F out -> j < n ->
  row_busy F n j = false -> einv F0 n (emit F j) (S j :: out).
Proof.
  intros [Hrow Hcol Hkeep Hnd Hrng Hord] Hj Hb.
  assert (Hnj : ~ emitted out j).
  { intros He. pose proof (Hrow j Hj He) as H1. rewrite (row_busy_false _ _ _ Hb j Hj) in H1. discriminate. }
  constructor.
  - intros a Ha [He|He]; unfold emit.
    + injection He as ->. rewrite !Nat.eqb_refl. reflexivity.
    + destruct (Nat.eqb_spec a j) as [->|Haj]; cbn; [reflexivity|]. apply Hrow; auto.
  - intros a b Hna Hab. unfold emit in Hab.
    assert (a <> j). { intros ->. apply Hna. left; reflexivity. }
    destruct (Nat.eqb_spec a j) as [->|_]; [contradiction|]. cbn in Hab.
    destruct (Nat.eqb_spec b j) as [->|Hbj]; [discriminate|].
    destruct (Hcol a b) as [H1 H2]; auto.
    { intros He; apply Hna; right; exact He. }
    split; [|exact H2]. intros [He|He]; [injection He; congruence|contradiction].
  - intros a b Hna Hnb HF. unfold emit.
    assert (a <> j). { intros ->. apply Hna. left; reflexivity. }
    assert (b <> j). { intros ->. apply Hnb. left; reflexivity. }
    destruct (Nat.eqb_spec a j); [contradiction|]. destruct (Nat.eqb_spec b j); [contradiction|]. cbn.
    apply Hkeep; auto; intros He; [apply Hna|apply Hnb]; right; exact He.
  - constructor; auto.
  - intros x [<-|Hx]; [lia|]. apply Hrng; exact Hx.
  - intros a b [He|He] Hbn HF.
    + injection He as <-.
      assert (Hbe : emitted out b).
      { destruct (in_dec Nat.eq_dec (S b) out) as [|Hnb]; [assumption|].
        exfalso. pose proof (Hkeep j b Hnj Hnb HF) as H1.
        rewrite (row_busy_false _ _ _ Hb b Hbn) in H1. discriminate. }
      destruct (in_split _ _ Hbe) as (l2 & l3 & ->). exists [], l2, l3. reflexivity.
    + destruct (Hord a b He Hbn HF) as (l1 & l2 & l3 & ->).
      exists (S j :: l1), l2, l3. reflexivity.
Qed.

Lemma sort_emit_spec F0 n :
  forall fuel F i j out r,
  einv F0 n F out -> i = length out -> j < n \/ n = 0 -> i <= n ->
  sort_emit fuel n F i j out = Some r ->
  exists F', einv F0 n F' (rev r) /\ length r = n.
Proof.
  induction fuel as [|fuel IH]; intros F i j out r HI Hi Hj Hin H; cbn in H.
  - destruct (Nat.ltb_spec i n); [discriminate|]. injection H as <-.
    exists F. rewrite rev_involutive, rev_length. split; [exact HI|lia].
  - destruct (Nat.ltb_spec i n) as [Hlt|Hge].
    + assert (Hmod : (j + 1) mod n < n) by (apply Nat.mod_upper_bound; lia).
      destruct (row_busy F n j) eqn:Eb.
      * eapply IH; [exact HI|exact Hi|left; exact Hmod|exact Hin|exact H].
      * eapply IH; [apply (einv_emit F0 n F out j HI); [lia|exact Eb]| |left; exact Hmod| |exact H]; cbn; lia.
    + injection H as <-. exists F. rewrite rev_involutive, rev_length. split; [exact HI|lia].
Qed.

Lemma einv_init F0 n : einv F0 n F0 [].
Proof.
  constructor.
  - intros a _ [].
  - intros a b _ H. split; [intros []|exact H].
  - auto.
  - constructor.
  - intros x [].
  - intros a b [].
Qed.

(** Precedence in a list *)
Definition before {A} (l : list A) (x y : A) : Prop :=
  exists l1 l2 l3, l = l1 ++ x :: l2 ++ y :: l3.

Lemma permut_of_nodup n (r : list nat) :
  NoDup r -> length r = n -> (forall x, In x r -> 1 <= x <= n) -> Permutation r (seq 1 n).
Proof.
  intros Hnd Hlen Hr. apply NoDup_Permutation_bis; auto.
  - rewrite seq_length. lia.
  - intros x Hx. apply in_seq. specialize (Hr x Hx). lia.
Qed.

Lemma sound_range cmp n F : sound cmp n F -> forall a b, F a b = true -> a < n /\ b < n.
Proof.
  intros HF a b H. apply HF in H. split.
  - apply clos_trans_t1n in H. destruct H as [y HR|y z HR _]; destruct HR; tauto.
  - apply clos_trans_tn1 in H. destruct H as [y HR|y z HR _]; destruct HR; tauto.
Qed.

Definition acyclic cmp n := forall a, ~ clos_trans nat (mustn cmp n) a a.

(** the permutation part needs no acyclicity *)
Lemma domain_sort_perm cmp n fuel r : domain_sort fuel n cmp = Some r -> Permutation r (seq 1 n).
Proof.
  intros H. unfold domain_sort in H.
  destruct (sort_emit_spec (sort_matrix cmp n) n fuel (sort_matrix cmp n) 0 0 [] r
              (einv_init _ _) eq_refl ltac:(lia) ltac:(lia) H) as (F' & HI & Hlen).
  apply permut_of_nodup; [|exact Hlen|].
  - rewrite <- rev_involutive. apply NoDup_rev. apply (ei_nd _ _ _ _ HI).
  - intros x Hx. apply (ei_rng _ _ _ _ HI). rewrite <- in_rev. exact Hx.
Qed.

Lemma domain_sort_partial cmp n fuel r :
  acyclic cmp n ->
  domain_sort fuel n cmp = Some r ->
  Permutation r (seq 1 n) /\ forall i j, i < n -> j < n -> must cmp i j -> before r (S j) (S i).
Proof.
  intros Hac H. unfold domain_sort in H.
  destruct (matrix_spec cmp n) as [Hs _].
  destruct (sort_emit_spec (sort_matrix cmp n) n fuel (sort_matrix cmp n) 0 0 [] r
              (einv_init _ _) eq_refl ltac:(lia) ltac:(lia) H) as (F' & HI & Hlen).
  assert (HP : Permutation r (seq 1 n)).
  { apply permut_of_nodup; [|exact Hlen|].
    - rewrite <- rev_involutive. apply NoDup_rev. apply (ei_nd _ _ _ _ HI).
    - intros x Hx. apply (ei_rng _ _ _ _ HI). rewrite <- in_rev. exact Hx. }
  split; [exact HP|]. intros i j Hi Hj Hm.
  assert (HF : sort_matrix cmp n i j = true) by (apply matrix_acyclic_complete; auto; unfold mustn; auto).
  destruct (ei_ord _ _ _ _ HI i j) as (l1 & l2 & l3 & E); auto.
  { unfold emitted. rewrite <- in_rev. eapply Permutation_in; [symmetry; exact HP|]. apply in_seq; lia. }
  apply (f_equal (@rev nat)) in E. rewrite rev_involutive in E.
  rewrite rev_app_distr in E. cbn in E. rewrite rev_app_distr in E. cbn in E.
  rewrite <- !app_assoc in E. cbn in E.
  exists (rev l3), (rev l2), (rev l1). exact E.
Qed.

(** ** Termination under acyclicity *)

(** A finite non-empty set of nodes has a minimal element for an acyclic relation *)
Lemma acyclic_min (F : matrix) n (P : nat -> Prop) (Pdec : forall x, {P x} + {~ P x}) :
  (forall a, ~ clos_trans nat (fun a b => F a b = true) a a) ->
  (exists a, a < n /\ P a) ->
  exists a, a < n /\ P a /\ forall b, b < n -> P b -> F a b = false.
Proof.
  intros Hac (a0 & Ha0 & HP0).
  (* walk along F edges; after n+1 steps a repetition *)
  assert (Hwalk : forall m, (exists a, a < n /\ P a /\ forall b, b < n -> P b -> F a b = false) \/
     exists l x, length l = m /\ x < n /\ P x /\ NoDup (x :: l) /\ (forall y, In y l -> y < n /\ P y /\ clos_trans nat (fun a b => F a b = true) y x)).
  { induction m as [|m [IH|IH]]; [|left; exact IH|].
    - right. exists [], a0. cbn. repeat split; auto; try contradiction. constructor; [intros []|constructor].
    - destruct IH as (l & x & Hl & Hx & HPx & Hnd & Hreach).
      destruct (existsb (fun b => F x b && if Pdec b then true else false) (seq 0 n)) eqn:E.
      + apply existsb_exists in E as (b & Hb & Eb). apply in_seq in Hb.
        apply andb_true_iff in Eb as [Eb1 Eb2]. destruct (Pdec b) as [HPb|]; [|discriminate].
        right. exists (x :: l), b.
        assert (Hxb : clos_trans nat (fun a b => F a b = true) x b) by (apply t_step; exact Eb1).
        assert (Hr : forall y, In y (x :: l) -> clos_trans nat (fun a b => F a b = true) y b).
        { intros y [<-|Hy]; [exact Hxb|]. eapply t_trans; [apply Hreach; exact Hy|exact Hxb]. }
        cbn. split; [lia|]. split; [lia|]. split; [exact HPb|]. split.
        * constructor; [|exact Hnd]. intros Hin. apply (Hac b). apply Hr. exact Hin.
        * intros y Hy. split; [|split; [|apply Hr; exact Hy]]; destruct Hy as [<-|Hy]; auto; apply Hreach; exact Hy.
      + left. exists x. split; [exact Hx|]. split; [exact HPx|]. intros b Hb HPb.
        destruct (F x b) eqn:EF; [|reflexivity].
        assert (existsb (fun b => F x b && if Pdec b then true else false) (seq 0 n) = true); [|congruence].
        apply existsb_exists. exists b. split; [apply in_seq; lia|]. rewrite EF. destruct (Pdec b); [reflexivity|contradiction]. }
  destruct (Hwalk n) as [H|(l & x & Hl & Hx & HPx & Hnd & Hreach)]; [exact H|].
  exfalso. assert (Hle : length (x :: l) <= length (seq 0 n)).
  { apply NoDup_incl_length; [exact Hnd|]. intros y [<-|Hy]; apply in_seq; [lia|]. destruct (Hreach y Hy). lia. }
  cbn in Hle. rewrite seq_length in Hle. lia.
Qed.

Lemma not_emitted_exists n out : NoDup out -> length out < n -> exists a, a < n /\ ~ emitted out a.
Proof.
  intros Hnd Hlen.
  destruct (existsb (fun a => negb (if in_dec Nat.eq_dec (S a) out then true else false)) (seq 0 n)) eqn:E.
  - apply existsb_exists in E as (a & Ha & E). apply in_seq in Ha. exists a. split; [lia|].
    unfold emitted. destruct (in_dec Nat.eq_dec (S a) out); [discriminate|assumption].
  - exfalso. assert (Hincl : incl (seq 1 n) out).
    { intros x Hx. apply in_seq in Hx. destruct (in_dec Nat.eq_dec x out) as [|Hn]; [assumption|].
      assert (existsb (fun a => negb (if in_dec Nat.eq_dec (S a) out then true else false)) (seq 0 n) = true); [|congruence].
      apply existsb_exists. exists (x - 1). split; [apply in_seq; lia|].
      replace (S (x - 1)) with x by lia. destruct (in_dec Nat.eq_dec x out); [contradiction|reflexivity]. }
    apply NoDup_incl_length in Hincl; [|apply seq_NoDup]. rewrite seq_length in Hincl. lia.
Qed.

Lemma exists_free F0 n F out :
  (forall a, ~ clos_trans nat (fun a b => F0 a b = true) a a) ->
  (forall a b, F0 a b = true -> a < n /\ b < n /\ a <> b) ->
  einv F0 n F out -> length out < n -> exists j, j < n /\ row_busy F n j = false.
Proof.
  intros Hac Hdiag HI Hlen.
  destruct (acyclic_min F0 n (fun a => ~ emitted out a)) as (a & Ha & Hna & Hmin).
  { intros x. unfold emitted. destruct (in_dec Nat.eq_dec (S x) out); [right; auto|left; auto]. }
  { exact Hac. }
  { apply not_emitted_exists; [apply (ei_nd _ _ _ _ HI)|exact Hlen]. }
  exists a. split; [exact Ha|].
  destruct (row_busy F n a) eqn:E; [|reflexivity].
  apply row_busy_true in E as (b & Hb & HF).
  destruct (ei_col _ _ _ _ HI a b Hna HF) as [Hnb HF0].
  rewrite (Hmin b Hb Hnb) in HF0. discriminate.
Qed.

(** distance in the cyclic scan *)
Lemma sort_emit_total F0 n
  (Hac : forall a, ~ clos_trans nat (fun a b => F0 a b = true) a a)
  (Hdiag : forall a b, F0 a b = true -> a < n /\ b < n /\ a <> b) :
  forall m F j out, einv F0 n F out -> j < n -> length out + m = n ->
  forall fuel, m * n <= fuel -> exists r, sort_emit fuel n F (length out) j out = Some r.
Proof.
  induction m as [|m IHm]; intros F j out HI Hj Hm fuel Hfuel.
  - exists (rev out). destruct fuel; cbn; replace (length out <? n) with false; auto; symmetry; apply Nat.ltb_ge; lia.
  - destruct (exists_free F0 n F out Hac Hdiag HI ltac:(lia)) as (t & Ht & Hfree).
    (* d = steps from j to t *)
    assert (Hscan : forall d j fuel, j < n -> d < n -> (j + d) mod n = t -> S d + m * n <= fuel ->
              exists r, sort_emit fuel n F (length out) j out = Some r).
    { induction d as [|d IHd]; intros j' f Hj' Hd Hjt Hf.
      - destruct f as [|f]; [lia|]. cbn. replace (length out <? n) with true by (symmetry; apply Nat.ltb_lt; lia).
        rewrite Nat.add_0_r, Nat.mod_small in Hjt by lia. subst j'. rewrite Hfree.
        apply (IHm (emit F t) ((t + 1) mod n) (S t :: out)); cbn [length]; try lia.
        + apply einv_emit; auto.
        + apply Nat.mod_upper_bound; lia.
      - destruct f as [|f]; [lia|]. cbn. replace (length out <? n) with true by (symmetry; apply Nat.ltb_lt; lia).
        destruct (row_busy F n j') eqn:Eb.
        + apply IHd; try lia; [apply Nat.mod_upper_bound; lia|].
          rewrite Nat.add_mod_idemp_l by lia. rewrite <- Hjt. f_equal. lia.
        + apply (IHm (emit F j') ((j' + 1) mod n) (S j' :: out)); cbn [length]; try lia.
          * apply einv_emit; auto.
          * apply Nat.mod_upper_bound; lia. }
    apply (Hscan ((t + n - j) mod n)); try lia.
    + apply Nat.mod_upper_bound; lia.
    + rewrite Nat.add_mod_idemp_r by lia. replace (j + (t + n - j)) with (t + 1 * n) by lia.
      rewrite Nat.mod_add by lia. apply Nat.mod_small; lia.
    + assert ((t + n - j) mod n < n) by (apply Nat.mod_upper_bound; lia). nia.
Qed.

Lemma sound_acyclic cmp n F : sound cmp n F -> acyclic cmp n ->
  forall a, ~ clos_trans nat (fun a b => F a b = true) a a.
Proof.
  intros Hs Hac a H. apply (Hac a). revert H. generalize a at 2 4 as b. intros b H.
  induction H as [x y H|x y z _ IH1 _ IH2]; [apply Hs; exact H|eapply t_trans; eauto].
Qed.

Lemma domain_sort_total cmp n fuel :
  acyclic cmp n -> n * n <= fuel -> exists r, domain_sort fuel n cmp = Some r.
Proof.
  intros Hac Hf. destruct (matrix_spec cmp n) as [Hs _].
  destruct (Nat.eq_dec n 0) as [->|Hn].
  { exists []. unfold domain_sort. destruct fuel; reflexivity. }
  assert (Hdiag : forall a b, sort_matrix cmp n a b = true -> a < n /\ b < n /\ a <> b).
  { intros a b HF. destruct (sound_range _ _ _ Hs a b HF) as [Ha Hb]. split; [exact Ha|]. split; [exact Hb|].
    intros ->. exact (Hac _ (Hs _ _ HF)). }
  exact (sort_emit_total (sort_matrix cmp n) n (sound_acyclic _ _ _ Hs Hac) Hdiag n
           (sort_matrix cmp n) 0 [] (einv_init _ _) ltac:(lia) eq_refl fuel Hf).
Qed.

(** Non-termination: four interlocking segments.  [cmp_points pre A B] is what
    isl_basic_set_compare_at computes on two finite sets at position [pre]: the sign
    of the largest difference of coordinate [pre] over pairs of points that agree
    on the first [pre] coordinates, 0 without such a pair. *)
Fixpoint zlist_eqb (a b : list Z) : bool :=
  match a, b with
  | [], [] => true
  | x :: a', y :: b' => Z.eqb x y && zlist_eqb a' b'
  | _, _ => false
  end.
Definition diffs (pre : nat) (A B : list (list Z)) : list Z :=
  flat_map (fun a => flat_map (fun b =>
    if zlist_eqb (firstn pre a) (firstn pre b) then [nth pre a 0 - nth pre b 0]%Z else []) B) A.
Definition cmp_points (pre : nat) (A B : list (list Z)) : Z :=
  match diffs pre A B with
  | [] => 0
  | d :: r => Z.sgn (fold_left Z.max r d)
  end.

Definition seg (i : nat) : list (list Z) :=
  match i with
  | 0 => [[0;0;1];[0;1;0]]%Z     (* x = 0, t = 1 - y *)
  | 1 => [[1;0;0];[1;1;1]]%Z     (* x = 1, t = y *)
  | 2 => [[0;0;0];[1;0;1]]%Z     (* y = 0, t = x *)
  | _ => [[0;1;1];[1;1;0]]%Z     (* y = 1, t = 1 - x *)
  end.

Lemma stuck_forever n F i j out :
  i < n -> (forall k, k < n -> row_busy F n k = true) -> j < n ->
  forall fuel, sort_emit fuel n F i j out = None.
Proof.
  intros Hi Hb Hj fuel. revert j Hj. induction fuel as [|fuel IH]; intros j Hj; cbn.
  - replace (i <? n) with true by (symmetry; apply Nat.ltb_lt; lia). reflexivity.
  - replace (i <? n) with true by (symmetry; apply Nat.ltb_lt; lia). rewrite Hb by exact Hj.
    apply IH. apply Nat.mod_upper_bound; lia.
Qed.
