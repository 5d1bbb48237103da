From Coq Require Import ZArith List Bool Arith Lia Zdiv.
From Verif Require Import IntModel IntProofs RowModel RowSpec RowProofs.
Import ListNotations.
Local Open Scope Z_scope.
Local Arguments Nat.ltb : simpl never.
Local Arguments Nat.leb : simpl never.
Local Arguments Nat.eqb : simpl never.
Local Arguments Nat.sub : simpl never.

(** ** one iterator in the value of a row *)
Lemma sum_with n f it k v : (k < n)%nat -> sum n (fun j => f j * with_value it k v j) = sum n (fun j => f j * with_value it k 0 j) + f k * v.
Proof.
  intros Hk. assert (E : forall n, sum n (fun j => f j * with_value it k v j) = sum n (fun j => f j * with_value it k 0 j) + sum n (fun j => if Nat.eqb j k then f k * v else 0)).
  { induction n0 as [|m IH]; [reflexivity|]. cbn. rewrite IH. unfold with_value at 2 4. destruct (Nat.eqb_spec m k) as [E|E]; [subst|]; lia. }
  rewrite E. f_equal. rewrite (sum_one n _ k Hk); [rewrite Nat.eqb_refl; reflexivity|]. intros j _ Hj. destruct (Nat.eqb_spec j k); [contradiction|reflexivity].
Qed.
Lemma value_with np r it par level v : (1 <= level <= length r - np - 2)%nat ->
  value np r (with_value it (level - 1) v) par = value np r (with_value it (level - 1) 0) par + nth level r 0 * v.
Proof.
  intros H. unfold value. rewrite (sum_with _ (fun j => nth (1 + j) r 0) it (level - 1) v) by lia. cbn beta. replace (1 + (level - 1))%nat with level by lia. ring.
Qed.
Lemma value_opposite np u l it par : length u = length l -> (np + 2 <= length u)%nat -> (forall k, (1 <= k < length u - 1)%nat -> nth k l 0 = - nth k u 0) ->
  value np l it par = - value np u it par + (nth (length u - 1) u 0 + nth (length u - 1) l 0).
Proof.
  intros Hl HL H. unfold value. rewrite <- Hl.
  rewrite (sum_ext (length u - np - 2) (fun j => nth (1 + j) l 0 * it j) (fun j => (-1) * (nth (1 + j) u 0 * it j))) by (intros j Hj; rewrite H by lia; ring).
  rewrite (sum_ext np (fun j => nth (length u - 1 - np + j) l 0 * par j) (fun j => (-1) * (nth (length u - 1 - np + j) u 0 * par j))) by (intros j Hj; rewrite H by lia; ring).
  rewrite !sum_scale. ring.
Qed.

(** ** defining inequalities *)
Lemma usable_true level nb_iter r : usable level nb_iter r = Some true -> nth 0 r 0 <> 0 /\ nth level r 0 <> 0 /\ nth level r 0 <> 1 /\ nth level r 0 <> -1 /\
  (forall k, (level < k <= nb_iter)%nat -> nth k r 0 = 0).
Proof.
  unfold usable, at_. destruct (Z.eqb_spec (nth level r 0) 0) as [E|E]; [discriminate|]. intros H. injection H as H.
  apply andb_prop in H as [H H4]. apply andb_prop in H as [H H3]. apply andb_prop in H as [H1 H2]. apply negb_true_iff in H1, H2, H3. apply Z.eqb_neq in H1, H2, H3.
  destruct (seq_first_non_zero _) eqn:Ef in H4; [discriminate|]. repeat split; auto. intros k Hk.
  destruct (Nat.lt_ge_cases k (length r)) as [Hlt|Hge]; [|apply nth_overflow; exact Hge].
  pose proof (first_non_zero_none _ Ef) as Hz. apply Hz. replace (nth k r 0) with (nth (k - (level + 1)) (firstn (1 + nb_iter - (level + 1)) (skipn (level + 1) r)) 0).
  - apply nth_In. rewrite firstn_length, skipn_length. lia.
  - assert (E2 : nth (k - (level + 1)) (skipn (level + 1) r) 0 = nth k r 0).
    { rewrite <- (firstn_skipn (level + 1) r) at 2. rewrite app_nth2; rewrite firstn_length; [f_equal; lia|lia]. }
    rewrite <- E2. rewrite <- (firstn_skipn (1 + nb_iter - (level + 1)) (skipn (level + 1) r)) at 2. rewrite app_nth1; [reflexivity|]. rewrite firstn_length, skipn_length. lia.
Qed.
Lemma usable_none level nb_iter r : usable level nb_iter r = None <-> nth level r 0 = 0.
Proof. unfold usable, at_. destruct (Z.eqb_spec (nth level r 0) 0); split; intros H; try reflexivity; try discriminate; try assumption; contradiction. Qed.
Lemma neg_rows ri rj len : length ri = (len + 2)%nat -> length rj = (len + 2)%nat -> seq_is_neg (firstn len (skipn 1 ri)) (firstn len (skipn 1 rj)) = true ->
  forall k, (1 <= k <= len)%nat -> nth k rj 0 = - nth k ri 0.
Proof.
  intros Hi Hj H k Hk. apply is_neg_spec in H; [|rewrite !firstn_length, !skipn_length; lia].
  assert (E : forall r : mrow, length r = (len + 2)%nat -> nth (k - 1) (firstn len (skipn 1 r)) 0 = nth k r 0).
  { intros r Hr. destruct r as [|t p]; [cbn in Hr; lia|]. cbn [skipn]. cbn in Hr. rewrite <- (firstn_skipn len p) at 2. destruct k as [|k]; [lia|]. cbn [nth]. rewrite app_nth1 by (rewrite firstn_length; lia). f_equal. lia. }
  rewrite <- (E rj Hj), <- (E ri Hi), H. unfold seq_neg. change 0 with (- 0) at 1. rewrite map_nth. reflexivity.
Qed.
Definition pair_ok (columns level np : nat) (u l : mrow) : Prop :=
  nth 0 u 0 <> 0 /\ nth 0 l 0 <> 0 /\ nth level u 0 < -1 /\ (forall k, (1 <= k <= columns - 2)%nat -> nth k l 0 = - nth k u 0) /\
  (forall k, (level < k <= columns - np - 2)%nat -> nth k u 0 = 0) /\ 0 <= nth (columns - 1) u 0 + nth (columns - 1) l 0 < - nth level u 0.
Lemma existsb_zero level (rows : list mrow) : existsb (fun r => negb (at_ r level =? 0)) rows = false <-> forall r, In r rows -> nth level r 0 = 0.
Proof.
  split; intros H.
  - intros r Hr. destruct (Z.eq_dec (nth level r 0) 0) as [E|E]; [exact E|]. assert (X : existsb (fun r => negb (at_ r level =? 0)) rows = true); [|congruence].
    apply existsb_exists. exists r. split; [exact Hr|]. unfold at_. apply negb_true_iff, Z.eqb_neq. exact E.
  - destruct (existsb _ _) eqn:E; [|reflexivity]. apply existsb_exists in E as (r & Hr & E). apply negb_true_iff, Z.eqb_neq in E. exfalso. apply E, H, Hr.
Qed.
Lemma partner_spec columns level np ri rows u l : (np + 2 <= columns)%nat -> (1 <= level <= columns - np - 2)%nat -> length ri = columns -> (forall r, In r rows -> length r = columns) ->
  usable level (columns - 2 - np) ri = Some true -> defining_partner level (columns - 2 - np) (columns - 2) ri rows = Some (u, l) ->
  pair_ok columns level np u l /\ exists rj b c, rows = b ++ rj :: c /\ (forall r, In r (b ++ c) -> nth level r 0 = 0) /\ (ri = u /\ rj = l \/ ri = l /\ rj = u).
Proof.
  intros HL Hlev Hri Hrows Hu. induction rows as [|rj rows IH]; intros H; [discriminate|]. cbn [defining_partner] in H.
  destruct (usable level (columns - 2 - np) rj) as [[|]|] eqn:Ej; [|discriminate|].
  - destruct ((at_ ri (1 + (columns - 2)) + at_ rj (1 + (columns - 2)) <? 0) || (Z.abs (at_ ri level) <=? Z.abs (at_ ri (1 + (columns - 2)) + at_ rj (1 + (columns - 2))))) eqn:Em; [discriminate|].
    destruct (seq_is_neg (firstn (columns - 2) (skipn 1 ri)) (firstn (columns - 2) (skipn 1 rj))) eqn:En; [|discriminate]. cbn [negb] in H.
    destruct (existsb (fun rk => negb (at_ rk level =? 0)) rows) eqn:Ee; [discriminate|]. pose proof (proj1 (existsb_zero level rows) Ee) as Ee'. clear Ee. rename Ee' into Ee.
    assert (Hrj : length rj = columns) by (apply Hrows; left; reflexivity).
    pose proof (neg_rows ri rj (columns - 2) ltac:(lia) ltac:(lia) En) as Hneg. apply usable_true in Hu as (A1 & A2 & A3 & A4 & A5). apply usable_true in Ej as (B1 & B2 & B3 & B4 & B5).
    apply orb_false_iff in Em as [Em1 Em2]. apply Z.ltb_ge in Em1. apply Z.leb_gt in Em2. replace (1 + (columns - 2))%nat with (columns - 1)%nat in * by lia. unfold at_ in *.
    pose proof (Hneg level ltac:(lia)) as Hnl.
    destruct (Z.ltb_spec 0 (nth level ri 0)) as [Hp|Hp]; injection H as <- <-.
    + split; [|exists rj, [], rows; split; [reflexivity|split; [exact Ee|right; split; reflexivity]]]. split; [exact B1|]. split; [exact A1|]. split; [lia|]. split; [intros k Hk; rewrite (Hneg k) by lia; lia|]. split; [intros k Hk; apply B5; lia|lia].
    + split; [|exists rj, [], rows; split; [reflexivity|split; [exact Ee|left; split; reflexivity]]]. split; [exact A1|]. split; [exact B1|]. split; [lia|]. split; [intros k Hk; apply Hneg; lia|]. split; [intros k Hk; apply A5; lia|lia].
  - apply usable_none in Ej. destruct IH as (I1 & rj' & b & c & I2 & I3 & I4); [intros r Hr; apply Hrows; right; exact Hr|exact H|].
    split; [exact I1|]. exists rj', (rj :: b), c. split; [rewrite I2; reflexivity|]. split; [intros r [<-|Hr]; [exact Ej|apply I3; exact Hr]|exact I4].
Qed.
Theorem defining_spec columns level np rows u l : (np + 2 <= columns)%nat -> (1 <= level <= columns - np - 2)%nat -> (forall r, In r rows -> length r = columns) ->
  defining_inequalities rows columns level np = Some (u, l) ->
  pair_ok columns level np u l /\ exists r1 r2 a b c, rows = a ++ r1 :: b ++ r2 :: c /\ (forall r, In r (a ++ b ++ c) -> nth level r 0 = 0) /\ (r1 = u /\ r2 = l \/ r1 = l /\ r2 = u).
Proof.
  intros HL Hlev. induction rows as [|ri rows IH]; intros Hrows H; [discriminate|]. cbn [defining_inequalities] in H.
  assert (Hrows' : forall r, In r rows -> length r = columns) by (intros r Hr; apply Hrows; right; exact Hr).
  destruct (usable level (columns - 2 - np) ri) as [[|]|] eqn:Ei; [|discriminate|].
  - destruct (defining_partner level (columns - 2 - np) (columns - 2) ri rows) as [[u' l']|] eqn:Ep.
    + injection H as -> ->. destruct (partner_spec columns level np ri rows u l) as (P1 & rj & b & c & P2 & P3 & P4); auto; [apply Hrows; left; reflexivity|].
      split; [exact P1|]. exists ri, rj, [], b, c. split; [cbn; rewrite P2; reflexivity|]. split; [exact P3|exact P4].
    + destruct (existsb (fun rj => negb (at_ rj level =? 0)) rows) eqn:Ee; [discriminate|]. pose proof (proj1 (existsb_zero level rows) Ee) as Ee'. clear Ee. rename Ee' into Ee. exfalso. destruct (IH Hrows' H) as (_ & r1 & r2 & a & b & c & E & _ & Hor).
      assert (Hin1 : In r1 rows) by (rewrite E; apply in_or_app; right; left; reflexivity). assert (Hin2 : In r2 rows) by (rewrite E; apply in_or_app; right; right; apply in_or_app; right; left; reflexivity).
      destruct (IH Hrows' H) as ((_ & _ & Hneg & _) & _). destruct Hor as [[-> ->]|[-> ->]]; [specialize (Ee u Hin1)|specialize (Ee u Hin2)]; lia.
  - apply usable_none in Ei. destruct (IH Hrows' H) as (I1 & r1 & r2 & a & b & c & I2 & I3 & I4). split; [exact I1|].
    exists r1, r2, (ri :: a), b, c. split; [rewrite I2; reflexivity|]. split; [intros r [<-|Hr]; [exact Ei|apply I3; exact Hr]|exact I4].
Qed.
Theorem pair_values columns level np u l it par v : (np + 2 <= columns)%nat -> (1 <= level <= columns - np - 2)%nat -> length u = columns -> length l = columns -> pair_ok columns level np u l ->
  let m := - nth level u 0 in let e := value np u (with_value it (level - 1) 0) par in
  (holds np u (with_value it (level - 1) v) par /\ holds np l (with_value it (level - 1) v) par <-> v = e / m /\ e mod m <= nth (columns - 1) u 0 + nth (columns - 1) l 0).
Proof.
  intros HL Hlev Hu Hl (P1 & P2 & P3 & P4 & P5 & P6) m e. unfold holds. destruct (Z.eqb_spec (nth 0 u 0) 0); [contradiction|]. destruct (Z.eqb_spec (nth 0 l 0) 0); [contradiction|].
  rewrite (value_opposite np u l) by (try lia; intros k Hk; apply P4; lia). rewrite Hu. rewrite (value_with np u it par level v) by lia. fold e. replace (nth level u 0) with (- m) by (unfold m; lia).
  assert (Hm : 1 < m) by (unfold m; lia). set (K := nth (columns - 1) u 0 + nth (columns - 1) l 0) in *. assert (HK : 0 <= K < m) by (unfold m; lia). clearbody m K e.
  pose proof (Z.div_mod e m ltac:(lia)). pose proof (Z.mod_pos_bound e m ltac:(lia)). split.
  - intros [H1 H2]. assert (v = e / m) by nia. subst v. split; [reflexivity|nia].
  - intros [-> H1]. split; nia.
Qed.

(** ** types of equalities *)
Definition var (np L : nat) (it par : nat -> Z) (k : nat) : Z := if Nat.leb k (L - np - 2) then it (k - 1)%nat else par (k - (L - np - 1))%nat.
Lemma sum_app n m f : sum (n + m) f = sum n f + sum m (fun j => f (n + j)%nat).
Proof. induction m as [|m IH]; [rewrite Nat.add_0_r; cbn; lia|]. rewrite Nat.add_succ_r. cbn. rewrite IH. lia. Qed.
Lemma value_var np r it par : (np + 2 <= length r)%nat -> value np r it par = sum (length r - 2) (fun j => nth (1 + j) r 0 * var np (length r) it par (1 + j)) + nth (length r - 1) r 0.
Proof.
  intros H. unfold value. set (L := length r) in *. replace (L - 2)%nat with ((L - np - 2) + np)%nat by lia. rewrite sum_app. do 2 f_equal.
  - apply sum_ext. intros j Hj. unfold var. destruct (Nat.leb_spec (1 + j) (L - np - 2)); [|lia]. do 2 f_equal. lia.
  - apply sum_ext. intros j Hj. unfold var. destruct (Nat.leb_spec (1 + (L - np - 2 + j)) (L - np - 2)); [lia|]. f_equal; f_equal; lia.
Qed.
Lemma scan_false r level : forall ks one, scan_ones r level ks one = Some false <-> one = false /\ forall k, In k ks -> k <> level -> nth k r 0 = 0.
Proof.
  induction ks as [|k ks IH]; intros one; cbn; [split; [intros H; injection H as ->; split; [reflexivity|intros k []]|intros [-> _]; reflexivity]|].
  unfold at_. destruct (negb (nth k r 0 =? 0) && negb (k =? level)%nat) eqn:E.
  - apply andb_prop in E as [E1 E2]. apply negb_true_iff in E1, E2. apply Z.eqb_neq in E1. apply Nat.eqb_neq in E2.
    destruct (negb (unit_coef (nth k r 0)) || one).
    + split; [discriminate|]. intros [_ H]. exfalso. apply E1, H; auto.
    + rewrite IH. split; [intros [H _]; discriminate|]. intros [_ H]. exfalso. apply E1, H; auto.
  - rewrite IH. split; intros [H1 H2]; (split; [exact H1|]); [|intros j Hj; apply H2; right; exact Hj]. intros j [<-|Hj] Hn; [|apply H2; auto].
    apply andb_false_iff in E as [E|E]; apply negb_false_iff in E; [apply Z.eqb_eq in E; exact E|apply Nat.eqb_eq in E; contradiction].
Qed.
Lemma scan_true r level : forall ks, scan_ones r level ks true = Some true <-> forall k, In k ks -> k <> level -> nth k r 0 = 0.
Proof.
  induction ks as [|k ks IH]; cbn; [split; [intros _ k []|reflexivity]|]. unfold at_. destruct (negb (nth k r 0 =? 0) && negb (k =? level)%nat) eqn:E.
  - apply andb_prop in E as [E1 E2]. apply negb_true_iff in E1, E2. apply Z.eqb_neq in E1. apply Nat.eqb_neq in E2. rewrite orb_true_r. split; [discriminate|]. intros H. exfalso. apply E1, H; auto.
  - rewrite IH. split; intros H j Hj Hn; [|apply H; auto]. destruct Hj as [<-|Hj]; [|apply H; auto].
    apply andb_false_iff in E as [E|E]; apply negb_false_iff in E; [apply Z.eqb_eq in E; exact E|apply Nat.eqb_eq in E; contradiction].
Qed.
Lemma scan_one r level : forall ks, NoDup ks -> (scan_ones r level ks false = Some true <->
  exists k, In k ks /\ k <> level /\ (nth k r 0 = 1 \/ nth k r 0 = -1) /\ forall j, In j ks -> j <> level -> j <> k -> nth j r 0 = 0).
Proof.
  induction ks as [|k ks IH]; intros Hnd; cbn; [split; [discriminate|intros (k & [] & _)]|]. inversion Hnd as [|x y Hk Hnd']; subst. unfold at_.
  destruct (negb (nth k r 0 =? 0) && negb (k =? level)%nat) eqn:E.
  - apply andb_prop in E as [E1 E2]. apply negb_true_iff in E1, E2. apply Z.eqb_neq in E1. apply Nat.eqb_neq in E2. rewrite orb_false_r.
    destruct (unit_coef (nth k r 0)) eqn:Eu; cbn [negb].
    + assert (Hu : nth k r 0 = 1 \/ nth k r 0 = -1) by (apply orb_prop in Eu as [Eu|Eu]; apply Z.eqb_eq in Eu; auto). rewrite scan_true. split.
      * intros H. exists k. repeat split; auto. intros j [<-|Hj] Hn Hn2; [contradiction|apply H; auto].
      * intros (k' & Hk' & Hn & Hu' & Hz) j Hj Hnj. destruct (Nat.eq_dec k' k) as [->|Hkk]; [apply Hz; auto; intros ->; contradiction|]. exfalso. apply E1, Hz; auto.
    + split; [discriminate|]. intros (k' & Hk' & Hn & Hu' & Hz). exfalso. destruct (Nat.eq_dec k' k) as [->|Hkk]; [destruct Hu' as [Hu'|Hu']; rewrite Hu' in Eu; discriminate|]. apply E1, Hz; auto.
  - rewrite (IH Hnd'). apply andb_false_iff in E. assert (Hz0 : k <> level -> nth k r 0 = 0) by (intros Hn; destruct E as [E|E]; apply negb_false_iff in E; [apply Z.eqb_eq in E; exact E|apply Nat.eqb_eq in E; contradiction]).
    split; intros (k' & Hk' & Hn & Hu' & Hz).
    + exists k'. repeat split; auto. intros j [<-|Hj] Hnj Hnj2; auto.
    + destruct Hk' as [<-|Hk']; [rewrite (Hz0 Hn) in Hu'; lia|]. exists k'. repeat split; auto.
Qed.
Lemma unit_coef_spec z : unit_coef z = true <-> z = 1 \/ z = -1.
Proof. unfold unit_coef. rewrite orb_true_iff, !Z.eqb_eq. reflexivity. Qed.
Theorem type_constant r level : equal_type r level = EQ_CONSTANT <-> (nth level r 0 = 1 \/ nth level r 0 = -1) /\ forall k, (1 <= k <= length r - 2)%nat -> k <> level -> nth k r 0 = 0.
Proof.
  unfold equal_type, at_. rewrite <- unit_coef_spec. destruct (unit_coef (nth level r 0)); cbn [negb]; [|split; [discriminate|intros [H _]; discriminate]].
  pose proof (scan_false r level (seq 1 (length r - 2)) false) as Hs.
  assert (Hin : (forall k, In k (seq 1 (length r - 2)) -> k <> level -> nth k r 0 = 0) <-> (forall k, (1 <= k <= length r - 2)%nat -> k <> level -> nth k r 0 = 0)).
  { split; intros H k Hk; apply H; [apply in_seq; lia|apply in_seq in Hk; lia]. }
  rewrite Hin in Hs. destruct (scan_ones _ _ _ _) as [[|]|].
  - split; [destruct (negb _); discriminate|]. intros [_ H]. assert (X : Some true = Some false) by (apply Hs; auto). discriminate.
  - split; [|reflexivity]. intros _. split; [reflexivity|]. apply Hs. reflexivity.
  - split; [discriminate|]. intros [_ H]. assert (X : None = Some false) by (apply Hs; auto). discriminate.
Qed.
Theorem type_item r level : equal_type r level = EQ_PUREITEM <-> (nth level r 0 = 1 \/ nth level r 0 = -1) /\ nth (length r - 1) r 0 = 0 /\
  exists k, (1 <= k <= length r - 2)%nat /\ k <> level /\ (nth k r 0 = 1 \/ nth k r 0 = -1) /\ forall j, (1 <= j <= length r - 2)%nat -> j <> level -> j <> k -> nth j r 0 = 0.
Proof.
  unfold equal_type, at_. rewrite <- unit_coef_spec. destruct (unit_coef (nth level r 0)); cbn [negb]; [|split; [discriminate|intros [H _]; discriminate]].
  pose proof (scan_one r level (seq 1 (length r - 2)) (seq_NoDup _ _)) as Hs.
  assert (Hin : (exists k, In k (seq 1 (length r - 2)) /\ k <> level /\ (nth k r 0 = 1 \/ nth k r 0 = -1) /\ forall j, In j (seq 1 (length r - 2)) -> j <> level -> j <> k -> nth j r 0 = 0) <->
    (exists k, (1 <= k <= length r - 2)%nat /\ k <> level /\ (nth k r 0 = 1 \/ nth k r 0 = -1) /\ forall j, (1 <= j <= length r - 2)%nat -> j <> level -> j <> k -> nth j r 0 = 0)).
  { assert (Hs' : forall j, In j (seq 1 (length r - 2)) <-> (1 <= j <= length r - 2)%nat) by (intros j; rewrite in_seq; lia).
    split; intros (k & H1 & H2 & H3 & H4); exists k; (split; [apply Hs'; exact H1|]); (split; [exact H2|]); (split; [exact H3|]); intros j Hj; apply H4; apply Hs'; exact Hj. }
  rewrite Hin in Hs. destruct (scan_ones _ _ _ _) as [[|]|].
  - destruct (Z.eqb_spec (nth (length r - 1) r 0) 0) as [E|E]; cbn [negb]; (split; [|]); try discriminate; try reflexivity.
    + intros _. split; [reflexivity|]. split; [exact E|]. apply Hs. reflexivity.
    + intros (_ & H & _). contradiction.
  - split; [discriminate|]. intros (_ & _ & H). assert (X : Some false = Some true) by (apply Hs; auto). discriminate.
  - split; [discriminate|]. intros (_ & _ & H). assert (X : None = Some true) by (apply Hs; auto). discriminate.
Qed.
Lemma value_two np r it par level k : (np + 2 <= length r)%nat -> (1 <= level <= length r - 2)%nat -> (1 <= k <= length r - 2)%nat -> k <> level ->
  (forall j, (1 <= j <= length r - 2)%nat -> j <> level -> j <> k -> nth j r 0 = 0) ->
  value np r it par = nth level r 0 * var np (length r) it par level + nth k r 0 * var np (length r) it par k + nth (length r - 1) r 0.
Proof.
  intros HL Hl Hk Hn Hz. rewrite (value_var np r it par HL). f_equal. set (f := fun j => nth (1 + j) r 0 * var np (length r) it par (1 + j)).
  rewrite (sum_ext _ f (fun j => 1 * (if Nat.eqb j (level - 1) then f j else 0) - (-1) * (if Nat.eqb j (k - 1) then f j else 0))).
  - rewrite sum_lin. rewrite (sum_one _ _ (level - 1)), (sum_one _ (fun j => if (j =? k - 1)%nat then f j else 0) (k - 1)); try lia.
    + rewrite !Nat.eqb_refl. unfold f. replace (1 + (level - 1))%nat with level by lia. replace (1 + (k - 1))%nat with k by lia. ring.
    + intros j _ Hj. destruct (Nat.eqb_spec j (k - 1)); [contradiction|reflexivity].
    + intros j _ Hj. destruct (Nat.eqb_spec j (level - 1)); [contradiction|reflexivity].
  - intros j Hj. destruct (Nat.eqb_spec j (level - 1)) as [E1|E1], (Nat.eqb_spec j (k - 1)) as [E2|E2]; try lia. unfold f. rewrite Hz by lia. lia.
Qed.
Lemma value_one np r it par level : (np + 2 <= length r)%nat -> (1 <= level <= length r - 2)%nat ->
  (forall j, (1 <= j <= length r - 2)%nat -> j <> level -> nth j r 0 = 0) ->
  value np r it par = nth level r 0 * var np (length r) it par level + nth (length r - 1) r 0.
Proof.
  intros HL Hl Hz. rewrite (value_var np r it par HL). f_equal. rewrite (sum_one _ _ (level - 1)); [replace (1 + (level - 1))%nat with level by lia; reflexivity|lia|].
  intros j Hj Hn. rewrite Hz by lia. lia.
Qed.

(** ** a loop that runs once *)
Theorem otl_spec np r level it par : (np + 2 <= length r)%nat -> (1 <= level <= length r - np - 2)%nat -> nth 0 r 0 <> 0 -> nth level r 0 <> 0 ->
  (forall j, (1 <= j <= length r - 2)%nat -> j <> level -> nth j r 0 = 0) ->
  exists b, (holds np r it par <-> if 0 <? nth level r 0 then b <= it (level - 1)%nat else it (level - 1)%nat <= b) /\
            (value np (otl_offset r level) it par = 0 <-> it (level - 1)%nat = b).
Proof.
  intros HL Hl H0 Ha Hz. unfold holds. destruct (Z.eqb_spec (nth 0 r 0) 0); [contradiction|].
  assert (Hv : var np (length r) it par level = it (level - 1)%nat) by (unfold var; destruct (Nat.leb_spec level (length r - np - 2)); [reflexivity|lia]).
  rewrite (value_one np r it par level) by (auto; lia). rewrite Hv. set (a := nth level r 0) in *. set (c := nth (length r - 1) r 0). set (x := it (level - 1)%nat).
  assert (Ho : value np (otl_offset r level) it par = if negb (a =? 1) && negb (a =? -1) && negb (c =? 0) then Z.sgn a * x + c / Z.abs a else a * x + c).
  { unfold otl_offset, at_. fold a c. destruct (negb (a =? 1) && negb (a =? -1) && negb (c =? 0)).
    - assert (Hlen : length (set_at (set_at r (length r - 1) (c / Z.abs a)) level (Z.sgn a)) = length r) by (rewrite !set_at_length; reflexivity).
      rewrite (value_one np _ it par level); rewrite ?Hlen; try lia.
      + rewrite Hv. fold x. rewrite set_at_same by (rewrite set_at_length; lia). rewrite set_at_other by lia. rewrite set_at_same by lia. reflexivity.
      + intros j Hj Hn. rewrite set_at_other by exact Hn. rewrite set_at_other by lia. apply Hz; auto.
    - rewrite (value_one np r it par level) by (auto; lia). rewrite Hv. reflexivity. }
  rewrite Ho. clear Ho. clearbody x c a.
  destruct (Z.ltb_spec 0 a) as [Hp|Hp].
  - rewrite Z.abs_eq, Z.sgn_pos by lia. exists (- (c / a)). pose proof (Z.div_mod c a ltac:(lia)). pose proof (Z.mod_pos_bound c a Hp). split; [nia|].
    destruct (Z.eqb_spec a 1) as [->|Hne1]; cbn [negb andb]; [rewrite Z.div_1_r; lia|]. destruct (Z.eqb_spec a (-1)); [lia|]. destruct (Z.eqb_spec c 0) as [->|Hc]; cbn [negb andb]; [rewrite Z.div_0_l by lia; nia|lia].
  - rewrite Z.abs_neq, Z.sgn_neg by lia. exists (c / - a). pose proof (Z.div_mod c (- a) ltac:(lia)). pose proof (Z.mod_pos_bound c (- a) ltac:(lia)). split; [nia|].
    destruct (Z.eqb_spec a 1); [lia|]. destruct (Z.eqb_spec a (-1)) as [->|Hne1]; cbn [negb andb]; [change (- -1) with 1; rewrite Z.div_1_r; lia|]. destruct (Z.eqb_spec c 0) as [->|Hc]; cbn [negb andb]; [rewrite Z.div_0_l by lia; nia|lia].
Qed.
