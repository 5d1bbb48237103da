From Coq Require Import ZArith List Bool Arith Lia.
From Verif Require Import IntModel IntProofs RowModel RowSpec.
Import ListNotations.
Local Open Scope Z_scope.
Local Arguments Nat.ltb : simpl never.
Local Arguments Nat.leb : simpl never.
Local Arguments Nat.eqb : simpl never.
Local Arguments Nat.sub : simpl never.

(** ** sums *)
Lemma sum_ext n f g : (forall j, (j < n)%nat -> f j = g j) -> sum n f = sum n g.
Proof. induction n as [|n IH]; intros H; [reflexivity|]. cbn. rewrite IH, H by (try (intros; apply H); lia). reflexivity. Qed.
Lemma sum_lin n a b f g : sum n (fun j => a * f j - b * g j) = a * sum n f - b * sum n g.
Proof. induction n as [|n IH]; [cbn; ring|]. cbn. rewrite IH. ring. Qed.
Lemma sum_scale n a f : sum n (fun j => a * f j) = a * sum n f.
Proof. induction n as [|n IH]; [cbn; ring|]. cbn. rewrite IH. ring. Qed.
Lemma sum_0 n f : (forall j, (j < n)%nat -> f j = 0) -> sum n f = 0.
Proof. intros H. rewrite (sum_ext n f (fun _ => 0)) by exact H. clear H. induction n as [|n IH]; cbn; [reflexivity|lia]. Qed.
Lemma sum_tail n m f : (n <= m)%nat -> (forall j, (n <= j < m)%nat -> f j = 0) -> sum m f = sum n f.
Proof.
  intros H Hz. induction m as [|m IH]; [replace n with O by lia; reflexivity|]. destruct (Nat.eq_dec n (S m)) as [->|Hn]; [reflexivity|].
  cbn. rewrite IH, Hz by (try (intros; apply Hz); lia). lia.
Qed.
Lemma sum_one n f k : (k < n)%nat -> (forall j, (j < n)%nat -> j <> k -> f j = 0) -> sum n f = f k.
Proof.
  intros Hk Hz. rewrite (sum_tail (S k) n) by (try (intros; apply Hz); lia). cbn. rewrite sum_0; [lia|]. intros j Hj. apply Hz; lia.
Qed.
Lemma nth_map_seq (f : nat -> Z) n k : (k < n)%nat -> nth k (map f (seq 0 n)) 0 = f k.
Proof. intros H. rewrite (nth_indep _ 0 (f 0%nat)) by (rewrite map_length, seq_length; exact H). rewrite map_nth. rewrite seq_nth by exact H. reflexivity. Qed.

(** ** combining rows *)
Lemma value_combine np s q s' fv fe it par : (np + 2 <= length s <= length q)%nat -> length s' = length s ->
  (forall k, (1 <= k <= length s - np - 2)%nat -> nth k s' 0 = fv * nth k s 0 - fe * nth k q 0) ->
  (forall j, (j <= np)%nat -> nth (length s - 1 - j) s' 0 = fv * nth (length s - 1 - j) s 0 - fe * nth (length q - 1 - j) q 0) ->
  (forall k, (length s - np - 2 < k <= length q - np - 2)%nat -> nth k q 0 = 0) ->
  value np s' it par = fv * value np s it par - fe * value np q it par.
Proof.
  intros HL Hl Hi Hp Hz. unfold value. rewrite Hl.
  rewrite (sum_tail (length s - np - 2) (length q - np - 2)); [|lia|intros j Hj; rewrite Hz by lia; lia].
  rewrite (sum_ext (length s - np - 2) (fun j => nth (1 + j) s' 0 * it j) (fun j => fv * (nth (1 + j) s 0 * it j) - fe * (nth (1 + j) q 0 * it j))).
  2:{ intros j Hj. rewrite Hi by lia. ring. }
  rewrite (sum_ext np (fun j => nth (length s - 1 - np + j) s' 0 * par j) (fun j => fv * (nth (length s - 1 - np + j) s 0 * par j) - fe * (nth (length q - 1 - np + j) q 0 * par j))).
  2:{ intros j Hj. specialize (Hp (np - j)%nat ltac:(lia)). replace (length s - 1 - (np - j))%nat with (length s - 1 - np + j)%nat in Hp by lia. replace (length q - 1 - (np - j))%nat with (length q - 1 - np + j)%nat in Hp by lia. rewrite Hp. ring. }
  specialize (Hp 0%nat ltac:(lia)). rewrite !Nat.sub_0_r in Hp. rewrite Hp, !sum_lin. ring.
Qed.
Lemma value_scale np r r' g it par : length r' = length r -> (np + 2 <= length r)%nat -> (forall k, (1 <= k < length r)%nat -> nth k r 0 = g * nth k r' 0) -> value np r it par = g * value np r' it par.
Proof.
  intros Hl HL H. unfold value. rewrite Hl.
  rewrite (sum_ext (length r - np - 2) (fun j => nth (1 + j) r 0 * it j) (fun j => g * (nth (1 + j) r' 0 * it j))) by (intros j Hj; rewrite H by lia; ring).
  rewrite (sum_ext np (fun j => nth (length r - 1 - np + j) r 0 * par j) (fun j => g * (nth (length r - 1 - np + j) r' 0 * par j))) by (intros j Hj; rewrite H by lia; ring).
  rewrite H by lia. rewrite !sum_scale. ring.
Qed.
Lemma normalize_scale p : exists g, 0 < g /\ length (seq_normalize p) = length p /\ forall k, nth k p 0 = g * nth k (seq_normalize p) 0.
Proof.
  unfold seq_normalize. destruct p as [|x p]; [exists 1; split; [lia|]; split; [reflexivity|]; intros k; destruct k; reflexivity|].
  set (q := x :: p). destruct (negb (seq_gcd q =? 0) && negb (seq_gcd q =? 1)) eqn:E.
  - apply andb_prop in E as [E1 E2]. apply negb_true_iff in E1, E2. apply Z.eqb_neq in E1.
    rewrite seq_gcd_spec in *. pose proof (gcd_list_nonneg q). exists (gcd_list q). split; [lia|]. split; [apply map_length|].
    intros k. destruct (Nat.lt_ge_cases k (length q)) as [Hk|Hk].
    + assert (Hn : nth k (seq_scale_down q (gcd_list q)) 0 = Z.quot (nth k q 0) (gcd_list q)).
      { unfold seq_scale_down. rewrite (nth_indep (map (fun x => Z.quot x (gcd_list q)) q) 0 (Z.quot 0 (gcd_list q))) by (rewrite map_length; exact Hk). apply (map_nth (fun x => Z.quot x (gcd_list q))). }
      rewrite Hn.
      assert (Hd : (gcd_list q | nth k q 0)) by (apply gcd_list_divides; apply nth_In; exact Hk). destruct Hd as [z Hz]. rewrite Hz, Z.quot_mul by exact E1. ring.
    + rewrite !nth_overflow; [ring|unfold seq_scale_down; rewrite map_length; exact Hk|exact Hk].
  - exists 1. split; [lia|]. split; [reflexivity|]. intros k. ring.
Qed.
Definition renorm (r : mrow) : mrow := match r with [] => [] | t :: p => t :: seq_normalize p end.
Lemma renorm_spec np r it par : (np + 2 <= length r)%nat -> exists g, 0 < g /\ length (renorm r) = length r /\ nth 0 (renorm r) 0 = nth 0 r 0 /\
  (forall k, (1 <= k)%nat -> nth k r 0 = g * nth k (renorm r) 0) /\ value np r it par = g * value np (renorm r) it par.
Proof.
  intros HL. destruct r as [|t p]; [cbn in HL; lia|]. destruct (normalize_scale p) as (g & Hg & Hl & Hk). exists g. cbn [renorm]. split; [exact Hg|].
  assert (Hl' : length (t :: seq_normalize p) = length (t :: p)) by (cbn; rewrite Hl; reflexivity).
  assert (Hk' : forall k, (1 <= k)%nat -> nth k (t :: p) 0 = g * nth k (t :: seq_normalize p) 0) by (intros [|k] H; [lia|cbn; apply Hk]).
  split; [exact Hl'|]. split; [reflexivity|]. split; [exact Hk'|]. apply value_scale; [exact Hl'|exact HL|]. intros k Hk2. apply Hk'. lia.
Qed.
Lemma factors_spec a b : b <> 0 -> let '(f, h) := factors a b in f <> 0 /\ f * a = h * b /\ (a <> 0 -> h <> 0).
Proof.
  intros Hb. unfold factors. pose proof (Z.gcd_nonneg a b). assert (Hg : Z.gcd a b <> 0) by (intros E; apply Z.gcd_eq_0_r in E; contradiction).
  destruct (Z.gcd_divide_l a b) as [x Hx]. destruct (Z.gcd_divide_r a b) as [y Hy]. cbv zeta. set (g := Z.gcd a b) in *. clearbody g.
  assert (Ha : Z.quot a g = x) by (rewrite Hx; apply Z.quot_mul; exact Hg). assert (Hb' : Z.quot b g = y) by (rewrite Hy; apply Z.quot_mul; exact Hg).
  rewrite Ha, Hb'. split; [intros ->; apply Hb; rewrite Hy; lia|]. split; [rewrite Hx, Hy; ring|intros Ha0 ->; apply Ha0; rewrite Hx; lia].
Qed.
Lemma no_neg_spec a b : b <> 0 -> let '(f, h) := no_neg (factors a b) in 0 < f /\ f * a = h * b.
Proof.
  intros Hb. pose proof (factors_spec a b Hb) as H. destruct (factors a b) as [f h]. destruct H as (H1 & H2 & _). unfold no_neg. cbn [fst snd].
  destruct (Z.ltb_spec f 0) as [Hf|Hf]; [rewrite Z.abs_neq by lia; split; [lia|nia]|split; [lia|exact H2]].
Qed.
Lemma holds_scale np r r' it par c d : 0 < c -> 0 < d -> nth 0 r' 0 = nth 0 r 0 -> c * value np r' it par = d * value np r it par -> (holds np r' it par <-> holds np r it par).
Proof. intros Hc Hd H0 Hv. unfold holds. rewrite H0. destruct (nth 0 r 0 =? 0); split; intros H; nia. Qed.

(** ** normalize *)
Lemma map2_length f a : forall b, length a = length b -> length (map2 f a b) = length a.
Proof. induction a as [|x a IH]; intros [|y b] H; cbn in *; try reflexivity; try discriminate. f_equal. apply IH. lia. Qed.
Lemma map2_nth f a : forall b k, length a = length b -> (k < length a)%nat -> nth k (map2 f a b) 0 = f (nth k a 0) (nth k b 0).
Proof. induction a as [|x a IH]; intros [|y b] k H Hk; cbn in *; try lia; try discriminate. destruct k; [reflexivity|]. apply IH; lia. Qed.
Lemma eliminate_spec np level ref r it par : length r = length ref -> (np + 2 <= length r)%nat -> (1 <= level < length r)%nat -> nth level ref 0 <> 0 -> value np ref it par = 0 ->
  (holds np (eliminate level ref r) it par <-> holds np r it par).
Proof.
  intros Hl HL Hlev Href Hv. unfold eliminate. destruct (Z.eqb_spec (at_ r level) 0) as [E|E]; [reflexivity|].
  pose proof (no_neg_spec (at_ r level) (at_ ref level) Href) as Hf. destruct (no_neg (factors (at_ r level) (at_ ref level))) as [fi fr]. destruct Hf as [Hf1 Hf2].
  destruct r as [|t p]; [cbn in HL; lia|]. destruct ref as [|t' q]; [cbn in Hl; lia|]. cbn in Hl.
  set (r2 := t :: map2 (fun x y => fi * x - fr * y) p q).
  assert (Hl2 : length r2 = length (t :: p)) by (cbn; rewrite map2_length by lia; reflexivity).
  destruct (renorm_spec np r2 it par ltac:(rewrite Hl2; exact HL)) as (g & Hg & Hgl & Hg0 & _ & Hgv). change (t :: seq_normalize (map2 (fun x y => fi * x - fr * y) p q)) with (renorm r2).
  assert (Hv2 : value np r2 it par = fi * value np (t :: p) it par - fr * value np (t' :: q) it par).
  { apply value_combine; try exact Hl2.
    - split; [exact HL|cbn; lia].
    - intros [|k] Hk; [lia|]. cbn [r2 nth]. rewrite map2_nth; [reflexivity|lia|cbn [length] in Hk; lia].
    - intros j Hj. cbn [length] in *. replace (S (length q) - 1 - j)%nat with (S (length p) - 1 - j)%nat by lia.
      destruct (S (length p) - 1 - j)%nat as [|k] eqn:Ek; [lia|]. cbn [r2 nth]. rewrite map2_nth; [reflexivity|lia|lia].
    - intros k Hk. cbn [length] in Hk. lia. }
  rewrite Hv in Hv2. apply (holds_scale np _ _ it par g fi); auto. rewrite <- Hgv, Hv2. ring.
Qed.
Lemma eliminate_zero level ref r : length r = length ref -> (1 <= level < length r)%nat -> nth level ref 0 <> 0 -> nth level (eliminate level ref r) 0 = 0.
Proof.
  intros Hl Hlev Href. unfold eliminate. destruct (Z.eqb_spec (at_ r level) 0) as [E|E]; [exact E|].
  pose proof (no_neg_spec (at_ r level) (at_ ref level) Href) as Hf. destruct (no_neg (factors (at_ r level) (at_ ref level))) as [fi fr]. destruct Hf as [Hf1 Hf2].
  destruct r as [|t p]; [cbn in Hlev; lia|]. destruct ref as [|t' q]; [cbn in Hl; lia|]. cbn in Hl. destruct level as [|k]; [lia|]. cbn [nth at_] in *. cbn [length] in Hlev.
  destruct (normalize_scale (map2 (fun x y => fi * x - fr * y) p q)) as (g & Hg & _ & Hk). specialize (Hk k). rewrite map2_nth in Hk by lia. unfold at_ in Hf2. cbn [nth] in Hf2. nia.
Qed.
Lemma eliminate_length level ref r : length r = length ref -> length (eliminate level ref r) = length r.
Proof.
  intros Hl. unfold eliminate. destruct (at_ r level =? 0); [reflexivity|]. destruct (no_neg _) as [fi fr]. destruct r as [|t p]; [reflexivity|]. destruct ref as [|t' q]; [reflexivity|].
  cbn in *. rewrite normalize_length, map2_length by lia. reflexivity.
Qed.
Lemma eliminate_type level ref r : nth 0 (eliminate level ref r) 0 = nth 0 r 0.
Proof. unfold eliminate. destruct (at_ r level =? 0); [reflexivity|]. destruct (no_neg _). destruct r, ref; reflexivity. Qed.
Lemma normalize_rows_split level rows : normalize_rows level rows = rows /\ (forall r, In r rows -> defines level r = false) \/
  exists pre ref post, rows = pre ++ ref :: post /\ (forall r, In r pre -> defines level r = false) /\ defines level ref = true /\
    normalize_rows level rows = pre ++ ref :: map (eliminate level ref) post.
Proof.
  induction rows as [|r rows IH]; [left; split; [reflexivity|intros r []]|]. cbn. destruct (defines level r) eqn:E.
  - right. exists [], r, rows. repeat split; auto. intros x [].
  - destruct IH as [[IH1 IH2]|(pre & ref & post & H1 & H2 & H3 & H4)].
    + left. split; [rewrite IH1; reflexivity|]. intros x [<-|Hx]; auto.
    + right. exists (r :: pre), ref, post. split; [rewrite H1; reflexivity|]. split; [intros x [<-|Hx]; auto|]. split; [exact H3|]. rewrite H4. reflexivity.
Qed.
Lemma defines_spec level r : defines level r = true <-> nth 0 r 0 = 0 /\ nth level r 0 <> 0.
Proof. unfold defines, at_. rewrite andb_true_iff, negb_true_iff, Z.eqb_eq, Z.eqb_neq. reflexivity. Qed.
Lemma normalize_hold np columns level rows it par : (np + 2 <= columns)%nat -> (1 <= level < columns)%nat -> (forall r, In r rows -> length r = columns) ->
  (all_hold np (set_normalize columns level rows) it par <-> all_hold np rows it par).
Proof.
  intros HL Hlev Hlen. unfold set_normalize. destruct (level =? columns - 1)%nat; [reflexivity|].
  destruct (normalize_rows_split level rows) as [[-> _]|(pre & ref & post & -> & H2 & H3 & ->)]; [reflexivity|].
  apply defines_spec in H3 as [H3 H4]. unfold all_hold.
  assert (Href : length ref = columns) by (apply Hlen, in_or_app; right; left; reflexivity).
  assert (Hpost : forall r, In r post -> holds np ref it par -> (holds np (eliminate level ref r) it par <-> holds np r it par)).
  { intros r Hr Hh. assert (Hl : length r = columns) by (apply Hlen, in_or_app; right; right; exact Hr). unfold holds in Hh. rewrite H3 in Hh. cbn in Hh.
    apply eliminate_spec; auto; try lia. }
  split; intros H r Hr; (assert (Hh : holds np ref it par) by (apply H, in_or_app; right; left; reflexivity)); apply in_app_or in Hr as [Hr|[<-|Hr]];
    try (apply H, in_or_app; (left; exact Hr) || (right; left; reflexivity)).
  - apply (Hpost r Hr Hh), H, in_or_app. right. right. apply in_map. exact Hr.
  - apply in_map_iff in Hr as (x & <- & Hx). apply (Hpost x Hx Hh), H, in_or_app. right. right. exact Hx.
Qed.

(** ** simplification with the recorded equalities *)
Definition eq_ok (np : nat) (e : equalities) (N : nat) : Prop :=
  forall i, nth i (eq_types e) 0%nat <> 0%nat -> length (nth i (eq_rows e) []) = N /\ about np (nth i (eq_rows e) []) (i + 1).
Lemma simplify_with_nth np s q i k : (k < length s)%nat -> let '(fv, fe) := no_neg (factors (at_ s i) (at_ q i)) in
  nth k (simplify_with np s q i) 0 = if (1 <=? k)%nat && (k <=? length s - np - 2)%nat then fv * at_ s k - fe * at_ q k
                else if (length s - (np + 1) <=? k)%nat then fv * at_ s k - fe * at_ q (length q - (length s - k)) else at_ s k.
Proof. intros Hk. unfold simplify_with. destruct (no_neg _) as [fv fe]. rewrite nth_map_seq by exact Hk. reflexivity. Qed.
Lemma simplify_with_length np s q i : length (simplify_with np s q i) = length s.
Proof. unfold simplify_with. destruct (no_neg _). rewrite map_length, seq_length. reflexivity. Qed.
Lemma simplify_with_value np s q i it par : (np + 2 <= length s <= length q)%nat -> (i <= length s - np - 2)%nat -> about np q i ->
  exists fv fe, 0 < fv /\ fv * nth i s 0 = fe * nth i q 0 /\ value np (simplify_with np s q i) it par = fv * value np s it par - fe * value np q it par /\
    nth 0 (simplify_with np s q i) 0 = nth 0 s 0 /\ (forall k, (1 <= k <= length s - np - 2)%nat -> nth k (simplify_with np s q i) 0 = fv * nth k s 0 - fe * nth k q 0).
Proof.
  intros HL Hi (Ha1 & Ha2 & Ha3). pose proof (no_neg_spec (at_ s i) (at_ q i) Ha2) as Hf.
  pose proof (fun k Hk => simplify_with_nth np s q i k Hk) as Hn. destruct (no_neg (factors (at_ s i) (at_ q i))) as [fv fe]. destruct Hf as [Hf1 Hf2].
  exists fv, fe. split; [exact Hf1|]. split; [exact Hf2|].
  assert (Hit : forall k, (1 <= k <= length s - np - 2)%nat -> nth k (simplify_with np s q i) 0 = fv * nth k s 0 - fe * nth k q 0).
  { intros k Hk. rewrite Hn by lia. destruct (Nat.leb_spec 1 k); [|lia]. destruct (Nat.leb_spec k (length s - np - 2)); [|lia]. reflexivity. }
  split; [|split; [|exact Hit]].
  - apply value_combine; auto using simplify_with_length.
    + intros j Hj. rewrite Hn by lia. destruct (Nat.leb_spec (length s - 1 - j) (length s - np - 2)); [lia|]. rewrite andb_false_r.
      destruct (Nat.leb_spec (length s - (np + 1)) (length s - 1 - j)); [|lia]. unfold at_. do 2 f_equal. f_equal. lia.
    + intros k Hk. apply Ha3. lia.
  - rewrite Hn by lia. destruct (Nat.leb_spec 1 0); [lia|]. cbn [andb]. destruct (Nat.leb_spec (length s - (np + 1)) 0); [lia|]. reflexivity.
Qed.
Definition simplify_step (e : equalities) (level : Z) (np : nat) (s : mrow) (i : nat) : mrow :=
  if negb (Z.of_nat i =? level) && negb (at_ s i =? 0) && negb (eq_type e (i - 1) =? EQ_NONE)%nat then simplify_with np s (eq_row e (i - 1)) i else s.
Lemma simplify_step_spec np e N level s i it par : (np + 2 <= length s <= N)%nat -> (1 <= i <= length s - np - 2)%nat -> eq_ok np e N -> equal_hold np e it par ->
  length (simplify_step e level np s i) = length s /\ nth 0 (simplify_step e level np s i) 0 = nth 0 s 0 /\
  (exists d, 0 < d /\ value np (simplify_step e level np s i) it par = d * value np s it par) /\
  (Z.of_nat i <> level -> nth (i - 1) (eq_types e) 0%nat <> 0%nat -> nth i (simplify_step e level np s i) 0 = 0) /\
  (forall k, (i < k <= length s - np - 2)%nat -> nth k s 0 = 0 -> nth k (simplify_step e level np s i) 0 = 0).
Proof.
  intros HL Hi Hok Hh. unfold simplify_step.
  destruct (negb (Z.of_nat i =? level) && negb (at_ s i =? 0) && negb (eq_type e (i - 1) =? EQ_NONE)%nat) eqn:E.
  - apply andb_prop in E as [E E3]. apply andb_prop in E as [E1 E2]. apply negb_true_iff in E1, E2, E3. apply Z.eqb_neq in E1, E2. apply Nat.eqb_neq in E3.
    destruct (Hok _ E3) as [Hl Ha]. replace (i - 1 + 1)%nat with i in Ha by lia. fold (eq_row e (i - 1)) in *. pose proof (Hh _ E3) as Hv. fold (eq_row e (i - 1)) in Hv.
    destruct (simplify_with_value np s (eq_row e (i - 1)) i it par) as (fv & fe & H1 & H2 & H3 & H4 & H5); auto; [rewrite Hl; lia|lia|].
    split; [apply simplify_with_length|]. split; [exact H4|]. split; [exists fv; split; [exact H1|]; rewrite H3, Hv; ring|]. split.
    + intros _ _. rewrite H5 by lia. lia.
    + intros k Hk Hz. rewrite H5 by lia. destruct Ha as (_ & _ & Ha). rewrite Ha, Hz by (rewrite Hl; lia). ring.
  - split; [reflexivity|]. split; [reflexivity|]. split; [exists 1; split; [lia|ring]|]. split; [|auto]. intros H1 H2.
    apply andb_false_iff in E as [E|E]; [apply andb_false_iff in E as [E|E]|]; apply negb_false_iff in E.
    + apply Z.eqb_eq in E. contradiction.
    + apply Z.eqb_eq in E. exact E.
    + apply Nat.eqb_eq in E. contradiction.
Qed.
Lemma rev_seq_S a n : rev (seq a (S n)) = (a + n)%nat :: rev (seq a n).
Proof. rewrite seq_S, rev_app_distr. reflexivity. Qed.
Lemma simplify_fold np e N level it par : eq_ok np e N -> equal_hold np e it par -> forall m s, (np + 2 <= length s <= N)%nat -> (m <= length s - np - 2)%nat ->
  let s' := fold_left (simplify_step e level np) (rev (seq 1 m)) s in
  length s' = length s /\ nth 0 s' 0 = nth 0 s 0 /\ (exists d, 0 < d /\ value np s' it par = d * value np s it par) /\
  (forall i, (1 <= i <= m)%nat -> Z.of_nat i <> level -> nth (i - 1) (eq_types e) 0%nat <> 0%nat -> nth i s' 0 = 0) /\
  (forall k, (m < k <= length s - np - 2)%nat -> nth k s 0 = 0 -> nth k s' 0 = 0).
Proof.
  intros Hok Hh. induction m as [|m IH]; intros s HL Hm.
  - cbn. split; [reflexivity|]. split; [reflexivity|]. split; [exists 1; split; [lia|ring]|]. split; [intros; lia|auto].
  - rewrite rev_seq_S. cbn [fold_left]. destruct (simplify_step_spec np e N level s (1 + m) it par) as (A1 & A2 & (d & A3 & A3') & A4 & A5); auto; [lia|].
    destruct (IH (simplify_step e level np s (1 + m))) as (B1 & B2 & (d' & B3 & B3') & B4 & B5); [rewrite A1; lia|rewrite A1; lia|].
    split; [rewrite B1; exact A1|]. split; [rewrite B2; exact A2|]. split; [exists (d' * d); split; [nia|rewrite B3', A3'; ring]|]. split.
    + intros i Hi H1 H2. destruct (Nat.eq_dec i (S m)) as [->|Hn]; [|apply B4; auto; lia]. apply B5; [rewrite A1; lia|]. apply A4; auto.
    + intros k Hk Hz. apply B5; [rewrite A1; lia|]. apply A5; [lia|exact Hz].
Qed.
Theorem vector_simplify_spec np e N level v it par : eq_ok np e N -> equal_hold np e it par -> (np + 2 <= length v <= N)%nat ->
  let s := vector_simplify e v level np in
  length s = length v /\ nth 0 s 0 = nth 0 v 0 /\ (exists c d, 0 < c /\ 0 < d /\ c * value np s it par = d * value np v it par) /\
  (forall i, (1 <= i <= length v - np - 2)%nat -> Z.of_nat i <> level -> nth (i - 1) (eq_types e) 0%nat <> 0%nat -> nth i s 0 = 0).
Proof.
  intros Hok Hh HL. cbv zeta. change (vector_simplify e v level np) with (renorm (fold_left (simplify_step e level np) (rev (seq 1 (length v - np - 2))) v)).
  destruct (simplify_fold np e N level it par Hok Hh (length v - np - 2) v HL (le_n _)) as (A1 & A2 & (d & A3 & A3') & A4 & _).
  set (s1 := fold_left (simplify_step e level np) (rev (seq 1 (length v - np - 2))) v) in *.
  destruct (renorm_spec np s1 it par ltac:(rewrite A1; lia)) as (g & G1 & G2 & G3 & G4 & G5).
  split; [rewrite G2; exact A1|]. split; [rewrite G3; exact A2|]. split; [exists g, d; repeat split; auto; rewrite <- G5; exact A3'|].
  intros i Hi H1 H2. specialize (A4 i Hi H1 H2). specialize (G4 i ltac:(lia)). nia.
Qed.
Lemma row_same_eq a : forall b, row_same a b = true <-> a = b.
Proof.
  induction a as [|x a IH]; intros [|y b]; cbn; split; intros H; try discriminate; try reflexivity.
  - apply andb_prop in H as [H1 H2]. apply Z.eqb_eq in H1. apply IH in H2. subst. reflexivity.
  - injection H as -> ->. rewrite Z.eqb_refl. apply IH. reflexivity.
Qed.
Lemma nth_repeat0 n k : nth k (repeat 0 n) 0 = 0.
Proof. revert k. induction n as [|n IH]; intros [|k]; cbn; auto. Qed.
Lemma zero_holds np columns it par : (np + 2 <= columns)%nat -> holds np (repeat 0 columns) it par.
Proof.
  intros H. unfold holds. rewrite nth_repeat0. cbn. unfold value. rewrite !sum_0; [rewrite nth_repeat0; reflexivity| |]; intros j Hj; rewrite nth_repeat0; reflexivity.
Qed.
Lemma drop_same_hold np columns it par : (np + 2 <= columns)%nat -> forall f rows, (length rows <= f)%nat ->
  (all_hold np (drop_same columns f rows) it par <-> all_hold np rows it par).
Proof.
  intros Hc. induction f as [|f IH]; intros rows Hf; [reflexivity|]. destruct rows as [|r rest]; [reflexivity|]. cbn [drop_same].
  assert (IH' := IH (map (fun r' => if row_same r r' then repeat 0 columns else r') rest) ltac:(rewrite map_length; cbn in Hf; lia)). unfold all_hold in *. split; intros H x Hx.
  - destruct Hx as [<-|Hx]; [apply H; left; reflexivity|]. destruct (row_same r x) eqn:E; [apply row_same_eq in E as <-; apply H; left; reflexivity|].
    apply (proj1 IH'); [intros y Hy; apply H; right; exact Hy|]. apply in_map_iff. exists x. rewrite E. split; [reflexivity|exact Hx].
  - destruct Hx as [<-|Hx]; [apply H; left; reflexivity|]. revert x Hx. apply (proj2 IH'). intros y Hy. apply in_map_iff in Hy as (z & <- & Hz).
    destruct (row_same r z); [apply zero_holds; exact Hc|]. apply H. right. exact Hz.
Qed.
Lemma drop_same_rows columns : forall f rows k, (length rows <= f)%nat -> (k < length rows)%nat -> length (drop_same columns f rows) = length rows /\
  (nth k (drop_same columns f rows) [] = nth k rows [] \/
   nth k (drop_same columns f rows) [] = repeat 0 columns /\ (nth k rows [] = repeat 0 columns \/ exists k', (k' < k)%nat /\ nth k' rows [] = nth k rows [])).
Proof.
  induction f as [|f IH]; intros rows k Hf Hk; [lia|]. destruct rows as [|r rest]; [cbn in Hk; lia|]. cbn [drop_same].
  set (g := fun r' => if row_same r r' then repeat 0 columns else r').
  assert (Hlen : (length (map g rest) <= f)%nat) by (rewrite map_length; cbn in Hf; lia).
  destruct k as [|k].
  - split; [|left; reflexivity]. cbn. destruct rest as [|r2 rest]; [destruct f; reflexivity|]. destruct (IH (map g (r2 :: rest)) 0%nat Hlen ltac:(cbn; lia)) as [H1 _]. rewrite H1, map_length. reflexivity.
  - cbn in Hk. destruct (IH (map g rest) k Hlen ltac:(rewrite map_length; lia)) as [H1 H2]. split; [cbn; rewrite H1, map_length; reflexivity|].
    assert (Hg : forall j, (j < length rest)%nat -> nth j (map g rest) [] = g (nth j rest [])).
    { intros j Hj. rewrite (nth_indep _ [] (g [])) by (rewrite map_length; exact Hj). apply map_nth. }
    assert (Eg : forall x, g x = if row_same r x then repeat 0 columns else x) by reflexivity. clearbody g.
    rewrite Hg, Eg in H2 by lia. cbn [nth]. destruct (row_same r (nth k rest [])) eqn:E.
    + apply row_same_eq in E. right. split; [destruct H2 as [H2|[H2 _]]; exact H2|]. right. exists 0%nat. split; [lia|]. cbn. exact E.
    + destruct H2 as [H2|[H2 H3]]; [left; exact H2|]. right. split; [exact H2|]. destruct H3 as [H3|(k' & Hk' & H3)]; [left; exact H3|].
      rewrite Hg, Eg in H3 by lia. destruct (row_same r (nth k' rest [])); [left; symmetry; exact H3|]. right. exists (S k'). split; [lia|]. cbn. exact H3.
Qed.

(** ** recording equalities *)
Definition zero_beyond (np : nat) (r : mrow) (i : nat) : Prop := forall k, (i < k <= length r - np - 2)%nat -> nth k r 0 = 0.
Lemma update_with_spec np level r o i N it par : length r = N -> length o = N -> (np + 2 <= N)%nat -> (i + 1 < level <= N - np - 2)%nat -> zero_beyond np r level -> about np o (i + 1) ->
  exists fl fo, fl <> 0 /\ value np (update_with level np r o i) it par = fl * value np r it par - fo * value np o it par /\ length (update_with level np r o i) = N /\
    zero_beyond np (update_with level np r o i) level /\ nth (i + 1) (update_with level np r o i) 0 = 0 /\
    (forall k, (i + 1 < k <= level)%nat -> nth k (update_with level np r o i) 0 = fl * nth k r 0).
Proof.
  intros Hr Ho HN Hi Hz Ha. pose proof Ha as (_ & Ha2 & Ha3). pose proof (factors_spec (at_ r (i + 1)) (at_ o (i + 1)) Ha2) as Hf. unfold update_with.
  destruct (factors (at_ r (i + 1)) (at_ o (i + 1))) as [fl fo]. destruct Hf as (Hf1 & Hf2 & _). exists fl, fo. split; [exact Hf1|].
  set (r' := map _ _). assert (Hl : length r' = N) by (unfold r'; rewrite map_length, seq_length; exact Hr).
  assert (Hn : forall k, (k < N)%nat -> nth k r' 0 = if ((1 <=? k)%nat && (k <=? level)%nat) || (N - (np + 1) <=? k)%nat then fl * nth k r 0 - fo * nth k o 0 else nth k r 0).
  { intros k Hk. unfold r'. rewrite nth_map_seq by lia. rewrite Hr. reflexivity. }
  clearbody r'.
  assert (Hin : forall k, (1 <= k <= level)%nat -> nth k r' 0 = fl * nth k r 0 - fo * nth k o 0).
  { intros k Hk. rewrite Hn by lia. destruct (Nat.leb_spec 1 k); [|lia]. destruct (Nat.leb_spec k level); [|lia]. reflexivity. }
  assert (Hbe : forall k, (level < k <= N - np - 2)%nat -> nth k r' 0 = 0).
  { intros k Hk. rewrite Hn by lia. destruct (Nat.leb_spec k level); [lia|]. rewrite andb_false_r. destruct (Nat.leb_spec (N - (np + 1)) k); [lia|]. cbn. apply Hz. lia. }
  split; [|split; [exact Hl|split; [|split]]].
  - apply value_combine.
    + lia.
    + lia.
    + intros k Hk. destruct (Nat.le_gt_cases k level); [apply Hin; lia|]. rewrite Hbe by lia. rewrite Hz, Ha3 by lia. ring.
    + intros j Hj. rewrite Hr, Ho. rewrite Hn by lia. destruct (Nat.leb_spec (N - (np + 1)) (N - 1 - j)); [|lia]. rewrite orb_true_r. reflexivity.
    + intros k Hk. lia.
  - intros k Hk. apply Hbe. lia.
  - rewrite Hin by lia. unfold at_ in Hf2. lia.
  - intros k Hk. rewrite Hin by lia. rewrite Ha3 by lia. ring.
Qed.
Definition update_step (e : equalities) (level np : nat) (r : mrow) (i : nat) : mrow :=
  if negb (at_ r (i + 1) =? 0) && negb (eq_type e i =? EQ_NONE)%nat then update_with level np r (eq_row e i) i else r.
(** what is true of rows below [m] *)
Definition low_ok (np : nat) (e : equalities) (N m : nat) : Prop :=
  forall i, (i + 1 <= m)%nat -> nth i (eq_types e) 0%nat <> 0%nat -> length (nth i (eq_rows e) []) = N /\ about np (nth i (eq_rows e) []) (i + 1).
Lemma update_fold np e N level it par : (np + 2 <= N)%nat -> (1 <= level <= N - np - 2)%nat -> low_ok np e N (level - 1) ->
  (forall i, (i + 1 < level)%nat -> nth i (eq_types e) 0%nat <> 0%nat -> value np (nth i (eq_rows e) []) it par = 0) ->
  forall m r, (m < level)%nat -> length r = N -> zero_beyond np r level -> let r' := fold_left (update_step e level np) (rev (seq 0 m)) r in
  length r' = N /\ zero_beyond np r' level /\ (exists d, d <> 0 /\ value np r' it par = d * value np r it par /\ nth level r' 0 = d * nth level r 0) /\
  (forall i, (i < m)%nat -> nth i (eq_types e) 0%nat <> 0%nat -> nth (i + 1) r' 0 = 0) /\
  (forall k, (m < k <= level)%nat -> nth k r 0 = 0 -> nth k r' 0 = 0).
Proof.
  intros HN Hlev Hlow Hh. induction m as [|m IH]; intros r Hm Hr Hz.
  - cbn. split; [exact Hr|]. split; [exact Hz|]. split; [exists 1; repeat split; [lia|ring|ring]|]. split; [intros; lia|auto].
  - rewrite rev_seq_S. cbn [fold_left]. rewrite Nat.add_0_l.
    assert (A : length (update_step e level np r m) = N /\ zero_beyond np (update_step e level np r m) level /\
      (exists d, d <> 0 /\ value np (update_step e level np r m) it par = d * value np r it par /\ nth level (update_step e level np r m) 0 = d * nth level r 0) /\
      (nth m (eq_types e) 0%nat <> 0%nat -> nth (m + 1) (update_step e level np r m) 0 = 0) /\
      (forall k, (m + 1 < k <= level)%nat -> nth k r 0 = 0 -> nth k (update_step e level np r m) 0 = 0)).
    { unfold update_step. destruct (negb (at_ r (m + 1) =? 0) && negb (eq_type e m =? EQ_NONE)%nat) eqn:E.
      - apply andb_prop in E as [E1 E2]. apply negb_true_iff in E1, E2. apply Nat.eqb_neq in E2. destruct (Hlow m ltac:(lia) E2) as [L1 L2].
        destruct (update_with_spec np level r (eq_row e m) m N it par) as (fl & fo & U1 & U2 & U3 & U4 & U5 & U6); auto; try lia.
        split; [exact U3|]. split; [exact U4|]. split; [exists fl; split; [exact U1|split; [|apply U6; lia]]; rewrite U2; unfold eq_row; rewrite Hh by (auto; lia); ring|].
        split; [intros _; exact U5|]. intros k Hk Hz'. rewrite U6, Hz' by lia. ring.
      - split; [exact Hr|]. split; [exact Hz|]. split; [exists 1; repeat split; [lia|ring|ring]|]. split; [|auto]. intros Ht.
        apply andb_false_iff in E as [E|E]; apply negb_false_iff in E; [apply Z.eqb_eq in E; exact E|apply Nat.eqb_eq in E; contradiction]. }
    destruct A as (A1 & A2 & (d & A3 & A4 & A5) & A6 & A7). destruct (IH (update_step e level np r m) ltac:(lia) A1 A2) as (B1 & B2 & (d' & B3 & B4 & B5) & B6 & B7).
    split; [exact B1|]. split; [exact B2|]. split; [exists (d' * d); split; [intros Hd; apply Z.mul_eq_0 in Hd; tauto|split; [rewrite B4, A4; ring|rewrite B5, A5; ring]]|]. split.
    + intros i Hi Ht. destruct (Nat.eq_dec i m) as [->|Hn]; [|apply B6; auto; lia]. apply B7; [lia|auto].
    + intros k Hk Hz'. apply B7; [lia|]. apply A7; [lia|exact Hz'].
Qed.
Lemma set_at_length {A} (l : list A) k a : length (set_at l k a) = length l.
Proof. revert k. induction l as [|x l IH]; intros [|k]; cbn; auto. Qed.
Lemma set_at_same {A} (l : list A) k a d : (k < length l)%nat -> nth k (set_at l k a) d = a.
Proof. revert k. induction l as [|x l IH]; intros [|k] H; cbn in *; try lia; auto. apply IH. lia. Qed.
Lemma set_at_other {A} (l : list A) k a j d : j <> k -> nth j (set_at l k a) d = nth j l d.
Proof. revert k j. induction l as [|x l IH]; intros [|k] [|j] H; cbn; try reflexivity; try lia. apply IH. lia. Qed.
Lemma equal_type_range r level : equal_type r level <> 0%nat.
Proof. unfold equal_type. destruct (negb _); [discriminate|]. destruct (scan_ones _ _ _ _) as [[|]|]; try discriminate. destruct (negb _); discriminate. Qed.

Record equal_inv (n nb_levels np : nat) (e : equalities) (st : list (nat * mrow)) : Prop := {
  i_len_rows : length (eq_rows e) = n; i_len_types : length (eq_types e) = n;
  i_rows : forall i, (i < n)%nat -> length (nth i (eq_rows e) []) = (nb_levels + np + 1)%nat /\ zero_beyond np (nth i (eq_rows e) []) (i + 1);
  i_types : forall i, nth i (eq_types e) 0%nat <> 0%nat <-> exists r, In (i + 1, r)%nat st;
  i_levels : forall l r, In (l, r) st -> (1 <= l <= n)%nat /\ (l < nb_levels)%nat;
  i_about : forall i, nth i (eq_types e) 0%nat <> 0%nat -> about np (nth i (eq_rows e) []) (i + 1);
  i_simple : forall i j, (j < i)%nat -> nth i (eq_types e) 0%nat <> 0%nat -> nth j (eq_types e) 0%nat <> 0%nat -> nth (j + 1) (nth i (eq_rows e) []) 0 = 0;
  i_kind : forall l r, In (l, r) st -> nth (l - 1) (eq_types e) 0%nat = equal_type r l;
  i_value : forall m it par, (forall l r, In (l, r) st -> (l <= m)%nat -> value np r it par = 0) <->
                             (forall i, (i + 1 <= m)%nat -> nth i (eq_types e) 0%nat <> 0%nat -> value np (nth i (eq_rows e) []) it par = 0) }.

Lemma repeat_nth_in {A} (a : A) n i d : (i < n)%nat -> nth i (repeat a n) d = a.
Proof. revert i. induction n as [|n IH]; intros [|i] H; cbn; try lia; auto. apply IH. lia. Qed.
Lemma repeat_nth0 n i : nth i (repeat EQ_NONE n) 0%nat = 0%nat.
Proof. revert i. induction n as [|n IH]; intros [|i]; cbn; auto. Qed.
Lemma alloc_inv n nb_levels np : equal_inv n nb_levels np (equal_alloc n nb_levels np) [].
Proof.
  constructor; cbn [equal_alloc eq_rows eq_types]; try (intros; rewrite repeat_nth0 in *; congruence); try apply repeat_length.
  - intros i Hi. rewrite repeat_nth_in by exact Hi. rewrite repeat_length. split; [reflexivity|]. intros k Hk. apply nth_repeat0.
  - intros i. rewrite repeat_nth0. split; [congruence|]. intros (r & []).
  - intros l r [].
  - intros l r [].
  - intros m it par. split; [|intros _ l r []]. intros _ i _ Ht. rewrite repeat_nth0 in Ht. congruence.
Qed.
Lemma equal_set_row np e level line n nb_levels it par : (1 <= level <= n)%nat -> length (eq_rows e) = n -> length (eq_row e (level - 1)) = (nb_levels + np + 1)%nat ->
  zero_beyond np (eq_row e (level - 1)) level -> (np + 2 <= length line <= nb_levels + np + 1)%nat -> about np line level ->
  let r := nth (level - 1) (eq_rows (equal_set e level np line)) [] in
  length r = (nb_levels + np + 1)%nat /\ zero_beyond np r level /\ nth level r 0 = nth level line 0 /\ value np r it par = value np line it par.
Proof.
  intros Hlev Hn Hr Hz HL Ha. pose proof Ha as (Ha1 & Ha2 & Ha3). unfold equal_set. cbn [eq_rows]. rewrite set_at_same by (rewrite Hn; lia). rewrite Hr. set (N := (nb_levels + np + 1)%nat) in *.
  set (r := map _ _). assert (Hl : length r = N) by (unfold r; rewrite map_length, seq_length; reflexivity).
  assert (Hk : forall k, (k < N)%nat -> nth k r 0 = if ((1 <=? k)%nat && (k <=? level)%nat) then at_ line k
                      else if (N - (np + 1) <=? k)%nat then at_ line (length line - (N - k)) else at_ (eq_row e (level - 1)) k).
  { intros k Hk. unfold r. rewrite nth_map_seq by exact Hk. reflexivity. }
  clearbody r. cbv zeta.
  assert (Hz' : zero_beyond np r level).
  { intros k Hkk. rewrite Hk by lia. destruct (Nat.leb_spec k level); [lia|]. rewrite andb_false_r. destruct (Nat.leb_spec (N - (np + 1)) k); [lia|]. apply Hz. lia. }
  assert (Hin : forall k, (1 <= k <= level)%nat -> nth k r 0 = nth k line 0).
  { intros k Hkk. rewrite Hk by lia. destruct (Nat.leb_spec 1 k); [|lia]. destruct (Nat.leb_spec k level); [|lia]. reflexivity. }
  split; [exact Hl|]. split; [exact Hz'|]. split; [apply Hin; lia|].
  unfold value. rewrite Hl. rewrite (sum_tail level (N - np - 2)); [|lia|intros j Hj; rewrite Hz' by lia; lia].
  rewrite (sum_tail level (length line - np - 2)); [|lia|intros j Hj; rewrite Ha3 by lia; lia].
  rewrite (sum_ext level _ (fun j => nth (1 + j) line 0 * it j)) by (intros j Hj; rewrite Hin by lia; reflexivity).
  assert (Hpar : forall j, (j <= np)%nat -> nth (N - 1 - np + j) r 0 = nth (length line - 1 - np + j) line 0).
  { intros j Hj. rewrite Hk by lia. destruct (Nat.leb_spec (N - 1 - np + j) level); [lia|]. rewrite andb_false_r. destruct (Nat.leb_spec (N - (np + 1)) (N - 1 - np + j)); [|lia]. unfold at_. f_equal. lia. }
  rewrite (sum_ext np _ (fun j => nth (length line - 1 - np + j) line 0 * par j)) by (intros j Hj; rewrite Hpar by lia; reflexivity).
  replace (nth (N - 1) r 0) with (nth (length line - 1) line 0); [reflexivity|]. specialize (Hpar np (le_n _)). replace (N - 1 - np + np)%nat with (N - 1)%nat in Hpar by lia.
  rewrite Hpar. f_equal. lia.
Qed.
Lemma add_inv n nb_levels np e st rows level line e' rows' : equal_inv n nb_levels np e st -> (forall l r, In (l, r) st -> (l < level)%nat) -> (level <= n)%nat ->
  (np + 2 <= length line <= nb_levels + np + 1)%nat -> about np line level -> equal_add e rows level (Some line) np = Some (e', rows') -> equal_inv n nb_levels np e' ((level, line) :: st).
Proof.
  intros I Hst Hle HL Ha E. cbn [equal_add] in E. injection E as <- _. set (N := (nb_levels + np + 1)%nat) in *. pose proof Ha as (Ha1 & _).
  destruct (i_rows _ _ _ _ _ I (level - 1) ltac:(lia)) as [Hr Hz]. fold N in Hr. replace (level - 1 + 1)%nat with level in Hz by lia.
  set (e1 := equal_set e level np line).
  assert (T1 : forall i, i <> (level - 1)%nat -> nth i (eq_types e1) 0%nat = nth i (eq_types e) 0%nat) by (intros i Hi; unfold e1, equal_set; cbn; apply set_at_other; exact Hi).
  assert (T2 : nth (level - 1) (eq_types e1) 0%nat = equal_type line level) by (unfold e1, equal_set; cbn; apply set_at_same; rewrite (i_len_types _ _ _ _ _ I); lia).
  assert (R1 : forall i, i <> (level - 1)%nat -> nth i (eq_rows e1) [] = nth i (eq_rows e) []) by (intros i Hi; unfold e1, equal_set; cbn; apply set_at_other; exact Hi).
  assert (Hlow : low_ok np e1 N (level - 1)).
  { intros i Hi Ht. rewrite R1 by lia. rewrite T1 in Ht by lia. split; [apply (i_rows _ _ _ _ _ I); lia|apply (i_about _ _ _ _ _ I); exact Ht]. }
  set (r0 := nth (level - 1) (eq_rows e1) []).
  assert (S0 : forall it par, length r0 = N /\ zero_beyond np r0 level /\ nth level r0 0 = nth level line 0 /\ value np r0 it par = value np line it par).
  { intros it par. apply (equal_set_row np e level line n nb_levels it par); auto; [lia|apply (i_len_rows _ _ _ _ _ I)]. }
  set (r1 := fold_left (update_step e1 level np) (rev (seq 0 (level - 1))) r0).
  assert (U : forall it par, (forall i, (i + 1 < level)%nat -> nth i (eq_types e1) 0%nat <> 0%nat -> value np (nth i (eq_rows e1) []) it par = 0) ->
     length r1 = N /\ zero_beyond np r1 level /\ (exists d, d <> 0 /\ value np r1 it par = d * value np line it par /\ nth level r1 0 = d * nth level line 0) /\
     (forall i, (i < level - 1)%nat -> nth i (eq_types e1) 0%nat <> 0%nat -> nth (i + 1) r1 0 = 0)).
  { intros it par Hh. destruct (S0 it par) as (S1 & S2 & S3 & S4).
    destruct (update_fold np e1 N level it par ltac:(lia) ltac:(lia) Hlow Hh (level - 1) r0 ltac:(lia) S1 S2) as (U1 & U2 & (d & U3 & U4 & U5) & U6 & _).
    split; [exact U1|]. split; [exact U2|]. split; [exists d; rewrite <- S4, <- S3; auto|exact U6]. }
  (* the facts that do not depend on the point: at a point where every outer equality is 0 -- none need exist, so use structure *)
  assert (V : length r1 = N /\ zero_beyond np r1 level /\ nth level r1 0 <> 0 /\ forall i, (i < level - 1)%nat -> nth i (eq_types e1) 0%nat <> 0%nat -> nth (i + 1) r1 0 = 0).
  { clear U. destruct (S0 (fun _ => 0) (fun _ => 0)) as (S1 & S2 & S3 & _). assert (Hnz : nth level r0 0 <> 0) by (rewrite S3; destruct Ha as (_ & H & _); exact H).
    unfold r1. clear S0 S3. clearbody r0. assert (G : forall m r, (m < level)%nat -> length r = N -> zero_beyond np r level -> nth level r 0 <> 0 ->
      let r' := fold_left (update_step e1 level np) (rev (seq 0 m)) r in length r' = N /\ zero_beyond np r' level /\ nth level r' 0 <> 0 /\
        (forall i, (i < m)%nat -> nth i (eq_types e1) 0%nat <> 0%nat -> nth (i + 1) r' 0 = 0) /\ (forall k, (m < k <= level)%nat -> nth k r 0 = 0 -> nth k r' 0 = 0)).
    { induction m as [|m IH]; intros r Hm Hlr Hzr Hnr; [cbn; repeat split; auto; intros; lia|]. rewrite rev_seq_S. cbn [fold_left]. rewrite Nat.add_0_l.
      assert (A : length (update_step e1 level np r m) = N /\ zero_beyond np (update_step e1 level np r m) level /\ nth level (update_step e1 level np r m) 0 <> 0 /\
         (nth m (eq_types e1) 0%nat <> 0%nat -> nth (m + 1) (update_step e1 level np r m) 0 = 0) /\
         (forall k, (m + 1 < k <= level)%nat -> nth k r 0 = 0 -> nth k (update_step e1 level np r m) 0 = 0)).
      { unfold update_step. destruct (negb (at_ r (m + 1) =? 0) && negb (eq_type e1 m =? EQ_NONE)%nat) eqn:E.
        - apply andb_prop in E as [E1 E2]. apply negb_true_iff in E1, E2. apply Nat.eqb_neq in E2. destruct (Hlow m ltac:(lia) E2) as [L1 L2].
          destruct (update_with_spec np level r (eq_row e1 m) m N (fun _ => 0) (fun _ => 0)) as (fl & fo & U1 & U2 & U3 & U4 & U5 & U6); auto; try lia.
          split; [exact U3|]. split; [exact U4|]. split; [rewrite U6 by lia; intros Hd; apply Z.mul_eq_0 in Hd; tauto|]. split; [auto|]. intros k Hk Hz'. rewrite U6, Hz' by lia. ring.
        - repeat split; auto. intros Ht. apply andb_false_iff in E as [E|E]; apply negb_false_iff in E; [apply Z.eqb_eq in E; exact E|apply Nat.eqb_eq in E; contradiction]. }
      destruct A as (A1 & A2 & A3 & A4 & A5). destruct (IH _ ltac:(lia) A1 A2 A3) as (B1 & B2 & B3 & B4 & B5). repeat split; auto.
      - intros i Hi Ht. destruct (Nat.eq_dec i m) as [->|Hn]; [|apply B4; auto; lia]. apply B5; [lia|auto].
      - intros k Hk Hz'. apply B5; [lia|]. apply A5; [lia|exact Hz']. }
    destruct (G (level - 1)%nat r0 ltac:(lia) S1 S2 Hnz) as (G1 & G2 & G3 & G4 & _). auto. }
  destruct V as (V1 & V2 & V3 & V4).
  assert (F : equal_update e1 level np = {| eq_rows := set_at (eq_rows e1) (level - 1) (renorm r1); eq_types := eq_types e1 |}) by reflexivity. rewrite F. clear F.
  assert (Hlen1 : length (eq_rows e1) = n) by (unfold e1, equal_set; cbn; rewrite set_at_length; apply (i_len_rows _ _ _ _ _ I)).
  assert (P1 : nth (level - 1) (set_at (eq_rows e1) (level - 1) (renorm r1)) [] = renorm r1) by (apply set_at_same; lia).
  assert (P2 : forall i, i <> (level - 1)%nat -> nth i (set_at (eq_rows e1) (level - 1) (renorm r1)) [] = nth i (eq_rows e) []) by (intros i Hi; rewrite set_at_other by exact Hi; apply R1; exact Hi).
  destruct (renorm_spec np r1 (fun _ => 0) (fun _ => 0) ltac:(lia)) as (g & G1 & G2 & G3 & G4 & _).
  assert (Z1 : zero_beyond np (renorm r1) level).
  { intros k Hk. rewrite G2 in Hk. specialize (V2 k Hk). specialize (G4 k ltac:(lia)). nia. }
  assert (Hnot : forall r, ~ In (level, r) st) by (intros r Hr'; specialize (Hst _ _ Hr'); lia).
  assert (Hpos : (1 <= level)%nat) by lia.
  constructor; cbn [eq_rows eq_types].
  - rewrite set_at_length. exact Hlen1.
  - unfold e1, equal_set. cbn. rewrite set_at_length. apply (i_len_types _ _ _ _ _ I).
  - intros i Hi. destruct (Nat.eq_dec i (level - 1)) as [->|Hn]; [|rewrite P2 by exact Hn; apply (i_rows _ _ _ _ _ I); exact Hi].
    rewrite P1, G2. split; [exact V1|]. replace (level - 1 + 1)%nat with level by lia. exact Z1.
  - intros i. destruct (Nat.eq_dec i (level - 1)) as [->|Hn].
    + rewrite T2. split; [|intros _; apply equal_type_range]. intros _. exists line. left. f_equal. lia.
    + rewrite T1 by exact Hn. rewrite (i_types _ _ _ _ _ I). split; intros (r & Hr'); exists r; [right; exact Hr'|]. destruct Hr' as [Hr'|Hr']; [injection Hr' as Hl' _; lia|exact Hr'].
  - intros l r [Hlr|Hlr]; [injection Hlr as <- _; lia|apply (i_levels _ _ _ _ _ I l r Hlr)].
  - intros i Ht. destruct (Nat.eq_dec i (level - 1)) as [->|Hn].
    + rewrite P1. replace (level - 1 + 1)%nat with level by lia. split; [rewrite G2; lia|]. split; [|exact Z1]. specialize (G4 level ltac:(lia)). intros Hg. rewrite Hg in G4. lia.
    + rewrite P2 by exact Hn. rewrite T1 in Ht by exact Hn. apply (i_about _ _ _ _ _ I). exact Ht.
  - intros i j Hji Hi Hj. destruct (Nat.eq_dec i (level - 1)) as [->|Hn].
    + rewrite P1. specialize (V4 j Hji Hj). specialize (G4 (j + 1)%nat ltac:(lia)). nia.
    + rewrite P2 by exact Hn. rewrite T1 in Hi by exact Hn. apply (i_types _ _ _ _ _ I) in Hi as Hi'. destruct Hi' as (r & Hr'). apply Hst in Hr'.
      rewrite T1 in Hj by lia. apply (i_simple _ _ _ _ _ I); auto.
  - intros l r [Hlr|Hlr]; [injection Hlr as <- <-; exact T2|]. rewrite T1; [apply (i_kind _ _ _ _ _ I); exact Hlr|]. specialize (Hst _ _ Hlr). pose proof (i_levels _ _ _ _ _ I _ _ Hlr). lia.
  - intros m it par. assert (Hout : forall m', (m' < level)%nat -> (forall l r, In (l, r) st -> (l <= m')%nat -> value np r it par = 0) <->
        (forall i, (i + 1 <= m')%nat -> nth i (eq_types e1) 0%nat <> 0%nat -> value np (nth i (eq_rows e1) []) it par = 0)).
    { intros m' Hm'. rewrite (i_value _ _ _ _ _ I m' it par). split; intros H i Hi Ht; [rewrite R1 by lia; apply H; [exact Hi|rewrite <- T1 by lia; exact Ht]|rewrite <- R1 by lia; apply H; [exact Hi|rewrite T1 by lia; exact Ht]]. }
    assert (Hkey : (forall i, (i + 1 < level)%nat -> nth i (eq_types e1) 0%nat <> 0%nat -> value np (nth i (eq_rows e1) []) it par = 0) -> (value np (renorm r1) it par = 0 <-> value np line it par = 0)).
    { intros Hh. destruct (U it par Hh) as (_ & _ & (d & D1 & D2 & _) & _). destruct (renorm_spec np r1 it par ltac:(lia)) as (g' & Q1 & _ & _ & _ & Q2). rewrite D2 in Q2.
      split; intros Hv; rewrite Hv in Q2; [rewrite Z.mul_0_r in Q2; apply Z.mul_eq_0 in Q2 as [Q2|Q2]; [contradiction|exact Q2]|]. rewrite Z.mul_0_r in Q2. symmetry in Q2. apply Z.mul_eq_0 in Q2 as [Q2|Q2]; [lia|exact Q2]. }
    destruct (Nat.lt_ge_cases m level) as [Hm|Hm].
    + pose proof (Hout m Hm) as Ho. split; intros H.
      * intros i Hi Ht. rewrite P2 by lia. rewrite <- R1 by lia. apply (proj1 Ho); auto. intros l r Hlr Hlm. apply (H l r); [right; exact Hlr|exact Hlm].
      * intros l r [Hlr|Hlr] Hlm; [injection Hlr as <- _; lia|]. apply (proj2 Ho) with l; auto. intros i Hi Ht. rewrite R1 by lia. rewrite <- P2 by lia. apply H; auto.
    + assert (Hst' : (forall l r, In (l, r) st -> (l <= level - 1)%nat -> value np r it par = 0) <-> (forall l r, In (l, r) st -> (l <= m)%nat -> value np r it par = 0)).
      { split; intros H l r Hlr Hlm; apply (H l r Hlr); specialize (Hst _ _ Hlr); lia. }
      pose proof (Hout (level - 1)%nat ltac:(lia)) as Ho. split; intros H.
      * assert (Hl0 : forall i, (i + 1 < level)%nat -> nth i (eq_types e1) 0%nat <> 0%nat -> value np (nth i (eq_rows e1) []) it par = 0).
        { intros i Hi Ht. apply (proj1 Ho); [|lia|exact Ht]. intros l r Hlr Hlm. apply (H l r); [right; exact Hlr|lia]. }
        intros i Hi Ht. destruct (Nat.eq_dec i (level - 1)) as [->|Hn].
        -- rewrite P1. apply (proj2 (Hkey Hl0)). apply (H level line); [left; reflexivity|exact Hm].
        -- assert (Hlt : (i + 1 < level)%nat). { rewrite T1 in Ht by exact Hn. apply (i_types _ _ _ _ _ I) in Ht as (r & Hr'). apply Hst in Hr'. exact Hr'. }
           rewrite P2 by exact Hn. rewrite <- R1 by exact Hn. apply Hl0; [exact Hlt|exact Ht].
      * assert (Hl0 : forall i, (i + 1 < level)%nat -> nth i (eq_types e1) 0%nat <> 0%nat -> value np (nth i (eq_rows e1) []) it par = 0).
        { intros i Hi Ht. rewrite R1 by lia. rewrite <- P2 by lia. apply H; [lia|exact Ht]. }
        intros l r [Hlr|Hlr] Hlm.
        -- injection Hlr as <- <-. apply (proj1 (Hkey Hl0)). rewrite <- P1. apply H; [lia|]. rewrite T2. apply equal_type_range.
        -- apply (proj1 Hst') with l; auto. apply (proj2 Ho). intros i Hi Ht. apply Hl0; [lia|exact Ht].
Qed.
Lemma recorded_levels n nb_levels np e st : recorded n nb_levels np e st -> forall l r st', st = (l, r) :: st' -> forall l' r', In (l', r') st' -> (l' < l)%nat.
Proof.
  assert (G : recorded n nb_levels np e st -> forall a l r st', st = a ++ (l, r) :: st' -> forall l' r', In (l', r') st' -> (l' < l)%nat).
  { intros H. induction H as [|e st rows level line e' rows' H IH Hlt Hn HL Ha He|e st level line H IH]; intros a l r st' E l' r' Hin.
    - destruct a; discriminate.
    - destruct a as [|b a]; cbn in E; [injection E as <- <- ->; apply (Hlt _ _ Hin)|]. injection E as <- E. apply (IH a l r st' E l' r' Hin).
    - apply (IH ((level, line) :: a) l r st') with r'; [cbn; rewrite E; reflexivity|exact Hin]. }
  intros H l r st' E. apply (G H [] l r st' E).
Qed.
Lemma del_inv n nb_levels np e st level line : equal_inv n nb_levels np e ((level, line) :: st) -> (forall l r, In (l, r) st -> (l < level)%nat) -> equal_inv n nb_levels np (equal_del e level) st.
Proof.
  intros I Hst. destruct (i_levels _ _ _ _ _ I level line (or_introl eq_refl)) as [Hlev Hlev'].
  assert (T1 : forall i, i <> (level - 1)%nat -> nth i (set_at (eq_types e) (level - 1) EQ_NONE) 0%nat = nth i (eq_types e) 0%nat) by (intros i Hi; apply set_at_other; exact Hi).
  assert (T2 : nth (level - 1) (set_at (eq_types e) (level - 1) EQ_NONE) 0%nat = 0%nat) by (apply set_at_same; rewrite (i_len_types _ _ _ _ _ I); lia).
  assert (T3 : forall i, nth i (set_at (eq_types e) (level - 1) EQ_NONE) 0%nat <> 0%nat -> i <> (level - 1)%nat /\ nth i (eq_types e) 0%nat <> 0%nat).
  { intros i Hi. destruct (Nat.eq_dec i (level - 1)) as [->|Hn]; [congruence|]. rewrite T1 in Hi by exact Hn. auto. }
  assert (T4 : forall i, nth i (set_at (eq_types e) (level - 1) EQ_NONE) 0%nat <> 0%nat -> (i + 1 < level)%nat).
  { intros i Hi. apply T3 in Hi as [Hn Hi]. apply (i_types _ _ _ _ _ I) in Hi as (r & [Hr|Hr]); [injection Hr as Hr _; lia|]. apply Hst in Hr. exact Hr. }
  constructor; cbn [equal_del eq_rows eq_types].
  - apply (i_len_rows _ _ _ _ _ I).
  - rewrite set_at_length. apply (i_len_types _ _ _ _ _ I).
  - apply (i_rows _ _ _ _ _ I).
  - intros i. destruct (Nat.eq_dec i (level - 1)) as [->|Hn].
    + rewrite T2. split; [congruence|]. intros (r & Hr). apply Hst in Hr. lia.
    + rewrite T1 by exact Hn. rewrite (i_types _ _ _ _ _ I). split; intros (r & Hr); exists r; [|right; exact Hr]. destruct Hr as [Hr|Hr]; [injection Hr as Hr _; lia|exact Hr].
  - intros l r Hlr. apply (i_levels _ _ _ _ _ I l r). right. exact Hlr.
  - intros i Hi. apply T3 in Hi as [_ Hi]. apply (i_about _ _ _ _ _ I). exact Hi.
  - intros i j Hji Hi Hj. apply T3 in Hi as [_ Hi], Hj as [_ Hj]. apply (i_simple _ _ _ _ _ I); auto.
  - intros l r Hlr. rewrite T1; [apply (i_kind _ _ _ _ _ I); right; exact Hlr|]. specialize (Hst _ _ Hlr). destruct (i_levels _ _ _ _ _ I l r (or_intror Hlr)). lia.
  - intros m it par. pose proof (i_value _ _ _ _ _ I (Nat.min m (level - 1)) it par) as V. split; intros H.
    + intros i Hi Ht. pose proof (T4 i Ht). apply T3 in Ht as [_ Ht]. apply (proj1 V); [|lia|exact Ht]. intros l r [Hlr|Hlr] Hlm; [injection Hlr as <- _; lia|]. apply (H l r Hlr). lia.
    + intros l r Hlr Hlm. apply (proj2 V) with l; [|right; exact Hlr|specialize (Hst _ _ Hlr); lia]. intros i Hi Ht. apply H; [lia|]. rewrite T1 by lia. exact Ht.
Qed.
Theorem recorded_inv n nb_levels np e st : recorded n nb_levels np e st -> equal_inv n nb_levels np e st.
Proof.
  intros H. induction H as [|e st rows level line e' rows' H IH Hlt Hn HL Ha He|e st level line H IH].
  - apply alloc_inv.
  - eapply add_inv; eauto.
  - eapply del_inv; [exact IH|]. intros l r Hlr. apply (recorded_levels _ _ _ _ _ H level line st eq_refl l r Hlr).
Qed.
