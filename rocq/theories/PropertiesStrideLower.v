(** Property C12, for domains: the aligned lower bounds, down to the constraints.

    Specification: UnrollSpec.v (points of sets). *)
From Coq Require Import ZArith List Bool Lia Arith.
From Verif Require Import StrideModel UnrollModel UnrollSpec PropertiesUnroll StrideLowerModel.
Import ListNotations.
Local Open Scope Z_scope.
Local Arguments Nat.sub : simpl never.

(** the value of an offset *)
Definition offset_at (d : affine) (x p : list Z) : Z := prod (f_iter d) x + prod (f_par d) p + f_const d.
(** [level] does not occur in it *)
Definition free_of (level : nat) (d : affine) : Prop := nth (level - 1) (f_iter d) 0 = 0.

Lemma prod_addl : forall a b x, prod (addl a b) x = prod a x + prod b x.
Proof. induction a as [|k a IH]; intros [|l b] [|v x]; cbn [addl prod]; try lia. rewrite IH. lia. Qed.
Lemma prod_scale k : forall a x, prod (scale k a) x = k * prod a x.
Proof. induction a as [|l a IH]; intros [|v x]; cbn [scale map prod]; try lia. fold (scale k a). rewrite IH. lia. Qed.
Lemma prod_app_short a b : forall e g, length a = length e -> prod (a ++ b) (e ++ g) = prod a e + prod b g.
Proof. intros e g H. now apply prod_app. Qed.
Lemma prod_new v k m g : (k < m)%nat -> length g = m -> prod (new_var v k m) g = v * nth k g 0.
Proof. apply prod_one. Qed.
Lemma prod_no {A} (l : list A) : forall e, prod (map (fun _ => 0) l) e = 0.
Proof. induction l as [|a l IH]; intros [|v e]; cbn [map prod]; try reflexivity. rewrite IH. lia. Qed.

(** numerator of the quotient, and the quotient *)
Definition numer (level : nat) (d : affine) (c : con) (x p e : list Z) : Z :=
  prod (set0 (level - 1) (c_iter c)) x + prod (c_par c) p + prod (c_div c) e + c_const c + nth (level - 1) (c_iter c) 0 * offset_at d x p.
Definition aligned (level : nat) (s : Z) (d : affine) (c : con) (x p e : list Z) : Prop :=
  nth (level - 1) x 0 + s * (numer level d c x p e / (nth (level - 1) (c_iter c) 0 * s)) - offset_at d x p >= 0.

Lemma new_cons nd level s d k m c x p e g : (1 <= level <= nd)%nat -> length (c_iter c) = nd -> length x = nd -> length (c_div c) = length e -> (k < m)%nat -> length g = m ->
  0 < s -> 0 < nth (level - 1) (c_iter c) 0 ->
  (Forall (fun c => holds c x p (e ++ g)) (stride_lower_cons level s d k m c) <->
   nth k g 0 = numer level d c x p e / (nth (level - 1) (c_iter c) 0 * s) /\ aligned level s d c x p e).
Proof.
  intros Hl Hc Hx Hd Hk Hg Hs Ha. set (a := nth (level - 1) (c_iter c) 0) in *. unfold stride_lower_cons. fold a. cbv zeta.
  set (N := numer level d c x p e).
  assert (V : forall q, (0 <= N - a * s * q /\ N - a * s * q <= a * s - 1) <-> q = N / (a * s)).
  { intros q. assert (0 < a * s) by nia. split.
    - intros H0. apply (Z.div_unique N (a * s) q (N - a * s * q)); [left; lia|lia].
    - intros ->. pose proof (Z.div_mod N (a * s) ltac:(lia)). pose proof (Z.mod_pos_bound N (a * s) ltac:(lia)). lia. }
  assert (E1 : value {| c_eq := false; c_iter := addl (set0 (level - 1) (c_iter c)) (scale a (f_iter d)); c_par := addl (c_par c) (scale a (f_par d)); c_div := c_div c ++ new_var (- (a * s)) k m; c_const := c_const c + a * f_const d |} x p (e ++ g) = N - a * s * nth k g 0).
  { unfold value. cbn [c_iter c_par c_div c_const]. rewrite !prod_addl, !prod_scale, prod_app by assumption. rewrite prod_new by assumption. unfold N, numer, offset_at. fold a. lia. }
  assert (E2 : value {| c_eq := false; c_iter := opp (addl (set0 (level - 1) (c_iter c)) (scale a (f_iter d))); c_par := opp (addl (c_par c) (scale a (f_par d))); c_div := opp (c_div c) ++ new_var (a * s) k m; c_const := a * s - 1 - (c_const c + a * f_const d) |} x p (e ++ g) = a * s - 1 - (N - a * s * nth k g 0)).
  { unfold value. cbn [c_iter c_par c_div c_const]. rewrite !prod_opp, !prod_addl, !prod_scale. rewrite (prod_app (opp (c_div c)) e) by (unfold opp; rewrite map_length; exact Hd). rewrite prod_opp, prod_new by assumption. unfold N, numer, offset_at. fold a. lia. }
  assert (E3 : value {| c_eq := false; c_iter := addl (one_at 1 (level - 1) (length (c_iter c))) (opp (f_iter d)); c_par := opp (f_par d); c_div := map (fun _ => 0) (c_div c) ++ new_var s k m; c_const := - f_const d |} x p (e ++ g) = nth (level - 1) x 0 + s * nth k g 0 - offset_at d x p).
  { unfold value. cbn [c_iter c_par c_div c_const]. rewrite prod_addl, !prod_opp, (prod_app (map (fun _ => 0) (c_div c)) e) by (rewrite map_length; exact Hd). rewrite prod_no, (prod_one 1 (level - 1)) by lia. rewrite prod_new by assumption. unfold offset_at. lia. }
  unfold aligned. fold N a. split.
  - intros F. inversion_clear F as [|? ? F1 F']. inversion_clear F' as [|? ? F2 F'']. inversion_clear F'' as [|? ? F3 _]. unfold holds in F1, F2, F3. cbn [c_eq] in F1, F2, F3. rewrite E1 in F1. rewrite E2 in F2. rewrite E3 in F3.
    assert (Q : nth k g 0 = N / (a * s)) by (apply V; lia). split; [exact Q|]. rewrite <- Q. exact F3.
  - intros [Q A]. pose proof (proj2 (V _) Q) as [V1 V2]. repeat (apply Forall_cons; [unfold holds; cbn [c_eq]|]); [rewrite E1; lia|rewrite E2; lia|rewrite E3, Q; lia|constructor].
Qed.
Lemma bounds_all nd level s d x p e : (1 <= level <= nd)%nat -> length x = nd -> 0 < s -> forall l k m,
  (forall c, In c l -> length (c_iter c) = nd /\ length (c_div c) = length e /\ is_lower level c = true) -> (k + length l = m)%nat ->
  forall g, length g = m ->
  (Forall (fun c => holds c x p (e ++ g)) (bounds_for level s d k m l) <->
   skipn k g = map (fun c => numer level d c x p e / (nth (level - 1) (c_iter c) 0 * s)) l /\ Forall (fun c => aligned level s d c x p e) l).
Proof.
  intros Hl Hx Hs. induction l as [|c l IH]; intros k m HL Hk g Hg; cbn [bounds_for map].
  - split; [|intros _; constructor]. intros _. split; [|constructor]. cbn in Hk. apply skipn_all2. lia.
  - rewrite Forall_app. destruct (HL c ltac:(now left)) as (C1 & C2 & C3). unfold is_lower in C3. apply andb_prop in C3. destruct C3 as [_ C3]. apply Z.ltb_lt in C3. cbn [length] in Hk.
    rewrite (new_cons nd level s d k m c x p e g) by (assumption || lia). rewrite (IH (S k) m) by (try (intros; apply HL; now right); lia).
    assert (SK : skipn k g = nth k g 0 :: skipn (S k) g).
    { clear - Hg Hk. assert (H : (k < length g)%nat) by lia. clear Hg Hk m l. revert g H. induction k as [|k IH]; intros [|v g] H; cbn [length] in H; try lia; [reflexivity|]. cbn [skipn nth]. apply IH. lia. }
    rewrite SK. split.
    + intros [[Q A] [R B]]. split; [now rewrite Q, R|]. constructor; assumption.
    + intros [Q F]. inversion_clear F as [|? ? F1 F2]. injection Q as Q R. auto.
Qed.

(** the points of a basic set with its bounds aligned *)
Lemma inside_lower nd level st b x p : (1 <= level <= nd)%nat -> shaped nd b -> length x = nd -> 0 < st_stride st ->
  (inside (basic_set_stride_lower level st b) x p <->
   exists e, length e = n_div b /\ Forall (fun c => holds c x p e) (cons_of b) /\ forall c, In c (cons_of b) -> is_lower level c = true -> aligned level (st_stride st) (offset_of level st) c x p e).
Proof.
  intros Hl Hs Hx Hst. unfold inside, basic_set_stride_lower. cbn [n_div cons_of]. set (lows := filter (is_lower level) (cons_of b)). set (m := length lows).
  unfold shaped in Hs. rewrite Forall_forall in Hs.
  assert (OR : forall e g, length e = n_div b -> length g = m ->
    (Forall (fun c => holds c x p (e ++ g)) (map (fun c => {| c_eq := c_eq c; c_iter := c_iter c; c_par := c_par c; c_div := c_div c ++ repeat 0 m; c_const := c_const c |}) (cons_of b)) <-> Forall (fun c => holds c x p e) (cons_of b))).
  { intros e g He Hg. rewrite Forall_map, !Forall_forall.
    assert (K : forall c, In c (cons_of b) -> (holds {| c_eq := c_eq c; c_iter := c_iter c; c_par := c_par c; c_div := c_div c ++ repeat 0 m; c_const := c_const c |} x p (e ++ g) <-> holds c x p e)).
    { intros c Hc. destruct (Hs c Hc) as [_ S2]. unfold holds, value. cbn [c_eq c_iter c_par c_div c_const]. rewrite prod_app by congruence.
      rewrite (prod_zeros (repeat 0 m)) by (rewrite Forall_forall; intros z Hz; now apply repeat_spec in Hz). rewrite Z.add_0_r. reflexivity. }
    split; intros H c Hc; apply (K c Hc); auto. }
  assert (LW : forall e : list Z, length e = n_div b -> forall c, In c lows -> length (c_iter c) = nd /\ length (c_div c) = length e /\ is_lower level c = true).
  { intros e He c Hc. apply filter_In in Hc. destruct Hc as [Hc L]. destruct (Hs c Hc). repeat split; congruence. }
  assert (FL : forall (Q : con -> Prop), Forall Q lows <-> forall c, In c (cons_of b) -> is_lower level c = true -> Q c).
  { intros Q. unfold lows. rewrite Forall_forall. split; intros H c; [intros; apply H, filter_In; auto|]. intros Hc. apply filter_In in Hc. destruct Hc. auto. }
  split.
  - intros (eg & Heg & F). apply Forall_app in F. destruct F as [F1 F2]. exists (firstn (n_div b) eg).
    assert (He : length (firstn (n_div b) eg) = n_div b) by (rewrite firstn_length; lia).
    assert (Hg : length (skipn (n_div b) eg) = m) by (rewrite skipn_length; lia).
    rewrite <- (firstn_skipn (n_div b) eg) in F1, F2. apply OR in F1; [|assumption|assumption]. split; [exact He|]. split; [exact F1|].
    apply (proj1 (bounds_all nd level _ _ x p _ Hl Hx Hst lows 0 m (LW _ He) eq_refl _ Hg)) in F2. destruct F2 as [_ F2]. now apply FL.
  - intros (e & He & F1 & F2). set (g := map (fun c => numer level (offset_of level st) c x p e / (nth (level - 1) (c_iter c) 0 * st_stride st)) lows).
    assert (Hg : length g = m) by (unfold g; apply map_length). exists (e ++ g). split; [rewrite app_length; lia|]. apply Forall_app. split; [now apply OR|].
    apply (proj2 (bounds_all nd level _ _ x p _ Hl Hx Hst lows 0 m (LW _ He) eq_refl _ Hg)). split; [reflexivity|]. now apply FL.
Qed.
Lemma offset_free level st : free_of level (offset_of level st).
Proof.
  unfold free_of, offset_of. destruct (st_con st) as [[c factor]|]; cbn [f_iter]; [|now destruct (level - 1)%nat].
  unfold scale. generalize (level - 1)%nat as i. generalize (c_iter c) as l. induction l as [|v l IH]; intros [|i]; cbn [set0 map nth]; auto; lia.
Qed.

(** For a stride s > 0 and an offset d: the aligned domain is inside the domain, and has all its points whose
    iterator is d modulo s. *)
Theorem C12_aligned_domain :
  forall (nd level : nat) (st : cstride) (set : list bset),
  (1 <= level <= nd)%nat -> 0 < st_stride st -> Forall (shaped nd) set ->
  forall x p, length x = nd ->
  (point_of (domain_stride_lower_bound level st set) x p -> point_of set x p) /\
  (point_of set x p -> (st_stride st | nth (level - 1) x 0 - offset_at (offset_of level st) x p) -> point_of (domain_stride_lower_bound level st set) x p).
Proof.
  intros nd level st set Hl Hs HS x p Hx. rewrite Forall_forall in HS. split.
  - intros (b & Hb & Hi). apply in_map_iff in Hb. destruct Hb as (b0 & <- & Hb). apply (inside_lower nd) in Hi; auto. destruct Hi as (e & He & F & _). exists b0. split; [exact Hb|]. now exists e.
  - intros (b & Hb & e & He & F) [q Hq]. exists (basic_set_stride_lower level st b). split; [apply in_map_iff; now exists b|]. apply (inside_lower nd); auto. exists e. split; [exact He|]. split; [exact F|].
    intros c Hc Hlo. unfold is_lower in Hlo. apply andb_prop in Hlo. destruct Hlo as [Ee Ha]. apply negb_true_iff in Ee. apply Z.ltb_lt in Ha.
    rewrite Forall_forall in F. pose proof (F c Hc) as Fc. unfold holds in Fc. rewrite Ee in Fc. unfold value in Fc. pose proof (HS b Hb) as Sb. unfold shaped in Sb. rewrite Forall_forall in Sb. destruct (Sb c Hc) as [S1 _].
    rewrite (prod_split (level - 1)) in Fc by lia. unfold aligned, numer. set (a := nth (level - 1) (c_iter c) 0) in *. set (d := offset_at (offset_of level st) x p) in *. set (s := st_stride st) in *. set (i := nth (level - 1) x 0) in *.
    set (f := prod (set0 (level - 1) (c_iter c)) x + prod (c_par c) p + prod (c_div c) e + c_const c).
    assert (I1 : a * i + f >= 0) by (unfold f; lia). assert (I2 : i = d + q * s) by lia.
    assert (I3 : - q <= (f + a * d) / (a * s)). { apply Z.div_le_lower_bound; [nia|]. nia. }
    nia.
Qed.
Print Assumptions C12_aligned_domain.

(** The least value that a lower bound (without existentially quantified variables) leaves is d modulo s and not
    below the bound: a loop that starts there and goes on by s meets exactly the values that are d modulo s. *)
Theorem C12_aligned_start :
  forall (nd level : nat) (st : cstride) (b : bset) (c : con),
  (1 <= level <= nd)%nat -> 0 < st_stride st -> shaped nd b ->
  In c (cons_of b) -> is_lower level c = true -> Forall (fun k => k = 0) (c_div c) ->
  forall x p, length x = nd -> exists v,
    (st_stride st | v - offset_at (offset_of level st) x p) /\ value c (replace (level - 1) v x) p [] >= 0 /\
    (forall w, w < v -> (st_stride st | w - offset_at (offset_of level st) x p) -> value c (replace (level - 1) w x) p [] < 0) /\
    (inside (basic_set_stride_lower level st b) x p -> v <= nth (level - 1) x 0).
Proof.
  intros nd level st b c Hl Hs HS Hc Hlo Hd x p Hx. pose proof HS as HS'. unfold shaped in HS'. rewrite Forall_forall in HS'. destruct (HS' c Hc) as [S1 S2].
  pose proof Hlo as Hlo'. unfold is_lower in Hlo'. apply andb_prop in Hlo'. destruct Hlo' as [_ Ha]. apply Z.ltb_lt in Ha.
  set (d := offset_at (offset_of level st) x p). set (a := nth (level - 1) (c_iter c) 0) in *. set (s := st_stride st) in *. set (f := rest c level x p).
  set (q := (f + a * d) / (a * s)). assert (P0 : 0 < a * s) by nia.
  pose proof (Z.div_mod (f + a * d) (a * s) ltac:(lia)) as DM. fold q in DM. pose proof (Z.mod_pos_bound (f + a * d) (a * s) P0) as MB.
  exists (d - s * q). split; [exists (- q); lia|]. split; [|split].
  - rewrite (value_replace c nd) by auto. fold a f. nia.
  - intros w Hw [t Ht]. rewrite (value_replace c nd) by auto. fold a f. assert (w = d + t * s) by lia. assert (t < - q) by nia. nia.
  - intros Hi. apply (inside_lower nd) in Hi; auto. destruct Hi as (e & _ & _ & A). specialize (A c Hc Hlo). unfold aligned, numer in A. rewrite (prod_zeros _ Hd) in A. fold d a s in A. unfold rest in f.
    replace (prod (set0 (level - 1) (c_iter c)) x + prod (c_par c) p + 0 + c_const c + a * d) with (f + a * d) in A by (unfold f; lia). fold q in A. lia.
Qed.
Print Assumptions C12_aligned_start.

(** { i : 2 i >= N, i <= 20 } with stride 3 and offset 1: for N = 5 the points are those from 4 on; with the offset
    N + 1 instead (from the equality i - N - 1 = 3 e) those from 3 on. *)
Definition b12 : bset := {| n_div := 0; cons_of := [{| c_eq := false; c_iter := [2]; c_par := [-1]; c_div := []; c_const := 0 |}; {| c_eq := false; c_iter := [-1]; c_par := [0]; c_div := []; c_const := 20 |}] |}.
Definition st12 : cstride := {| st_stride := 3; st_offset := 1; st_con := None |}.
Definition st12' : cstride := {| st_stride := 3; st_offset := 0; st_con := Some ({| c_eq := true; c_iter := [1]; c_par := [-1]; c_div := [-3]; c_const := -1 |}, -1) |}.
Example C12_aligned_example : shaped 1 b12 /\
  (forall i, inside (basic_set_stride_lower 1 st12 b12) [i] [5] <-> 4 <= i <= 20) /\
  (forall i, inside (basic_set_stride_lower 1 st12' b12) [i] [5] <-> 3 <= i <= 20).
Proof.
  assert (SH : shaped 1 b12) by (repeat (apply Forall_cons; [split; reflexivity|]); constructor).
  assert (G : forall st k, 0 < st_stride st -> (forall i, aligned 1 (st_stride st) (offset_of 1 st) {| c_eq := false; c_iter := [2]; c_par := [-1]; c_div := []; c_const := 0 |} [i] [5] [] <-> k <= i) -> 3 <= k ->
    forall i, inside (basic_set_stride_lower 1 st b12) [i] [5] <-> k <= i <= 20).
  { intros st k Hs HA Hk i. rewrite (inside_lower 1) by (auto; lia). split.
    - intros (e & He & F & A). destruct e; [|discriminate]. inversion_clear F as [|? ? F1 F']. inversion_clear F' as [|? ? F2 _]. unfold holds, value in F2. cbn [c_eq c_iter c_par c_div c_const prod] in F2.
      pose proof (A _ (or_introl eq_refl) eq_refl) as A1. apply HA in A1. lia.
    - intros Hi. exists []. split; [reflexivity|]. split; [repeat (apply Forall_cons; [unfold holds, value; cbn [c_eq c_iter c_par c_div c_const prod]; lia|]); constructor|].
      intros c [<- |[<- |[]]] Hl; [|discriminate Hl]. apply HA. lia. }
  split; [exact SH|]. split; apply G; try reflexivity; try lia; intro i; unfold aligned, numer, offset_at; change (1 - 1)%nat with 0%nat;
    cbn [offset_of st_con st12 st12' st_stride st_offset f_iter f_par f_const scale map set0 nth c_iter c_par c_div c_const prod]; change (1 - 1)%nat with 0%nat; cbn [scale set0 map prod]; rewrite ?Z.mul_0_l, ?Z.mul_0_r; change (2 * 3) with 6; Z.to_euclidean_division_equations; lia.
Qed.

(** Strides are looked for at a level exactly when no lower bound of the level has an existentially quantified
    variable. *)
Lemma con_can level can c : constraint_can_stride level can c = true <-> can = true /\ (is_lower level c = true -> Forall (fun k => k = 0) (c_div c)).
Proof.
  unfold constraint_can_stride, is_lower. destruct (c_eq c); cbn [negb andb]; [intuition discriminate|]. destruct (0 <? nth (level - 1) (c_iter c) 0); [|intuition discriminate].
  destruct (existsb (fun k => negb (k =? 0)) (c_div c)) eqn:E.
  - split; [discriminate|]. intros [_ H]. specialize (H eq_refl). apply existsb_exists in E. destruct E as (k & Hk & N). rewrite Forall_forall in H. rewrite (H k Hk) in N. discriminate N.
  - split; [|now intros [-> _]]. intros ->. split; [reflexivity|]. intros _. apply Forall_forall. intros k Hk. destruct (Z.eq_dec k 0) as [|N]; [assumption|]. exfalso.
    assert (existsb (fun k => negb (k =? 0)) (c_div c) = true); [|congruence]. apply existsb_exists. exists k. split; [exact Hk|]. apply Z.eqb_neq in N. now rewrite N.
Qed.
Lemma cons_can level : forall l can, fold_left (constraint_can_stride level) l can = true <-> can = true /\ forall c, In c l -> is_lower level c = true -> Forall (fun k => k = 0) (c_div c).
Proof.
  induction l as [|c l IH]; intros can; cbn [fold_left]; [intuition contradiction|]. rewrite IH, con_can. split.
  - intros [[H1 H2] H3]. split; [exact H1|]. intros c' [<- |H']; auto.
  - intros [H1 H2]. split; [split; [exact H1|]|]; intros; apply H2; cbn [In]; auto.
Qed.
Lemma sets_can level : forall l can, fold_left (basic_set_can_stride level) l can = true <-> can = true /\ forall b c, In b l -> In c (cons_of b) -> is_lower level c = true -> Forall (fun k => k = 0) (c_div c).
Proof.
  induction l as [|b l IH]; intros can; cbn [fold_left]; [intuition contradiction|]. rewrite IH. unfold basic_set_can_stride at 1. rewrite cons_can. split.
  - intros [[H1 H2] H3]. split; [exact H1|]. intros b' c [<- |H']; eauto.
  - intros [H1 H2]. split; [split; [exact H1|]|]; intros; eapply H2; cbn [In]; eauto.
Qed.
Theorem C12_can_stride :
  forall (set : list bset) (level : nat),
  domain_can_stride set level = true <->
  (forall b c, In b set -> In c (cons_of b) -> c_eq c = false -> nth (level - 1) (c_iter c) 0 > 0 -> Forall (fun k => k = 0) (c_div c)).
Proof.
  intros set level. unfold domain_can_stride. rewrite sets_can. unfold is_lower. split.
  - intros [_ H] b c Hb Hc E P. apply (H b c Hb Hc). rewrite E. cbn [negb andb]. apply Z.ltb_lt. lia.
  - intros H. split; [reflexivity|]. intros b c Hb Hc L. apply andb_prop in L. destruct L as [L1 L2]. apply negb_true_iff in L1. apply Z.ltb_lt in L2. apply (H b c Hb Hc L1). lia.
Qed.
Print Assumptions C12_can_stride.

(** When strides are allowed at the level, the points of each aligned basic set that has a lower bound start at a
    value that is the offset modulo the stride: it is on or above all lower bounds, no smaller value with the
    remainder is, and no point of the aligned basic set is below it. *)
Theorem C12_start_when_allowed :
  forall (nd level : nat) (st : cstride) (set : list bset) (b : bset),
  (1 <= level <= nd)%nat -> 0 < st_stride st -> Forall (shaped nd) set ->
  domain_can_stride set level = true -> In b set ->
  (exists c, In c (cons_of b) /\ is_lower level c = true) ->
  forall x p, length x = nd -> exists v,
    (st_stride st | v - offset_at (offset_of level st) x p) /\
    (forall c, In c (cons_of b) -> is_lower level c = true -> value c (replace (level - 1) v x) p [] >= 0) /\
    (forall w, w < v -> (st_stride st | w - offset_at (offset_of level st) x p) ->
       exists c, In c (cons_of b) /\ is_lower level c = true /\ value c (replace (level - 1) w x) p [] < 0) /\
    (inside (basic_set_stride_lower level st b) x p -> v <= nth (level - 1) x 0).
Proof.
  intros nd level st set b Hl Hs HS Hcan Hb Hex x p Hx. rewrite Forall_forall in HS. specialize (HS b Hb).
  apply sets_can in Hcan. destruct Hcan as [_ Hcan].
  assert (ST : forall c, In c (cons_of b) -> is_lower level c = true -> exists v,
    (st_stride st | v - offset_at (offset_of level st) x p) /\ value c (replace (level - 1) v x) p [] >= 0 /\
    (forall w, w < v -> (st_stride st | w - offset_at (offset_of level st) x p) -> value c (replace (level - 1) w x) p [] < 0) /\
    (inside (basic_set_stride_lower level st b) x p -> v <= nth (level - 1) x 0)).
  { intros c Hc L. apply (C12_aligned_start nd level st b c); auto. now apply (Hcan b c). }
  assert (G : forall l, (forall c, In c l -> In c (cons_of b)) -> (exists c, In c l /\ is_lower level c = true) -> exists v,
    (st_stride st | v - offset_at (offset_of level st) x p) /\
    (forall c, In c l -> is_lower level c = true -> value c (replace (level - 1) v x) p [] >= 0) /\
    (forall w, w < v -> (st_stride st | w - offset_at (offset_of level st) x p) -> exists c, In c l /\ is_lower level c = true /\ value c (replace (level - 1) w x) p [] < 0) /\
    (inside (basic_set_stride_lower level st b) x p -> v <= nth (level - 1) x 0)).
  { assert (UP : forall c v w, In c (cons_of b) -> is_lower level c = true -> v <= w -> value c (replace (level - 1) v x) p [] >= 0 -> value c (replace (level - 1) w x) p [] >= 0).
    { intros c v w Hc L Hvw Hv. unfold shaped in HS. rewrite Forall_forall in HS. destruct (HS c Hc) as [S1 _]. unfold is_lower in L. apply andb_prop in L. destruct L as [_ L]. apply Z.ltb_lt in L.
      pose proof (Hcan b c Hb Hc) as Z0. rewrite (value_replace c nd) in * by auto. nia. }
    induction l as [|c l IH]; intros Hin (c0 & H0 & L0); [destruct H0|]. destruct (is_lower level c) eqn:Lc.
    - destruct (ST c (Hin c (or_introl eq_refl)) Lc) as (v1 & V1 & V2 & V3 & V4).
      destruct (existsb (is_lower level) l) eqn:El.
      + apply existsb_exists in El. destruct (IH (fun c' H' => Hin c' (or_intror H')) El) as (v2 & W1 & W2 & W3 & W4).
        destruct (Z_le_gt_dec v1 v2) as [Hle|Hgt].
        * exists v2. split; [exact W1|]. split; [|split; [|exact W4]].
          -- intros c' [<- |H'] L'; [|now apply W2]. apply (UP _ v1); auto. apply Hin. now left.
          -- intros w Hw D. destruct (W3 w Hw D) as (c' & A1 & A2 & A3). exists c'. split; [now right|auto].
        * exists v1. split; [exact V1|]. split; [|split; [|exact V4]].
          -- intros c' [<- |H'] L'; [exact V2|]. apply (UP _ v2); auto; [|lia]. apply Hin. now right.
          -- intros w Hw D. exists c. split; [now left|auto].
      + exists v1. split; [exact V1|]. split; [|split; [|exact V4]].
        * intros c' [<- |H'] L'; [exact V2|]. exfalso. assert (existsb (is_lower level) l = true); [|congruence]. apply existsb_exists. eauto.
        * intros w Hw D. exists c. split; [now left|auto].
    - destruct (IH (fun c' H' => Hin c' (or_intror H'))) as (v2 & W1 & W2 & W3 & W4).
      { exists c0. split; [|exact L0]. destruct H0 as [<- |H0]; [congruence|exact H0]. }
      exists v2. split; [exact W1|]. split; [|split; [|exact W4]].
      + intros c' [<- |H'] L'; [congruence|now apply W2].
      + intros w Hw D. destruct (W3 w Hw D) as (c' & A1 & A2 & A3). exists c'. split; [now right|auto]. }
  apply (G (cons_of b)); auto.
Qed.
Print Assumptions C12_start_when_allowed.

(** the set above allows strides, and one with 2 i - e >= 0 does not *)
Example C12_allowed_example : domain_can_stride [b12] 1 = true /\ (exists c, In c (cons_of b12) /\ is_lower 1 c = true) /\
  domain_can_stride [b12; {| n_div := 1; cons_of := [{| c_eq := false; c_iter := [2]; c_par := [0]; c_div := [-1]; c_const := 0 |}] |}] 1 = false /\
  domain_can_stride [{| n_div := 1; cons_of := [{| c_eq := true; c_iter := [2]; c_par := [0]; c_div := [-1]; c_const := 0 |}] |}] 1 = true.
Proof. split; [reflexivity|]. split; [|split; reflexivity]. eexists. split; [left; reflexivity|reflexivity]. Qed.

(** When the stride comes from an equality a i + ... + (multiples of s) = 0 that holds on the domain, with a factor
    such that factor a = -1 modulo s, or is the constant offset of all points, then raising the lower bounds changes
    nothing in the set of points. *)
Theorem C12_aligned_same_points :
  forall (nd level : nat) (st : cstride) (set : list bset),
  (1 <= level <= nd)%nat -> 0 < st_stride st -> Forall (shaped nd) set ->
  forall x p, length x = nd ->
  match st_con st with
  | Some (c, factor) => c_eq c = true /\ length (c_iter c) = nd /\ (st_stride st | factor * nth (level - 1) (c_iter c) 0 + 1) /\
      Forall (fun k => (st_stride st | k)) (c_div c) /\ exists e, holds c x p e
  | None => (st_stride st | nth (level - 1) x 0 - st_offset st)
  end ->
  (point_of (domain_stride_lower_bound level st set) x p <-> point_of set x p).
Proof.
  intros nd level st set Hl Hs HS x p Hx H. destruct (C12_aligned_domain nd level st set Hl Hs HS x p Hx) as [A B]. split; [exact A|]. intros Hp. apply B; [exact Hp|]. clear A B Hp HS.
  unfold offset_of. destruct (st_con st) as [[c factor]|].
  - destruct H as (E & L & [q Hq] & D & e & He). unfold holds in He. rewrite E in He. unfold value in He. rewrite (prod_split (level - 1)) in He by lia.
    unfold offset_at. cbn [f_iter f_par f_const]. rewrite !prod_scale. set (a := nth (level - 1) (c_iter c) 0) in *. set (i := nth (level - 1) x 0) in *. set (s := st_stride st) in *.
    assert (DV : exists t, prod (c_div c) e = t * s).
    { clear - D. revert e. induction D as [|k l [u Hu] D IH]; intros [|v e]; cbn [prod]; try (exists 0; lia). destruct (IH e) as (t & Ht). exists (u * v + t). rewrite Ht, Hu. lia. }
    destruct DV as (t & Ht). rewrite Ht in He. set (r1 := prod (set0 (level - 1) (c_iter c)) x) in *. set (r2 := prod (c_par c) p) in *.
    exists (q * i + factor * t). assert (R : r1 + r2 + c_const c = - (a * i + t * s)) by lia. replace (factor * r1 + factor * r2 + factor * c_const c) with (factor * (r1 + r2 + c_const c)) by lia. rewrite R.
    transitivity ((factor * a + 1) * i + factor * t * s); [ring|rewrite Hq; ring].
  - unfold offset_at. cbn [f_iter f_par f_const prod]. destruct H as [q Hq]. exists q. lia.
Qed.
Print Assumptions C12_aligned_same_points.
(** the stride and the equality above: i = N + 1 + 3 e *)
Example C12_same_points_example : match st_con st12' with
  | Some (c, factor) => c_eq c = true /\ length (c_iter c) = 1%nat /\ (st_stride st12' | factor * nth (1 - 1) (c_iter c) 0 + 1) /\ Forall (fun k => (st_stride st12' | k)) (c_div c) /\ exists e, holds c [12] [5] e
  | None => False
  end /\ point_of [b12] [12] [5].
Proof.
  split.
  - cbn [st12' st_con c_eq c_iter c_div st_stride]. split; [reflexivity|]. split; [reflexivity|]. split; [exists 0; reflexivity|]. split; [constructor; [exists (-1); reflexivity|constructor]|]. exists [2]. reflexivity.
  - exists b12. split; [now left|]. exists []. split; [reflexivity|]. repeat (apply Forall_cons; [unfold holds, value; cbn; lia|]). constructor.
Qed.
