(** Property C54: which loops are unrolled, and their copies, down to the constraints. *)
From Coq Require Import ZArith List Bool Lia Arith.
From Verif Require Import StrideModel UnrollModel UnrollSpec.
Import ListNotations.
Local Open Scope Z_scope.
Local Arguments Nat.sub : simpl never.

Lemma prod_app a x : forall b y, length a = length x -> prod (a ++ b) (x ++ y) = prod a x + prod b y.
Proof. revert x. induction a as [|v a IH]; intros [|w x] b y H; try discriminate; cbn [prod app]; [lia|]. rewrite IH by (injection H; auto). lia. Qed.
Lemma prod_zeros l : Forall (fun k => k = 0) l -> forall x, prod l x = 0.
Proof. induction 1 as [|k l -> _ IH]; intros [|v x]; cbn [prod]; try reflexivity. rewrite IH. lia. Qed.
Lemma prod_opp l : forall x, prod (opp l) x = - prod l x.
Proof. induction l as [|k l IH]; intros [|v x]; cbn [prod opp map]; try reflexivity. fold (opp l). rewrite IH. lia. Qed.
Lemma prod_split : forall i l x, (i < length l)%nat -> length x = length l -> prod l x = nth i l 0 * nth i x 0 + prod (set0 i l) x.
Proof.
  induction i as [|i IH]; intros [|k l] [|v x] H E; cbn [length] in *; try lia; cbn [prod nth set0]; [lia|]. rewrite (IH l x) by lia. lia.
Qed.
Lemma prod_replace : forall i l x w, (i < length l)%nat -> length x = length l -> prod l (replace i w x) = nth i l 0 * w + prod (set0 i l) x.
Proof.
  unfold replace. induction i as [|i IH]; intros [|k l] [|v x] w H E; cbn [length] in *; try lia; cbn [firstn skipn app prod nth set0]; [lia|].
  specialize (IH l x w). cbn [skipn] in IH. rewrite IH by lia. lia.
Qed.
Lemma prod_one k i : forall n x, (i < n)%nat -> length x = n -> prod (one_at k i n) x = k * nth i x 0.
Proof.
  intros n x Hi Hx. assert (G : forall x s, (s <= i)%nat -> (i < s + length x)%nat -> prod (map (fun j => if Nat.eqb j i then k else 0) (seq s (length x))) x = k * nth (i - s) x 0).
  { clear. induction x as [|v x IH]; intros s H1 H2; cbn [length] in H2; [lia|]. cbn [length seq map prod].
    destruct (Nat.eqb_spec s i) as [->|E].
    - rewrite Nat.sub_diag. cbn [nth]. assert (Z0 : forall y t, (i < t)%nat -> prod (map (fun j => if Nat.eqb j i then k else 0) (seq t (length y))) y = 0).
      { induction y as [|w y IHy]; intros t Ht; cbn [length seq map prod]; [reflexivity|]. destruct (Nat.eqb_spec t i); [lia|]. rewrite IHy by lia. lia. }
      rewrite Z0 by lia. lia.
    - rewrite IH by lia. destruct (i - s)%nat as [|q] eqn:Eq; [lia|]. cbn [nth]. replace (i - S s)%nat with q by lia. lia. }
  unfold one_at. rewrite <- Hx. rewrite G by lia. rewrite Nat.sub_0_r. reflexivity.
Qed.

(** the part of a constraint without the iterator at [level], and its first value *)
Definition rest (c : con) (level : nat) (x p : list Z) : Z := prod (set0 (level - 1) (c_iter c)) x + prod (c_par c) p + c_const c.
Lemma value_replace c nd level x p w : (1 <= level <= nd)%nat -> length (c_iter c) = nd -> length x = nd ->
  value c (replace (level - 1) w x) p [] = nth (level - 1) (c_iter c) 0 * w + rest c level x p.
Proof. intros H H1 H2. unfold value, rest. rewrite prod_replace by lia. replace (prod (c_div c) []) with 0 by (destruct (c_div c); reflexivity). lia. Qed.
Lemma value_rest c nd level x p e : (1 <= level <= nd)%nat -> length (c_iter c) = nd -> length x = nd -> Forall (fun k => k = 0) (c_div c) ->
  value c x p e = nth (level - 1) (c_iter c) 0 * nth (level - 1) x 0 + rest c level x p.
Proof. intros H H1 H2 H3. unfold value, rest. rewrite (prod_split (level - 1)) by lia. rewrite (prod_zeros _ H3). lia. Qed.
Lemma ceil_iff a f w : 0 < a -> (- (f / a) <= w <-> a * w + f >= 0).
Proof.
  intros Ha. pose proof (Z.div_mod f a ltac:(lia)) as E. pose proof (Z.mod_pos_bound f a Ha) as B. split; intros H; nia.
Qed.
Lemma first_ceil c nd level x p : (1 <= level <= nd)%nat -> length (c_iter c) = nd -> length x = nd -> 0 < nth (level - 1) (c_iter c) 0 ->
  first_value c level x p (- (rest c level x p / nth (level - 1) (c_iter c) 0)).
Proof. intros H H1 H2 Ha w. rewrite (value_replace c nd) by assumption. apply ceil_iff. exact Ha. Qed.
Lemma first_unique c level x p v v' : first_value c level x p v -> first_value c level x p v' -> v = v'.
Proof. intros H H'. pose proof (proj1 (H v) (Z.le_refl v)) as A. apply (proj2 (H' v)) in A. pose proof (proj1 (H' v') (Z.le_refl v')) as B. apply (proj2 (H v')) in B. lia. Qed.

(** ** C54 *)
(** Every copy: the points of the domain whose iterator is the first value of the lower bound plus
    the offset. *)
Theorem C54_copy :
  forall (nd : nat) (set : list bset) (level : nat) (lb : con) (offset : Z),
  Forall (shaped nd) set -> (1 <= level <= nd)%nat -> length (c_iter lb) = nd -> 0 < nth (level - 1) (c_iter lb) 0 ->
  forall x p v, length x = nd -> first_value lb level x p v ->
  (point_of (domain_fixed_offset set level lb offset) x p <-> point_of set x p /\ nth (level - 1) x 0 = v + offset).
Proof.
  intros nd set level lb o Hs Hl Hlb Ha x p v Hx Hv.
  pose proof (first_unique _ _ _ _ _ _ Hv (first_ceil lb nd level x p Hl Hlb Hx Ha)) as Ev. clear Hv.
  assert (G : forall b, shaped nd b -> inside (fixed_offset1 level lb o b) x p <-> inside b x p /\ nth (level - 1) x 0 = v + o).
  { intros b Hb. unfold inside, fixed_offset1. cbn [n_div cons_of]. set (a := nth (level - 1) (c_iter lb) 0) in *. set (f := rest lb level x p) in *.
    assert (D : forall k (e : list Z) w, length e = n_div b -> prod (repeat 0 (n_div b) ++ [k]) (e ++ [w]) = k * w).
    { intros k e w He. rewrite prod_app by (rewrite repeat_length; congruence). rewrite prod_zeros; [cbn; lia|]. apply Forall_forall. intros z Hz. apply repeat_spec in Hz. exact Hz. }
    assert (H1 : forall e w, length e = n_div b ->
       (Forall (fun c => holds c x p (e ++ [w])) (map (fun c => {| c_eq := c_eq c; c_iter := c_iter c; c_par := c_par c; c_div := c_div c ++ [0]; c_const := c_const c |}) (cons_of b))
        <-> Forall (fun c => holds c x p e) (cons_of b))).
    { intros e w He. rewrite Forall_map. unfold shaped in Hb. rewrite !Forall_forall in *. split; intros H c Hc; specialize (H c Hc); destruct (Hb c Hc) as [_ Ld];
        unfold holds, value in *; cbn [c_eq c_iter c_par c_div c_const] in *; (rewrite prod_app in * by congruence); cbn [prod] in *;
        replace (prod (c_div c) e + (0 * w + 0)) with (prod (c_div c) e) in * by lia; exact H. }
    assert (H2 : forall e w, length e = n_div b ->
       (Forall (fun c => holds c x p (e ++ [w]))
         [{| c_eq := false; c_iter := set0 (level - 1) (c_iter lb); c_par := c_par lb; c_div := repeat 0 (n_div b) ++ [a]; c_const := c_const lb |};
          {| c_eq := false; c_iter := opp (set0 (level - 1) (c_iter lb)); c_par := opp (c_par lb); c_div := repeat 0 (n_div b) ++ [- a]; c_const := a - 1 - c_const lb |};
          {| c_eq := true; c_iter := one_at (-1) (level - 1) (length (c_iter lb)); c_par := []; c_div := repeat 0 (n_div b) ++ [1]; c_const := o |}]
        <-> w = v /\ nth (level - 1) x 0 = v + o)).
    { intros e w He. rewrite !Forall_cons_iff. unfold holds, value. cbn [c_eq c_iter c_par c_div c_const prod]. rewrite !D by exact He.
      rewrite !prod_opp, prod_one by lia.
      replace (prod (set0 (level - 1) (c_iter lb)) x + prod (c_par lb) p + a * w + c_const lb) with (a * w + f) by (unfold f, rest; lia).
      replace (- prod (set0 (level - 1) (c_iter lb)) x + - prod (c_par lb) p + - a * w + (a - 1 - c_const lb)) with (a - 1 - (a * w + f)) by (unfold f, rest; lia).
      pose proof (ceil_iff a f w Ha) as C1. pose proof (ceil_iff a f (w - 1) Ha) as C2. rewrite <- Ev in C1, C2. split.
      - intros (K1 & K2 & K3 & _). apply C1 in K1. assert (~ v <= w - 1) by (intros K; apply C2 in K; lia). lia.
      - intros [-> K]. split; [apply C1; lia|]. split; [|split; [lia|constructor]].
        destruct (Z_le_gt_dec (a * v + f) (a - 1)); [lia|]. assert (v <= v - 1) by (apply C2; lia). lia. }
    split.
    - intros (e' & Le & HF). rewrite Forall_app in HF. destruct HF as [F1 F2].
      assert (Hne : e' <> []) by (intros ->; discriminate). destruct (exists_last Hne) as (e & w & ->). rewrite app_length in Le. cbn in Le.
      apply H1 in F1; [|lia]. apply H2 in F2; [|lia]. split; [exists e; split; [lia|exact F1]|apply F2].
    - intros [(e & Le & F) K]. exists (e ++ [v]). split; [rewrite app_length; cbn; lia|]. rewrite Forall_app. split; [apply H1; assumption|apply H2; auto]. }
  rewrite Forall_forall in Hs. unfold point_of, domain_fixed_offset. split.
  - intros (b' & Hb' & Hin). apply in_map_iff in Hb' as (b & <- & Hb). apply G in Hin; [|apply Hs; exact Hb]. destruct Hin as [H1 H2]. split; [exists b; auto|exact H2].
  - intros [(b & Hb & Hin) H2]. exists (fixed_offset1 level lb o b). split; [apply in_map; exact Hb|]. apply G; [apply Hs; exact Hb|auto].
Qed.
Print Assumptions C54_copy.

(** *** the decision *)
Section Decide.
Variable I : Isl.
Lemma valid_iff set level c n : is_valid_unrolling_lower_bound I set level c = Some (Some n) <->
  Forall (fun k => k = 0) (c_div c) /\ max_val I set c level = Fin (n - 1).
Proof.
  unfold is_valid_unrolling_lower_bound. destruct (existsb (fun k => negb (k =? 0)) (c_div c)) eqn:E.
  - split; [discriminate|]. intros [H _]. apply existsb_exists in E as (k & Hk & E). rewrite Forall_forall in H. rewrite (H k Hk) in E. discriminate.
  - assert (F : Forall (fun k => k = 0) (c_div c)).
    { apply Forall_forall. intros k Hk. destruct (Z.eqb_spec k 0) as [->|Hn]; [reflexivity|]. exfalso.
      assert (existsb (fun k => negb (k =? 0)) (c_div c) = true); [|congruence]. apply existsb_exists. exists k. split; [exact Hk|]. destruct (Z.eqb_spec k 0); [contradiction|reflexivity]. }
    destruct (max_val I set c level) as [v| | |]; (split; [|intros [_ H]; try discriminate]); try discriminate.
    + intros H. injection H as <-. split; [exact F|]. f_equal. lia.
    + injection H as ->. do 2 f_equal. lia.
Qed.
(** what holds while the constraints [done] have been looked at: the bound kept is one of the usable
    ones with the smallest count *)
Definition kept (set : list bset) (level : nat) (done : list con) (u : ccu) : Prop :=
  u_can u = true /\
  match u_c u with
  | None => forall c n, In c done -> ~ usable I set level c n
  | Some lb => In lb done /\ usable I set level lb (u_n u) /\ forall c n, In c done -> usable I set level c n -> u_n u <= n
  end.
Lemma kept_step set level done u c u' : kept set level done u -> constraint_can_unroll I set level u c = Some u' -> kept set level (done ++ [c]) u'.
Proof.
  intros [Hc Hk] H. unfold constraint_can_unroll in H. destruct (Z.ltb_spec 0 (nth (level - 1) (c_iter c) 0)) as [Hp|Hp].
  - destruct (is_valid_unrolling_lower_bound I set level c) as [[count|]|] eqn:Ev; [| |discriminate].
    + apply valid_iff in Ev as [E1 E2]. assert (Hu : usable I set level c count) by (split; [exact Hp|split; assumption]).
      assert (Hun : forall n, usable I set level c n -> n = count) by (intros n (_ & _ & Hn); rewrite E2 in Hn; injection Hn; lia).
      destruct (u_c u) as [lb|] eqn:Eu.
      * destruct Hk as (K1 & K2 & K3). destruct (Z.ltb_spec count (u_n u)) as [Hlt|Hge]; injection H as <-.
        -- split; [exact Hc|]. cbn [u_c u_n]. split; [apply in_or_app; right; left; reflexivity|]. split; [exact Hu|].
           intros c' n Hin Hn. apply in_app_or in Hin as [Hin|[<-|[]]]; [specialize (K3 c' n Hin Hn); lia|rewrite (Hun n Hn); lia].
        -- split; [exact Hc|]. rewrite Eu. split; [apply in_or_app; left; exact K1|]. split; [exact K2|].
           intros c' n Hin Hn. apply in_app_or in Hin as [Hin|[<-|[]]]; [apply (K3 c' n Hin Hn)|rewrite (Hun n Hn); lia].
      * injection H as <-. split; [exact Hc|]. cbn [u_c u_n]. split; [apply in_or_app; right; left; reflexivity|]. split; [exact Hu|].
        intros c' n Hin Hn. apply in_app_or in Hin as [Hin|[<-|[]]]; [destruct (Hk c' n Hin Hn)|rewrite (Hun n Hn); lia].
    + injection H as <-. assert (Hun : forall n, ~ usable I set level c n).
      { intros n (_ & H1 & H2). assert (X : is_valid_unrolling_lower_bound I set level c = Some (Some n)) by (apply valid_iff; auto). congruence. }
      split; [exact Hc|]. destruct (u_c u) as [lb|].
      * destruct Hk as (K1 & K2 & K3). split; [apply in_or_app; left; exact K1|]. split; [exact K2|]. intros c' n Hin Hn. apply in_app_or in Hin as [Hin|[<-|[]]]; [apply (K3 c' n Hin Hn)|destruct (Hun n Hn)].
      * intros c' n Hin Hn. apply in_app_or in Hin as [Hin|[<-|[]]]; [destruct (Hk c' n Hin Hn)|destruct (Hun n Hn)].
  - injection H as <-. assert (Hun : forall n, ~ usable I set level c n) by (intros n (H1 & _); lia).
    split; [exact Hc|]. destruct (u_c u) as [lb|].
    * destruct Hk as (K1 & K2 & K3). split; [apply in_or_app; left; exact K1|]. split; [exact K2|]. intros c' n Hin Hn. apply in_app_or in Hin as [Hin|[<-|[]]]; [apply (K3 c' n Hin Hn)|destruct (Hun n Hn)].
    * intros c' n Hin Hn. apply in_app_or in Hin as [Hin|[<-|[]]]; [destruct (Hk c' n Hin Hn)|destruct (Hun n Hn)].
Qed.
Lemma kept_all set level : forall l done u u', kept set level done u -> foreach (constraint_can_unroll I set level) l u = Some u' -> kept set level (done ++ l) u'.
Proof.
  induction l as [|c l IH]; intros done u u' Hk H; cbn [foreach] in H; [injection H as <-; rewrite app_nil_r; exact Hk|].
  destruct (constraint_can_unroll I set level u c) as [u1|] eqn:E; [|discriminate]. replace (done ++ c :: l) with ((done ++ [c]) ++ l) by (rewrite <- app_assoc; reflexivity).
  eapply IH; [|exact H]. eapply kept_step; eassumption.
Qed.
Lemma decide_one b level n0 r : domain_can_unroll I [b] level n0 = Some r ->
  exists u, kept [b] level (cons_of (redundancies_removed I b)) u /\
    r = match u_c u with None => None | Some c => Some (u_n u, c) end.
Proof.
  unfold domain_can_unroll. cbn [foreach]. unfold basic_set_can_unroll. cbn [u_c u_can negb].
  destruct (foreach _ _ _) as [u|] eqn:E; [|discriminate]. intros H.
  assert (K0 : kept [b] level [] {| u_can := true; u_c := None; u_n := n0 |}) by (split; [reflexivity|cbn; intros c n []]).
  pose proof (kept_all [b] level _ [] _ u K0 E) as K. cbn [app] in K. exists u. split; [exact K|].
  destruct K as [K _]. rewrite K in H. destruct (u_c u); injection H as <-; reflexivity.
Qed.
End Decide.

Lemma no_div_any c x p e e' : Forall (fun k => k = 0) (c_div c) -> value c x p e = value c x p e'.
Proof. intros H. unfold value. rewrite !(prod_zeros _ H). reflexivity. Qed.

(** A domain of at most one basic set: if the answer is yes, every point has its iterator between the
    first value of the lower bound returned and that value plus the trip count: the copies for the
    offsets 0, 1, ... have together exactly the points of the domain, and no two copies share one. *)
Theorem C54_unroll_exact :
  forall (I : Isl), IslOk I ->
  forall (nd : nat) (set : list bset) (level : nat) (n0 n : Z) (lb : con),
  (length set <= 1)%nat -> Forall (shaped nd) set -> (1 <= level <= nd)%nat ->
  domain_can_unroll I set level n0 = Some (Some (n, lb)) ->
  forall x p, length x = nd ->
    (forall v, first_value lb level x p v -> point_of set x p -> v <= nth (level - 1) x 0 < v + n) /\
    (point_of set x p <-> exists o, 0 <= o < n /\ point_of (domain_fixed_offset set level lb o) x p) /\
    (forall o o', point_of (domain_fixed_offset set level lb o) x p -> point_of (domain_fixed_offset set level lb o') x p -> o = o').
Proof.
  intros I HI nd set level n0 n lb Hlen Hs Hl H x p Hx. destruct set as [|b [|b' r]]; [discriminate| |cbn in Hlen; lia].
  destruct (decide_one I b level n0 _ H) as (u & (Kc & K) & E). destruct (u_c u) as [c|]; [|discriminate]. injection E as -> ->.
  destruct K as (K1 & (Ha & Hd & Hm) & _). inversion Hs as [|? ? Hb _]; subst. pose proof (ok_shape I HI _ _ Hb) as Hb'. unfold shaped in Hb'. rewrite Forall_forall in Hb'.
  destruct (Hb' c K1) as [Hci _].
  assert (R : forall v, first_value c level x p v -> point_of [b] x p -> v <= nth (level - 1) x 0 < v + u_n u).
  { intros v Hv Hp. pose proof (ok_max I HI _ _ _ _ _ x p v Hs eq_refl Hm Hp Hv) as Hup. split; [|lia].
    destruct Hp as (b0 & [<-|[]] & Hin). apply (ok_points I HI) in Hin as (e & _ & HF). rewrite Forall_forall in HF. specialize (HF c K1).
    apply Hv. rewrite (value_replace c (length x)) by (auto; lia).
    assert (Hval : value c x p e >= 0) by (unfold holds in HF; destruct (c_eq c); lia). rewrite (value_rest c (length x) level) in Hval by (auto; lia). exact Hval. }
  pose proof (first_ceil c (length x) level x p Hl Hci eq_refl Ha) as Hv. set (v := - (rest c level x p / nth (level - 1) (c_iter c) 0)) in *.
  pose proof (fun o => C54_copy (length x) [b] level c o Hs Hl Hci Ha x p v eq_refl Hv) as Hcopy.
  split; [exact R|]. split; [split|].
  - intros Hp. exists (nth (level - 1) x 0 - v). specialize (R v Hv Hp). split; [lia|]. apply Hcopy. split; [exact Hp|lia].
  - intros (o & _ & Ho). apply Hcopy in Ho. apply Ho.
  - intros o o' Ho Ho'. apply Hcopy in Ho, Ho'. lia.
Qed.
Print Assumptions C54_unroll_exact.

(** The trip count returned is the smallest one among the usable lower bounds, and when the maxima are
    reached there is an iteration with the last offset. *)
Theorem C54_trip_count :
  forall (I : Isl), IslOk I ->
  forall (nd : nat) (b : bset) (level : nat) (n0 n : Z) (lb : con),
  shaped nd b -> (1 <= level <= nd)%nat ->
  domain_can_unroll I [b] level n0 = Some (Some (n, lb)) ->
  (forall c m, In c (cons_of (redundancies_removed I b)) -> usable I [b] level c m -> n <= m) /\
  (max_reached I -> 1 <= n /\ exists x p, length x = nd /\ point_of (domain_fixed_offset [b] level lb (n - 1)) x p).
Proof.
  intros I HI nd b level n0 n lb Hb Hl H. pose proof (C54_unroll_exact I HI nd [b] level n0 n lb ltac:(cbn; lia) ltac:(repeat constructor; exact Hb) Hl H) as X.
  destruct (decide_one I b level n0 _ H) as (u & (Kc & K) & E). destruct (u_c u) as [c|]; [|discriminate]. injection E as -> ->.
  destruct K as (K1 & (Ha & Hd & Hm) & K3). split; [exact K3|]. intros Hr.
  pose proof (ok_shape I HI _ _ Hb) as Hb'. unfold shaped in Hb'. rewrite Forall_forall in Hb'. destruct (Hb' c K1) as [Hci _].
  destruct (Hr nd [b] c level (u_n u - 1) ltac:(repeat constructor; exact Hb) Hm) as (x & p & f & Hx & Hp & Hf & E).
  destruct (X x p Hx) as (X1 & _). specialize (X1 f Hf Hp). split; [lia|]. exists x, p. split; [exact Hx|].
  apply (C54_copy nd [b] level c (u_n u - 1) ltac:(repeat constructor; exact Hb) Hl Hci Ha x p f Hx Hf). split; [exact Hp|lia].
Qed.
Print Assumptions C54_trip_count.

(** The answer is yes exactly when some lower bound is usable. *)
Theorem C54_answer :
  forall (I : Isl) (b : bset) (level : nat) (n0 : Z) r, domain_can_unroll I [b] level n0 = Some r ->
  (r <> None <-> exists c n, In c (cons_of (redundancies_removed I b)) /\ usable I [b] level c n).
Proof.
  intros I b level n0 r H. destruct (decide_one I b level n0 _ H) as (u & (Kc & K) & ->). destruct (u_c u) as [c|].
  - destruct K as (K1 & K2 & _). split; [intros _; exists c, (u_n u); auto|discriminate].
  - split; [congruence|]. intros (c & n & Hc & Hn). destruct (K c n Hc Hn).
Qed.
Print Assumptions C54_answer.

(** j <= 2 i, 2 i <= j + 5: at most three iterations, the first being ceil(j / 2) *)
Definition lb54 : con := {| c_eq := false; c_iter := [-1; 2]; c_par := []; c_div := []; c_const := 0 |}.
Definition ub54 : con := {| c_eq := false; c_iter := [1; -2]; c_par := []; c_div := []; c_const := 5 |}.
Definition set54 : bset := {| n_div := 0; cons_of := [lb54; ub54] |}.
Definition con_dec (a b : con) : {a = b} + {a <> b}.
Proof. decide equality; try apply Z.eq_dec; try apply (list_eq_dec Z.eq_dec); apply bool_dec. Defined.
Definition bset_dec (a b : bset) : {a = b} + {a <> b}.
Proof. decide equality; [apply (list_eq_dec con_dec)|apply Nat.eq_dec]. Defined.
(** isl as far as it is needed for one question: the maximum for one set and one constraint *)
Definition isl_for (set : list bset) (c : con) (level : nat) (v : Z) : Isl :=
  {| redundancies_removed := fun b => b;
     max_val := fun set' c' level' => if list_eq_dec bset_dec set' set then if con_dec c' c then if Nat.eq_dec level' level then Fin v else Infty else Infty else Infty |}.
Lemma isl_for_ok set c level v : (forall nd x p f, Forall (shaped nd) set -> length x = nd -> point_of set x p -> first_value c level x p f -> nth (level - 1) x 0 - f <= v) ->
  IslOk (isl_for set c level v).
Proof.
  intros H. split; [reflexivity|auto|]. intros nd s c' l' v' x p f Hs Hx E. cbn [isl_for max_val] in E.
  destruct (list_eq_dec bset_dec s set) as [->|]; [|discriminate]. destruct (con_dec c' c) as [->|]; [|discriminate]. destruct (Nat.eq_dec l' level) as [->|]; [|discriminate].
  injection E as <-. apply (H nd); assumption.
Qed.
Example C54_example :
  let I := isl_for [set54] lb54 2 2 in
  IslOk I /\ max_reached I /\ shaped 2 set54 /\ domain_can_unroll I [set54] 2 0 = Some (Some (3, lb54)) /\
  point_of [set54] [3; 4] [] /\ first_value lb54 2 [3; 4] [] 2.
Proof.
  assert (F : forall j i, first_value lb54 2 [j; i] [] (- ((- j) / 2))).
  { intros j i. pose proof (first_ceil lb54 2 2 [j; i] [] ltac:(lia) eq_refl eq_refl eq_refl) as H.
    assert (E : rest lb54 2 [j; i] [] = - j) by (unfold rest; change (2 - 1)%nat with 1%nat; cbn [lb54 c_iter c_par c_const set0 prod]; lia).
    rewrite E in H. exact H. }
  assert (P : forall j i, point_of [set54] [j; i] [] <-> 0 <= 2 * i - j <= 5).
  { intros j i. split.
    - intros (b & [<-|[]] & e & _ & HF). cbn [set54 cons_of] in HF. rewrite !Forall_cons_iff in HF. destruct HF as (H1 & H2 & _).
      unfold holds, value in *. cbn [lb54 ub54 c_eq c_iter c_par c_div c_const prod] in *. lia.
    - intros H. exists set54. split; [left; reflexivity|]. exists []. split; [reflexivity|]. cbn [set54 cons_of].
      apply Forall_cons; [|apply Forall_cons; [|constructor]]; unfold holds, value; cbn [lb54 ub54 c_eq c_iter c_par c_div c_const prod]; lia. }
  split; [apply isl_for_ok|split; [|split; [repeat constructor|split; [reflexivity|split]]]].
  - intros nd x p f Hs Hx Hp Hf. inversion Hs as [|? ? Hs1 _]; subst. inversion Hs1 as [|? ? [L1 _] _]; subst. cbn in L1.
    destruct x as [|j [|i [|]]]; try discriminate. 
    assert (Hp' : point_of [set54] [j; i] []).
    { destruct Hp as (b & Hb & e & He & HF). exists b. split; [exact Hb|]. exists e. split; [exact He|]. destruct Hb as [<-|[]].
      eapply Forall_impl; [|apply Forall_and; [exact HF|]]; [|instantiate (1 := fun c => c_par c = []); repeat constructor].
      intros c [H1 H2]. unfold holds, value in *. rewrite H2 in *. exact H1. }
    apply P in Hp'. assert (Ef : f = - ((- j) / 2)).
    { apply (first_unique lb54 2 [j; i] []); [|apply F]. exact Hf. }
    pose proof (Z.div_mod (- j) 2 ltac:(lia)). pose proof (Z.mod_pos_bound (- j) 2 ltac:(lia)). change (i - f <= 2). lia.
  - intros nd s c l v Hs E. cbn [isl_for max_val] in E.
    destruct (list_eq_dec bset_dec s [set54]) as [->|]; [|discriminate]. destruct (con_dec c lb54) as [->|]; [|discriminate]. destruct (Nat.eq_dec l 2) as [->|]; [|discriminate].
    injection E as <-. inversion Hs as [|? ? Hs1 _]; subst. inversion Hs1 as [|? ? [L1 _] _]; subst.
    exists [0; 2], [], 0. split; [reflexivity|]. split; [apply P; lia|]. split; [apply (F 0 2)|reflexivity].
  - apply P. lia.
  - apply (F 3 4).
Qed.

(** Several basic sets: when the first one has a usable lower bound the answer is no. *)
Theorem C54_union_partial :
  forall (I : Isl) (b b' : bset) (others : list bset) (level : nat) (n0 : Z) r,
  domain_can_unroll I (b :: b' :: others) level n0 = Some r ->
  (exists c n, In c (cons_of (redundancies_removed I b)) /\ usable I (b :: b' :: others) level c n) -> r = None.
Proof.
  intros I b b' others level n0 r H (c & n & Hc & Hn). set (set := b :: b' :: others) in *. unfold domain_can_unroll in H.
  change (foreach (basic_set_can_unroll I set level) set {| u_can := true; u_c := None; u_n := n0 |}) with
    (match basic_set_can_unroll I set level {| u_can := true; u_c := None; u_n := n0 |} b with
     | Some u => match basic_set_can_unroll I set level u b' with Some u' => foreach (basic_set_can_unroll I set level) others u' | None => None end
     | None => None end) in H.
  unfold basic_set_can_unroll at 1 in H. cbn [u_c u_can negb] in H.
  destruct (foreach (constraint_can_unroll I set level) _ _) as [u|] eqn:E; [|discriminate].
  assert (K0 : kept I set level [] {| u_can := true; u_c := None; u_n := n0 |}) by (split; [reflexivity|cbn; intros c' n' []]).
  pose proof (kept_all I set level _ [] _ u K0 E) as [K1 K]. cbn [app] in K. destruct (u_c u) as [lb|] eqn:Eu; [|destruct (K c n Hc Hn)].
  unfold basic_set_can_unroll at 1 in H. rewrite Eu in H.
  assert (G : forall l v, u_can v = false -> u_c v <> None -> forall w, foreach (basic_set_can_unroll I set level) l v = Some w -> u_can w = false).
  { induction l as [|a l IH]; intros v V1 V2 w Hw; cbn [foreach] in Hw; [injection Hw as <-; exact V1|]. unfold basic_set_can_unroll at 1 in Hw.
    destruct (u_c v) as [lv|] eqn:Ev; [|contradiction]. eapply (IH {| u_can := false; u_c := Some lv; u_n := u_n v |}); [reflexivity|cbn; discriminate|exact Hw]. }
  destruct (foreach (basic_set_can_unroll I set level) others _) as [w|] eqn:Ew; [|discriminate].
  pose proof (G _ {| u_can := false; u_c := Some lb; u_n := u_n u |} eq_refl ltac:(discriminate) w Ew) as Hw. rewrite Hw in H. destruct (u_c w); injection H as <-; reflexivity.
Qed.
Print Assumptions C54_union_partial.

(** When only a later one has, the answer is yes and the points of the others can be lost: the
    union of 3 floor(m/3) <= i <= m (whose lower bound has a quantified variable) and
    m + 100 <= i <= m + 101 would be unrolled into two copies, i = m + 100 and i = m + 101. *)
Definition first54 : bset := {| n_div := 1; cons_of :=
  [{| c_eq := false; c_iter := [1]; c_par := [0]; c_div := [-3]; c_const := 0 |};
   {| c_eq := false; c_iter := [-1]; c_par := [1]; c_div := [0]; c_const := 0 |};
   {| c_eq := false; c_iter := [0]; c_par := [1]; c_div := [-3]; c_const := 0 |};
   {| c_eq := false; c_iter := [0]; c_par := [-1]; c_div := [3]; c_const := 2 |}] |}.
Definition low54 : con := {| c_eq := false; c_iter := [1]; c_par := [-1]; c_div := []; c_const := -100 |}.
Definition second54 : bset := {| n_div := 0; cons_of :=
  [low54; {| c_eq := false; c_iter := [-1]; c_par := [1]; c_div := []; c_const := 101 |}] |}.
Theorem C54_union_refuted :
  exists (I : Isl) (set : list bset) (n : Z) (lb : con) (x p : list Z),
  IslOk I /\ Forall (shaped 1) set /\ domain_can_unroll I set 1 0 = Some (Some (n, lb)) /\ length x = 1%nat /\
  point_of set x p /\ ~ exists o, 0 <= o < n /\ point_of (domain_fixed_offset set 1 lb o) x p.
Proof.
  exists (isl_for [first54; second54] low54 1 1), [first54; second54], 2, low54, [3], [4].
  assert (Hs : Forall (shaped 1) [first54; second54]) by (repeat constructor).
  assert (F : forall i p, first_value low54 1 [i] p (prod [1] p + 100)).
  { intros i p w. unfold value, replace. change (1 - 1)%nat with 0%nat. cbn [firstn skipn app low54 c_iter c_par c_div c_const prod].
    destruct p as [|m p]; cbn [prod]; lia. }
  split; [|split; [exact Hs|split; [reflexivity|split; [reflexivity|split]]]].
  - apply isl_for_ok. intros nd x p f Hs' Hx Hp Hf. inversion Hs' as [|? ? Hs1 _]; subst. inversion Hs1 as [|? ? [L1 _] _]; subst. cbn in L1.
    destruct x as [|i [|]]; try discriminate. assert (Ef : f = prod [1] p + 100) by (apply (first_unique low54 1 [i] p); [exact Hf|apply F]).
    change (i - f <= 1). destruct Hp as (b & [<-|[<-|[]]] & e & He & HF); cbn [first54 second54 cons_of] in HF; rewrite !Forall_cons_iff in HF.
    + destruct HF as (_ & H2 & _). unfold holds, value in H2. cbn [c_eq c_iter c_par c_div c_const prod] in H2. destruct p as [|m p], e as [|e1 e]; cbn [prod] in *; lia.
    + destruct HF as (_ & H2 & _). unfold holds, value in H2. cbn [c_eq c_iter c_par c_div c_const prod] in H2. destruct p as [|m p]; cbn [prod] in *; lia.
  - exists first54. split; [left; reflexivity|]. exists [1]. split; [reflexivity|]. repeat (apply Forall_cons; [unfold holds, value; cbn; lia|]). constructor.
  - intros (o & Ho & Hp). apply (C54_copy 1 [first54; second54] 1 low54 o Hs ltac:(lia) eq_refl eq_refl [3] [4] 104 eq_refl (F 3 [4])) in Hp.
    destruct Hp as [_ Hp]. change (3 = 104 + o) in Hp. lia.
Qed.
Print Assumptions C54_union_refuted.
