(** C56: the domain operations of the isl backend satisfy, for every value of the parameters, the laws
    the generator's theorems ask of them; so one generated program is right for all parameters. *)
From Coq Require Import ZArith List Bool Arith Lia.
From Verif Require Import StrideModel UnrollModel UnrollSpec SplitModel PropertiesUnroll PropertiesSplit LoopModel LoopSpec LoopExamples BackendModel BackendSpec BackendSets PropertiesLoop.
Import ListNotations.
Local Arguments Nat.ltb : simpl never. Local Arguments Nat.leb : simpl never. Local Arguments Nat.eqb : simpl never. Local Arguments Nat.sub : simpl never.

Lemma taken_in {A} (l m : list A) : taken_from l m -> forall a, In a l -> In a m.
Proof. induction 1; intros b Hb; [exact Hb|right; auto|]. destruct Hb as [<-|Hb]; [left; reflexivity|right; auto]. Qed.
Lemma taken_pairs {A} (R : A -> A -> Prop) (l m : list A) : taken_from l m -> ForallOrdPairs R m -> ForallOrdPairs R l.
Proof.
  induction 1 as [|a l m H IH|a l m H IH]; intros F; [constructor|apply IH; inversion F; assumption|].
  inversion F as [|? ? Fa Fm]; subst. constructor; [|apply IH; exact Fm]. rewrite Forall_forall in *. intros b Hb. apply Fa. eapply taken_in; eassumption.
Qed.
Lemma pairs_app {A} (R : A -> A -> Prop) l m : ForallOrdPairs R (l ++ m) <-> ForallOrdPairs R l /\ ForallOrdPairs R m /\ (forall a b, In a l -> In b m -> R a b).
Proof.
  induction l as [|x l IH]; cbn [app].
  - split; [intros H; split; [constructor|split; [exact H|intros a b []]]|tauto].
  - split.
    + intros H. inversion H as [|? ? Hx Hl]; subst. apply IH in Hl as (H1 & H2 & H3). rewrite Forall_app in Hx. destruct Hx as [X1 X2]. rewrite Forall_forall in X2.
      split; [constructor; assumption|]. split; [exact H2|]. intros a b [<-|Ha] Hb; auto.
    + intros (H1 & H2 & H3). inversion H1 as [|? ? Hx Hl]; subst. constructor; [|apply IH; split; [exact Hl|split; [exact H2|intros; apply H3; [right|]; assumption]]].
      rewrite Forall_app. split; [exact Hx|]. rewrite Forall_forall. intros b Hb. apply H3; [left; reflexivity|exact Hb].
Qed.
Lemma nth_pairs {A} (Q : A -> A -> Prop) : forall s : list A, (forall i j a b, nth_error s i = Some a -> nth_error s j = Some b -> i <> j -> Q a b) -> ForallOrdPairs Q s.
Proof.
  induction s as [|a s IH]; intros H; [constructor|]. constructor.
  - rewrite Forall_forall. intros b Hb. apply In_nth_error in Hb as (j & Hj). apply (H 0 (S j)); [reflexivity|exact Hj|discriminate].
  - apply IH. intros i j b c Hi Hj Hn. apply (H (S i) (S j)); [exact Hi|exact Hj|lia].
Qed.

(** the pieces of the splitter have no quantified variables *)
Lemma split_no_divs np l : forall s, Forall (fun b => n_div b = 0) s -> Forall (fun b => n_div b = 0) (fold_left (split_param np) l s).
Proof.
  induction l as [|i l IH]; intros s H; [exact H|]. cbn [fold_left]. apply IH. unfold split_param. apply Forall_flat_map. eapply Forall_impl; [|exact H]. cbn. intros b Hb. repeat constructor; exact Hb.
Qed.
Lemma split_con_no_divs np c s : Forall (fun b => n_div b = 0) s -> Forall (fun b => n_div b = 0) (split_constraint np c s).
Proof.
  unfold split_constraint. generalize (seq 0 np). intros l. revert s. induction l as [|i l IH]; intros s H; [exact H|]. cbn [fold_left]. apply IH. destruct (nth i (c_par c) 0 =? 0)%Z; [exact H|].
  exact (split_no_divs np [i] s H).
Qed.
Lemma foreach_stop_inv {A} (Q : cbs -> Prop) (f : cbs -> A -> cbs * bool) : (forall u a, Q u -> Q (fst (f u a))) -> forall l u, Q u -> Q (fst (foreach_stop f l u)).
Proof. intros Hf. induction l as [|a l IH]; intros u Hu; cbn [foreach_stop]; [exact Hu|]. specialize (Hf u a Hu). destruct (f u a) as [u' r]. destruct r; [exact Hf|apply IH; exact Hf]. Qed.
Lemma splitter_no_divs np level set s : domain_bound_splitter np set level = Some s -> Forall (fun b => n_div b = 0) s.
Proof.
  unfold domain_bound_splitter. set (Q := fun u : cbs => Forall (fun b => n_div b = 0) (s_set u)).
  set (u0 := {| s_set := [{| n_div := 0; cons_of := [] |}]; s_lower := false; s_upper := false |}).
  assert (H : Q (fst (foreach_stop (basic_set_bound_split np level) set u0))).
  { apply foreach_stop_inv; [|repeat constructor]. intros u b Hu. unfold basic_set_bound_split.
    pose proof (foreach_stop_inv Q (constraint_bound_split np level)) as G. specialize (G ltac:(intros v c Hv; unfold constraint_bound_split; cbv zeta; cbn [fst];
      destruct (negb (s_lower v) && _); [exact (split_con_no_divs np c _ Hv)|]; destruct (negb (s_upper v) && _); [exact (split_con_no_divs np c _ Hv)|exact Hv]) (cons_of b) {| s_set := s_set u; s_lower := false; s_upper := false |} Hu).
    destruct (foreach_stop _ (cons_of b) _) as [u' r]. exact G. }
  destruct (foreach_stop _ set u0) as [u r]. destruct r; [discriminate|]. intros E. injection E as <-. exact H.
Qed.

Section Backend.
Variable np : nat.
Variable I : IslSet.
Hypothesis IL : IslLaws np I.
Variable contains : bset -> list Z -> list Z -> bool.
Hypothesis dec : decides I contains.
Variable pv : list Z.
Hypothesis Hpv : length pv = np.
Notation P := (isl_poly np I).
Notation Se := (isl_sem np I contains pv).
Notation pts := (pts I).

Lemma mem_pts (d : iset I) x : mem Se d x = true <-> pts d x pv.
Proof.
  cbn [isl_sem mem]. rewrite andb_true_iff, Nat.eqb_eq, existsb_exists. unfold BackendSpec.pts, point_of. split.
  - intros [Hx (b & Hb & E)]. split; [exact Hx|]. exists b. split; [exact Hb|]. eapply dec; eassumption.
  - intros [Hx (b & Hb & E)]. split; [exact Hx|]. exists b. split; [exact Hb|]. eapply dec; eassumption.
Qed.
Lemma mem_no (d : iset I) x : mem Se d x = false <-> ~ pts d x pv.
Proof. rewrite <- mem_pts. destruct (mem Se d x); split; try congruence; tauto. Qed.
Lemma from_pts n b x p : known I b -> length p = np -> (pts (i_from_basic I n b) x p <-> length x = n /\ inside b x p).
Proof.
  intros Hk Hp. destruct (il_from_basic _ _ IL n b Hk) as (Hd & [[E H]|(b' & E & _ & H)]); unfold BackendSpec.pts, point_of; rewrite E, Hd.
  - split; [intros [_ (c & [] & _)]|]. intros [Hx Hb]. exfalso. exact (H x p Hx Hp Hb).
  - split.
    + intros [Hx (c & [<-|[]] & Hc)]. split; [exact Hx|]. apply (H x p Hx Hp). exact Hc.
    + intros [Hx Hb]. split; [exact Hx|]. exists b'. split; [left; reflexivity|]. apply (H x p Hx Hp). exact Hb.
Qed.
Lemma from_one n b : known I b -> length (i_sets I (i_from_basic I n b)) <= 1.
Proof. intros Hk. destruct (il_from_basic _ _ IL n b Hk) as (Hd & [[E H]|(b' & E & _ & H)]); rewrite E; cbn; lia. Qed.
Lemma from_divs n b : n_div b = 0 -> no_divs I (i_from_basic I n b).
Proof. intros H0. unfold no_divs. destruct (il_from_basic _ _ IL n b (or_introl H0)) as (Hd & [[E H]|(b' & E & Hn & H)]); rewrite E; constructor; [lia|constructor]. Qed.
Lemma from_dim n b : known I b -> i_dim I (i_from_basic I n b) = n.
Proof. intros Hk. apply (il_from_basic _ _ IL). exact Hk. Qed.

(** basic sets put together *)
(* [s] stands for the basic sets [done] *)
Definition collected (n : nat) (done : list bset) (s : iset I) : Prop :=
  i_dim I s = n /\ (forall x p, length p = np -> (pts s x p <-> length x = n /\ point_of done x p)) /\
  (ForallOrdPairs (apart_sets np n) done -> ForallOrdPairs (apart_sets np n) (i_sets I s)) /\
  (Forall (fun b => n_div b = 0) done -> no_divs I s).
Lemma collect_step n done s b : known I b -> collected n done s -> collected n (done ++ [b]) (i_union I s (i_from_basic I n b)).
Proof.
  intros Hk (D & Hp & Ha & Hn). destruct (il_union _ _ IL s (i_from_basic I n b)) as (D' & Hu & Ht); [rewrite from_dim by exact Hk; exact D|].
  split; [congruence|]. split; [|split].
  - intros x p Hlp. rewrite (Hu x p Hlp), (Hp x p Hlp), (from_pts n b x p Hk Hlp). unfold point_of. split.
    + intros [[Hx (c & Hc & H)]|[Hx H]]; (split; [exact Hx|]); [exists c; split; [apply in_or_app; left|]; assumption|exists b; split; [apply in_or_app; right; left; reflexivity|exact H]].
    + intros [Hx (c & Hc & H)]. apply in_app_or in Hc as [Hc|[<-|[]]]; [left; split; [exact Hx|]; exists c; auto|right; auto].
  - intros F. apply pairs_app in F as (F1 & _ & F3). eapply taken_pairs; [exact Ht|]. apply pairs_app. split; [apply Ha; exact F1|].
    split; [pose proof (from_one n b Hk) as H1; destruct (i_sets I (i_from_basic I n b)) as [|c [|c' l]]; [constructor|constructor; constructor|cbn in H1; lia]|].
    intros c c' Hc Hc' x p Hx Hlp I1 I2.
    assert (P1 : pts s x p) by (split; [congruence|exists c; auto]). assert (P2 : pts (i_from_basic I n b) x p) by (split; [rewrite from_dim by exact Hk; exact Hx|exists c'; auto]).
    apply (Hp x p Hlp) in P1 as (_ & d & Hd & Id). apply (from_pts n b x p Hk Hlp) in P2 as [_ Ib]. exact (F3 d b Hd (or_introl eq_refl) x p Hx Hlp Id Ib).
  - intros F. apply Forall_app in F as [F1 F2]. unfold no_divs. rewrite Forall_forall. intros c Hc. eapply taken_in in Hc; [|exact Ht].
    apply in_app_or in Hc as [Hc|Hc]; [specialize (Hn F1)|assert (Hn' := from_divs n b ltac:(inversion F2; assumption))]; unfold no_divs in *; rewrite Forall_forall in *; auto.
Qed.
Lemma collect_all n : forall bs done s, Forall (known I) bs -> collected n done s -> collected n (done ++ bs) (fold_left (fun s b => i_union I s (i_from_basic I n b)) bs s).
Proof.
  induction bs as [|b bs IH]; intros done s Hk H; cbn [fold_left]; [rewrite app_nil_r; exact H|].
  replace (done ++ b :: bs) with ((done ++ [b]) ++ bs) by (rewrite <- app_assoc; reflexivity). apply Forall_cons_iff in Hk as [Hk Hks]. apply IH; [exact Hks|]. apply collect_step; assumption.
Qed.
Lemma collect_ok n bs : Forall (known I) bs -> collected n bs (collect I n bs).
Proof.
  intros Hk. apply (collect_all n bs [] (i_empty I n) Hk). destruct (il_empty _ _ IL n) as [D E]. split; [exact D|]. split; [|split].
  - intros x p _. unfold BackendSpec.pts, point_of. rewrite E, D. tauto.
  - intros _. rewrite E. constructor.
  - intros _. unfold no_divs. rewrite E. constructor.
Qed.
Lemma cut_cases (d f r : iset I) : domain_cut_first I d = Some (f, r) -> exists b bs, i_sets I d = b :: bs /\ known I b /\ Forall (known I) bs /\ f = i_from_basic I (i_dim I d) b /\ r = collect I (i_dim I d) bs.
Proof. unfold domain_cut_first. destruct (i_sets I d) as [|b bs] eqn:E; [discriminate|]. intros H. injection H as <- <-. exists b, bs. split; [reflexivity|].
  split; [right; exists d; left; rewrite E; left; reflexivity|]. split; [|auto]. rewrite Forall_forall. intros c Hc. right. exists d. left. rewrite E. right. exact Hc. Qed.

(** a lower bound returned by cloog_domain_can_unroll is a constraint of the set *)
Lemma unroll_bound nd set level n lb : Forall (shaped nd) set -> domain_can_unroll (i_unroll I) set level 0 = Some (Some (n, lb)) ->
  length (c_iter lb) = nd /\ (0 < nth (level - 1) (c_iter lb) 0)%Z.
Proof.
  set (J := i_unroll I). set (Q := fun u : ccu => match u_c u with Some c => length (c_iter c) = nd /\ (0 < nth (level - 1) (c_iter c) 0)%Z | None => True end).
  intros Hs. unfold domain_can_unroll.
  assert (G1 : forall l u u', Forall (fun c => length (c_iter c) = nd) l -> Q u -> foreach (constraint_can_unroll J set level) l u = Some u' -> Q u').
  { induction l as [|c l IH]; intros u u' Hl Hq H; cbn [foreach] in H; [injection H as <-; exact Hq|]. pose proof (proj1 (Forall_cons_iff _ _ _) Hl) as [Hc Hl'].
    destruct (constraint_can_unroll J set level u c) as [u1|] eqn:E; [|discriminate]. refine (IH u1 u' Hl' _ H). unfold constraint_can_unroll in E.
    destruct (Z.ltb_spec 0 (nth (level - 1) (c_iter c) 0%Z)) as [Hpos|]; [|injection E as <-; exact Hq].
    destruct (is_valid_unrolling_lower_bound J set level c) as [[count|]|]; [|injection E as <-; exact Hq|discriminate].
    destruct (match u_c u with Some _ => _ | None => _ end); injection E as <-; [|exact Hq]. split; [exact Hc|exact Hpos]. }
  assert (G2 : forall l u u', Forall (shaped nd) l -> Q u -> foreach (basic_set_can_unroll J set level) l u = Some u' -> Q u').
  { induction l as [|b l IH]; intros u u' Hl Hq H; cbn [foreach] in H; [injection H as <-; exact Hq|]. pose proof (proj1 (Forall_cons_iff _ _ _) Hl) as [Hb Hl'].
    destruct (basic_set_can_unroll J set level u b) as [u1|] eqn:E; [|discriminate]. refine (IH u1 u' Hl' _ H). unfold basic_set_can_unroll in E.
    destruct (match u_c u with Some _ => _ | None => _ end); [injection E as <-; exact Hq|]. refine (G1 _ _ _ _ Hq E).
    pose proof (ok_shape J (il_unroll _ _ IL) nd b Hb) as Hb'. eapply Forall_impl; [|exact Hb']. intros c Hc. apply Hc. }
  intros H. destruct (foreach _ _ _) as [u|] eqn:E; [|discriminate]. assert (Hq : Q u) by (refine (G2 _ _ _ Hs _ E); exact Logic.I).
  unfold Q in Hq. destruct (u_c u) as [c|]; [|discriminate]. destruct (u_can u); [|discriminate]. injection H as _ <-. exact Hq.
Qed.
Lemma prod_cut : forall (a x : list Z) k, k < length x -> length a = S k -> length x = S k -> prod a x = (prod (firstn k a) (firstn k x) + nth k a 0 * nth k x 0)%Z.
Proof.
  induction a as [|v a IH]; intros [|w x] k Hk Ha Hx; cbn in *; try lia. destruct k as [|k].
  - destruct a; [|discriminate]. destruct x; [|discriminate]. cbn. lia.
  - cbn [firstn nth prod]. rewrite (IH x k) by lia. lia.
Qed.
Lemma value_first (lb : con) level x : 1 <= level -> length x = level -> length (c_iter lb) = level -> (0 < nth (level - 1) (c_iter lb) 0)%Z ->
  first_value lb level x pv (lbv Se lb (firstn (level - 1) x)).
Proof.
  intros Hl Hx Hc Ha. pose proof (first_ceil lb level level x pv ltac:(lia) Hc Hx Ha) as F. cbn [isl_sem lbv].
  replace (length (firstn (level - 1) x)) with (level - 1) by (rewrite firstn_length; lia).
  replace (prod (firstn (level - 1) (c_iter lb)) (firstn (level - 1) x) + prod (c_par lb) pv + c_const lb)%Z with (rest lb level x pv); [exact F|].
  unfold rest. f_equal. f_equal.
  pose proof (prod_split (level - 1) (c_iter lb) x ltac:(lia) ltac:(lia)) as E. rewrite (prod_cut _ _ (level - 1)) in E by lia. lia.
Qed.

Theorem backend_laws : Laws P Se.
Proof.
  assert (MP : forall (d : iset I) x, mem Se d x = true <-> pts d x pv) by exact mem_pts.
  assert (MN : forall (d : iset I) x, mem Se d x = false <-> ~ pts d x pv) by exact mem_no.
  assert (KC : forall d, known I (i_convex_hull I d)) by (intros d; right; exists d; auto).
  assert (KS : forall d, known I (i_simple_hull I d)) by (intros d; right; exists d; auto).
  assert (KD : forall s, Forall (fun b => n_div b = 0) s -> Forall (known I) s) by (intros s H; eapply Forall_impl; [|exact H]; intros b Hb; left; exact Hb).
  constructor; cbn [isl_poly dim isempty isconvex simplify_union cut_first difference union intersection empty_like extend project
    lazy_equal lazy_disjoint convex simple_convex bound_splitter gist never_integral can_unroll fixed_offset dom].
  - intros d x H. apply MP in H. apply H.
  - intros d x H. apply MN. apply (il_is_empty _ _ IL); assumption.
  - intros d. apply (il_coalesce _ _ IL).
  - intros d x. apply eq_true_iff_eq. rewrite !MP. apply (il_coalesce _ _ IL). exact Hpv.
  - intros d f r H. apply cut_cases in H as (b & bs & _ & Hk & Hks & -> & ->). split; [apply from_dim; exact Hk|apply collect_ok; exact Hks].
  - intros d f r H. apply cut_cases in H as (b & bs & _ & Hk & _ & -> & _). apply Nat.leb_le, from_one, Hk.
  - intros d f r x H. apply cut_cases in H as (b & bs & E & Hk & Hks & -> & ->). apply eq_true_iff_eq. rewrite orb_true_iff, !MP.
    rewrite (from_pts _ _ _ _ Hk Hpv), (proj1 (proj2 (collect_ok _ _ Hks)) x pv Hpv). unfold BackendSpec.pts, point_of. rewrite E. split.
    + intros [Hx (c & [<-|Hc] & Hi)]; [left; auto|right; split; [exact Hx|exists c; auto]].
    + intros [[Hx Hi]|[Hx (c & Hc & Hi)]]; (split; [exact Hx|]); [exists b; split; [left; reflexivity|exact Hi]|exists c; split; [right; exact Hc|exact Hi]].
  - intros d f r Hd H. apply cut_cases in H as (b & bs & E & Hk & Hks & -> & ->). destruct (collect_ok (i_dim I d) bs Hks) as (D & Hp & Ha & _).
    cbn [isl_sem pdisj] in *. rewrite E in Hd. assert (Hb : Forall (apart_sets np (i_dim I d) b) bs) by (inversion Hd; assumption). assert (Hbs : ForallOrdPairs (apart_sets np (i_dim I d)) bs) by (inversion Hd; assumption). split; [rewrite D; apply Ha; exact Hbs|].
    intros x Hx. apply MP in Hx. apply (from_pts _ _ _ _ Hk Hpv) in Hx as [Hx Hi]. apply MN. intros Hr. apply (Hp x pv Hpv) in Hr as (_ & c & Hc & Hi').
    rewrite Forall_forall in Hb. exact (Hb c Hc x pv Hx Hpv Hi Hi').
  - intros d f r Hd H. apply cut_cases in H as (b & bs & E & Hk & Hks & -> & ->). cbn [isl_sem polyh] in *. unfold no_divs in Hd. rewrite E in Hd. apply Forall_cons_iff in Hd as [Hb Hbs].
    split; [apply from_divs; exact Hb|]. apply collect_ok; [exact Hks|exact Hbs].
  - intros a b H. apply (il_subtract _ _ IL). exact H.
  - intros a b x H. apply eq_true_iff_eq. rewrite andb_true_iff, negb_true_iff, MN, !MP. apply (il_subtract _ _ IL); assumption.
  - intros a b H. apply (il_union _ _ IL). exact H.
  - intros a b x H. apply eq_true_iff_eq. rewrite orb_true_iff, !MP. apply (il_union _ _ IL a b H). exact Hpv.
  - intros a b H. apply (il_intersect _ _ IL). exact H.
  - intros a b x H. apply eq_true_iff_eq. rewrite andb_true_iff, !MP. apply (il_intersect _ _ IL a b H). exact Hpv.
  - intros d. apply (il_empty _ _ IL).
  - intros d x. apply MN. intros [_ (b & Hb & _)]. rewrite (proj2 (il_empty _ _ IL _)) in Hb. exact Hb.
  - intros d n H. unfold domain_extend. destruct (il_add_dims _ _ IL d (n - i_dim I d)) as [-> _]. lia.
  - intros d n x H Hx. unfold domain_extend. destruct (il_add_dims _ _ IL d (n - i_dim I d)) as [D Hp]. apply eq_true_iff_eq. rewrite !MP. apply Hp; [exact Hpv|lia].
  - intros d n H. unfold domain_project. cbv zeta. destruct (il_remove_dims _ _ IL d n (i_dim I d - n) ltac:(lia)) as [D _].
    pose proof (proj1 (il_compute_divs _ _ IL (i_remove_dims I d n (i_dim I d - n)))) as D2. destruct (0 <? n); [rewrite (proj1 (il_remove_divs _ _ IL _ _ _))|]; lia.
  - intros d n x H Hx. apply MP in Hx. apply MP. unfold domain_project. cbv zeta. destruct (il_remove_dims _ _ IL d n (i_dim I d - n) ltac:(lia)) as [D Hp].
    specialize (Hp x pv Hpv Hx). destruct Hx as [Hx _]. rewrite (skipn_all2 x), app_nil_r in Hp by lia.
    apply (proj2 (il_compute_divs _ _ IL _) _ _ Hpv) in Hp. destruct (0 <? n); [|exact Hp]. apply (proj2 (il_remove_divs _ _ IL _ _ _) _ _ Hpv). exact Hp.
  - intros a b H. destruct (il_plain_is_equal _ _ IL a b H) as [D E]. split; [exact D|]. intros x. apply eq_true_iff_eq. rewrite !MP. apply E. exact Hpv.
  - intros a b x H Hx. apply MN. intros Hb. apply MP in Hx. exact (il_plain_is_disjoint _ _ IL a b x pv Hpv H Hx Hb).
  - intros d. apply from_dim, KC.
  - intros d x Hx. apply MP in Hx. apply MP. apply (from_pts _ _ _ _ (KC _) Hpv). split; [apply Hx|]. apply (il_convex_hull _ _ IL); [exact Hpv|]. apply (il_coalesce _ _ IL); [exact Hpv|exact Hx].
  - intros d. apply Nat.leb_le, from_one, KC.
  - intros c d x H Hc Hn Hx. apply MP. apply MP in Hx. apply (from_pts _ _ _ _ (KC _) Hpv) in Hx as [Hx Hi]. apply Nat.leb_le in Hc.
    rewrite (proj1 (il_intersect _ _ IL c d H)) in Hx. exact (il_hull_in _ _ IL c d x pv Hpv Hx H Hc Hn Hi).
  - intros d. unfold domain_simple_convex. destruct (domain_isconvex I d); [reflexivity|apply from_dim, KS].
  - intros d x Hx. unfold domain_simple_convex. destruct (domain_isconvex I d); [exact Hx|]. apply MP in Hx. apply MP. apply (from_pts _ _ _ _ (KS _) Hpv). split; [apply Hx|]. apply (il_simple_hull _ _ IL); assumption.
  - intros d. unfold domain_simple_convex. destruct (domain_isconvex I d) eqn:E; [exact E|]. apply Nat.leb_le, from_one, KS.
  - intros d l. unfold domain_splitter. destruct (domain_bound_splitter np (i_sets I d) l) as [s|] eqn:E; [apply collect_ok; exact (KD _ (splitter_no_divs np l _ s E))|reflexivity].
  - intros d l x Hx. apply MP in Hx. apply MP. unfold domain_splitter. destruct (C55_pieces np (i_sets I d) l) as (s & E & Hs). rewrite E.
    apply (proj1 (proj2 (collect_ok _ s (KD _ (splitter_no_divs np l _ s E)))) x pv Hpv). split; [apply Hx|]. apply (Hs x pv Hpv).
  - intros d l. cbn [isl_sem pdisj]. unfold domain_splitter. destruct (C55_pieces np (i_sets I d) l) as (s & E & Hs). rewrite E. destruct (collect_ok (i_dim I d) s (KD _ (splitter_no_divs np l _ s E))) as (D & _ & Ha & _). rewrite D. apply Ha.
    apply nth_pairs. intros i j a b Hi Hj Hn x p _ Hp Ia Ib. apply Hn. exact (proj2 (Hs x p Hp) i j a b Hi Hj Ia Ib).
  - intros d l. cbn [isl_sem polyh]. unfold domain_splitter. destruct (domain_bound_splitter np (i_sets I d) l) as [s|] eqn:E.
    + apply collect_ok; [exact (KD _ (splitter_no_divs np l _ s E))|exact (splitter_no_divs np l _ s E)].
    + exfalso. destruct (C55_pieces np (i_sets I d) l) as (s & E' & _). congruence.
  - intros d c H. apply (il_gist _ _ IL d c H).
  - intros d c x H Hx. apply MP in Hx. apply eq_true_iff_eq. rewrite !MP. apply (il_gist _ _ IL d c H); assumption.
  - intros d x H. apply MN. apply (il_is_empty _ _ IL); assumption.
  - intros d l n lb x Hl Hd Hc H Hx. apply MP in Hx as [Hx Hi]. apply Nat.leb_le in Hc. unfold domain_unroll in H.
    destruct (domain_can_unroll (i_unroll I) (i_sets I d) l 0) as [r|] eqn:E; [|discriminate]. subst r.
    destruct (unroll_bound _ _ _ _ _ (il_shape _ _ IL d) E) as [H1 H2]. rewrite Hd in H1, Hx.
    pose proof (il_shape _ _ IL d) as Hs. rewrite Hd in Hs.
    destruct (C54_unroll_exact _ (il_unroll _ _ IL) l (i_sets I d) l 0%Z n lb Hc Hs ltac:(lia) E x pv Hx) as [R _].
    apply R; [|exact Hi]. apply value_first; assumption.
  - intros d l lb i. apply (il_add_offset_dim _ _ IL).
  - intros d l n lb i x Hl Hd H. unfold domain_unroll in H.
    destruct (domain_can_unroll (i_unroll I) (i_sets I d) l 0) as [r|] eqn:E; [|discriminate]. subst r.
    destruct (unroll_bound _ _ _ _ _ (il_shape _ _ IL d) E) as [H1 H2]. rewrite Hd in H1. pose proof (il_shape _ _ IL d) as Hs. rewrite Hd in Hs.
    apply eq_true_iff_eq. rewrite andb_true_iff, Z.eqb_eq, !MP.
    pose proof (il_add_offset _ _ IL d l lb i ltac:(lia) ltac:(congruence) H2 x pv Hpv) as Ho. rewrite Ho. unfold BackendSpec.pts. rewrite Hd. split.
    + intros [Hx Hp]. apply (C54_copy l (i_sets I d) l lb i Hs ltac:(lia) H1 H2 x pv _ Hx (value_first lb l x Hl Hx H1 H2)) in Hp as [A B]. auto.
    + intros [[Hx A] B]. split; [exact Hx|]. apply (C54_copy l (i_sets I d) l lb i Hs ltac:(lia) H1 H2 x pv _ Hx (value_first lb l x Hl Hx H1 H2)). auto.
Qed.
Lemma simple_tight : simple_hull_stays np I -> simple_hull_tight P Se.
Proof.
  intros HS c d x H Hc Hn Hx. cbn [isl_poly dim simple_convex intersection isconvex] in *. apply mem_pts. unfold domain_simple_convex in Hx.
  destruct (domain_isconvex I (i_intersect I c d)).
  - apply (proj1 (mem_pts _ _)) in Hx. apply (proj2 (il_intersect _ _ IL c d H) x pv Hpv) in Hx. apply Hx.
  - apply (proj1 (mem_pts _ _)) in Hx. apply (from_pts _ _ _ _ (or_intror (ex_intro _ _ (or_intror (or_intror eq_refl)))) Hpv) in Hx as [Hx Hi].
    rewrite (proj1 (il_intersect _ _ IL c d H)) in Hx. apply Nat.leb_le in Hc. exact (HS c d x pv Hpv Hx H Hc Hn Hi).
Qed.
End Backend.

(** ** C56 *)
Theorem C56_backend_laws :
  forall (np : nat) (I : IslSet), IslLaws np I ->
  forall contains, decides I contains ->
  forall p, length p = np -> Laws (isl_poly np I) (isl_sem np I contains p).
Proof. intros np I IL contains dec p Hp. exact (backend_laws np I IL contains dec p Hp). Qed.
Print Assumptions C56_backend_laws.

(** The generator is run once, on sets with parameters; its result runs every instance of every statement
    exactly once whatever the values of the parameters are (among those the context allows). *)
Theorem C56_right_for_all_parameters :
  forall (np : nat) (I : IslSet), IslLaws np I ->
  forall contains, decides I contains ->
  forall (kinds : list bool) (o : options) (fuel : nat) (ctx : iset I) (ls res : list (loop (isl_poly np I))),
  (o_stop o < 0)%Z -> o_first_unroll o <> 0%Z -> o_strides o = false -> (o_sh o = true -> simple_hull_stays np I) ->
  i_dim I ctx = 0 ->
  statement_loops (isl_poly np I) kinds ls -> depth_order (isl_poly np I) kinds ls ->
  cloog_program_generate (isl_poly np I) (run_lengths kinds) o fuel ctx ls = Some res ->
  forall p, length p = np -> pts I ctx [] p ->
  forall b y, exists ps, NoDup ps /\ length ps = input_count (isl_sem np I contains p) ls b y /\
    forall path, In path ps <-> Exec (isl_poly np I) (isl_sem np I contains p) res [] path b y.
Proof.
  intros np I IL contains dec kinds o fuel ctx ls res H1 H2 H3 Hsh Hd Hs Hdo H p Hp Hc.
  apply (C01_instances_exactly_once _ _ (C56_backend_laws np I IL contains dec p Hp) kinds o fuel ctx ls res); auto.
  - split; [exact H1|]. split; [exact H2|]. intros E. exact (simple_tight np I IL contains dec p Hp (Hsh E)).
  - exact (proj2 (mem_pts np I contains dec p ctx []) Hc).
Qed.
Print Assumptions C56_right_for_all_parameters.

(** The laws can be met, and the theorem applies: two statements, on 0 <= i <= M and on 5 <= i <= M with a
    parameter M >= 1; the first one runs for every i up to M and the second one from 5 on, for all M. *)
Definition row56 (i p : list Z) (k : Z) : con := {| c_eq := false; c_iter := i; c_par := p; c_div := []; c_const := k |}.
Definition first56 : sset := {| s_dim := 1; s_cs := [[row56 [1] [0] 0; row56 [-1] [1] 0]]%Z |}.
Definition second56 : sset := {| s_dim := 1; s_cs := [[row56 [1] [0] (-5); row56 [-1] [1] 0]]%Z |}.
Definition ctx56 : sset := {| s_dim := 0; s_cs := [[row56 [] [1] (-1)]]%Z |}.
Definition input56 : list (loop (isl_poly 1 SetIsl)) :=
  [@Loop (isl_poly 1 SetIsl) first56 false None (Some (blk 0 [])) []; @Loop (isl_poly 1 SetIsl) second56 false None (Some (blk 1 [])) []].
Example C56_example :
  IslLaws 1 SetIsl /\ decides SetIsl set_contains /\
  statement_loops (isl_poly 1 SetIsl) [false] input56 /\ depth_order (isl_poly 1 SetIsl) [false] input56 /\
  exists res, cloog_program_generate (isl_poly 1 SetIsl) (run_lengths [false]) opts 60 ctx56 input56 = Some res /\
    forall M, (1 <= M)%Z -> forall i,
      ((0 <= i <= M)%Z <-> exists path, Exec (isl_poly 1 SetIsl) (isl_sem 1 SetIsl set_contains [M]) res [] path (blk 0 []) [i]) /\
      ((5 <= i <= M)%Z <-> exists path, Exec (isl_poly 1 SetIsl) (isl_sem 1 SetIsl set_contains [M]) res [] path (blk 1 []) [i]).
Proof.
  assert (H1 : statement_loops (isl_poly 1 SetIsl) [false] input56) by (repeat (constructor; [eexists _, _, _; split; [reflexivity|cbn; lia]|]); constructor).
  assert (H2 : depth_order (isl_poly 1 SetIsl) [false] input56) by dord.
  split; [apply set_laws|]. split; [exact set_decides|]. split; [exact H1|]. split; [exact H2|].
  run_result.
  match goal with |- forall M, _ -> forall i, (_ <-> exists path, Exec _ _ ?r _ _ _ _) /\ _ => set (res := r) end.
  assert (E : cloog_program_generate (isl_poly 1 SetIsl) (run_lengths [false]) opts 60 ctx56 input56 = Some res).
  { apply strip_eq. vm_cast_no_check (eq_refl (option_map (map (strip (isl_poly 1 SetIsl))) (cloog_program_generate (isl_poly 1 SetIsl) (run_lengths [false]) opts 60 ctx56 input56))). }
  clearbody res. intros M HM i.
  pose proof (C56_right_for_all_parameters 1 SetIsl (set_laws 1) set_contains set_decides [false] opts 60 ctx56 input56 res eq_refl ltac:(discriminate) eq_refl ltac:(discriminate) eq_refl H1 H2 E [M] eq_refl) as T.
  assert (Hc : pts SetIsl ctx56 [] [M]).
  { apply pts_sat. split; [reflexivity|]. eexists. split; [left; reflexivity|]. constructor; [|constructor]. right. split; [reflexivity|]. cbn [row56 c_iter c_par c_const prod]. lia. }
  specialize (T Hc).
  assert (G : forall b, (exists path, Exec (isl_poly 1 SetIsl) (isl_sem 1 SetIsl set_contains [M]) res [] path b [i]) <-> 0 < input_count (isl_sem 1 SetIsl set_contains [M]) input56 b [i]).
  { intros b. destruct (T b [i]) as (ps & _ & Hl & Hp). rewrite <- Hl. split.
    - intros (path & Hx). apply Hp in Hx. destruct ps; [destruct Hx|cbn; lia].
    - intros H. destruct ps as [|path ps]; [cbn in H; lia|]. exists path. apply Hp. left. reflexivity. }
  assert (MM : forall (d : sset), s_dim d = 1 -> forall cs, s_cs d = [cs] -> (mem (isl_sem 1 SetIsl set_contains [M]) d [i] = true <-> sat cs [i] [M])).
  { intros d Hd cs Hcs. rewrite (mem_pts 1 SetIsl set_contains set_decides [M] d [i]), pts_sat, Hd, Hcs. split; [intros [_ (c & [<-|[]] & S)]; exact S|]. intros S. split; [reflexivity|]. exists cs. split; [left; reflexivity|exact S]. }
  assert (N : input_count (isl_sem 1 SetIsl set_contains [M]) input56 (blk 0 []) [i] = (if mem (isl_sem 1 SetIsl set_contains [M]) first56 [i] then 1 else 0)).
  { unfold input_count, input56. cbn [filter]. unfold has_instance. cbn [l_blk l_dom].
    destruct (block_eq_dec (blk 0 []) (blk 0 [])) as [_|n]; [|destruct (n eq_refl)]. destruct (block_eq_dec (blk 1 []) (blk 0 [])) as [e|_]; [discriminate e|]. cbn [andb].
    destruct (mem (isl_sem 1 SetIsl set_contains [M]) first56 [i]); reflexivity. }
  assert (N' : input_count (isl_sem 1 SetIsl set_contains [M]) input56 (blk 1 []) [i] = (if mem (isl_sem 1 SetIsl set_contains [M]) second56 [i] then 1 else 0)).
  { unfold input_count, input56. cbn [filter]. unfold has_instance. cbn [l_blk l_dom].
    destruct (block_eq_dec (blk 1 []) (blk 1 [])) as [_|n]; [|destruct (n eq_refl)]. destruct (block_eq_dec (blk 0 []) (blk 1 [])) as [e|_]; [discriminate e|]. cbn [andb].
    destruct (mem (isl_sem 1 SetIsl set_contains [M]) second56 [i]); reflexivity. }
  rewrite !G, N, N'.
  pose proof (MM first56 eq_refl _ eq_refl) as Ma. pose proof (MM second56 eq_refl _ eq_refl) as Mb.
  unfold sat in Ma, Mb. rewrite !Forall_cons_iff in Ma, Mb. cbn [row56 c_eq c_iter c_par c_const prod] in Ma, Mb.
  clear - Ma Mb HM. split.
  - destruct (mem (isl_sem 1 SetIsl set_contains [M]) first56 [i]).
    + split; [intros _; lia|]. intros _. destruct (proj1 Ma eq_refl) as ([[? _]|[_ A]] & [[? _]|[_ B]] & _); try discriminate. lia.
    + split; [|lia]. intros H. enough (X : false = true) by discriminate X. apply Ma.
      split; [right; split; [reflexivity|lia]|]. split; [right; split; [reflexivity|lia]|constructor].
  - destruct (mem (isl_sem 1 SetIsl set_contains [M]) second56 [i]).
    + split; [intros _; lia|]. intros _. destruct (proj1 Mb eq_refl) as ([[? _]|[_ A]] & [[? _]|[_ B]] & _); try discriminate. lia.
    + split; [|lia]. intros H. enough (X : false = true) by discriminate X. apply Mb.
      split; [right; split; [reflexivity|lia]|]. split; [right; split; [reflexivity|lia]|constructor].
Qed.
