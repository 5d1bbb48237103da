(** A small polyhedral library for which the laws of BackendSpec.v hold, to show that they can be met:
    unions of systems of constraints with parameters, without quantified variables.  It is exact
    (differences negate constraints); its hull keeps the constraints common to all parts, projections
    drop the constraints with the removed dimensions, and tests say "don't know" often. *)
From Coq Require Import ZArith List Bool Arith Lia.
From Verif Require Import StrideModel UnrollModel UnrollSpec PropertiesUnroll LoopModel LoopSpec BackendModel BackendSpec.
Import ListNotations.
Local Arguments Nat.ltb : simpl never. Local Arguments Nat.leb : simpl never. Local Arguments Nat.eqb : simpl never. Local Arguments Nat.sub : simpl never.
Local Open Scope Z_scope.

Definition fitl (n : nat) (l : list Z) : list Z := firstn n (l ++ repeat 0 n).
Definition fit (n : nat) (c : con) : con := {| c_eq := c_eq c; c_iter := fitl n (c_iter c); c_par := c_par c; c_div := []; c_const := c_const c |}.
Record sset := { s_dim : nat; s_cs : list (list con) }.
Definition basic (n : nat) (cs : list con) : bset := {| n_div := 0; cons_of := map (fit n) cs |}.
Definition sets_of (s : sset) : list bset := map (basic (s_dim s)) (s_cs s).

(** one more than the value is negative *)
Definition opposite (k : Z) (c : con) : con :=
  {| c_eq := false; c_iter := opp (c_iter c); c_par := opp (c_par c); c_div := []; c_const := k - c_const c |}.
Definition plus (k : Z) (c : con) : con := {| c_eq := false; c_iter := c_iter c; c_par := c_par c; c_div := []; c_const := c_const c + k |}.
Definition negations (c : con) : list con := if c_eq c then [plus (-1) c; opposite (-1) c] else [opposite (-1) c].
Definition minus (l : list (list con)) (cs : list con) : list (list con) :=
  flat_map (fun a => map (fun k => k :: a) (flat_map negations cs)) l.
Definition con_dec (a b : con) : {a = b} + {a <> b}.
Proof. decide equality; try apply Z.eq_dec; try apply (list_eq_dec Z.eq_dec); apply bool_dec. Defined.
Definition isin (c : con) (l : list con) : bool := existsb (fun d => if con_dec c d then true else false) l.
Definition never : con := {| c_eq := false; c_iter := []; c_par := []; c_div := []; c_const := -1 |}.
Definition common (s : sset) : list con :=
  match s_cs s with [] => [never] | a :: r => filter (fun c => forallb (isin c) r) a end.
Definition drop_dims (k n : nat) (l : list Z) : list Z := firstn k l ++ skipn (k + n) l.
Definition without (dims k n : nat) (cs : list con) : list con :=
  flat_map (fun c => let f := fitl dims (c_iter c) in
    if forallb (Z.eqb 0) (firstn n (skipn k f))
    then [{| c_eq := c_eq c; c_iter := drop_dims k n f; c_par := c_par c; c_div := []; c_const := c_const c |}] else []) cs.
Definition fixed (n level : nat) (lb : con) (o : Z) : list con :=
  let a := nth (level - 1) (c_iter lb) 0 in
  let c := {| c_eq := false; c_iter := c_iter lb; c_par := c_par lb; c_div := []; c_const := c_const lb - a * o |} in
  [c; opposite (a - 1) c].

(** systems with two constraints that contradict each other are left out *)
Definition contradict (c d : con) : bool :=
  (if list_eq_dec Z.eq_dec (c_iter d) (opp (c_iter c)) then true else false) &&
  (if list_eq_dec Z.eq_dec (c_par d) (opp (c_par c)) then true else false) && (c_const c + c_const d <? 0).
Definition dead (cs : list con) : bool := existsb (fun c => existsb (contradict c) cs) cs.
Definition live (n : nat) (l : list (list con)) : list (list con) := filter (fun cs => negb (dead (map (fit n) cs))) l.

Definition SetIsl : IslSet := {|
  iset := sset; i_dim := s_dim; i_sets := sets_of;
  i_empty := fun n => {| s_dim := n; s_cs := [] |};
  i_from_basic := fun n b => {| s_dim := n; s_cs := [cons_of b] |};
  i_union := fun a b => {| s_dim := s_dim a; s_cs := s_cs a ++ s_cs b |};
  i_intersect := fun a b => {| s_dim := s_dim a; s_cs := live (s_dim a) (flat_map (fun p => map (fun q => p ++ q) (s_cs b)) (s_cs a)) |};
  i_subtract := fun a b => {| s_dim := s_dim a; s_cs := live (s_dim a) (fold_left minus (map (map (fit (s_dim b))) (s_cs b)) (s_cs a)) |};
  i_coalesce := fun s => s;
  i_gist := fun a _ => a;
  i_is_empty := fun s => match s_cs s with [] => true | _ => false end;
  i_plain_is_equal := fun a b => if Nat.eq_dec (s_dim a) (s_dim b) then if list_eq_dec (list_eq_dec con_dec) (s_cs a) (s_cs b) then true else false else false;
  i_plain_is_disjoint := fun a b => match s_cs a, s_cs b with [], _ | _, [] => true | _, _ => false end;
  i_add_dims := fun s n => {| s_dim := s_dim s + n; s_cs := map (map (fit (s_dim s))) (s_cs s) |};
  i_remove_dims := fun s k n => {| s_dim := s_dim s - n; s_cs := map (without (s_dim s) k n) (s_cs s) |};
  i_compute_divs := fun s => s;
  i_remove_divs_involving := fun s _ _ => s;
  i_convex_hull := fun s => basic (s_dim s) (common s);
  i_simple_hull := fun s => basic (s_dim s) (common s);
  i_dim_is_bounded := fun _ _ => true;
  i_compare_at := fun _ _ _ => 0; i_follows_at := fun _ _ _ => 1;
  i_val_if_fixed := fun _ _ => None; i_single_valued_at := fun _ _ => false;
  i_unroll := {| redundancies_removed := fun b => b; max_val := fun _ _ _ => Infty |};
  i_add_offset := fun s level lb o => {| s_dim := s_dim s; s_cs := map (fun cs => cs ++ fixed (s_dim s) level lb o) (s_cs s) |};
  i_sconstr := unit; i_can_stride := fun _ _ => false; i_list_stride := fun _ _ => None; i_domain_stride := fun _ _ => (1, 0);
  i_stride_lower_bound := fun s _ _ => s; i_add_stride_constraint := fun s _ => s
|}.
Definition holdsb (c : con) (x p : list Z) : bool := if c_eq c then value c x p [] =? 0 else 0 <=? value c x p [].
Definition set_contains (b : bset) (x p : list Z) : bool := forallb (fun c => holdsb c x p) (cons_of b).

Lemma holdsb_iff c x p : holdsb c x p = true <-> holds c x p [].
Proof. unfold holdsb, holds. destruct (c_eq c); [apply Z.eqb_eq|]. rewrite Z.leb_le. lia. Qed.
Lemma contains_iff b x p : n_div b = 0%nat -> (set_contains b x p = true <-> inside b x p).
Proof.
  intros H. unfold set_contains, inside. rewrite forallb_forall. split.
  - intros F. exists []. split; [symmetry; exact H|]. apply Forall_forall. intros c Hc. apply holdsb_iff, F, Hc.
  - intros (e & He & F) c Hc. rewrite H in He. destruct e; [|discriminate]. rewrite Forall_forall in F. apply holdsb_iff, F, Hc.
Qed.
Lemma set_decides : decides SetIsl set_contains.
Proof. intros s b x p Hb. cbn [SetIsl i_sets] in Hb. unfold sets_of in Hb. apply in_map_iff in Hb as (cs & <- & _). apply contains_iff. reflexivity. Qed.

(** a list of constraints at a point *)
Definition sat (cs : list con) (x p : list Z) : Prop := Forall (fun c => c_eq c = true /\ prod (c_iter c) x + prod (c_par c) p + c_const c = 0 \/ c_eq c = false /\ prod (c_iter c) x + prod (c_par c) p + c_const c >= 0) cs.
Lemma prod_fit : forall n (l x : list Z), length x = n -> prod (fitl n l) x = prod l x.
Proof.
  unfold fitl. induction n as [|n IH]; intros l x Hx; destruct x as [|v x]; try discriminate; [cbn; destruct l; reflexivity|]. cbn in Hx.
  destruct l as [|a l]; [cbn [app repeat firstn prod]|].
  - specialize (IH [] x ltac:(lia)). cbn [app] in IH. cbn [prod]. rewrite IH. destruct x; cbn [prod]; lia.
  - cbn [app firstn prod]. f_equal. rewrite <- (IH l x) by lia. f_equal.
    assert (E : firstn n (l ++ repeat 0 (S n)) = firstn n (l ++ repeat 0 n)); [|rewrite E; reflexivity].
    replace (repeat 0 (S n)) with (repeat 0 n ++ [0]) by (rewrite <- repeat_cons; reflexivity). rewrite app_assoc, firstn_app.
    replace (n - length (l ++ repeat 0%Z n))%nat with 0%nat by (rewrite app_length, repeat_length; lia). cbn [firstn]. apply app_nil_r.
Qed.
Lemma fitl_len n l : length (fitl n l) = n.
Proof. unfold fitl. rewrite firstn_length, app_length, repeat_length. lia. Qed.
Lemma sat_fit n cs x p : length x = n -> (sat (map (fit n) cs) x p <-> sat cs x p).
Proof. intros Hx. unfold sat. rewrite Forall_map. cbn [fit c_eq c_iter c_par c_const]. split; intros H; (eapply Forall_impl; [|exact H]); intros c; cbv beta; rewrite (prod_fit n) by exact Hx; auto. Qed.
Lemma inside_sat n cs x p : length x = n -> (inside (basic n cs) x p <-> sat cs x p).
Proof.
  intros Hx. rewrite <- (sat_fit n cs x p Hx). unfold inside, sat, basic. cbn [n_div cons_of]. split.
  - intros (e & He & F). rewrite Forall_map in *. eapply Forall_impl; [|exact F]. intros c Hc. unfold holds, value in Hc. cbn [fit c_eq c_iter c_par c_div c_const] in *. cbn [prod] in Hc. destruct (c_eq c); [left|right]; (split; [reflexivity|lia]).
  - intros F. exists []. split; [reflexivity|]. rewrite Forall_map in *. eapply Forall_impl; [|exact F]. intros c Hc. unfold holds, value. cbn [fit c_eq c_iter c_par c_div c_const] in *. cbn [prod]. destruct (c_eq c); destruct Hc as [[E H]|[E H]]; try discriminate; lia.
Qed.
Lemma inside_div0 b n x p : n_div b = 0%nat -> length x = n -> (inside b x p <-> inside (basic n (cons_of b)) x p).
Proof.
  intros H0 Hx. unfold inside, basic. cbn [n_div cons_of]. rewrite H0. split; intros (e & He & F); exists e; (split; [exact He|]); destruct e; try discriminate; rewrite Forall_map in *.
  - eapply Forall_impl; [|exact F]. intros c. unfold holds, value. cbn [fit c_eq c_iter c_par c_div c_const]. rewrite prod_fit by exact Hx. destruct (c_div c); cbn [prod]; auto.
  - eapply Forall_impl; [|exact F]. intros c. unfold holds, value. cbn [fit c_eq c_iter c_par c_div c_const]. rewrite prod_fit by exact Hx. destruct (c_div c); cbn [prod]; auto.
Qed.
Lemma pts_sat (s : sset) x p : pts SetIsl s x p <-> length x = s_dim s /\ exists cs, In cs (s_cs s) /\ sat cs x p.
Proof.
  unfold pts, point_of. cbn [SetIsl i_dim i_sets]. unfold sets_of. split; intros [Hx H]; (split; [exact Hx|]).
  - destruct H as (b & Hb & Hi). apply in_map_iff in Hb as (cs & <- & Hc). exists cs. split; [exact Hc|]. apply (inside_sat (s_dim s)); assumption.
  - destruct H as (cs & Hc & Hi). exists (basic (s_dim s) cs). split; [apply in_map; exact Hc|]. apply inside_sat; assumption.
Qed.
Lemma sat_app a b x p : sat (a ++ b) x p <-> sat a x p /\ sat b x p.
Proof. apply Forall_app. Qed.
Lemma sat_dec cs x p : sat cs x p \/ ~ sat cs x p.
Proof.
  induction cs as [|c cs IH]; [left; constructor|]. unfold sat. rewrite Forall_cons_iff. fold (sat cs x p).
  destruct (c_eq c), (Z.eq_dec (prod (c_iter c) x + prod (c_par c) p + c_const c) 0), (Z_ge_dec (prod (c_iter c) x + prod (c_par c) p + c_const c) 0), IH;
  first [left; split; [first [left; split; [reflexivity|assumption]|right; split; [reflexivity|assumption]]|assumption]|right; intros [[[H1 H2]|[H1 H2]] H3]; try discriminate; contradiction].
Qed.
Lemma negations_sat c x p : Exists (fun k => sat [k] x p) (negations c) <-> ~ sat [c] x p.
Proof.
  unfold sat, negations. rewrite Forall_cons_iff. destruct (c_eq c) eqn:E.
  - rewrite !Exists_cons, Exists_nil, !Forall_cons_iff. cbn [plus opposite c_eq c_iter c_par c_const]. rewrite !prod_opp. split.
    + intros [[[[? ?]|[? H]] _]|[[[[? ?]|[? H]] _]|[]]] [[[_ H']|[? _]] _]; try discriminate; lia.
    + intros H. destruct (Z.lt_trichotomy (prod (c_iter c) x + prod (c_par c) p + c_const c) 0) as [L|[L|L]].
      * right. left. split; [right; split; [reflexivity|lia]|constructor].
      * exfalso. apply H. split; [left; auto|constructor].
      * left. split; [right; split; [reflexivity|lia]|constructor].
  - rewrite !Exists_cons, Exists_nil, !Forall_cons_iff. cbn [opposite c_eq c_iter c_par c_const]. rewrite !prod_opp. split.
    + intros [[[[? ?]|[? H]] _]|[]] [[[? _]|[_ H']] _]; try discriminate; lia.
    + intros H. left. split; [right; split; [reflexivity|]|constructor].
      destruct (Z_ge_dec (prod (c_iter c) x + prod (c_par c) p + c_const c) 0); [exfalso; apply H; split; [right; auto|constructor]|lia].
Qed.
Lemma not_sat cs x p : ~ sat cs x p <-> exists k, In k (flat_map negations cs) /\ sat [k] x p.
Proof.
  induction cs as [|c cs IH]; cbn [flat_map].
  - split; [intros H; exfalso; apply H; constructor|intros (k & [] & _)].
  - assert (E : sat (c :: cs) x p <-> sat [c] x p /\ sat cs x p) by (change (c :: cs) with ([c] ++ cs); apply sat_app). rewrite E.
    pose proof (negations_sat c x p) as N. rewrite Exists_exists in N. split.
    + intros H. destruct (sat_dec [c] x p) as [S|S].
      * assert (H' : ~ sat cs x p) by tauto. apply IH in H' as (k & Hk & Sk). exists k. split; [apply in_or_app; right; exact Hk|exact Sk].
      * apply N in S as (k & Hk & Sk). exists k. split; [apply in_or_app; left; exact Hk|exact Sk].
    + intros (k & Hk & Sk) [H1 H2]. apply in_app_or in Hk as [Hk|Hk]; [apply (proj1 N (ex_intro _ k (conj Hk Sk))); exact H1|].
      apply (proj2 IH); [exists k; auto|exact H2].
Qed.
Lemma minus_sat cs l x p : (exists a, In a (minus l cs) /\ sat a x p) <-> (exists a, In a l /\ sat a x p) /\ ~ sat cs x p.
Proof.
  unfold minus. rewrite not_sat. split.
  - intros (a & Ha & S). apply in_flat_map in Ha as (a0 & H0 & Ha). apply in_map_iff in Ha as (k & <- & Hk). change (k :: a0) with ([k] ++ a0) in S. apply sat_app in S as [S1 S2]. split; eauto.
  - intros [(a & Ha & S) (k & Hk & Sk)]. exists (k :: a). split; [apply in_flat_map; exists a; split; [exact Ha|apply in_map_iff; exists k; auto]|]. change (k :: a) with ([k] ++ a). apply sat_app. auto.
Qed.
Lemma minus_all x p : forall bs l, (exists a, In a (fold_left minus bs l) /\ sat a x p) <-> (exists a, In a l /\ sat a x p) /\ ~ exists b, In b bs /\ sat b x p.
Proof.
  induction bs as [|b bs IH]; intros l; cbn [fold_left]; [split; [intros H; split; [exact H|intros (b & [] & _)]|tauto]|].
  rewrite IH, minus_sat. split.
  - intros [[H1 H2] H3]. split; [exact H1|]. intros (c & [<-|Hc] & S); [tauto|apply H3; eauto].
  - intros [H1 H2]. split; [split; [exact H1|intros S; apply H2; exists b; split; [left; reflexivity|exact S]]|]. intros (c & Hc & S). apply H2. exists c. split; [right; exact Hc|exact S].
Qed.
Lemma isin_in c l : isin c l = true <-> In c l.
Proof. unfold isin. rewrite existsb_exists. split; [intros (d & Hd & E); destruct (con_dec c d); [subst; exact Hd|discriminate]|intros H; exists c; split; [exact H|destruct (con_dec c c); congruence]]. Qed.
Lemma common_in s cs x p : In cs (s_cs s) -> sat cs x p -> sat (common s) x p.
Proof.
  unfold common, sat. intros Hc Hs. destruct (s_cs s) as [|a r]; [destruct Hc|]. rewrite Forall_forall in *. intros c Hc'. apply filter_In in Hc' as [H1 H2]. apply Hs.
  destruct Hc as [<-|Hc]; [exact H1|]. rewrite forallb_forall in H2. apply isin_in, H2, Hc.
Qed.
Lemma prod_drop k n : forall (f x : list Z), length f = length x -> forallb (Z.eqb 0) (firstn n (skipn k f)) = true ->
  prod (drop_dims k n f) (drop_dims k n x) = prod f x.
Proof.
  unfold drop_dims. induction k as [|k IH]; intros f x Hl Hz.
  - cbn [firstn skipn app Nat.add] in *. revert f x Hl Hz. induction n as [|n IHn]; intros f x Hl Hz; [reflexivity|].
    destruct f as [|a f], x as [|v x]; try discriminate; [reflexivity|]. cbn [firstn forallb skipn prod] in *. apply andb_prop in Hz as [Hz1 Hz2]. apply Z.eqb_eq in Hz1. subst a. rewrite (IHn f x) by (cbn in Hl; auto; lia). lia.
  - destruct f as [|a f], x as [|v x]; try discriminate; [reflexivity|]. cbn [firstn skipn app prod Nat.add] in *. rewrite (IH f x) by (cbn in Hl; auto; lia). reflexivity.
Qed.
Lemma without_sat dims k n cs x p : length x = dims -> sat cs x p -> sat (without dims k n cs) (drop_dims k n x) p.
Proof.
  intros Hx H. unfold sat, without in *. apply Forall_flat_map. eapply Forall_impl; [|exact H]. intros c Hc. cbv zeta.
  destruct (forallb (Z.eqb 0) _) eqn:E; [|constructor]. constructor; [|constructor]. cbn [c_eq c_iter c_par c_const].
  rewrite prod_drop by (rewrite ?fitl_len; auto). rewrite prod_fit by exact Hx. exact Hc.
Qed.
Lemma prod_firstn : forall n (l x : list Z), length l = n -> prod l x = prod l (firstn n x).
Proof. induction n as [|n IH]; intros [|a l] [|v x] H; cbn in *; try discriminate; try reflexivity. f_equal. apply IH. lia. Qed.
Lemma fixed_sat n level lb o x p : (1 <= level <= n)%nat -> length (c_iter lb) = n -> length x = n -> 0 < nth (level - 1) (c_iter lb) 0 ->
  (sat (fixed n level lb o) x p <-> exists v, first_value lb level x p v /\ nth (level - 1) x 0 = v + o).
Proof.
  intros Hl Hc Hx Ha. pose proof (first_ceil lb n level x p Hl Hc Hx Ha) as F. set (a := nth (level - 1) (c_iter lb) 0) in *.
  pose proof (prod_split (level - 1) (c_iter lb) x ltac:(lia) ltac:(lia)) as E. fold a in E.
  assert (R : prod (c_iter lb) x + prod (c_par lb) p + c_const lb = a * nth (level - 1) x 0 + rest lb level x p) by (unfold rest; lia).
  set (i := nth (level - 1) x 0) in *. set (r := rest lb level x p) in *.
  unfold sat, fixed. cbv zeta. fold a. rewrite !Forall_cons_iff. cbn [opposite c_eq c_iter c_par c_const]. rewrite !prod_opp.
  pose proof (Z.div_mod r a ltac:(lia)) as Dm. pose proof (Z.mod_pos_bound r a Ha) as Dp. split.
  - intros ([[? _]|[_ H1]] & [[? _]|[_ H2]] & _); try discriminate. exists (- (r / a)). split; [exact F|]. nia.
  - intros (v & Hv & Hi). rewrite (first_unique _ _ _ _ _ _ Hv F) in Hi. split; [right; split; [reflexivity|nia]|]. split; [right; split; [reflexivity|nia]|constructor].
Qed.

Lemma dead_sat cs x p : dead cs = true -> ~ sat cs x p.
Proof.
  unfold dead, sat. intros H F. apply existsb_exists in H as (c & Hc & H). apply existsb_exists in H as (d & Hd & H). rewrite Forall_forall in F.
  unfold contradict in H. destruct (list_eq_dec Z.eq_dec (c_iter d) _) as [E1|]; [|discriminate]. destruct (list_eq_dec Z.eq_dec (c_par d) _) as [E2|]; [|discriminate]. cbn [andb] in H. apply Z.ltb_lt in H.
  pose proof (F c Hc) as F1. pose proof (F d Hd) as F2. cbv beta in F1, F2. rewrite E1, E2, !prod_opp in F2. lia.
Qed.
Lemma live_sat n l x p : length x = n -> ((exists a, In a (live n l) /\ sat a x p) <-> exists a, In a l /\ sat a x p).
Proof.
  intros Hx. unfold live. split; intros (a & Ha & S); exists a; (split; [|exact S]).
  - apply filter_In in Ha. apply Ha.
  - apply filter_In. split; [exact Ha|]. destruct (dead (map (fit n) a)) eqn:E; [|reflexivity]. exfalso. apply (dead_sat _ x p E). apply sat_fit; assumption.
Qed.
Theorem set_laws np : IslLaws np SetIsl.
Proof.
  assert (SH : forall s, Forall (shaped (s_dim s)) (sets_of s)).
  { intros s. unfold sets_of. rewrite Forall_map, Forall_forall. intros cs _. unfold shaped, basic. cbn [cons_of n_div]. rewrite Forall_map, Forall_forall. intros c _. cbn [fit c_iter c_div]. split; [apply fitl_len|reflexivity]. }
  assert (HIN : forall c s x p, length x = s_dim c -> s_dim c = s_dim s -> (length (sets_of c) <= 1)%nat ->
    inside (basic (s_dim c) (common {| s_dim := s_dim c; s_cs := live (s_dim c) (flat_map (fun p => map (fun q => p ++ q) (s_cs s)) (s_cs c)) |})) x p -> pts SetIsl c x p).
  { intros c s x p Hx Hd Hc Hi. apply inside_sat in Hi; [|exact Hx]. apply pts_sat. split; [exact Hx|]. unfold sets_of in Hc. rewrite map_length in Hc.
    unfold common in Hi. cbn [s_cs] in Hi. destruct (s_cs c) as [|a [|a' l]]; [| |cbn in Hc; lia].
    - cbn [flat_map live filter] in Hi. unfold sat in Hi. rewrite Forall_cons_iff in Hi. cbn [never c_eq c_iter c_par c_const prod] in Hi. destruct Hi as [[[? _]|[_ H]] _]; [discriminate|lia].
    - exists a. split; [left; reflexivity|]. cbn [flat_map] in Hi. rewrite app_nil_r in Hi.
      assert (HA : forall m, In m (live (s_dim c) (map (fun q => a ++ q) (s_cs s))) -> forall k, In k a -> In k m).
      { intros m Hm k Hk. unfold live in Hm. apply filter_In in Hm as [Hm _]. apply in_map_iff in Hm as (q & <- & _). apply in_or_app. left. exact Hk. }
      destruct (live (s_dim c) (map (fun q => a ++ q) (s_cs s))) as [|q r].
      + unfold sat in Hi. rewrite Forall_cons_iff in Hi. cbn [never c_eq c_iter c_par c_const prod] in Hi. destruct Hi as [[[? _]|[_ H]] _]; [discriminate|lia].
      + unfold sat in *. rewrite Forall_forall in *. intros k Hk. apply Hi. apply filter_In. split; [apply (HA q); [left; reflexivity|exact Hk]|].
        apply forallb_forall. intros m Hm. apply isin_in. apply (HA m); [right; exact Hm|exact Hk]. }
  constructor; cbn [SetIsl iset i_dim i_sets i_empty i_from_basic i_union i_intersect i_subtract i_coalesce i_gist i_is_empty i_plain_is_equal i_plain_is_disjoint i_add_dims i_remove_dims i_compute_divs i_remove_divs_involving i_convex_hull i_simple_hull i_unroll i_add_offset s_dim].
  - exact SH.
  - intros n. split; reflexivity.
  - intros n b Hk. split; [reflexivity|]. right. exists (basic n (cons_of b)). split; [reflexivity|].
    assert (H0 : n_div b = 0%nat).
    { destruct Hk as [H|(s & [H|[->| ->]])]; [exact H| |reflexivity|reflexivity]. cbn [SetIsl i_sets] in H. unfold sets_of in H. apply in_map_iff in H as (cs & <- & _). reflexivity. }
    split; [cbn; lia|]. intros x p Hx _. symmetry. apply inside_div0; assumption.
  - intros a b H. split; [reflexivity|]. split.
    + intros x p _. rewrite !pts_sat. cbn [s_dim s_cs]. rewrite <- H. split.
      * intros [Hx (cs & Hc & S)]. apply in_app_or in Hc as [Hc|Hc]; [left|right]; eauto.
      * intros [[Hx (cs & Hc & S)]|[Hx (cs & Hc & S)]]; (split; [exact Hx|]); exists cs; (split; [apply in_or_app; auto|exact S]).
    + unfold sets_of. cbn [s_dim s_cs]. rewrite <- H, <- map_app. generalize (map (basic (s_dim a)) (s_cs a ++ s_cs b)). induction l; constructor; assumption.
  - intros a b H. split; [reflexivity|]. intros x p _. rewrite !pts_sat. cbn [s_dim s_cs]. rewrite <- H. split.
    + intros [Hx Hc]. apply live_sat in Hc as (cs & Hc & S); [|exact Hx]. apply in_flat_map in Hc as (u & Hu & Hc). apply in_map_iff in Hc as (v & <- & Hv). apply sat_app in S as [S1 S2]. split; eauto.
    + intros [[Hx (u & Hu & S1)] [_ (v & Hv & S2)]]. split; [exact Hx|]. apply live_sat; [exact Hx|]. exists (u ++ v). split; [apply in_flat_map; exists u; split; [exact Hu|apply in_map_iff; eauto]|apply sat_app; auto].
  - intros a b H. split; [reflexivity|]. intros x p _. rewrite !pts_sat. cbn [s_dim s_cs]. rewrite <- H.
    assert (E : length x = s_dim a -> ((exists c, In c (map (map (fit (s_dim a))) (s_cs b)) /\ sat c x p) <-> exists c, In c (s_cs b) /\ sat c x p)).
    { intros Hx. split; [intros (c & Hc & S); apply in_map_iff in Hc as (d & <- & Hd); exists d; split; [exact Hd|apply (sat_fit (s_dim a)); assumption]|].
      intros (c & Hc & S). exists (map (fit (s_dim a)) c). split; [apply in_map; exact Hc|apply sat_fit; assumption]. }
    split.
    + intros [Hx S0]. apply live_sat in S0; [|exact Hx]. apply minus_all in S0 as [S1 S2]. split; [auto|]. intros [_ S]. apply S2, E; assumption.
    + intros [[Hx S1] S2]. split; [exact Hx|]. apply live_sat; [exact Hx|]. apply minus_all. split; [exact S1|]. intros S. apply S2. split; [exact Hx|]. apply E; assumption.
  - intros s. split; [reflexivity|]. intros x p _. reflexivity.
  - intros a c H. split; [reflexivity|]. intros x p _ _. reflexivity.
  - intros s x p _ H Hp. apply pts_sat in Hp as [_ (cs & Hc & _)]. destruct (s_cs s); [destruct Hc|discriminate].
  - intros a b H. destruct (Nat.eq_dec (s_dim a) (s_dim b)) as [E|]; [|discriminate]. destruct (list_eq_dec _ _ _) as [E2|]; [|discriminate]. split; [exact E|].
    intros x p _. rewrite !pts_sat, E, E2. reflexivity.
  - intros a b x p _ H Ha Hb. apply pts_sat in Ha as [_ (c & Hc & _)]. apply pts_sat in Hb as [_ (d & Hd & _)]. destruct (s_cs a); [destruct Hc|]. destruct (s_cs b); [destruct Hd|discriminate].
  - intros s n. split; [reflexivity|]. intros x p _ Hx. rewrite !pts_sat. cbn [s_dim s_cs].
    assert (L : length (firstn (s_dim s) x) = s_dim s) by (rewrite firstn_length; lia).
    assert (E : forall c, sat (map (fit (s_dim s)) c) x p <-> sat c (firstn (s_dim s) x) p).
    { intros c. rewrite <- (sat_fit (s_dim s) c _ p L). unfold sat. rewrite !Forall_map. cbn [fit c_eq c_iter c_par c_const]. split; intros F; (eapply Forall_impl; [|exact F]); intros k; cbv beta; rewrite (prod_firstn (s_dim s) _ x) by apply fitl_len; auto. }
    split.
    + intros [_ (c & Hc & S)]. apply in_map_iff in Hc as (d & <- & Hd). split; [exact L|]. exists d. split; [exact Hd|apply E; exact S].
    + intros [_ (c & Hc & S)]. split; [exact Hx|]. exists (map (fit (s_dim s)) c). split; [apply in_map; exact Hc|apply E; exact S].
  - intros s k n H. split; [reflexivity|]. intros x p _ Hp. apply pts_sat in Hp as [Hx (c & Hc & S)]. apply pts_sat. cbn [s_dim s_cs]. split; [rewrite app_length, firstn_length, skipn_length; lia|].
    exists (without (s_dim s) k n c). split; [apply in_map; exact Hc|]. exact (without_sat (s_dim s) k n c x p Hx S).
  - intros s. split; [reflexivity|]. intros x p _. reflexivity.
  - intros s k n. split; [reflexivity|]. intros x p _ H. exact H.
  - intros s x p _ Hp. apply pts_sat in Hp as [Hx (c & Hc & S)]. apply inside_sat; [exact Hx|]. eapply common_in; eassumption.
  - intros s x p _ Hp. apply pts_sat in Hp as [Hx (c & Hc & S)]. apply inside_sat; [exact Hx|]. eapply common_in; eassumption.
  - intros c s x p _ Hx Hd Hc _ Hi. exact (HIN c s x p Hx Hd Hc Hi).
  - reflexivity.
  - intros s level lb o Hl Hc Ha x p _. rewrite pts_sat. cbn [s_dim s_cs]. split.
    + intros [Hx (c & Hin & S)]. split; [exact Hx|]. apply in_map_iff in Hin as (d & <- & Hd). apply sat_app in S as [S1 S2].
      apply (fixed_sat _ level lb o x p Hl Hc Hx Ha) in S2 as (v & Hv & Hi). apply (C54_copy (s_dim s) (sets_of s) level lb o (SH s) Hl Hc Ha x p v Hx Hv).
      split; [|exact Hi]. exists (basic (s_dim s) d). split; [apply in_map; exact Hd|apply inside_sat; assumption].
    + intros [Hx Hp]. split; [exact Hx|]. pose proof (first_ceil lb (s_dim s) level x p Hl Hc Hx Ha) as Hv.
      apply (C54_copy (s_dim s) (sets_of s) level lb o (SH s) Hl Hc Ha x p _ Hx Hv) in Hp as [(b & Hb & Hi) Hn]. unfold sets_of in Hb. apply in_map_iff in Hb as (d & <- & Hd).
      exists (d ++ fixed (s_dim s) level lb o). split; [apply in_map_iff; exists d; auto|]. apply sat_app. split; [apply (inside_sat (s_dim s)); assumption|].
      apply fixed_sat; auto. eauto.
  - constructor; [reflexivity|auto|]. intros. discriminate.
Qed.
