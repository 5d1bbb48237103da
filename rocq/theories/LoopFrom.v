(** The loops made by the generator are no deeper than the input, and its statements are those of
    the input with the same number of iterators. *)
From Coq Require Import ZArith List Bool Arith Lia Permutation.
From Verif Require Import LoopModel LoopSpec LoopLists LoopCount LoopKeys LoopGen LoopSimplify.
Import ListNotations.
Local Arguments Nat.ltb : simpl never.
Local Arguments Nat.leb : simpl never.
Local Arguments Nat.eqb : simpl never.
Local Arguments Nat.sub : simpl never.

Section From.
Variable P : Poly.
Variable Se : Sem P.
Hypothesis L : Laws P Se.
Variable kinds : list bool.
Variable o : options.
Hypothesis Hstop : (o_stop o < 0)%Z.
Hypothesis HSL : o_strides o = true -> StrideLaws P Se.
Notation dom := (dom P).
Notation loop := (loop P).
Notation dim := (dim P).
Notation Loop := (@Loop P).
Notation scaldims := (run_lengths kinds).
Notation nb := (length kinds).
Notation at_pos := (at_pos kinds).
(** the statements and their depths *)
Variable K : nat -> block -> Prop.
Hypothesis HK : forall d b, K d b -> cf kinds <= d.
(** what is promised for the domain of a loop that runs at most once *)
Variable Once : dom -> Prop.
Hypothesis HU_sub : forall d d', dim d' = dim d -> (forall y, mem Se d' y = true -> mem Se d y = true) -> Once d -> Once d'.
Hypothesis HU_otl : o_otl o = true -> forall d, 1 <= dim d -> is_otl P d (dim d) = true -> Once d.
Hypothesis HU_fixed : forall d n lb i, can_unroll P d (dim d) = Some (n, lb) -> Once (fixed_offset P d (dim d) lb i).
Definition promised (l : loop) : Prop := l_otl P l = true -> Once (l_dom P l).
Definition okn (l : loop) : Prop :=
  match l_blk P l with Some b => K (dim (l_dom P l)) b | None => exists d b, K d b /\ dim (l_dom P l) <= d end /\
  Forall (fun i => dim (l_dom P l) <= dim (l_dom P i)) (l_inner P l) /\ promised l.
Definition leafK (l : loop) : Prop := l_inner P l = [] /\ (exists b, l_blk P l = Some b /\ K (dim (l_dom P l)) b) /\ promised l.
Definition some (level : nat) : Prop := exists d b, K d b /\ level <= d.
(** a loop over the iterators up to [level] *)
Definition node (strict : bool) (level : nat) (Q : loop -> Prop) (l : loop) : Prop :=
  l_blk P l = None /\ dim (l_dom P l) = level /\ Forall Q (l_inner P l) /\ if strict then l_otl P l = false else promised l.
(** a finished loop, or a statement *)
Definition big (level : nat) (l : loop) : Prop := each_loop okn l /\ level <= dim (l_dom P l).
(** a statement with at least [level] iterators *)
Definition deepleaf (level : nat) (l : loop) : Prop := leafK l /\ level <= dim (l_dom P l).

Lemma leaf_each l : leafK l -> each_loop okn l.
Proof. intros (I & (b & B & Kb) & Pr). constructor; [unfold okn; rewrite B, I; split; [exact Kb|split; [constructor|exact Pr]]|rewrite I; constructor]. Qed.
Lemma leaf_big level l : deepleaf level l -> big level l.
Proof. intros [A B]. split; [now apply leaf_each|exact B]. Qed.
Lemma node_big level l : some level -> node false level (big level) l -> big level l.
Proof.
  intros (d & b & Kb & Hd) (B & D & I & Pr). split; [|lia]. constructor.
  - unfold okn. rewrite B. split; [exists d, b; split; [exact Kb|lia]|]. split; [|exact Pr]. rewrite D. eapply Forall_impl; [|exact I]. intros a [_ A]. exact A.
  - eapply Forall_impl; [|exact I]. intros a [A _]. exact A.
Qed.
Lemma big_le n m l : n <= m -> big m l -> big n l.
Proof. intros H [A B]. split; [exact A|lia]. Qed.

(** *** lists *)
Lemma omap_forall {A B} (f : A -> option B) (X : A -> Prop) (Y : B -> Prop) l r : (forall a b, X a -> f a = Some b -> Y b) -> omap f l = Some r -> Forall X l -> Forall Y r.
Proof.
  intros H. revert r. induction l as [|a l IH]; intros r E F; cbn in E; [injection E as <-; constructor|].
  apply obind_some in E as (y & E1 & E). apply obind_some in E as (ys & E2 & E). injection E as <-. inversion F; subst. constructor; eauto.
Qed.
Lemma oconcat_forall {A B} (f : A -> option (list B)) (X : A -> Prop) (Y : B -> Prop) l r : (forall a b, X a -> f a = Some b -> Forall Y b) -> oconcat f l = Some r -> Forall X l -> Forall Y r.
Proof.
  intros H E F. unfold oconcat in E. apply obind_some in E as (rs & E & Er). injection Er as <-.
  apply (omap_forall f X (Forall Y) l rs H E) in F. now apply Forall_concat.
Qed.
Lemma pick_forall {A} (X : A -> Prop) (ls : list A) idx : Forall X ls -> Forall X (pick ls idx).
Proof. intro F. rewrite Forall_forall in *. intros x Hx. destruct (pick_in ls idx x Hx) as (i & _ & E). apply nth_error_In in E. now apply F. Qed.
Lemma perm_forall {A} (X : A -> Prop) (l l' : list A) : Permutation l' l -> Forall X l -> Forall X l'.
Proof. intros Pm F. rewrite Forall_forall in *. intros x Hx. apply F. eapply Permutation_in; eassumption. Qed.
Lemma components_forall (X : loop -> Prop) fol ls cs : loop_components P fol ls = Some cs -> Forall X ls -> Forall (Forall X) cs.
Proof.
  intros E F. unfold loop_components in E. apply obind_some in E as (c & _ & E). injection E as <-. apply Forall_map. rewrite Forall_forall. intros idx _. now apply pick_forall.
Qed.
Lemma ifs {A} (c : bool) (a : option (list A)) (X : A -> Prop) r : (if c then Some [] else a) = Some r -> (forall r, a = Some r -> Forall X r) -> Forall X r.
Proof. destruct c; intros E H; [injection E as <-; constructor|now apply H]. Qed.

(** *** loops over the same iterators *)
Section Flat.
Variable level : nat.
Variable Q : loop -> Prop.
Variable strict : bool.
Notation node := (node strict level Q).
Lemma mk d st inner : dim d = level -> Forall Q inner -> node (Loop d false st None inner).
Proof. intros D I. split; [reflexivity|]. split; [exact D|]. split; [exact I|]. destruct strict; [reflexivity|intro H; discriminate H]. Qed.
Lemma set_inner_node l inner : node l -> Forall Q inner -> node (set_inner P l inner).
Proof. intros (B & D & _ & Pr) I. destruct l. split; [exact B|]. split; [exact D|]. split; [exact I|exact Pr]. Qed.
Lemma set_dom_node l d : node l -> dim d = level -> (strict = false -> forall y, mem Se d y = true -> mem Se (l_dom P l) y = true) -> node (set_dom P l d).
Proof.
  intros (B & D0 & I & Pr) D Hs. destruct l as [d0 ot st b i]. split; [exact B|]. split; [exact D|]. split; [exact I|]. destruct strict; [exact Pr|].
  intro H. cbn in *. apply (HU_sub d0); [lia|now apply Hs|now apply Pr].
Qed.
Lemma add_disjoint_node fuel l r : add_disjoint P fuel l = Some r -> node l -> Forall node r.
Proof.
  intros E (B & D & I & Pr). unfold add_disjoint in E. destruct (isconvex P (l_dom P l)); [injection E as <-; constructor; [split; [exact B|split; [exact D|split; [exact I|exact Pr]]]|constructor]|].
  apply obind_some in E as (ds & Ed & E). injection E as <-. destruct (pieces_spec P Se L fuel) as [Hp _]. destruct (Hp _ _ Ed) as [HF _].
  apply Forall_map. eapply Forall_impl; [|exact HF]. intros d [Hd _]. rewrite B. apply mk; [congruence|exact I].
Qed.
Lemma combine_node ls : Forall node ls -> Forall node (combine P ls).
Proof.
  destruct ls as [|l ls]; intro H; [constructor|]. pose proof (proj1 (Forall_cons_iff _ _ _) H) as [H1 H2]. clear H. cbn [combine]. revert l H1. induction H2 as [|a r Ha Hr IH]; intros l Hl; cbn [combine_with]; [constructor; [exact Hl|constructor]|].
  destruct (lazy_equal P (l_dom P l) (l_dom P a)); [|constructor; [exact Hl|now apply IH]]. apply IH. apply set_inner_node; [exact Hl|]. apply Forall_app. split; [apply Hl|apply Ha].
Qed.
Lemma sep_Q_node fuel l q r : sep_Q P fuel l q = Some r -> node l -> node q -> Forall node r.
Proof.
  intros E (Bl & Dl & Il & Pl) (Bq & Dq & Iq & Pq). unfold sep_Q in E. cbv zeta in E. apply obind_some in E as (both & E1 & E). apply obind_some in E as (only & E2 & E). injection E as <-.
  apply Forall_app. split.
  - eapply ifs; [exact E1|]. intros r Er. eapply add_disjoint_node; [exact Er|]. apply mk; [|now apply Forall_app].
    destruct (lazy_equal P (l_dom P q) (l_dom P l)); [exact Dq|]. rewrite (L_inter_dim _ _ L); congruence.
  - eapply ifs; [exact E2|]. intros r Er. eapply add_disjoint_node; [exact Er|]. apply mk; [|exact Iq].
    destruct (_ || _); [exact Dq|]. destruct (lazy_equal P (l_dom P q) (l_dom P l)); [rewrite (L_empty_dim _ _ L); exact Dq|rewrite (L_diff_dim _ _ L); congruence].
Qed.
Lemma separate_node fuel ls r : separate P fuel ls = Some r -> Forall node ls -> Forall node r.
Proof.
  intros E H. unfold separate in E. apply combine_node in H. destruct (combine P ls) as [|l [|l' rest]]; [injection E as <-; constructor| |].
  - unfold disjoint in E. eapply oconcat_forall; [|exact E|exact H]. intros a b Ha Hb. eapply add_disjoint_node; eassumption.
  - pose proof (proj1 (Forall_cons_iff _ _ _) H) as [Hl Hr]. clear H.
    assert (G : forall ls acc r, Forall node ls -> Forall node (fst acc) -> dim (snd acc) = level -> sep_all P fuel acc ls = Some r -> Forall node r).
    { clear - level Q L HU_sub. induction ls as [|a ls IH]; intros [res U] r H HR HU E; cbn [sep_all] in E; [injection E as <-; exact HR|].
      apply obind_some in E as ([res' U'] & E1 & E). pose proof (proj1 (Forall_cons_iff _ _ _) H) as [Ha Hls]. cbn [fst snd] in *. unfold sep_step in E1. cbv zeta in E1.
      apply obind_some in E1 as (temp & T1 & E1). apply obind_some in E1 as (new & T2 & E1). injection E1 as <- <-.
      destruct Ha as (Ba & Da & Ia & Pa). eapply IH; [exact Hls| | |exact E]; cbn [fst snd].
      - apply Forall_app. split.
        + eapply oconcat_forall; [|exact T1|exact HR]. intros q b Hq Hb. eapply sep_Q_node; [exact Hb|split; [exact Ba|split; [exact Da|split; [exact Ia|exact Pa]]]|exact Hq].
        + eapply ifs; [exact T2|]. intros w Ew. eapply add_disjoint_node; [exact Ew|]. apply mk; [|exact Ia].
          destruct (lazy_disjoint P (l_dom P a) U); [exact Da|]. destruct (lazy_equal P (l_dom P a) U); [rewrite (L_empty_dim _ _ L); congruence|rewrite (L_diff_dim _ _ L); congruence].
      - rewrite (L_union_dim _ _ L); congruence. }
    eapply G; [exact Hr| | |exact E]; cbn [fst snd].
    + constructor; [|constructor]. destruct Hl as (B & D & I & Pr). rewrite B. apply mk; [exact D|exact I].
    + apply Hl.
Qed.
Lemma bounding_dim d : dim (bounding_domain P o d) = dim d.
Proof. unfold bounding_domain. destruct (o_sh o); [apply (L_simple_dim _ _ L)|apply (L_convex_dim _ _ L)]. Qed.
Lemma union_doms_dim l r : Forall node (l :: r) -> dim (union_doms P l r) = level.
Proof.
  intro H. pose proof (proj1 (Forall_cons_iff _ _ _) H) as [(_ & D & _ & _) Hr]. unfold union_doms. clear H. revert D. generalize (l_dom P l). induction Hr as [|a r (_ & Da & _ & _) Hr IH]; intros d D; cbn [fold_left]; [exact D|].
  apply IH. rewrite (L_union_dim _ _ L); congruence.
Qed.
Lemma concat_inner_node ls : Forall node ls -> Forall Q (concat_inner P ls).
Proof. intro H. unfold concat_inner. apply Forall_flat_map. eapply Forall_impl; [|exact H]. intros a (_ & _ & I & _). exact I. Qed.
Lemma merge_node fuel ls r : merge P fuel o level ls = Some r -> Forall node ls -> Forall node r.
Proof.
  intros E H. unfold merge in E. destruct ls as [|l ls]; [injection E as <-; constructor|].
  destruct (match ls with [] => isconvex P (l_dom P l) | _ => false end); [injection E as <-; inversion H; subst; constructor; [assumption|constructor]|].
  cbv zeta in E. pose proof (union_doms_dim l ls H) as U. pose proof (concat_inner_node (l :: ls) H) as I. destruct (_ && is_bounded P (union_doms P l ls) level).
  - assert (G : forall fuel s res r, dim s = level -> Forall node res -> merge_split P fuel o (union_doms P l ls) (concat_inner P (l :: ls)) s res = Some r -> Forall node r).
    { clear E r. induction fuel0 as [|f IH]; intros s res r Ds Hr E; [discriminate|]. cbn [merge_split] in E.
      assert (A : forall t, dim t = level -> Forall node (if isempty P (bounding_domain P o (intersection P t (union_doms P l ls))) then res else
              Loop (bounding_domain P o (intersection P t (union_doms P l ls))) false None None (concat_inner P (l :: ls)) :: res)).
      { intros t Dt. destruct (isempty P (bounding_domain P o (intersection P t (union_doms P l ls)))); [exact Hr|]. constructor; [|exact Hr]. apply mk; [|exact I]. rewrite bounding_dim, (L_inter_dim _ _ L); congruence. }
      destruct (isconvex P s); [injection E as <-; now apply A|]. destruct (cut_first P s) as [[f1 f2]|] eqn:Ec; [|discriminate].
      destruct (L_cut_dim _ _ L _ _ _ Ec) as [C1 C2]. eapply IH; [|apply A|exact E]; congruence. }
    eapply G; [| |exact E]; [rewrite (L_splitter_dim _ _ L); exact U|constructor].
  - injection E as <-. constructor; [|constructor]. apply mk; [rewrite bounding_dim; exact U|exact I].
Qed.
Lemma constant_node ls : Forall node ls -> Forall node (constant P ls).
Proof.
  intro H. destruct ls as [|l ls]; [constructor|]. cbn [constant]. constructor; [|constructor]. apply mk; [rewrite (L_simple_dim _ _ L); now apply union_doms_dim|now apply concat_inner_node].
Qed.
End Flat.

(** *** restricting *)
Lemma restrict_dim ctx l l' : dim ctx <= dim (l_dom P l) -> restrict P ctx l = Some l' ->
  dim (l_dom P l') = dim (l_dom P l) /\ l_blk P l' = l_blk P l /\ l_inner P l' = l_inner P l /\ (promised l -> promised l').
Proof.
  intros H E. unfold restrict in E. cbv zeta in E. destruct (isempty P _); [discriminate|]. injection E as <-. cbn [l_dom l_blk l_inner].
  set (c' := if dim ctx <? dim (l_dom P l) then extend P ctx (dim (l_dom P l)) else ctx).
  assert (DC : dim c' = dim (l_dom P l)) by (unfold c'; destruct (Nat.ltb_spec (dim ctx) (dim (l_dom P l))); [apply (L_extend_dim _ _ L)|]; lia). clearbody c'.
  split; [rewrite (L_inter_dim _ _ L); lia|]. split; [reflexivity|]. split; [reflexivity|]. intros Pr Ho. cbn in *. apply (HU_sub (l_dom P l)); [rewrite (L_inter_dim _ _ L); lia| |now apply Pr].
  intros y Hy. rewrite (L_inter _ _ L) in Hy by lia. apply andb_prop in Hy. tauto.
Qed.
Lemma restrict_all_leaves ctx level ls : dim ctx <= level -> Forall (deepleaf level) ls -> Forall (deepleaf level) (restrict_all P ctx ls).
Proof.
  intros H F. unfold restrict_all. apply Forall_flat_map. eapply Forall_impl; [|exact F]. intros l [(I & (b & B & Kb) & Pr) D]. destruct (restrict P ctx l) as [l'|] eqn:E; cbn [list_of]; [|constructor].
  destruct (restrict_dim ctx l l' ltac:(lia) E) as (D' & B' & I' & Pr'). constructor; [|constructor]. split; [|lia]. split; [congruence|]. split; [|now apply Pr']. exists b. rewrite D'. split; [congruence|exact Kb].
Qed.
Notation N level := (node true level (deepleaf level)).
Lemma restrict_inner_node level ls : Forall (N level) ls -> Forall (N level) (restrict_inner P ls).
Proof.
  intro F. unfold restrict_inner. apply Forall_flat_map. eapply Forall_impl; [|exact F]. intros l Hl.
  assert (R : Forall (deepleaf level) (restrict_all P (l_dom P l) (l_inner P l))) by (destruct Hl as (_ & D & I & _); apply restrict_all_leaves; [lia|exact I]).
  destruct (restrict_all P (l_dom P l) (l_inner P l)); [constructor|]. constructor; [|constructor]. now apply set_inner_node.
Qed.
Lemma specialize_node level scalar ls r : specialize P scaldims level scalar ls = Some r -> Forall (N level) ls -> Forall (N level) r.
Proof.
  intros E F. unfold specialize in E. apply obind_some in E as (r1 & E1 & E). apply obind_some in E as (r2 & E2 & E). injection E as <-.
  assert (F1 : Forall (N level) r1).
  { unfold decompose_inner in E1. eapply oconcat_forall; [|exact E1|exact F]. intros a b Ha Hb. cbv beta in Hb. destruct (length (l_inner P a) <=? 1); [injection Hb as <-; constructor; [exact Ha|constructor]|].
    apply obind_some in Hb as (cs & Hc & Hb). injection Hb as <-. apply Forall_map. apply (components_forall (deepleaf level)) in Hc; [|apply Ha].
    eapply Forall_impl; [|exact Hc]. intros c Hcc. now apply set_inner_node. }
  assert (F2 : Forall (N level) r2).
  { eapply omap_forall; [|exact E2|exact F1]. intros a b Ha Hb. unfold specialize1 in Hb. destruct (l_inner P a) as [|i [|? ?]] eqn:Ei; [discriminate| |injection Hb as <-; exact Ha].
    destruct (isconvex P (l_dom P i)); [|injection Hb as <-; exact Ha]. cbv zeta in Hb. destruct (isconvex P _); injection Hb as <-; [|exact Ha].
    apply set_dom_node; [exact Ha| |discriminate]. destruct Ha as (_ & D & I & _). rewrite Ei in I. pose proof (proj1 (Forall_cons_iff _ _ _) I) as [[_ Hi] _]. rewrite (L_project_dim _ _ L); lia. }
  unfold remove_empty. rewrite Forall_forall in *. intros l Hl. apply filter_In in Hl. now apply F2.
Qed.

(** *** strides, unrolling and the recursive calls *)
Definition rec_ok (rec : list loop -> option (list loop)) (level : nat) : Prop :=
  forall g r, Forall leafK g -> rec g = Some r -> Forall (big (level - 1)) r.
Section Level.
Variable level scalar : nat.
Hypothesis Hpos : at_pos level scalar.
Hypothesis Hsome : some level.
Variable rec : dom -> nat -> nat -> list loop -> option (list loop).
Hypothesis Hrec : forall ctx g r, Forall (deepleaf level) g -> Forall (fun l => more P scaldims (S level) scalar l = true) g -> rec ctx (S level) scalar g = Some r -> Forall (big level) r.
Lemma stride_node l : o_strides o = true -> N level l -> N level (loop_stride P level l).
Proof.
  intros Hs (B & D & I & Pr). assert (SD := SL_lb_dim _ _ (HSL Hs)). unfold loop_stride. destruct (can_stride P (l_dom P l) level); cbn [negb]; [|repeat (split; [assumption|]); assumption].
  destruct (list_stride P _ level) as [[[s off] c]|].
  - rewrite B, Pr. apply mk; [rewrite SD; exact D|exact I].
  - destruct (fold_left _ _ _) as [[[x s] y] off]. cbv zeta. destruct (_ =? 1)%Z; [repeat (split; [assumption|]); assumption|]. rewrite B, Pr. apply mk; [rewrite SD; exact D|exact I].
Qed.
Notation Nu := (node false level (deepleaf level)).
Lemma strict_node l : N level l -> Nu l.
Proof. intros (B & D & I & Pr). split; [exact B|]. split; [exact D|]. split; [exact I|]. intro H. cbn in Pr. congruence. Qed.
Lemma unroll_node l : N level l -> Forall Nu (loop_unroll P level l).
Proof.
  intros H. pose proof (strict_node l H) as H'. destruct H as (B & D & I & Pr). unfold loop_unroll. destruct (can_unroll P (l_dom P l) level) as [[n lb]|] eqn:Eu; [|constructor; [exact H'|constructor]].
  apply Forall_flat_map. rewrite Forall_forall. intros i _. cbv zeta.
  assert (R : Forall (deepleaf level) (restrict_all P (fixed_offset P (l_dom P l) level lb (Z.of_nat i)) (l_inner P l))) by (apply restrict_all_leaves; [rewrite (L_fixed_dim _ _ L); lia|exact I]).
  destruct (restrict_all P _ _); [constructor|]. constructor; [|constructor]. split; [reflexivity|]. split; [cbn [l_dom]; rewrite (L_fixed_dim _ _ L); exact D|]. split; [exact R|]. intros _. cbn [l_dom]. rewrite <- D at 1. apply (HU_fixed _ n). rewrite D. exact Eu.
Qed.
Lemma runs_forall (X : loop -> Prop) t : forall ls grp, Forall X ls -> Forall X grp -> Forall (fun l => t l = true) grp ->
  Forall (fun p => Forall X (snd p) /\ (fst p = true -> Forall (fun l => t l = true) (snd p))) (runs P t grp ls).
Proof.
  induction ls as [|l ls IH]; intros grp HL HG HT; cbn [runs].
  - destruct grp; [constructor|]. constructor; [|constructor]. cbn [fst snd]. now split.
  - pose proof (proj1 (Forall_cons_iff _ _ _) HL) as [Hl Hls]. destruct (t l) eqn:T.
    + apply IH; [exact Hls|apply Forall_app; split; [exact HG|repeat constructor; exact Hl]|apply Forall_app; split; [exact HT|repeat constructor; exact T]].
    + apply Forall_app. split; [destruct grp; [constructor|]; constructor; [cbn [fst snd]; now split|constructor]|]. constructor; [cbn; split; [repeat constructor; exact Hl|discriminate]|]. apply IH; [exact Hls|constructor|constructor].
Qed.
Lemma recurse_inner_node l r : recurse_inner P scaldims o rec level scalar l = Some r -> Nu l -> node false level (big level) r.
Proof.
  intros E H. unfold recurse_inner in E. cbv zeta in E. set (l0 := if negb (level =? 0) && o_otl o then loop_otl P level l else l) in *.
  assert (H0 : Nu l0).
  { unfold l0. destruct (Nat.eqb_spec level 0) as [|Hl]; [exact H|]. destruct (o_otl o) eqn:Eo; [|exact H]. cbn [andb negb]. unfold loop_otl. destruct (is_otl P (l_dom P l) level) eqn:Ei; [|exact H]. destruct H as (B & D & I & _). rewrite B.
    split; [reflexivity|]. split; [exact D|]. split; [exact I|]. intros _. cbn [l_dom]. apply HU_otl; [reflexivity|lia|rewrite D; exact Ei]. }
  clearbody l0. clear H l. apply obind_some in E as (into & E1 & E). injection E as <-.
  assert (G : Forall (big level) into).
  { destruct H0 as (_ & _ & I & _). pose proof (runs_forall _ (more P scaldims (S level) scalar) _ [] I (Forall_nil _) (Forall_nil _)) as RF.
    revert E1 RF. generalize (runs P (more P scaldims (S level) scalar) [] (l_inner P l0)). intros rs E1 RF.
    assert (A : forall rs acc t s into, Forall (fun p => Forall (deepleaf level) (snd p) /\ (fst p = true -> Forall (fun l => more P scaldims (S level) scalar l = true) (snd p))) rs -> Forall (big level) acc ->
      forall ctx, recurse_runs P (rec ctx (S level) scalar) rs acc t s = Some into -> Forall (big level) into).
    { clear - level Hrec L HU_sub. induction rs as [|[[] g] rs IH]; intros acc t s into F HA ctx E; cbn [recurse_runs] in E.
      - destruct s; [discriminate|]. injection E as <-. exact HA.
      - apply obind_some in E as (l & E1 & E). pose proof (proj1 (Forall_cons_iff _ _ _) F) as [[Hg Hm] Hr]. cbn [fst snd] in *. specialize (Hrec ctx g l Hg (Hm eq_refl) E1).
        destruct l; [eapply IH; eassumption|]. eapply IH; [exact Hr| |exact E]. apply Forall_app. now split.
      - pose proof (proj1 (Forall_cons_iff _ _ _) F) as [[Hg _] Hr]. cbn [snd] in Hg. eapply IH; [exact Hr| |exact E]. apply Forall_app. split; [exact HA|]. eapply Forall_impl; [|exact Hg]. intro a. apply leaf_big. }
    eapply A; [exact RF|constructor|exact E1]. }
  destruct H0 as (B & D & _ & Pr). destruct l0. split; [exact B|]. split; [exact D|]. split; [exact G|exact Pr].
Qed.
Lemma loop_recurse_node const l r : loop_recurse P scaldims o rec level scalar const l = Some r -> N level l -> Forall (node false level (big level)) r.
Proof.
  intros E H. unfold loop_recurse in E. cbv zeta in E. set (l0 := if negb (level =? 0) && o_strides o && negb const then loop_stride P level l else l) in *.
  assert (H0 : N level l0).
  { unfold l0. pose proof (stride_node l) as SN. destruct (o_strides o); [|rewrite andb_false_r; exact H]. destruct (negb (level =? 0) && true && negb const); [|exact H]. now apply SN. }
  clearbody l0. destruct (_ && _).
  - pose proof (unroll_node l0 H0) as U. destruct (loop_unroll P level l0) as [|u us]; [discriminate|]. eapply omap_forall; [|exact E|exact U]. intros a b Ha Hb. eapply recurse_inner_node; eassumption.
  - apply obind_some in E as (x & E1 & E). injection E as <-. constructor; [|constructor]. eapply recurse_inner_node; [exact E1|now apply strict_node].
Qed.
Lemma nest_big fuel ctx ls r : dim ctx = level -> nest P fuel ctx (S level) ls = Some r -> Forall (deepleaf level) ls -> Forall (big level) r.
Proof.
  intros HC E F. unfold nest in E. apply obind_some in E as (ds & E1 & E). injection E as <-.
  assert (FD : Forall (deepleaf level) ds).
  { unfold disjoint in E1. eapply oconcat_forall; [|exact E1|exact F]. intros a b [(I & (bb & B & Kb) & Pr) D] Hb. unfold add_disjoint in Hb. destruct (isconvex P (l_dom P a)).
    - injection Hb as <-. constructor; [|constructor]. split; [|exact D]. split; [exact I|]. split; [now exists bb|exact Pr].
    - apply obind_some in Hb as (dd & Ed & Hb). injection Hb as <-. destruct (pieces_spec P Se L fuel) as [Hp _]. destruct (Hp _ _ Ed) as [HF _]. apply Forall_map.
      eapply Forall_impl; [|exact HF]. intros d [Hd _]. split; [split; [exact I|]; split; [exists bb; split; [exact B|]; cbn [l_dom]; rewrite Hd; exact Kb|intro; discriminate]|cbn [l_dom]; lia]. }
  apply Forall_flat_map. eapply Forall_impl; [|exact FD]. intros l [(I & (b & B & Kb) & Pr) D]. destruct (restrict P ctx l) as [p|] eqn:Ep; [|constructor].
  destruct (restrict_dim ctx l p ltac:(lia) Ep) as (D' & B' & I' & Pr'). constructor; [|constructor].
  assert (W : forall k q, S level + k <= S (dim (l_dom P p)) -> S level + k <= S (dim (l_dom P q)) -> each_loop okn q -> big level (wrap P (l_dom P p) (S level) k q)).
  { induction k as [|k IH]; intros q Hk Hd Hq; cbn [wrap]; [split; [exact Hq|lia]|]. assert (DP : dim (project P (l_dom P p) (S level + k)) = S level + k) by (apply (L_project_dim _ _ L); lia).
    apply IH; [lia|cbn [l_dom]; lia|]. constructor; [|cbn [l_inner]; constructor; [exact Hq|constructor]]. unfold okn. cbn [l_blk l_dom l_inner].
    split; [exists (dim (l_dom P l)), b; split; [exact Kb|lia]|]. split; [constructor; [lia|constructor]|intro; discriminate]. }
  apply W; [lia|lia|]. apply leaf_each. split; [congruence|]. split; [|now apply Pr']. exists b. rewrite D'. split; [congruence|exact Kb].
Qed.
Lemma backtrack_node fuel ls r : backtrack P fuel level ls = Some r -> Forall (node false level (big level)) ls -> Forall (node false level (big level)) r.
Proof.
  intros E F. unfold backtrack in E. eapply oconcat_forall; [|exact E|exact F]. intros t b Ht Hb. cbv beta in Hb.
  assert (M : Forall (node false level (big level)) (map (backtrack_inner P level (l_dom P t)) (l_inner P t))).
  { destruct Ht as (_ & D & I & _). apply Forall_map. eapply Forall_impl; [|exact I]. intros i [Ei Di]. unfold backtrack_inner. destruct (l_blk P i) as [bb|] eqn:Bi.
    - apply mk; [exact D|]. constructor; [|constructor]. split; [|cbn [l_dom]; exact Di]. inversion Ei as [l0 O _ E0]; subst l0. unfold okn in O. rewrite Bi in O. constructor; [unfold okn; cbn [l_blk l_dom l_inner]; split; [apply O|split; [constructor|intro; discriminate]]|constructor].
    - unfold project_loop. apply mk; [|constructor; [split; assumption|constructor]]. destruct (Nat.eqb_spec (dim (l_dom P i)) level); [assumption|now apply (L_project_dim _ _ L)]. }
  destruct (map (backtrack_inner P level (l_dom P t)) (l_inner P t)) as [|m ms]; [injection Hb as <-; constructor|].
  apply obind_some in Hb as (s & Es & Hb). apply (separate_node level (big level) false fuel _ s Es) in M. apply sort_perm in Hb. eapply perm_forall; eassumption.
Qed.
Lemma general_node fuel ls r : generate_general P scaldims o fuel rec level scalar ls = Some r -> Forall (N level) ls -> Forall (node false level (big level)) r.
Proof.
  intros E F. unfold generate_general in E. destruct (get_fl P o ls) as [first last]. cbv zeta in E. set (const := (0 <? level) && is_constant P level ls) in *. clearbody const.
  set (mrg := (_ <? first)%Z || _) in *. clearbody mrg. set (deeper := (_ <? last)%Z || _) in *. clearbody deeper.
  apply obind_some in E as (r1 & E1 & E). apply obind_some in E as (r2 & E2 & E). apply obind_some in E as (r3 & E3 & E). apply obind_some in E as (r4 & E4 & E). apply obind_some in E as (r5 & E5 & E).
  assert (F1 : Forall (N level) r1).
  { destruct const; [injection E1 as <-; now apply constant_node|]. destruct mrg; [eapply merge_node; eassumption|eapply separate_node; eassumption]. }
  assert (F2 : Forall (N level) (restrict_inner P r2)) by (apply restrict_inner_node; apply sort_perm in E2; eapply perm_forall; eassumption).
  assert (F3 : Forall (N level) r3) by (destruct (_ && _); [eapply specialize_node; eassumption|injection E3 as <-; exact F2]).
  assert (F4 : Forall (node false level (big level)) r4).
  { destruct (_ || deeper).
    - eapply oconcat_forall; [|exact E4|exact F3]. intros a b Ha Hb. eapply loop_recurse_node; eassumption.
    - eapply omap_forall; [|exact E4|exact F3]. intros t b (Bt & Dt & It & Pt) Hb. cbv beta in Hb. apply obind_some in Hb as (l & El & Hb). injection Hb as <-. apply mk; [exact Dt|]. eapply nest_big; [exact Dt|exact El|exact It]. }
  assert (F5 : Forall (node false level (big level)) r5).
  { destruct (o_strides o); [|injection E5 as <-; exact F4]. eapply omap_forall; [|exact E5|exact F4]. intros a b Ha Hb. unfold propagate1 in Hb.
    destruct (l_inner P a) as [|i [|? ?]] eqn:Ei; [discriminate| |injection Hb as <-; exact Ha]. destruct (isconvex P (l_dom P i)); [|injection Hb as <-; exact Ha]. cbv zeta in Hb.
    destruct (isconvex P _); injection Hb as <-; [|exact Ha]. pose proof Ha as (_ & D & I & _). rewrite Ei in I. pose proof (proj1 (Forall_cons_iff _ _ _) I) as [[_ Hi] _].
    assert (DP : dim (project P (l_dom P i) (dim (l_dom P a))) = dim (l_dom P a)) by (apply (L_project_dim _ _ L); lia).
    apply set_dom_node; [exact Ha|rewrite (L_inter_dim _ _ L); lia|]. intros _ y Hy. rewrite (L_inter _ _ L) in Hy by lia. apply andb_prop in Hy. tauto. }
  clear E1 E2 E3 E4 E5. destruct (_ && negb mrg); [eapply backtrack_node; eassumption|injection E as <-; exact F5].
Qed.
Lemma components_node fuel ls r : generate_components P scaldims o fuel rec level scalar ls = Some r -> Forall (N level) ls -> Forall (node false level (big level)) r.
Proof.
  intros E F. unfold generate_components in E. destruct (_ || _); [eapply general_node; eassumption|].
  apply obind_some in E as (cs & E1 & E). apply obind_some in E as (res & E2 & E). injection E as <-. apply (components_forall (N level)) in E1; [|exact F].
  apply combine_node. eapply oconcat_forall; [|exact E2|exact E1]. intros a b Ha Hb. eapply general_node; eassumption.
Qed.
End Level.

(** *** scalar dimensions *)
Lemma bubble_perm {A} (gt : A -> A -> bool) : forall rest cur l b, bubble gt cur rest = (l, b) -> Permutation l (cur :: rest).
Proof.
  induction rest as [|n rest IH]; intros cur l b E; cbn [bubble] in E; [injection E as <- <-; reflexivity|]. destruct (gt cur n).
  - destruct (bubble gt cur rest) as [l' b'] eqn:E'. injection E as <- <-. rewrite (IH _ _ _ E'). apply perm_swap.
  - destruct (bubble gt n rest) as [l' b'] eqn:E'. injection E as <- <-. now rewrite (IH _ _ _ E').
Qed.
Lemma bubble_sort_perm {A} (gt : A -> A -> bool) : forall fuel ls r, bubble_sort fuel gt ls = Some r -> Permutation r ls.
Proof.
  induction fuel as [|f IH]; intros [|a ls] r E; try discriminate. cbn [bubble_sort] in E. destruct (bubble gt a ls) as [l b] eqn:Eb. apply bubble_perm in Eb.
  destruct b; [rewrite (IH _ _ E); exact Eb|injection E as <-; exact Eb].
Qed.
Lemma take_while_forall {A} (X : A -> Prop) p : forall l a b, take_while p l = (a, b) -> Forall X l -> Forall (fun x => X x /\ p x = true) a /\ Forall X b.
Proof.
  induction l as [|x l IH]; intros a b E F; cbn [take_while] in E; [injection E as <- <-; split; constructor|]. inversion F; subst. destruct (p x) eqn:Px; [|injection E as <- <-; split; [constructor|assumption]].
  destruct (take_while p l) as [a' b'] eqn:E'. injection E as <- <-. destruct (IH a' b' eq_refl ltac:(assumption)). split; [constructor; auto|assumption].
Qed.
Lemma groups_big level scalar sn (rec : list loop -> option (list loop)) : 
  (forall g r, Forall (deepleaf (level - 1)) g -> Forall (fun l => more P scaldims level sn l = true) g -> rec g = Some r -> Forall (big (level - 1)) r) ->
  forall fuel ls res pending r, Forall (deepleaf (level - 1)) ls -> Forall (big (level - 1)) res -> Forall (big (level - 1)) pending ->
  scalar_groups P scaldims fuel rec level scalar sn ls res pending = Some r -> Forall (big (level - 1)) r.
Proof.
  intro Hrec. induction fuel as [|f IH]; intros ls res pending r F HR HP E; [discriminate|]. cbn [scalar_groups] in E. destruct ls as [|ref ls]; [injection E as <-; apply Forall_app; now split|].
  destruct (take_while _ ls) as [grp next] eqn:ET. pose proof (proj1 (Forall_cons_iff _ _ _) F) as [Hf Hls]. destruct (take_while_forall _ _ _ _ _ ET Hls) as [HG HN].
  assert (HG1 : Forall (deepleaf (level - 1)) grp) by (eapply Forall_impl; [|exact HG]; intros a [A _]; exact A).
  destruct (more P scaldims level sn ref) eqn:M.
  - apply obind_some in E as (l & El & E). assert (HL : Forall (big (level - 1)) l).
    { apply (Hrec (ref :: grp)); [now constructor| |exact El]. constructor; [exact M|]. eapply Forall_impl; [|exact HG]. intros a [_ A]. apply andb_true_iff in A. apply A. }
    destruct l; [eapply IH; [exact HN|exact HR|exact HP|exact E]|]. eapply IH; [exact HN| | |exact E]; [apply Forall_app; now split|constructor].
  - eapply IH; [exact HN| | |exact E].
    + apply Forall_app. split; [exact HR|]. constructor; [now apply leaf_big|constructor].
    + eapply Forall_impl; [|exact HG1]. intro a. apply leaf_big.
Qed.

Lemma sort_nil level r : sort P level [] = Some r -> r = [].
Proof. intro H. apply sort_perm in H. apply Permutation_sym in H. now apply Permutation_nil in H. Qed.
Lemma general_nil fuel rec level scalar r : generate_general P scaldims o fuel rec level scalar [] = Some r -> r = [].
Proof.
  intro E. unfold generate_general in E. destruct (get_fl P o []) as [first last]. cbv zeta in E. set (const := (0 <? level) && is_constant P level []) in *. clearbody const.
  set (mrg := (_ <? first)%Z || _) in *. clearbody mrg. set (deeper := (_ <? last)%Z || _) in *. clearbody deeper.
  apply obind_some in E as (r1 & E1 & E). apply obind_some in E as (r2 & E2 & E). apply obind_some in E as (r3 & E3 & E). apply obind_some in E as (r4 & E4 & E). apply obind_some in E as (r5 & E5 & E).
  assert (r1 = []) as -> by (destruct const, mrg; cbn in E1; congruence). apply sort_nil in E2. subst r2. cbn [restrict_inner flat_map] in E3.
  assert (r3 = []) as -> by (destruct (_ && _); cbn in E3; congruence). assert (r4 = []) as -> by (destruct (_ || deeper); cbn in E4; congruence).
  assert (r5 = []) as -> by (destruct (o_strides o); cbn in E5; congruence). clear E1 E3 E4 E5. destruct (o_backtrack o && _ && deeper && negb mrg); cbn in E; congruence.
Qed.
Lemma components_nil fuel rec level scalar r : generate_components P scaldims o fuel rec level scalar [] = Some r -> r = [].
Proof. unfold generate_components. cbn [length]. replace (0 <=? 1) with true by reflexivity. rewrite orb_true_r. apply general_nil. Qed.

Lemma restricted_big : forall fuel level scalar ls r, at_pos (level - 1) scalar -> Forall (deepleaf (level - 1)) ls ->
  (0 < level -> Forall (fun l => more P scaldims level scalar l = true) ls) ->
  generate_restricted P scaldims o fuel level scalar ls = Some r -> Forall (big (level - 1)) r.
Proof.
  induction fuel as [|f IH]; intros level scalar ls r Hat F Hm E; [discriminate|]. cbn [generate_restricted] in E.
  destruct (level_is_constant scaldims level scalar) eqn:Ec.
  - unfold generate_scalar in E. apply obind_some in E as (sorted & E1 & E). cbv zeta in E. unfold scalar_sort in E1. apply bubble_sort_perm in E1.
    destruct level as [|n]; [discriminate|]. replace (S n - 1) with n in * by lia. replace (S n + scalar - 1) with (n + scalar) in E by lia.
    pose proof (groups_big (S n) scalar (scalar + scaldim scaldims (n + scalar)) (generate_restricted P scaldims o f (S n) (scalar + scaldim scaldims (n + scalar)))) as G.
    replace (S n - 1) with n in G by lia. eapply G; [| | | |exact E]; try constructor.
    + intros g r0 Hg Hmg E0. specialize (IH (S n) (scalar + scaldim scaldims (n + scalar)) g r0). replace (S n - 1) with n in IH by lia. apply IH; auto. apply (run_pos kinds _ (le_n _)); [exact Hat|reflexivity].
    + eapply perm_forall; eassumption.
  - assert (HP : at_pos level scalar /\ Forall (deepleaf level) ls).
    { destruct level as [|n]; [split; assumption|]. replace (S n - 1) with n in Hat, F by lia. rewrite (level_const kinds _ (le_n _)) in Ec. split; [now apply at_pos_next|].
      specialize (Hm ltac:(lia)). rewrite Forall_forall in *. intros l Hl. destruct (F l Hl) as [Lf Dl]. split; [exact Lf|]. specialize (Hm l Hl).
      unfold more in Hm. apply orb_prop in Hm as [Hm|Hm]; apply Nat.leb_le in Hm; [|exact Hm]. rewrite (nbs kinds) in Hm. pose proof (at_pos_nonscalar kinds n scalar Hat Ec ltac:(lia)) as Hc.
      destruct Lf as (_ & (b & _ & Kb) & _). specialize (HK _ _ Kb). lia. }
    destruct HP as [Hpos HD]. destruct ls as [|l0 ls0] eqn:Els.
    { cbn [project_all map] in E. apply components_nil in E. subst r. constructor. }
    rewrite <- Els in *. assert (SM : some level).
    { rewrite Els in HD. pose proof (proj1 (Forall_cons_iff _ _ _) HD) as [[(_ & (b & _ & Kb) & _) Hd] _]. exists (dim (l_dom P l0)), b. now split. }
    assert (G : Forall (node false level (big level)) r).
    { eapply (components_node level scalar); [|exact E|].
      - intros ctx g r0 Hg Hmg E0. unfold restricted_or_stop in E0. destruct (Z.leb_spec 0 (o_stop o)) as [Hs|_]; [lia|]. cbn [andb] in E0.
        specialize (IH (S level) scalar g r0). replace (S level - 1) with level in IH by lia. now apply IH.
      - unfold project_all. apply Forall_map. eapply Forall_impl; [|exact HD]. intros l Hl. unfold project_loop. apply mk; [|constructor; [exact Hl|constructor]].
        destruct (Nat.eqb_spec (dim (l_dom P l)) level); [assumption|]. apply (L_project_dim _ _ L). apply Hl. }
    eapply Forall_impl; [|exact G]. intros a Ha. apply (big_le _ level); [lia|]. now apply node_big.
Qed.

(** *** simplification and the whole program *)
Definition okd (l : loop) : Prop :=
  match l_blk P l with Some b => K (dim (l_dom P l)) b | None => exists d b, K d b /\ dim (l_dom P l) <= d end /\
  Forall (fun i => dim (l_dom P l) <= dim (l_dom P i)) (l_inner P l).
Lemma okn_okd l : each_loop okn l -> each_loop okd l.
Proof.
  induction l as [d otl st blk inner IH] using loop_ind'. intro H. inversion H as [l0 (A & B & _) I E0]. subst l0. constructor; [now split|]. cbn [l_inner] in *. rewrite Forall_forall in *. intros a Ha. apply IH; auto.
Qed.
Lemma simplify_each fuel l : forall ctx r, each_loop okd l -> dim ctx <= dim (l_dom P l) -> simplify1 P fuel ctx l = Some r ->
  Forall (fun x => each_loop okd x /\ dim (l_dom P x) = dim (l_dom P l)) r.
Proof.
  induction l as [d otl st blk inner IH] using loop_ind'. intros ctx r He Hd E. rewrite simplify1_eq in E. cbv zeta in E. cbn [l_dom] in Hd. 
  inversion He as [l0 [O1 O2] OI E0]. subst l0. cbn [l_blk l_dom l_inner] in O1, O2, OI.
  set (d1 := if isconvex P d then d else simplify_union P d) in *. assert (D1 : dim d1 = dim d) by (unfold d1; destruct (isconvex P d); [reflexivity|apply (L_su_dim _ _ L)]). clearbody d1.
  apply obind_some in E as (parts & E1 & E).
  assert (FP : Forall (fun p => dim (fst (fst p)) = dim d) parts).
  { destruct (isconvex P d1); [injection E1 as <-; repeat constructor; exact D1|]. apply obind_some in E1 as (ds & Ed & E1). injection E1 as <-. destruct (pieces_spec P Se L fuel) as [Hp _].
    destruct (Hp _ _ Ed) as [HF _]. apply Forall_map. eapply Forall_impl; [|exact HF]. intros x [Hx _]. cbn [fst]. congruence. }
  eapply oconcat_forall; [|exact E|exact FP]. clear E E1 FP parts. intros [[x ot'] st'] b Hx E. cbn [fst] in Hx. unfold part in E. cbv zeta in E.
  assert (DE : dim (extend P ctx (dim x)) = dim x) by (apply (L_extend_dim _ _ L); lia).
  destruct (never_integral P _); [injection E as <-; constructor|]. apply obind_some in E as (ins & Ei & E).
  assert (FI : Forall (fun y => each_loop okd y /\ dim d <= dim (l_dom P y)) ins).
  { eapply (oconcat_forall _ (fun a => In a inner)); [|exact Ei|rewrite Forall_forall; auto]. intros a r' Ha Er. rewrite Forall_forall in IH, O2, OI. cbn [l_dom] in O2.
    specialize (O2 a Ha). eapply Forall_impl; [|eapply (IH a Ha); [apply OI, Ha| |exact Er]].
    - intros y [Y1 Y2]. split; [exact Y1|lia].
    - rewrite (L_inter_dim _ _ L); lia. }
  assert (G : each_loop okd (Loop (gist P x (extend P ctx (dim x))) ot' st' blk ins) /\ dim (l_dom P (Loop (gist P x (extend P ctx (dim x))) ot' st' blk ins)) = dim d).
  { assert (DG : dim (gist P x (extend P ctx (dim x))) = dim d) by (rewrite (L_gist_dim _ _ L); lia). split; [|exact DG]. constructor.
    - unfold okd. cbn [l_blk l_dom l_inner]. rewrite DG. split; [exact O1|]. eapply Forall_impl; [|exact FI]. intros y [_ Y]. exact Y.
    - cbn [l_inner]. eapply Forall_impl; [|exact FI]. intros y [Y _]. exact Y. }
  cbn [l_dom]. destruct ins as [|i ins]; [destruct blk|]; injection E as <-; [|constructor|]; (constructor; [exact G|constructor]).
Qed.

Lemma generate_big fuel ctx ls r : dim ctx = 0 -> Forall leafK ls -> generate P scaldims o fuel ctx ls = Some r -> Forall (big 0) r.
Proof.
  intros HC F E1. unfold generate in E1.
  assert (FR : Forall (deepleaf 0) (restrict_all P ctx ls)) by (apply restrict_all_leaves; [lia|]; eapply Forall_impl; [|exact F]; intros a Ha; split; [exact Ha|lia]).
  destruct (restrict_all P ctx ls) as [|l' ls']; [injection E1 as <-; constructor|]. unfold restricted_or_stop in E1. destruct (Z.leb_spec 0 (o_stop o)) as [Hs|_]; [lia|]. cbn [andb] in E1.
  pose proof (restricted_big fuel 0 0 (l' :: ls') r) as RB. change (0 - 1) with 0 in RB. apply RB; [reflexivity|exact FR|lia|exact E1].
Qed.
Theorem generate_each fuel ctx ls r : dim ctx = 0 -> Forall leafK ls -> program_generate P scaldims o fuel ctx ls = Some r -> Forall (each_loop okd) r.
Proof.
  intros HC F E. unfold program_generate in E. destruct ls as [|l0 ls]; [injection E as <-; constructor|]. revert F E. generalize (l0 :: ls). clear l0 ls. intros ls F E.
  apply obind_some in E as (res & E1 & E). pose proof (generate_big fuel ctx ls res HC F E1) as G.
  destruct (o_nosimplify o); [injection E as <-; eapply Forall_impl; [|exact G]; intros a [A _]; now apply okn_okd|].
  unfold simplify in E. eapply oconcat_forall; [|exact E|exact G]. intros a b [Ha Da] Eb. eapply Forall_impl; [|apply (simplify_each fuel a ctx b (okn_okd a Ha)); [lia|exact Eb]]. intros x [X _]. exact X.
Qed.
End From.
