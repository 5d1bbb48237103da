(** Without -strides the generator makes no loops with strides. *)
From Coq Require Import ZArith List Bool Arith Lia Permutation.
From Verif Require Import LoopModel LoopSpec LoopLists LoopCount LoopKeys LoopGen LoopSimplify LoopFrom.
Import ListNotations.
Local Arguments Nat.ltb : simpl never.
Local Arguments Nat.leb : simpl never.
Local Arguments Nat.eqb : simpl never.
Local Arguments Nat.sub : simpl never.

Section NoStride.
Variable P : Poly.
Variable scaldims : list nat.
Variable o : options.
Hypothesis off : o_strides o = false.
Notation dom := (dom P).
Notation loop := (loop P).
Notation Loop := (@Loop P).
Definition plain (l : loop) : Prop := each_loop (fun l => l_st P l = None) l.
Lemma plain_mk d ot blk inner : Forall plain inner -> plain (Loop d ot None blk inner).
Proof. intro I. constructor; [reflexivity|exact I]. Qed.
Lemma plain_inv l : plain l -> l_st P l = None /\ Forall plain (l_inner P l).
Proof. intro H. inversion H; subst. now split. Qed.
Lemma set_inner_plain l inner : plain l -> Forall plain inner -> plain (set_inner P l inner).
Proof. intros H I. apply plain_inv in H. destruct l as [d ot st b i]. cbn in *. destruct H as [-> _]. now apply plain_mk. Qed.
Lemma set_dom_plain l d : plain l -> plain (set_dom P l d).
Proof. intros H. apply plain_inv in H. destruct l as [d' ot st b i]. cbn in *. destruct H as [-> I]. now apply plain_mk. Qed.
Lemma add_disjoint_plain fuel l r : add_disjoint P fuel l = Some r -> plain l -> Forall plain r.
Proof.
  intros E H. unfold add_disjoint in E. destruct (isconvex P (l_dom P l)); [injection E as <-; constructor; [exact H|constructor]|].
  apply obind_some in E as (ds & Ed & E). injection E as <-. apply Forall_map. rewrite Forall_forall. intros d _. apply plain_mk. apply plain_inv in H. apply H.
Qed.
Lemma disjoint_plain fuel ls r : disjoint P fuel ls = Some r -> Forall plain ls -> Forall plain r.
Proof. intros E H. eapply oconcat_forall; [|exact E|exact H]. intros a b Ha Hb. eapply add_disjoint_plain; eassumption. Qed.
Lemma combine_plain ls : Forall plain ls -> Forall plain (combine P ls).
Proof.
  destruct ls as [|l ls]; intro H; [constructor|]. pose proof (proj1 (Forall_cons_iff _ _ _) H) as [H1 H2]. clear H. cbn [combine]. revert l H1. induction H2 as [|a r Ha Hr IH]; intros l Hl; cbn [combine_with]; [constructor; [exact Hl|constructor]|].
  destruct (lazy_equal P (l_dom P l) (l_dom P a)); [|constructor; [exact Hl|now apply IH]]. apply IH. apply set_inner_plain; [exact Hl|]. apply Forall_app. split; now apply plain_inv.
Qed.
Lemma sep_Q_plain fuel l q r : sep_Q P fuel l q = Some r -> plain l -> plain q -> Forall plain r.
Proof.
  intros E Hl Hq. apply plain_inv in Hl, Hq. unfold sep_Q in E. cbv zeta in E. apply obind_some in E as (both & E1 & E). apply obind_some in E as (only & E2 & E). injection E as <-.
  apply Forall_app. split.
  - eapply ifs; [exact E1|]. intros r Er. eapply add_disjoint_plain; [exact Er|]. apply plain_mk. apply Forall_app. split; [apply Hq|apply Hl].
  - eapply ifs; [exact E2|]. intros r Er. eapply add_disjoint_plain; [exact Er|]. apply plain_mk. apply Hq.
Qed.
Lemma separate_plain fuel ls r : separate P fuel ls = Some r -> Forall plain ls -> Forall plain r.
Proof.
  intros E H. unfold separate in E. apply combine_plain in H. destruct (combine P ls) as [|l [|l' rest]]; [injection E as <-; constructor| |].
  - eapply disjoint_plain; eassumption.
  - pose proof (proj1 (Forall_cons_iff _ _ _) H) as [Hl Hr]. clear H.
    assert (G : forall ls acc r, Forall plain ls -> Forall plain (fst acc) -> sep_all P fuel acc ls = Some r -> Forall plain r).
    { clear. induction ls as [|a ls IH]; intros [res U] r H HR E; cbn [sep_all] in E; [injection E as <-; exact HR|].
      apply obind_some in E as ([res' U'] & E1 & E). pose proof (proj1 (Forall_cons_iff _ _ _) H) as [Ha Hls]. cbn [fst snd] in *. unfold sep_step in E1. cbv zeta in E1.
      apply obind_some in E1 as (temp & T1 & E1). apply obind_some in E1 as (new & T2 & E1). injection E1 as <- <-.
      eapply IH; [exact Hls| |exact E]; cbn [fst snd]. apply Forall_app. split.
      + eapply oconcat_forall; [|exact T1|exact HR]. intros q b Hq Hb. eapply sep_Q_plain; [exact Hb|exact Ha|exact Hq].
      + eapply ifs; [exact T2|]. intros w Ew. eapply add_disjoint_plain; [exact Ew|]. apply plain_mk. now apply plain_inv. }
    eapply G; [exact Hr| |exact E]; cbn [fst snd]. constructor; [|constructor]. apply plain_mk. now apply plain_inv.
Qed.
Lemma concat_inner_plain ls : Forall plain ls -> Forall plain (concat_inner P ls).
Proof. intro H. unfold concat_inner. apply Forall_flat_map. eapply Forall_impl; [|exact H]. intros a Ha. now apply plain_inv. Qed.
Lemma merge_plain fuel level ls r : merge P fuel o level ls = Some r -> Forall plain ls -> Forall plain r.
Proof.
  intros E H. unfold merge in E. destruct ls as [|l ls]; [injection E as <-; constructor|].
  destruct (match ls with [] => isconvex P (l_dom P l) | _ => false end); [injection E as <-; inversion H; subst; constructor; [assumption|constructor]|].
  cbv zeta in E. pose proof (concat_inner_plain (l :: ls) H) as I. destruct (_ && is_bounded P (union_doms P l ls) level).
  - assert (G : forall fuel s res r, Forall plain res -> merge_split P fuel o (union_doms P l ls) (concat_inner P (l :: ls)) s res = Some r -> Forall plain r).
    { clear E r. induction fuel0 as [|f IH]; intros s res r Hr E; [discriminate|]. cbn [merge_split] in E.
      assert (A : forall t, Forall plain (if isempty P (bounding_domain P o (intersection P t (union_doms P l ls))) then res else
              Loop (bounding_domain P o (intersection P t (union_doms P l ls))) false None None (concat_inner P (l :: ls)) :: res)).
      { intros t. destruct (isempty P (bounding_domain P o (intersection P t (union_doms P l ls)))); [exact Hr|]. constructor; [|exact Hr]. now apply plain_mk. }
      destruct (isconvex P s); [injection E as <-; now apply A|]. destruct (cut_first P s) as [[f1 f2]|] eqn:Ec; [|discriminate]. eapply IH; [apply A|exact E]. }
    eapply G; [|exact E]. constructor.
  - injection E as <-. constructor; [|constructor]. now apply plain_mk.
Qed.
Lemma constant_plain ls : Forall plain ls -> Forall plain (constant P ls).
Proof. intro H. destruct ls as [|l ls]; [constructor|]. cbn [constant]. constructor; [|constructor]. apply plain_mk. now apply concat_inner_plain. Qed.
Lemma restrict_plain ctx l l' : restrict P ctx l = Some l' -> plain l -> plain l'.
Proof.
  intros E H. apply plain_inv in H. unfold restrict in E. cbv zeta in E. destruct (isempty P _); [discriminate|]. injection E as <-. destruct H as [St I]. rewrite ?St. now apply plain_mk.
Qed.
Lemma restrict_all_plain ctx ls : Forall plain ls -> Forall plain (restrict_all P ctx ls).
Proof.
  intro F. unfold restrict_all. apply Forall_flat_map. eapply Forall_impl; [|exact F]. intros l Hl. destruct (restrict P ctx l) as [l'|] eqn:E; cbn [list_of]; [|constructor].
  constructor; [eapply restrict_plain; eassumption|constructor].
Qed.
Lemma restrict_inner_plain ls : Forall plain ls -> Forall plain (restrict_inner P ls).
Proof.
  intro F. unfold restrict_inner. apply Forall_flat_map. eapply Forall_impl; [|exact F]. intros l Hl.
  pose proof (restrict_all_plain (l_dom P l) _ (proj2 (plain_inv l Hl))) as R.
  destruct (restrict_all P (l_dom P l) (l_inner P l)); [constructor|]. constructor; [|constructor]. now apply set_inner_plain.
Qed.
Lemma specialize_plain level scalar ls r : specialize P scaldims level scalar ls = Some r -> Forall plain ls -> Forall plain r.
Proof.
  intros E F. unfold specialize in E. apply obind_some in E as (r1 & E1 & E). apply obind_some in E as (r2 & E2 & E). injection E as <-.
  assert (F1 : Forall plain r1).
  { unfold decompose_inner in E1. eapply oconcat_forall; [|exact E1|exact F]. intros a b Ha Hb. cbv beta in Hb. destruct (length (l_inner P a) <=? 1); [injection Hb as <-; constructor; [exact Ha|constructor]|].
    apply obind_some in Hb as (cs & Hc & Hb). injection Hb as <-. apply Forall_map. apply (components_forall P plain) in Hc; [|now apply plain_inv].
    eapply Forall_impl; [|exact Hc]. intros c Hcc. now apply set_inner_plain. }
  assert (F2 : Forall plain r2).
  { eapply omap_forall; [|exact E2|exact F1]. intros a b Ha Hb. unfold specialize1 in Hb. destruct (l_inner P a) as [|i [|? ?]] eqn:Ei; [discriminate| |injection Hb as <-; exact Ha].
    destruct (isconvex P (l_dom P i)); [|injection Hb as <-; exact Ha]. cbv zeta in Hb. destruct (isconvex P _); injection Hb as <-; [|exact Ha]. now apply set_dom_plain. }
  unfold remove_empty. rewrite Forall_forall in *. intros l Hl. apply filter_In in Hl. now apply F2.
Qed.
Lemma stop_plain ctx ls : Forall plain ls -> Forall plain (stop P ctx ls).
Proof. intro F. unfold stop. apply Forall_map. eapply Forall_impl; [|exact F]. intros l Hl. now apply set_dom_plain. Qed.
Section Level.
Variable level scalar : nat.
Variable rec : dom -> nat -> nat -> list loop -> option (list loop).
Hypothesis Hrec : forall ctx g r, Forall plain g -> rec ctx (S level) scalar g = Some r -> Forall plain r.
Lemma unroll_plain l : plain l -> Forall plain (loop_unroll P level l).
Proof.
  intros H. unfold loop_unroll. destruct (can_unroll P (l_dom P l) level) as [[n lb]|]; [|constructor; [exact H|constructor]].
  apply Forall_flat_map. rewrite Forall_forall. intros i _. cbv zeta.
  pose proof (restrict_all_plain (fixed_offset P (l_dom P l) level lb (Z.of_nat i)) _ (proj2 (plain_inv l H))) as R.
  destruct (restrict_all P _ _); [constructor|]. constructor; [|constructor]. now apply plain_mk.
Qed.
Lemma recurse_inner_plain l r : recurse_inner P scaldims o rec level scalar l = Some r -> plain l -> plain r.
Proof.
  intros E H. unfold recurse_inner in E. cbv zeta in E. set (l0 := if negb (level =? 0) && o_otl o then loop_otl P level l else l) in *.
  assert (H0 : plain l0).
  { unfold l0. destruct (_ && _); [|exact H]. unfold loop_otl. destruct (is_otl P (l_dom P l) level); [|exact H]. destruct (plain_inv l H) as [St I]. rewrite ?St. now apply plain_mk. }
  clearbody l0. clear H l. apply obind_some in E as (into & E1 & E). injection E as <-. apply set_inner_plain; [exact H0|].
  apply plain_inv in H0. destruct H0 as [_ I]. pose proof (runs_forall P plain (more P scaldims (S level) scalar) _ [] I (Forall_nil _) (Forall_nil _)) as RF.
  revert E1 RF. generalize (runs P (more P scaldims (S level) scalar) [] (l_inner P l0)). intros rs E1 RF.
  assert (A : forall rs acc t s into, Forall (fun p => Forall plain (snd p) /\ (fst p = true -> Forall (fun l => more P scaldims (S level) scalar l = true) (snd p))) rs -> Forall plain acc ->
    forall ctx, recurse_runs P (rec ctx (S level) scalar) rs acc t s = Some into -> Forall plain into).
  { clear - Hrec. induction rs as [|[[] g] rs IH]; intros acc t s into F HA ctx E; cbn [recurse_runs] in E.
    - destruct s; [discriminate|]. injection E as <-. exact HA.
    - apply obind_some in E as (l & E1 & E). pose proof (proj1 (Forall_cons_iff _ _ _) F) as [[Hg Hm] Hr]. cbn [fst snd] in *. specialize (Hrec ctx g l Hg E1).
      destruct l; [eapply IH; [exact Hr|exact HA|exact E]|]. eapply IH; [exact Hr| |exact E]. apply Forall_app. now split.
    - pose proof (proj1 (Forall_cons_iff _ _ _) F) as [[Hg _] Hr]. cbn [snd] in Hg. eapply IH; [exact Hr| |exact E]. apply Forall_app. now split. }
  eapply A; [exact RF|constructor|exact E1].
Qed.
Lemma loop_recurse_plain const l r : loop_recurse P scaldims o rec level scalar const l = Some r -> plain l -> Forall plain r.
Proof.
  intros E H. unfold loop_recurse in E. cbv zeta in E. rewrite off, andb_false_r in E. cbn [andb] in E. destruct (_ && _).
  - pose proof (unroll_plain l H) as U. destruct (loop_unroll P level l) as [|u us]; [discriminate|]. eapply omap_forall; [|exact E|exact U]. intros a b Ha Hb. eapply recurse_inner_plain; eassumption.
  - apply obind_some in E as (x & E1 & E). injection E as <-. constructor; [|constructor]. eapply recurse_inner_plain; eassumption.
Qed.
Lemma nest_plain fuel ctx lev ls r : nest P fuel ctx lev ls = Some r -> Forall plain ls -> Forall plain r.
Proof.
  intros E F. unfold nest in E. apply obind_some in E as (ds & E1 & E). injection E as <-. apply disjoint_plain in E1; [|exact F].
  apply Forall_flat_map. eapply Forall_impl; [|exact E1]. intros l Hl. destruct (restrict P ctx l) as [p|] eqn:Ep; [|constructor]. constructor; [|constructor]. apply restrict_plain in Ep; [|exact Hl].
  generalize (l_dom P p) at 1. intro d. generalize (S (dim P (l_dom P p)) - lev)%nat at 1. revert Ep. clear. revert p.
  intros p Hp n. revert p Hp. induction n as [|k IH]; intros q Hq; cbn [wrap]; [exact Hq|]. apply IH. apply plain_mk. constructor; [exact Hq|constructor].
Qed.
Lemma backtrack_plain fuel ls r : backtrack P fuel level ls = Some r -> Forall plain ls -> Forall plain r.
Proof.
  intros E F. unfold backtrack in E. eapply oconcat_forall; [|exact E|exact F]. intros t b Ht Hb. cbv beta in Hb.
  assert (M : Forall plain (map (backtrack_inner P level (l_dom P t)) (l_inner P t))).
  { apply plain_inv in Ht. destruct Ht as (_ & I). apply Forall_map. eapply Forall_impl; [|exact I]. intros i Hi. unfold backtrack_inner. destruct (l_blk P i) as [bb|].
    - apply plain_mk. constructor; [|constructor]. apply plain_mk. constructor.
    - unfold project_loop. apply plain_mk. constructor; [exact Hi|constructor]. }
  destruct (map (backtrack_inner P level (l_dom P t)) (l_inner P t)) as [|m ms]; [injection Hb as <-; constructor|].
  apply obind_some in Hb as (s & Es & Hb). apply separate_plain in Es; [|exact M]. apply sort_perm in Hb. eapply perm_forall; eassumption.
Qed.
Lemma general_plain fuel ls r : generate_general P scaldims o fuel rec level scalar ls = Some r -> Forall plain ls -> Forall plain r.
Proof.
  intros E F. unfold generate_general in E. destruct (get_fl P o ls) as [first last]. cbv zeta in E. set (const := (0 <? level) && is_constant P level ls) in *. clearbody const.
  set (mrg := (_ <? first)%Z || _) in *. clearbody mrg. set (deeper := (_ <? last)%Z || _) in *. clearbody deeper. rewrite off in E.
  apply obind_some in E as (r1 & E1 & E). apply obind_some in E as (r2 & E2 & E). apply obind_some in E as (r3 & E3 & E). apply obind_some in E as (r4 & E4 & E). apply obind_some in E as (r5 & E5 & E).
  injection E5 as <-.
  assert (F1 : Forall plain r1).
  { destruct const; [injection E1 as <-; now apply constant_plain|]. destruct mrg; [eapply merge_plain; eassumption|eapply separate_plain; eassumption]. }
  assert (F2 : Forall plain (restrict_inner P r2)) by (apply restrict_inner_plain; apply sort_perm in E2; eapply perm_forall; eassumption).
  assert (F3 : Forall plain r3) by (destruct (_ && _); [eapply specialize_plain; eassumption|injection E3 as <-; exact F2]).
  assert (F4 : Forall plain r4).
  { destruct (_ || deeper).
    - eapply oconcat_forall; [|exact E4|exact F3]. intros a b Ha Hb. eapply loop_recurse_plain; eassumption.
    - eapply omap_forall; [|exact E4|exact F3]. intros t b Ht Hb. cbv beta in Hb. apply obind_some in Hb as (l & El & Hb). injection Hb as <-. apply plain_mk. eapply nest_plain; [exact El|now apply plain_inv]. }
  clear E1 E2 E3 E4. destruct (_ && negb mrg); [eapply backtrack_plain; eassumption|injection E as <-; exact F4].
Qed.
Lemma components_plain fuel ls r : generate_components P scaldims o fuel rec level scalar ls = Some r -> Forall plain ls -> Forall plain r.
Proof.
  intros E F. unfold generate_components in E. destruct (_ || _); [eapply general_plain; eassumption|].
  apply obind_some in E as (cs & E1 & E). apply obind_some in E as (res & E2 & E). injection E as <-. apply (components_forall P plain) in E1; [|exact F].
  apply combine_plain. eapply oconcat_forall; [|exact E2|exact E1]. intros a b Ha Hb. eapply general_plain; eassumption.
Qed.
End Level.
Lemma groups_plain (rec : list loop -> option (list loop)) level scalar sn : (forall g r, Forall plain g -> rec g = Some r -> Forall plain r) ->
  forall fuel ls res pending r, Forall plain ls -> Forall plain res -> Forall plain pending ->
  scalar_groups P scaldims fuel rec level scalar sn ls res pending = Some r -> Forall plain r.
Proof.
  intro Hrec. induction fuel as [|f IH]; intros ls res pending r F HR HP E; [discriminate|]. cbn [scalar_groups] in E. destruct ls as [|ref ls]; [injection E as <-; apply Forall_app; now split|].
  destruct (take_while _ ls) as [grp next] eqn:ET. pose proof (proj1 (Forall_cons_iff _ _ _) F) as [Hf Hls]. destruct (take_while_forall _ _ _ _ _ ET Hls) as [HG HN].
  assert (HG1 : Forall plain grp) by (eapply Forall_impl; [|exact HG]; intros a [A _]; exact A).
  destruct (more P scaldims level sn ref) eqn:M.
  - apply obind_some in E as (l & El & E). assert (HL : Forall plain l) by (apply (Hrec (ref :: grp)); [now constructor|exact El]).
    destruct l; [eapply IH; [exact HN|exact HR|exact HP|exact E]|]. eapply IH; [exact HN| | |exact E]; [apply Forall_app; now split|constructor].
  - eapply IH; [exact HN| | |exact E]; [|exact HG1]. apply Forall_app. split; [exact HR|]. constructor; [exact Hf|constructor].
Qed.
Lemma restricted_plain : forall fuel level scalar ls r, Forall plain ls -> generate_restricted P scaldims o fuel level scalar ls = Some r -> Forall plain r.
Proof.
  induction fuel as [|f IH]; intros level scalar ls r F E; [discriminate|]. cbn [generate_restricted] in E.
  destruct (level_is_constant scaldims level scalar).
  - unfold generate_scalar in E. apply obind_some in E as (sorted & E1 & E). cbv zeta in E. unfold scalar_sort in E1. apply bubble_sort_perm in E1.
    eapply groups_plain; [| | | |exact E]; try constructor; [|eapply perm_forall; eassumption]. intros g r0 Hg E0. eapply IH; eassumption.
  - eapply components_plain; [|exact E|].
    + intros ctx g r0 Hg E0. unfold restricted_or_stop in E0. destruct (_ && _); [injection E0 as <-; now apply stop_plain|eapply IH; eassumption].
    + unfold project_all. apply Forall_map. eapply Forall_impl; [|exact F]. intros l Hl. unfold project_loop. apply plain_mk. constructor; [exact Hl|constructor].
Qed.
Lemma simplify_plain fuel l : forall ctx r, plain l -> simplify1 P fuel ctx l = Some r -> Forall plain r.
Proof.
  induction l as [d otl st blk inner IH] using loop_ind'. intros ctx r He E. rewrite simplify1_eq in E. cbv zeta in E. apply plain_inv in He. destruct He as [St I]. cbn [l_st l_inner] in St, I. subst st.
  set (d1 := if isconvex P d then d else simplify_union P d) in *. clearbody d1.
  apply obind_some in E as (parts & E1 & E).
  assert (FP : Forall (fun p => snd p = None) parts).
  { destruct (isconvex P d1); [injection E1 as <-; repeat constructor|]. apply obind_some in E1 as (ds & Ed & E1). injection E1 as <-. apply Forall_map. rewrite Forall_forall. reflexivity. }
  eapply oconcat_forall; [|exact E|exact FP]. clear E E1 FP parts. intros [[x ot'] st'] b Hx E. cbn [snd] in Hx. subst st'. unfold part in E. cbv zeta in E.
  destruct (never_integral P _); [injection E as <-; constructor|]. apply obind_some in E as (ins & Ei & E).
  assert (FI : Forall plain ins).
  { eapply (oconcat_forall _ (fun a => In a inner)); [|exact Ei|rewrite Forall_forall; auto]. intros a r' Ha Er. rewrite Forall_forall in IH, I. eapply (IH a Ha); [now apply I|exact Er]. }
  pose proof (plain_mk (gist P x (extend P ctx (dim P x))) ot' blk ins FI) as G.
  destruct ins as [|i ins]; [destruct blk|]; injection E as <-; [|constructor|]; (constructor; [exact G|constructor]).
Qed.
Theorem generate_plain fuel ctx ls r : Forall plain ls -> program_generate P scaldims o fuel ctx ls = Some r -> Forall plain r.
Proof.
  intros F E. unfold program_generate in E. destruct ls as [|l0 ls]; [injection E as <-; constructor|]. revert F E. generalize (l0 :: ls). clear l0 ls. intros ls F E.
  apply obind_some in E as (res & E1 & E). unfold generate in E1. pose proof (restrict_all_plain ctx ls F) as FR.
  assert (G : Forall plain res).
  { destruct (restrict_all P ctx ls) as [|l' ls']; [injection E1 as <-; constructor|]. unfold restricted_or_stop in E1. destruct (_ && _); [injection E1 as <-; exact (stop_plain ctx _ FR)|eapply restricted_plain; eassumption]. }
  destruct (o_nosimplify o); [injection E as <-; exact G|].
  unfold simplify in E. eapply oconcat_forall; [|exact E|exact G]. intros a b Ha Eb. eapply simplify_plain; eassumption.
Qed.
End NoStride.
Lemma statements_plain P kinds ls : statement_loops P kinds ls -> Forall (plain P) ls.
Proof. intro H. eapply Forall_impl; [|exact H]. intros l (d & ot & b & -> & _). constructor; [reflexivity|constructor]. Qed.
