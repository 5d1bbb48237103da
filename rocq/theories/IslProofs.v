From Coq Require Import ZArith List Bool Arith String Ascii Lia.
From Verif Require Import CReader PprintSpec NamesModel NamesSpec NamesProofs IslModel IslSpec.
Import ListNotations.
Local Arguments Nat.ltb : simpl never.
Local Arguments Nat.leb : simpl never.
Local Arguments Nat.eqb : simpl never.

(** ** strings *)
Lemma append_assoc' a b c : append (append a b) c = append a (append b c).
Proof. induction a as [|x a IH]; cbn; [reflexivity|]. now rewrite IH. Qed.
Lemma append_nil_r' a : append a EmptyString = a.
Proof. induction a as [|x a IH]; cbn; [reflexivity|]. now rewrite IH. Qed.
Lemma prefix_self s : String.prefix s s = true.
Proof. induction s as [|c s IH]; cbn; [reflexivity|]. destruct (ascii_dec c c); [exact IH|contradiction]. Qed.
Lemma digit_not_us c : is_digit c = true -> c <> "_"%char.
Proof. intros H ->. discriminate H. Qed.
Lemma digits_no_us s a b : all_chars is_digit s = true -> s <> append a (String "_" b).
Proof.
  revert a. induction s as [|c s IH]; intros a H E; destruct a as [|c' a]; cbn in *; try discriminate.
  - injection E as -> ->. cbn in H. discriminate H.
  - injection E as -> ->. apply andb_true_iff in H as [_ H]. now apply (IH a H).
Qed.
(** the last underscore *)
Lemma suffix_inj a b s t : all_chars is_digit s = true -> all_chars is_digit t = true ->
  append a (String "_" s) = append b (String "_" t) -> a = b /\ s = t.
Proof.
  intros Hs Ht. revert b. induction a as [|c a IH]; intros b E; destruct b as [|c' b]; cbn in *.
  - injection E as ->. auto.
  - injection E as <- E. now destruct (digits_no_us s b t Hs).
  - injection E as -> E. symmetry in E. now destruct (digits_no_us t a s Ht).
  - injection E as <- E. destruct (IH b E) as [-> ->]. auto.
Qed.
Lemma default_inj i j : default_name i = default_name j -> i = j.
Proof. intros E. injection E as E. now apply dec_inj. Qed.
Lemma default_not_suffixed i b k : default_name i <> append b (append "_" (dec k)).
Proof.
  intros E. cbn in E. destruct b as [|c b]; cbn in E; [discriminate|]. injection E as <- E. exact (digits_no_us _ b _ (dec_digits i) E).
Qed.

(** ** counting *)
Definition base (sp : isl_space) (i : nat) : string := match nth i (sp_dims sp) None with Some s => s | None => default_name i end.
Lemma name_cases sp i : let n := count_same_name sp i (base sp i) in
  (n = 0 /\ iterator_name sp i = base sp i) \/ (0 < n /\ iterator_name sp i = append (base sp i) (append "_" (dec n))).
Proof.
  unfold iterator_name. change (match nth i (sp_dims sp) None with Some s => s | None => append "i" (dec i) end) with (base sp i). cbn zeta.
  destruct (Nat.eqb_spec (count_same_name sp i (base sp i)) 0); [left|right]; auto. split; [lia|auto].
Qed.
Definition same (x : string) (n : option string) : bool := match n with Some n => String.prefix x n | None => false end.
Lemma count_split sp i x : count_same_name sp i x = List.length (filter (same x) (map Some (sp_params sp))) + List.length (filter (same x) (firstn i (sp_dims sp))).
Proof. unfold count_same_name. rewrite filter_app, app_length. reflexivity. Qed.
Lemma firstn_split {A} (l : list A) i j : i <= j -> firstn j l = firstn i l ++ firstn (j - i) (skipn i l).
Proof.
  revert i j. induction l as [|a l IH]; intros [|i] [|j] H; cbn; auto; try lia.
  - now rewrite firstn_nil.
  - rewrite (IH i j) by lia. reflexivity.
Qed.
Lemma count_mono sp i j x : i <= j -> count_same_name sp i x <= count_same_name sp j x.
Proof. intros H. rewrite !count_split, (firstn_split (sp_dims sp) i j H), filter_app, app_length. lia. Qed.
Lemma count_step sp i x : nth_error (sp_dims sp) i = Some (Some x) -> count_same_name sp i x < count_same_name sp (S i) x.
Proof.
  intros H. rewrite !count_split, (firstn_split (sp_dims sp) i (S i)) by lia. rewrite filter_app, app_length.
  replace (S i - i) with 1 by lia. apply nth_error_split in H as (l1 & l2 & E & L). rewrite E. rewrite skipn_app, skipn_all2, <- L, Nat.sub_diag by lia.
  cbn. rewrite prefix_self. cbn. lia.
Qed.
Lemma count_param sp i x : In x (sp_params sp) -> 0 < count_same_name sp i x.
Proof.
  intros H. rewrite count_split. apply in_split in H as (l1 & l2 & ->). rewrite map_app, filter_app, app_length. cbn. rewrite prefix_self. cbn. lia.
Qed.
Lemma base_cases sp i : i < List.length (sp_dims sp) ->
  (exists x, nth_error (sp_dims sp) i = Some (Some x) /\ base sp i = x) \/ (nth_error (sp_dims sp) i = Some None /\ base sp i = default_name i).
Proof.
  intros H. unfold base. destruct (nth_error (sp_dims sp) i) as [o|] eqn:E; [|apply nth_error_None in E; lia].
  rewrite (nth_error_nth _ _ None E). destruct o; [left|right]; eauto.
Qed.
Lemma base_apart sp : names_safe sp -> forall i j, i < j -> j < List.length (sp_dims sp) -> base sp i = base sp j ->
  count_same_name sp i (base sp i) < count_same_name sp j (base sp j).
Proof.
  intros [_ _ U] i j L Hj E. destruct (base_cases sp i ltac:(lia)) as [(x & Ex & Bx)|[En Bn]].
  - rewrite <- E, Bx. pose proof (count_step sp i x Ex). pose proof (count_mono sp (S i) j x ltac:(lia)). lia.
  - destruct (base_cases sp j Hj) as [(y & Ey & By)|[Em Bm]].
    + exfalso. rewrite Bn, By in E. subst y. exact (U i j En L Ey).
    + rewrite Bn, Bm in E. apply default_inj in E. lia.
Qed.
Lemma base_not_suffixed sp : names_safe sp -> forall i j k, i < List.length (sp_dims sp) -> j < List.length (sp_dims sp) -> base sp i <> append (base sp j) (append "_" (dec k)).
Proof.
  intros [S1 S2 _] i j k Hi Hj E. destruct (base_cases sp i Hi) as [(x & Ex & Bx)|[_ Bx]]; rewrite Bx in E.
  - assert (G : given sp x) by (right; eapply nth_error_In; exact Ex). destruct (base_cases sp j Hj) as [(y & Ey & By)|[_ By]]; rewrite By in E.
    + apply (S1 x y k G); [right; eapply nth_error_In; exact Ey|exact E].
    + exact (S2 x j k G E).
  - exact (default_not_suffixed _ _ _ E).
Qed.
Lemma iterators_apart sp : names_safe sp -> forall i j, i < j -> j < List.length (sp_dims sp) -> iterator_name sp i <> iterator_name sp j.
Proof.
  intros S i j L Hj E. destruct (name_cases sp i) as [[Ni Ei]|[Ni Ei]], (name_cases sp j) as [[Nj Ej]|[Nj Ej]]; rewrite Ei, Ej in E.
  - pose proof (base_apart sp S i j L Hj E). lia.
  - eapply base_not_suffixed; [exact S| | |exact E]; lia.
  - symmetry in E. eapply base_not_suffixed; [exact S| | |exact E]; lia.
  - change (append "_" (dec ?n)) with (String "_" (dec n)) in E. cbn [append] in E. apply suffix_inj in E as [E1 E2]; try apply dec_digits.
    apply dec_inj in E2. pose proof (base_apart sp S i j L Hj E1). lia.
Qed.
Lemma iterator_no_param sp : names_safe sp -> forall i, i < List.length (sp_dims sp) -> ~ In (iterator_name sp i) (sp_params sp).
Proof.
  intros [S1 S2 _] i Hi H. destruct (name_cases sp i) as [[Ni Ei]|[Ni Ei]]; rewrite Ei in H.
  - pose proof (count_param sp i _ H). lia.
  - destruct (base_cases sp i Hi) as [(x & Ex & Bx)|[_ Bx]]; rewrite Bx in H.
    + eapply (S1 _ x _); [left; exact H|right; eapply nth_error_In; exact Ex|reflexivity].
    + eapply (S2 _ i _); [left; exact H|reflexivity].
Qed.
Definition iterators (sp : isl_space) : list string := map (iterator_name sp) (seq 0 (List.length (sp_dims sp))).
Lemma all_distinct sp : names_safe sp -> NoDup (sp_params sp) -> NoDup (iterators sp ++ sp_params sp).
Proof.
  intros S N. apply nodup_app; [|exact N|].
  - apply map_nodup; [|apply seq_NoDup]. intros a b Ha Hb E. apply in_seq in Ha, Hb. destruct (Nat.lt_trichotomy a b) as [L|[L|L]]; [|exact L|].
    + destruct (iterators_apart sp S a b L ltac:(lia) E).
    + destruct (iterators_apart sp S b a L ltac:(lia)). auto.
  - intros x Hx Hp. apply in_map_iff in Hx as (i & <- & Hi). apply in_seq in Hi. exact (iterator_no_param sp S i ltac:(lia) Hp).
Qed.
Lemma count_zero sp i x : (forall y, In y (sp_params sp) -> String.prefix x y = false) ->
  (forall j y, j < i -> nth_error (sp_dims sp) j = Some (Some y) -> String.prefix x y = false) -> count_same_name sp i x = 0.
Proof.
  intros Hp Hd. rewrite count_split. assert (forall l, (forall o, In o l -> same x o = false) -> List.length (filter (same x) l) = 0).
  { intros l H. induction l as [|o l IH]; cbn; [reflexivity|]. rewrite (H o ltac:(now left)). apply IH. intros p Hp'. apply H. now right. }
  rewrite !H; [reflexivity| |].
  - intros o Ho. apply In_nth_error in Ho as (j & Hj). destruct o as [y|]; [|reflexivity].
    assert (L : j < i). { assert (Lj : j < List.length (firstn i (sp_dims sp))) by (apply nth_error_Some; congruence). rewrite firstn_length in Lj. lia. }
    apply (Hd j y L). rewrite <- (firstn_skipn i (sp_dims sp)). rewrite nth_error_app1; [exact Hj|]. apply nth_error_Some. congruence.
  - intros o Ho. apply in_map_iff in Ho as (y & <- & Hy). cbn. now apply Hp.
Qed.
Lemma kept sp i x : nth_error (sp_dims sp) i = Some (Some x) -> (forall y, In y (sp_params sp) -> String.prefix x y = false) ->
  (forall j y, j < i -> nth_error (sp_dims sp) j = Some (Some y) -> String.prefix x y = false) -> nth_error (iterators sp) i = Some x.
Proof.
  intros E Hp Hd. assert (L : i < List.length (sp_dims sp)) by (apply nth_error_Some; congruence).
  unfold iterators. rewrite nth_error_map. replace (nth_error (seq 0 (List.length (sp_dims sp))) i) with (Some i).
  - cbn. f_equal. assert (B : base sp i = x) by (unfold base; now rewrite (nth_error_nth _ _ None E)).
    destruct (name_cases sp i) as [[_ ->]|[N _]]; [exact B|]. rewrite B, (count_zero sp i x Hp Hd) in N. lia.
  - symmetry. rewrite (nth_error_nth' _ 0) by (rewrite seq_length; lia). rewrite seq_nth by lia. reflexivity.
Qed.

(** ** tables *)
Section Tables.
Context {D : Type}.
Lemma set_all_frame (l : list string) : forall (ud ud' : udom D) t i, set_all ud t i l = Some ud' ->
  u_domains ud' = u_domains ud /\ u_n ud' = u_n ud /\ forall t', t' <> t -> u_name ud' t' = u_name ud t'.
Proof.
  induction l as [|s l IH]; intros ud ud' t i H; cbn in H; [injection H as <-; auto|].
  unfold ud_set_name in H. destruct (negb _); [discriminate|]. destruct (_ || _); [discriminate|]. cbn zeta in H. destruct (_ <? _); [|discriminate].
  apply IH in H as (A & B & C). cbn in *. split; [exact A|]. split; [exact B|]. intros t' N. rewrite (C t' N). unfold upd. destruct (Z.eqb_spec t' t); congruence.
Qed.
Lemma set_nth_app {A} (l1 : list A) a l2 b : set_nth (l1 ++ a :: l2) (List.length l1) b = l1 ++ b :: l2.
Proof. induction l1 as [|c l1 IH]; cbn; [reflexivity|]. now rewrite IH. Qed.
Lemma set_all_from (t : Z) (l : list string) : forall (ud : udom D) (done : list string),
  t = CLOOG_PARAM \/ t = CLOOG_ITER -> u_n ud t = List.length done + List.length l ->
  match u_name ud t with None => repeat None (u_n ud t) | Some tab => tab end = map Some done ++ repeat None (List.length l) ->
  exists ud', set_all ud t (List.length done) l = Some ud' /\ (l = [] -> ud' = ud) /\ (l <> [] -> u_name ud' t = Some (map Some (done ++ l))).
Proof.
  induction l as [|s l IH]; intros ud done Ht Hn Hu; cbn [set_all].
  - exists ud. repeat split. congruence.
  - cbn [List.length] in Hn. unfold ud_set_name.
    replace (negb _) with false by (destruct Ht as [-> | ->]; reflexivity).
    replace (_ || _)%bool with false by (symmetry; apply orb_false_iff; split; [apply Z.ltb_ge|apply Z.leb_gt]; lia).
    cbn zeta. replace (match u_name ud t with Some t0 => t0 | None => repeat None (u_n ud t) end) with (map Some done ++ repeat None (List.length (s :: l))) by (rewrite <- Hu; destruct (u_name ud t); reflexivity).
    rewrite Nat2Z.id. replace (_ <? _) with true by (symmetry; apply Nat.ltb_lt; rewrite app_length, map_length, repeat_length; cbn; lia).
    cbn [List.length repeat]. replace (set_nth (map Some done ++ None :: repeat None (List.length l)) (List.length done) (Some s)) with (map Some (done ++ [s]) ++ repeat None (List.length l)).
    2:{ pose proof (set_nth_app (map Some done) None (repeat None (List.length l)) (Some s)) as X. rewrite map_length in X. rewrite X, map_app, <- app_assoc. reflexivity. }
    match goal with |- exists _, set_all ?u _ _ _ = _ /\ _ => specialize (IH u (done ++ [s]) Ht) end. cbn [u_n u_name] in IH. rewrite app_length in IH. cbn [List.length] in IH.
    replace (List.length done + 1) with (S (List.length done)) in IH by lia. destruct IH as (ud' & E & A & B); [lia| |].
    + unfold upd. rewrite Z.eqb_refl. reflexivity.
    + exists ud'. split; [exact E|]. split; [discriminate|]. intros _. destruct l as [|s' l].
      * rewrite (A eq_refl). cbn. unfold upd. rewrite Z.eqb_refl, app_nil_r. reflexivity.
      * rewrite (B ltac:(discriminate)), <- app_assoc. reflexivity.
Qed.
Lemma set_all_new (t : Z) (l : list string) (ud : udom D) : t = CLOOG_PARAM \/ t = CLOOG_ITER -> u_n ud t = List.length l -> u_name ud t = None ->
  exists ud', set_all ud t 0 l = Some ud' /\ names_are ud' t l /\ u_domains ud' = u_domains ud /\ u_n ud' = u_n ud /\ forall t', t' <> t -> u_name ud' t' = u_name ud t'.
Proof.
  intros Ht Hn Hu. destruct (set_all_from t l ud [] Ht) as (ud' & E & A & B); [exact Hn|rewrite Hu, Hn; reflexivity|].
  cbn in E. pose proof (set_all_frame l ud ud' t 0 E) as (F1 & F2 & F3). exists ud'. split; [exact E|]. split; [|auto]. split; [rewrite F2; exact Hn|].
  destruct l as [|s l]; [rewrite (A eq_refl); exact Hu|]. apply (B ltac:(discriminate)).
Qed.
Lemma set_params (ps : list string) : exists ud : udom D, set_all (ud_alloc (List.length ps)) CLOOG_PARAM 0 ps = Some ud /\ names_are ud CLOOG_PARAM ps /\
  u_domains ud = [] /\ (forall t, t <> CLOOG_PARAM -> u_name ud t = None /\ u_n ud t = 0).
Proof.
  destruct (set_all_new CLOOG_PARAM ps (ud_alloc (List.length ps))) as (ud & E & N & Dm & Hn & F); [now left|reflexivity|reflexivity|].
  exists ud. split; [exact E|]. split; [exact N|]. split; [exact Dm|]. intros t Ht. rewrite (F t Ht), Hn. split; [reflexivity|]. cbn. destruct (Z.eqb_spec t CLOOG_PARAM); [contradiction|reflexivity].
Qed.
Lemma from_set_ok sp (d : D) : exists ud, from_isl_set sp d = Some ud /\
  u_domains ud = [{| d_name := sp_tuple sp; d_dom := d; d_dim := List.length (sp_dims sp); d_scat := None; d_usr := 0 |}] /\
  names_are ud CLOOG_PARAM (sp_params sp) /\ names_are ud CLOOG_ITER (iterators sp) /\ names_are ud CLOOG_SCAT [].
Proof.
  destruct (set_params (sp_params sp)) as (ud & E & [N1 N2] & Dm & F). unfold from_isl_set. rewrite E. unfold add_domain, ud_add.
  rewrite (proj1 (F CLOOG_ITER ltac:(discriminate))), (proj1 (F CLOOG_SCAT ltac:(discriminate))). cbn [d_scat d_dim]. fold (iterators sp).
  rewrite (proj2 (F CLOOG_ITER ltac:(discriminate))).
  match goal with |- exists _, set_all ?u _ _ _ = _ /\ _ => destruct (set_all_new CLOOG_ITER (iterators sp) u) as (ud' & E' & N' & Dm' & Hn' & F') end.
  - now right.
  - cbn [u_n]. unfold iterators. rewrite map_length, seq_length. destruct (Nat.ltb_spec 0 (List.length (sp_dims sp))); [reflexivity|].
    rewrite (proj2 (F CLOOG_ITER ltac:(discriminate))). lia.
  - cbn [u_name]. apply F. discriminate.
  - exists ud'. split; [exact E'|]. split; [rewrite Dm'; cbn; now rewrite Dm|]. cbn [u_n u_name] in *.
    assert (X : forall t, t <> CLOOG_ITER -> u_n ud' t = u_n ud t) by (intros t Ht; rewrite Hn'; destruct (_ <? _); [|reflexivity]; unfold upd; destruct (Z.eqb_spec t CLOOG_ITER); [contradiction|reflexivity]).
    split; [split; [now rewrite X|rewrite F' by discriminate; exact N2]|]. split; [exact N'|]. split; [rewrite X by discriminate; apply F; discriminate|rewrite F' by discriminate; apply F; discriminate].
Qed.
Lemma add_maps_ok (ms : list (isl_map D)) : forall ud, u_name ud CLOOG_ITER = None -> u_name ud CLOOG_SCAT = None ->
  exists ud', add_maps ud ms = Some ud' /\ u_domains ud' = u_domains ud ++ map named_map ms /\ u_name ud' = u_name ud /\
    (forall t, t <> CLOOG_ITER -> t <> CLOOG_SCAT -> u_n ud' t = u_n ud t) /\
    u_n ud' CLOOG_ITER = fold_left Nat.max (map m_in ms) (u_n ud CLOOG_ITER) /\ u_n ud' CLOOG_SCAT = fold_left Nat.max (map m_out ms) (u_n ud CLOOG_SCAT).
Proof.
  induction ms as [|m ms IH]; intros ud H1 H2; cbn [add_maps].
  - exists ud. rewrite app_nil_r. repeat split; auto.
  - unfold ud_add. rewrite H1, H2. cbn [d_scat d_dim named_map]. cbn zeta.
    match goal with |- exists _, add_maps ?u _ = _ /\ _ => destruct (IH u) as (ud' & E & Dm & Nm & Hn & Hi & Hs) end; [exact H1|exact H2|].
    exists ud'. split; [exact E|]. cbn [u_domains u_name u_n] in *. split; [rewrite Dm, <- app_assoc; reflexivity|]. split; [exact Nm|]. split; [|split].
    + intros t T1 T2. rewrite Hn by assumption. unfold upd. destruct (u_n ud CLOOG_ITER <? m_in m); destruct (_ <? m_out m); cbn beta; apply Z.eqb_neq in T1; apply Z.eqb_neq in T2; rewrite ?T1, ?T2; reflexivity.
    + rewrite Hi. cbn [map fold_left]. f_equal. destruct (Nat.ltb_spec (u_n ud CLOOG_ITER) (m_in m)); destruct (_ <? m_out m); unfold upd; cbn; lia.
    + rewrite Hs. cbn [map fold_left]. f_equal. destruct (Nat.ltb_spec (u_n ud CLOOG_ITER) (m_in m)).
      * change (upd (u_n ud) CLOOG_ITER (m_in m) CLOOG_SCAT) with (u_n ud CLOOG_SCAT). destruct (Nat.ltb_spec (u_n ud CLOOG_SCAT) (m_out m)); unfold upd; cbn; lia.
      * destruct (Nat.ltb_spec (u_n ud CLOOG_SCAT) (m_out m)); unfold upd; cbn; lia.
Qed.
Lemma from_map_ok ps (ms : list (isl_map D)) : exists ud, from_isl_union_map ps ms = Some ud /\ u_domains ud = map named_map ms /\
  names_are ud CLOOG_PARAM ps /\ u_name ud CLOOG_ITER = None /\ u_name ud CLOOG_SCAT = None /\
  u_n ud CLOOG_ITER = list_max (map m_in ms) /\ u_n ud CLOOG_SCAT = list_max (map m_out ms).
Proof.
  destruct (set_params ps) as (ud & E & [N1 N2] & Dm & F). unfold from_isl_union_map. rewrite E.
  destruct (add_maps_ok ms ud) as (ud' & E' & Dm' & Nm & Hn & Hi & Hs); [apply F; discriminate|apply F; discriminate|].
  assert (M : forall l a, fold_left Nat.max l a = Nat.max a (list_max l)). { induction l as [|x l IH]; intros a; cbn; [lia|]. rewrite IH. unfold list_max. lia. }
  exists ud'. split; [exact E'|]. split; [rewrite Dm', Dm; reflexivity|]. split; [split; [rewrite Hn by discriminate; exact N1|rewrite Nm; exact N2]|].
  rewrite Nm, Hi, Hs, !M, (proj2 (F CLOOG_ITER ltac:(discriminate))), (proj2 (F CLOOG_SCAT ltac:(discriminate))). repeat split; apply F; discriminate.
Qed.
End Tables.
