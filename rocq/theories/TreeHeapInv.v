(** Copies, writes into fields, and the invariant of all histories. *)
From Coq Require Import ZArith List Bool Arith String Permutation Lia.
From Verif Require HeapModel HeapProofs.
From Verif Require Import ClastModel TreeHeapModel TreeHeapSpec TreeHeapOwn TreeHeapProofs.
Import ListNotations.
Local Open Scope nat_scope.
Local Arguments Nat.eqb : simpl never.
Local Arguments Nat.ltb : simpl never.
Local Arguments Nat.leb : simpl never.
Local Arguments HeapModel.put : simpl never.
Local Arguments HeapModel.del : simpl never.

(** ** renumbered trees *)
Fixpoint renumbers (new : list nat) (ks : list (option tree)) : list (option tree) * list nat :=
  match ks with
  | [] => ([], new)
  | None :: ks' => let r := renumbers new ks' in (None :: fst r, snd r)
  | Some k :: ks' => let a := renumber new k in let r := renumbers (snd a) ks' in (Some (fst a) :: fst r, snd r)
  end.
Lemma renumber_eq new x l ks : renumber new (T x l ks) = (T (hd 0 new) l (fst (renumbers (tl new) ks)), snd (renumbers (tl new) ks)).
Proof. reflexivity. Qed.
Lemma renumber_lab new t : lab (fst (renumber new t)) = lab t.
Proof. destruct t. reflexivity. Qed.
Lemma renumbers_len ks : forall new, List.length (fst (renumbers new ks)) = List.length ks.
Proof. induction ks as [|[k|] ks IH]; intros new; cbn; [reflexivity|f_equal; apply IH|f_equal; apply IH]. Qed.
Lemma renumbers_nth ks : forall new i k, nth_error (fst (renumbers new ks)) i = Some (Some k) ->
  exists k0 n0, nth_error ks i = Some (Some k0) /\ k = fst (renumber n0 k0).
Proof.
  induction ks as [|[k0|] ks IH]; intros new [|i] k; cbn; try discriminate; try (apply IH).
  intros H. injection H as <-. eauto.
Qed.
Lemma renumber_wf t : wf t -> forall new, wf (fst (renumber new t)).
Proof.
  induction t as [x l ks IH] using tree_ind'. intros Hw new. apply wf_inv in Hw as (Ha & Hk & Hw). rewrite renumber_eq. cbn [fst]. constructor.
  - rewrite renumbers_len. exact Ha.
  - intros i k H. apply renumbers_nth in H as (k0 & n0 & H & ->). rewrite renumber_lab. apply Hk. exact H.
  - intros k H. apply In_nth_error in H as [i H]. apply renumbers_nth in H as (k0 & n0 & H & ->). apply nth_error_In in H. apply IH; [exact H|]. apply Hw. exact H.
Qed.
Lemma renumber_shape t : forall new, shape_of (fst (renumber new t)) = shape_of t.
Proof.
  induction t as [x l ks IH] using tree_ind'. intros new. rewrite renumber_eq. cbn [fst shape_of]. f_equal. generalize (tl new). clear new.
  induction ks as [|[k|] ks IHks]; intros new; cbn; [reflexivity| |].
  - f_equal; [f_equal; apply IH; left; reflexivity|]. apply IHks. intros k' H. apply IH. right. exact H.
  - f_equal. apply IHks. intros k' H. apply IH. right. exact H.
Qed.

(** ** copies *)
Definition copies (f : heap -> ptr -> option (heap * list nat)) (o : option tree) : Prop :=
  forall h L, own h L -> incl (oimage o) L -> exists h' new o', f h (at_root o) = Some (h', new) /\
    (forall extra, renumbers (new ++ extra) [o] = ([o'], extra)) /\ first new = at_root o' /\ own h' (oimage o' ++ L) /\ h_fresh h <= h_fresh h'.
Lemma renumbers_app a b : forall new, renumbers new (a ++ b) = (fst (renumbers new a) ++ fst (renumbers (snd (renumbers new a)) b), snd (renumbers (snd (renumbers new a)) b)).
Proof. induction a as [|[k|] a IH]; intros new; cbn; [destruct (renumbers new b); reflexivity| |]; rewrite IH; reflexivity. Qed.
Lemma set_nth_app {A} (a : list A) b c (x : A) : set_nth (List.length a) x (a ++ b :: c) = a ++ x :: c.
Proof. induction a as [|y a IH]; cbn; [reflexivity|f_equal; exact IH]. Qed.
Lemma copy_elts_ok f r b L : forall ks done h,
  (forall o, In o ks -> copies f o) -> incl (flat_map oimage ks) L ->
  own h (ICell r {| c_lab := LRed b; c_fields := map at_root done ++ repeat None (List.length ks) |} :: flat_map oimage done ++ L) ->
  exists h' new ks', copy_elts f h r (List.length done) (map at_root ks) = Some (h', new) /\
    (forall extra, renumbers (new ++ extra) ks = (ks', extra)) /\
    own h' (ICell r {| c_lab := LRed b; c_fields := map at_root (done ++ ks') |} :: flat_map oimage (done ++ ks') ++ L) /\ h_fresh h <= h_fresh h'.
Proof.
  induction ks as [|o ks IH]; intros done h Hf Hi Ho.
  - exists h, [], []. cbn [List.length repeat] in Ho. rewrite app_nil_r in Ho. rewrite app_nil_r. cbn. auto.
  - cbn [map copy_elts].
    destruct (Hf o (or_introl eq_refl) h _ Ho) as (h1 & n1 & o1 & E1 & R1 & P1 & O1 & F1).
    { intros i H. right. apply in_app_iff. right. apply Hi. cbn [flat_map]. apply in_app_iff. auto. }
    rewrite E1. cbn [bind]. rewrite P1.
    assert (O1' : own h1 (ICell r {| c_lab := LRed b; c_fields := map at_root done ++ repeat None (List.length (o :: ks)) |} :: oimage o1 ++ flat_map oimage done ++ L)) by (eapply own_perm; [|exact O1]; ip).
    destruct (own_write _ _ _ (List.length done) (at_root o1) _ O1') as (h2 & E2 & O2 & F2).
    { cbn [c_fields]. rewrite app_length, map_length, repeat_length. cbn. lia. }
    rewrite E2. cbn [bind]. cbn [c_lab c_fields List.length repeat] in O2. rewrite <- (map_length at_root done) in O2 at 1. rewrite set_nth_app in O2.
    replace (S (List.length done)) with (List.length (done ++ [o1])) by (rewrite app_length; cbn; lia).
    destruct (IH (done ++ [o1]) h2) as (h3 & n3 & ks3 & E3 & R3 & O3 & F3).
    + intros o' H. apply Hf. right. exact H.
    + intros i H. apply Hi. cbn [flat_map]. apply in_app_iff. auto.
    + rewrite map_app, <- app_assoc. cbn [map app]. rewrite flat_map_app. cbn [flat_map]. rewrite app_nil_r. eapply own_perm; [|exact O2]. ip.
    + rewrite E3. cbn [bind]. exists h3, (n1 ++ n3), (o1 :: ks3). split; [reflexivity|]. split; [|split].
      * intros extra. change (o :: ks) with ([o] ++ ks). rewrite renumbers_app, <- app_assoc, R1. cbn [fst snd]. rewrite R3. reflexivity.
      * rewrite <- app_assoc in O3. exact O3.
      * lia.
Qed.
Lemma copies_null f : (forall h, f h None = Some (h, [])) -> copies f None.
Proof. intros H h L Ho Hi. exists h, [], None. cbn. auto. Qed.
Lemma one_kid new k : renumbers new [Some k] = ([Some (fst (renumber new k))], snd (renumber new k)).
Proof. reflexivity. Qed.
Lemma copy_ok t : wf t -> is_expr (lab t) = true -> forall fuel, size t <= fuel -> copies (copy_expr fuel) (Some t).
Proof.
  induction t as [x l ks IH] using tree_ind'. intros Hw He fuel Hs h L Ho Hi. apply wf_inv in Hw as (Ha & Hk & Hw).
  assert (H0 : 1 <= size (T x l ks)) by (unfold size; rewrite nodes_eq; cbn; lia). destruct fuel as [|f]; [lia|].
  assert (Hks : (forall i, for_expr l i = true) -> forall o, In o ks -> copies (copy_expr f) o).
  { intros Hx o Hin. destruct o as [k|]; [|apply copies_null; intros; destruct f; reflexivity]. apply IH; [exact Hin|apply Hw; exact Hin| |].
    - apply In_nth_error in Hin as [i Hn]. rewrite (Hk i k Hn). apply Hx.
    - pose proof (size_kid x l ks k Hin). lia. }
  cbn [oimage] in Hi. rewrite image_eq in Hi. cbn [at_root option_map root copy_expr].
  rewrite (own_read_in h L x _ Ho (Hi _ (or_introl eq_refl))). cbn [bind c_lab c_fields].
  assert (Hsub : incl (flat_map oimage ks) L) by (intros i H; apply Hi; right; apply in_app_iff; auto). clear Hi.
  destruct l; cbn in He; try discriminate; cbn in Ha.
  - destruct ks; [|discriminate]. cbn [map]. exists (new_name h s), [h_fresh h], (Some (T (h_fresh h) (LName s) [])). split; [reflexivity|]. split; [intros extra; reflexivity|].
    split; [reflexivity|]. split; [apply own_alloc; exact Ho|cbn; lia].
  - destruct ks as [|o [|? ?]]; try discriminate. cbn [map flat_map] in *. rewrite app_nil_r in Hsub.
    destruct (Hks (fun _ => eq_refl) o (or_introl eq_refl) h L Ho Hsub) as (h1 & n1 & o1 & E1 & R1 & P1 & O1 & F1). rewrite E1. cbn [bind].
    exists (new_term h1 val (first n1)), (h_fresh h1 :: n1), (Some (T (h_fresh h1) (LTerm val) [o1])). split; [reflexivity|]. split; [|split; [reflexivity|split; [|cbn; lia]]].
    + intros extra. rewrite one_kid, renumber_eq. cbn [app tl hd]. rewrite R1. reflexivity.
    + rewrite P1. unfold new_term. eapply own_perm; [|apply own_int_init, own_alloc; exact O1]. cbn [oimage]. rewrite image_eq. cbn [l_items l_int l_names l_doms l_sts map flat_map app]. ip.
  - destruct ks as [|o [|? ?]]; try discriminate. cbn [map flat_map] in *. rewrite app_nil_r in Hsub.
    destruct (Hks (fun _ => eq_refl) o (or_introl eq_refl) h L Ho Hsub) as (h1 & n1 & o1 & E1 & R1 & P1 & O1 & F1). rewrite E1. cbn [bind].
    exists (new_bin h1 t (first n1) rhs), (h_fresh h1 :: n1), (Some (T (h_fresh h1) (LBin t rhs) [o1])). split; [reflexivity|]. split; [|split; [reflexivity|split; [|cbn; lia]]].
    + intros extra. rewrite one_kid, renumber_eq. cbn [app tl hd]. rewrite R1. reflexivity.
    + rewrite P1. unfold new_bin. eapply own_perm; [|apply own_int_init, own_alloc; exact O1]. cbn [oimage]. rewrite image_eq. cbn [l_items l_int l_names l_doms l_sts map flat_map app]. ip.
  - rewrite map_length.
    destruct (copy_elts_ok (copy_expr f) (h_fresh h) t L ks [] (new_red h t (List.length ks)) (Hks (fun _ => eq_refl)) Hsub) as (h1 & n1 & ks1 & E1 & R1 & O1 & F1).
    { cbn [map app flat_map]. apply own_alloc. exact Ho. }
    cbn [List.length] in E1. rewrite E1. cbn [bind]. exists h1, (h_fresh h :: n1), (Some (T (h_fresh h) (LRed t) ks1)). split; [reflexivity|]. split; [|split; [reflexivity|split]].
    + intros extra. rewrite one_kid, renumber_eq. cbn [app tl hd]. rewrite R1. reflexivity.
    + cbn [app] in O1. exact O1.
    + cbn in F1. lia.
Qed.

(** ** writes *)
Lemma fill_notin x i k t : ~ In x (map root (nodes t)) -> fill x i k t = t.
Proof.
  induction t as [y l ks IH] using tree_ind'. rewrite nodes_eq. cbn [map root fill]. intros H. destruct (Nat.eqb_spec y x) as [->|Hn]; [exfalso; apply H; left; reflexivity|].
  f_equal. rewrite <- (map_id ks) at 2. apply map_ext_in. intros [o|] Ho; [|reflexivity]. cbn. f_equal. apply IH; [exact Ho|]. intros K. apply H. right.
  apply in_map_iff in K as (n & En & Hin). apply in_map_iff. exists n. split; [exact En|]. apply in_flat_map. exists (Some o). auto.
Qed.
Lemma fill_root x i k t : root (fill x i k t) = root t.
Proof. destruct t as [y l ks]. cbn. destruct (y =? x); reflexivity. Qed.
Lemma fill_lab x i k t : lab (fill x i k t) = lab t.
Proof. destruct t as [y l ks]. cbn. destruct (y =? x); reflexivity. Qed.
Lemma set_nth_split {A} i (a : A) l b : nth_error l i = Some b -> exists u w, l = u ++ b :: w /\ List.length u = i /\ set_nth i a l = u ++ a :: w.
Proof.
  intros H. apply nth_error_split in H as (u & w & -> & <-). exists u, w. split; [reflexivity|]. split; [reflexivity|]. apply set_nth_app.
Qed.
Lemma map_set_nth {A B} (f : A -> B) i a l : map f (set_nth i a l) = set_nth i (f a) (map f l).
Proof. revert i. induction l as [|b l IH]; intros [|i]; cbn; try reflexivity. f_equal. apply IH. Qed.
Lemma nth_set {A} i (a : A) l b j c : nth_error l i = Some b -> nth_error (set_nth i a l) j = Some c -> (j = i /\ c = a) \/ nth_error l j = Some c.
Proof.
  revert i j. induction l as [|d l IH]; intros [|i] [|j]; cbn; try discriminate; auto.
  - intros _ H. injection H as <-. auto.
  - intros H1 H2. destruct (IH i j H1 H2) as [[-> ->]|K]; auto.
Qed.
Lemma len_set {A} i (a : A) l : List.length (set_nth i a l) = List.length l.
Proof. revert i. induction l as [|b l IH]; intros [|i]; cbn; auto. Qed.
Lemma NoDup_app_remove_l {A} (a b : list A) : NoDup (a ++ b) -> NoDup b.
Proof. induction a as [|x a IH]; cbn; [auto|]. intros H. inversion H; subst. auto. Qed.
Lemma NoDup_app_remove_r {A} (a b : list A) : NoDup (a ++ b) -> NoDup a.
Proof. induction a as [|x a IH]; cbn; [constructor|]. intros H. inversion H; subst. constructor; [|auto]. intros K. apply H2. apply in_app_iff. auto. Qed.
Lemma nodup_kid ks k : NoDup (map root (flat_map onodes ks)) -> In (Some k) ks -> NoDup (map root (nodes k)).
Proof.
  intros H Hin. apply in_split in Hin as (a & b & ->). rewrite flat_map_app, map_app in H. cbn [flat_map onodes] in H. rewrite map_app in H.
  apply NoDup_app_remove_l in H. apply NoDup_app_remove_r in H. exact H.
Qed.
Lemma nodup_app_not {A} (a b : list A) x : NoDup (a ++ b) -> In x a -> ~ In x b.
Proof. intros H Ha Hb. apply in_split in Hb as (u & w & ->). rewrite app_assoc in H. apply NoDup_remove_2 in H. apply H. rewrite !in_app_iff. auto. Qed.

Lemma fill_ok x i k l ks0 t : NoDup (map root (nodes t)) -> wf t -> In (T x l ks0) (nodes t) -> nth_error ks0 i = Some None ->
  (forall kt, k = Some kt -> wf kt /\ is_expr (lab kt) = for_expr l i) ->
  wf (fill x i k t) /\ exists M, Permutation (image t) (ICell x {| c_lab := l; c_fields := map at_root ks0 |} :: M) /\
    Permutation (image (fill x i k t)) (ICell x {| c_lab := l; c_fields := set_nth i (at_root k) (map at_root ks0) |} :: oimage k ++ M).
Proof.
  intros Hnd Hw Hin Hi Hk. revert Hnd Hw Hin. induction t as [y m ks IH] using tree_ind'. intros Hnd Hw Hin. pose proof (wf_inv _ _ _ Hw) as (Ha & Hs & Hkw).
  rewrite nodes_eq in Hnd, Hin. cbn [map root] in Hnd. inversion Hnd as [|? ? Hy Hnd']; subst. cbn [fill]. destruct Hin as [E|Hin].
  - injection E as -> -> ->. rewrite Nat.eqb_refl. destruct (set_nth_split i k ks0 None Hi) as (u & w & Ek & El & Es). split.
    + constructor.
      * rewrite len_set. exact Ha.
      * intros j q H. apply (nth_set _ _ _ _ _ _ Hi) in H as [[-> E]|H]; [|apply Hs; exact H]. symmetry in E. apply (Hk q E).
      * intros q H. rewrite Es in H. apply in_app_iff in H as [H|[H|H]]; [apply Hkw; rewrite Ek; apply in_app_iff; auto|apply (Hk q H)|apply Hkw; rewrite Ek; apply in_app_iff; right; right; exact H].
    + exists (l_items x l ++ flat_map oimage ks0). split; [rewrite image_eq; reflexivity|]. assert (Pf : Permutation (flat_map oimage (set_nth i k ks0)) (oimage k ++ flat_map oimage ks0)).
      { rewrite Es, Ek, !flat_map_app. cbn [flat_map oimage]. ip. }
      rewrite image_eq, map_set_nth. apply perm_skip. rewrite Pf. ip.
  - apply in_flat_map in Hin as ([q|] & Hq & Hin); [|contradiction]. cbn [onodes] in Hin.
    assert (Hxq : In x (map root (nodes q))) by (apply (in_map root) in Hin; exact Hin).
    assert (Hne : y <> x).
    { intros ->. apply Hy. apply in_map_iff in Hxq as (n & En & Hn). apply in_map_iff. exists n. split; [exact En|]. apply in_flat_map. exists (Some q). auto. }
    destruct (Nat.eqb_spec y x) as [|_]; [congruence|].
    destruct (IH q Hq (nodup_kid _ _ Hnd' Hq) (Hkw q Hq) Hin) as (Wq & M & P1 & P2).
    apply in_split in Hq as (u & w & ->). rewrite flat_map_app, map_app in Hnd'. cbn [flat_map onodes] in Hnd'. rewrite map_app in Hnd'.
    assert (Hu : map (option_map (fill x i k)) u = u).
    { rewrite <- (map_id u) at 2. apply map_ext_in. intros [o|] Ho; [|reflexivity]. cbn. f_equal. apply fill_notin. intros K. apply (nodup_app_not _ _ x Hnd').
      - apply in_map_iff in K as (n & En & Hn). apply in_map_iff. exists n. split; [exact En|]. apply in_flat_map. exists (Some o). auto.
      - apply in_app_iff. auto. }
    assert (Hw' : map (option_map (fill x i k)) w = w).
    { rewrite <- (map_id w) at 2. apply map_ext_in. intros [o|] Ho; [|reflexivity]. cbn. f_equal. apply fill_notin. intros K. apply NoDup_app_remove_l in Hnd'. apply (nodup_app_not _ _ x Hnd'); [exact Hxq|].
      apply in_map_iff in K as (n & En & Hn). apply in_map_iff. exists n. split; [exact En|]. apply in_flat_map. exists (Some o). auto. }
    rewrite map_app. cbn [map option_map]. rewrite Hu, Hw'. split.
    + constructor.
      * rewrite app_length in *. exact Ha.
      * intros j o H. destruct (Nat.lt_trichotomy j (List.length u)) as [Hj|[->|Hj]].
        -- apply Hs. rewrite nth_error_app1 in * by lia. exact H.
        -- rewrite nth_error_app2, Nat.sub_diag in H by lia. cbn in H. injection H as <-. rewrite fill_lab. apply Hs. rewrite nth_error_app2, Nat.sub_diag by lia. reflexivity.
        -- apply Hs. rewrite nth_error_app2 in * by lia. destruct (j - List.length u) eqn:Ej; [lia|]. exact H.
      * intros o H. apply in_app_iff in H as [H|[H|H]]; [apply Hkw; apply in_app_iff; auto|injection H as <-; exact Wq|apply Hkw; apply in_app_iff; right; right; exact H].
    + assert (Ef : map at_root (u ++ Some (fill x i k q) :: w) = map at_root (u ++ Some q :: w)) by (rewrite !map_app; cbn; rewrite fill_root; reflexivity).
      exists (ICell y {| c_lab := m; c_fields := map at_root (u ++ Some q :: w) |} :: l_items y m ++ flat_map oimage u ++ M ++ flat_map oimage w).
      rewrite !image_eq, Ef, !flat_map_app. cbn [flat_map oimage].
      pose proof (proj1 (Permutation_count_occ item_eq_dec _ _) P1) as C1. pose proof (proj1 (Permutation_count_occ item_eq_dec _ _) P2) as C2. split.
      * apply (Permutation_count_occ item_eq_dec). intro z. specialize (C1 z). rewrite !ci_cons in *. repeat (rewrite ?count_occ_app, ?ci_cons). lia.
      * apply (Permutation_count_occ item_eq_dec). intro z. specialize (C2 z). rewrite !ci_cons in *. repeat (rewrite ?count_occ_app, ?ci_cons in C2; rewrite ?count_occ_app, ?ci_cons). lia.
Qed.

(** ** the invariant *)
Definition items (v : view) : list item := flat_map image (v_t v) ++ map INm (v_n v) ++ map IDom (v_d v) ++ map ISt (v_s v).
Record Inv (h : heap) (v : view) : Prop := { I_own : own h (items v); I_wf : Forall wf (v_t v) }.

Lemma flat_parts (f : item -> list nat) (g : tree -> list nat) ts : (forall t, flat_map f (image t) = flat_map g (nodes t)) -> flat_map f (flat_map image ts) = flat_map g (flat_map nodes ts).
Proof. intros H. induction ts as [|t ts IH]; [reflexivity|]. cbn [flat_map]. rewrite !flat_map_app, H, IH. reflexivity. Qed.
Lemma flat_cells ts : flat_map i_cells (flat_map image ts) = map (fun n => (root n, cell_of n)) (flat_map nodes ts).
Proof. induction ts as [|t ts IH]; [reflexivity|]. cbn [flat_map]. rewrite flat_map_app, map_app, cells_image, IH. reflexivity. Qed.
Lemma nil_part {A B} (f : item -> list A) (c : B -> item) l : (forall x, f (c x) = []) -> flat_map f (map c l) = [].
Proof. intros H. induction l as [|x l IH]; cbn; [reflexivity|]. rewrite H. exact IH. Qed.
Lemma self_part (f : item -> list nat) (c : nat -> item) l : (forall x, f (c x) = [x]) -> flat_map f (map c l) = l.
Proof. intros H. induction l as [|x l IH]; cbn; [reflexivity|]. rewrite H, IH. reflexivity. Qed.
Lemma items_cells v : flat_map i_cells (items v) = map (fun n => (root n, cell_of n)) (all_nodes v).
Proof. unfold items. rewrite !flat_map_app, flat_cells, !nil_part by reflexivity. rewrite !app_nil_r. reflexivity. Qed.
Lemma items_nms v : Permutation (flat_map i_nms (items v)) (names_refs v).
Proof.
  unfold items, names_refs. rewrite !flat_map_app, (flat_parts _ _ _ nms_image), (self_part i_nms INm), (nil_part _ IDom), (nil_part _ ISt) by reflexivity. rewrite !app_nil_r. apply Permutation_app_comm.
Qed.
Lemma items_doms v : Permutation (flat_map i_doms (items v)) (dom_refs v).
Proof.
  unfold items, dom_refs. rewrite !flat_map_app, (flat_parts _ _ _ doms_image), (self_part i_doms IDom), (nil_part _ INm), (nil_part _ ISt) by reflexivity. rewrite !app_nil_r. apply Permutation_app_comm.
Qed.
Lemma items_sts v : Permutation (flat_map i_sts (items v)) (st_refs v).
Proof.
  unfold items, st_refs. rewrite !flat_map_app, (flat_parts _ _ _ sts_image), (self_part i_sts ISt), (nil_part _ INm), (nil_part _ IDom) by reflexivity. cbn [app]. apply Permutation_app_comm.
Qed.
Lemma items_ints v : flat_map i_ints (items v) = int_owners v.
Proof.
  unfold items, int_owners. rewrite !flat_map_app, (flat_parts _ _ _ ints_image), (nil_part _ INm), (nil_part _ IDom), (nil_part _ ISt) by reflexivity. rewrite !app_nil_r. fold (all_nodes v).
  induction (all_nodes v) as [|n l IH]; [reflexivity|]. cbn. destruct (l_int (lab n)); cbn; [f_equal; exact IH|exact IH].
Qed.
Lemma in_part (f : item -> list nat) (c : nat -> item) L x : (forall i y, In y (f i) -> i = c y) -> In x (flat_map f L) -> In (c x) L.
Proof. intros H K. apply in_flat_map in K as (i & Hi & Hx). rewrite <- (H i x Hx). exact Hi. Qed.
Lemma in_nm v n : In n (names_refs v) -> In (INm n) (items v).
Proof. intros H. apply (in_part i_nms INm); [intros [] y; cbn; intros K; destruct K as [->|[]] || destruct K; reflexivity|]. eapply Permutation_in; [symmetry; apply items_nms|exact H]. Qed.
Lemma in_dom v n : In n (dom_refs v) -> In (IDom n) (items v).
Proof. intros H. apply (in_part i_doms IDom); [intros [] y; cbn; intros K; destruct K as [->|[]] || destruct K; reflexivity|]. eapply Permutation_in; [symmetry; apply items_doms|exact H]. Qed.
Lemma in_st v n : In n (st_refs v) -> In (ISt n) (items v).
Proof. intros H. apply (in_part i_sts ISt); [intros [] y; cbn; intros K; destruct K as [->|[]] || destruct K; reflexivity|]. eapply Permutation_in; [symmetry; apply items_sts|exact H]. Qed.

(** taking a tree out *)
Lemma takes_inv e p k ts rest : takes e p k ts rest -> Forall wf ts ->
  p = at_root k /\ Permutation (flat_map image ts) (oimage k ++ flat_map image rest) /\ Forall wf rest /\ (forall t, k = Some t -> wf t /\ is_expr (lab t) = e).
Proof.
  intros [l|t l r Hp He] Hw.
  - repeat split; auto; discriminate.
  - apply (HeapProofs.perm_forall _ _ _ Hp) in Hw. inversion Hw; subst. split; [reflexivity|]. split; [rewrite (HeapProofs.flat_perm image _ _ Hp); reflexivity|]. split; [assumption|]. intros t' E. injection E as <-. auto.
Qed.
Definition others (v : view) : list item := map INm (v_n v) ++ map IDom (v_d v) ++ map ISt (v_s v).
Lemma items_eq v : items v = flat_map image (v_t v) ++ others v.
Proof. reflexivity. Qed.
Lemma Inv_tree h v t rest L : own h (image t ++ L) -> Permutation L (flat_map image rest ++ others v) -> wf t -> Forall wf rest -> Inv h (with_t v (t :: rest)).
Proof.
  intros Ho Hp Hw Hr. split; [|constructor; assumption]. rewrite items_eq. cbn [with_t v_t flat_map]. eapply own_perm; [|exact Ho]. rewrite <- app_assoc. apply Permutation_app_head. exact Hp.
Qed.
Lemma kids_null n : forall i (k : tree), nth_error (repeat None n) i = Some (Some k) -> False.
Proof. intros i k H. apply nth_error_In in H. apply repeat_spec in H. discriminate. Qed.
Lemma in_null n (k : tree) : In (Some k) (repeat None n) -> False.
Proof. intros H. apply repeat_spec in H. discriminate. Qed.
Lemma images_null n : flat_map oimage (repeat None n) = [].
Proof. induction n as [|n IH]; cbn; auto. Qed.
Lemma roots_null n : map at_root (repeat None n) = repeat None n.
Proof. induction n as [|n IH]; cbn; f_equal; auto. Qed.
Lemma wf_new x l ks : arity l (List.length ks) -> (forall i k, nth_error ks i = Some (Some k) -> wf k /\ is_expr (lab k) = for_expr l i) -> wf (T x l ks).
Proof.
  intros Ha Hk. constructor; [exact Ha|intros i k H; apply (Hk i k H)|]. intros k H. apply In_nth_error in H as [i H]. apply (Hk i k H).
Qed.
Lemma perm_mid a b c d : Permutation (a : list item) (b ++ c) -> Permutation (a ++ d) (b ++ c ++ d).
Proof. intros ->. rewrite app_assoc. reflexivity. Qed.

Lemma size_enough h t L : own h L -> incl (image t) L -> NoDup (map root (nodes t)) -> size t <= List.length (h_cells h).
Proof.
  intros Ho Hi Hn. unfold size. rewrite <- (map_length root), <- (map_length fst (h_cells h)). apply NoDup_incl_length; [exact Hn|].
  intros x Hx. apply in_map_iff in Hx as (n & <- & Hx). apply cell_in_image in Hx. apply Hi in Hx. eapply HeapProofs.get_in. eapply own_read_in; eassumption.
Qed.
Lemma nodup_sub t n : NoDup (map root (nodes t)) -> In n (nodes t) -> NoDup (map root (nodes n)).
Proof.
  induction t as [x l ks IH] using tree_ind'. intros Hnd. rewrite nodes_eq. intros [<-|H]; [exact Hnd|]. apply in_flat_map in H as ([k|] & Hk & H); [|contradiction].
  apply (IH k Hk); [|exact H]. rewrite nodes_eq in Hnd. cbn [map root] in Hnd. inversion Hnd; subst. eapply nodup_kid; eassumption.
Qed.
Lemma wf_sub t n : wf t -> In n (nodes t) -> wf n.
Proof.
  induction t as [x l ks IH] using tree_ind'. intros Hw. rewrite nodes_eq. intros [<-|H]; [exact Hw|]. apply in_flat_map in H as ([k|] & Hk & H); [|contradiction].
  apply wf_inv in Hw as (_ & _ & Hw). apply (IH k Hk (Hw k Hk) H).
Qed.
Lemma own_roots h v : own h (items v) -> NoDup (map root (all_nodes v)).
Proof.
  intros Ho. pose proof (O_nd _ _ Ho) as Hn. apply (Permutation_NoDup (keys_perm _ _ (O_cells _ _ Ho))) in Hn. rewrite items_cells in Hn. unfold HeapProofs.keys in Hn. rewrite map_map in Hn. exact Hn.
Qed.
Lemma roots_one v t : NoDup (map root (all_nodes v)) -> In t (v_t v) -> NoDup (map root (nodes t)).
Proof.
  unfold all_nodes. intros H Hin. apply in_split in Hin as (a & b & E). rewrite E, flat_map_app, map_app in H. cbn [flat_map] in H. rewrite map_app in H.
  apply NoDup_app_remove_l in H. apply NoDup_app_remove_r in H. exact H.
Qed.

Ltac kids_tac Hk := let i := fresh "i" in let q := fresh "q" in let E := fresh "E" in
  intros i q E; do 5 (destruct i as [|i]; [try (cbn in E; discriminate); try (cbn in E; injection E as E; apply Hk; exact E)|cbn in E]); try discriminate; try (destruct i; discriminate).
Theorem step h v o after : Inv h v -> user v o after -> exists h' new, exec h o = Some (h', new) /\ Inv h' (after new).
Proof.
  intros [Ho Hw] HU. pose proof Ho as Ho0. rewrite items_eq in Ho.
  destruct HU as [s|z p k rest Ht|b p k z rest Ht|b n| |t Hin He|p k rest Ht|n Hn|s p k rest Ht|d s p k rest Hd Hs Ht| |d it p q k k' z mid rest Hd Ht1 Ht2|n|t rest Hp He|p k rest Ht|x i p k t l ks mid rest Hp Hin Hi Ht| |n Hn|n rest Hp| |p rest Hp| |p rest Hp].
  - (* MkName *) eexists _, _. split; [reflexivity|]. unfold add. cbn [hd]. eapply Inv_tree; [|reflexivity|apply wf_new; [reflexivity|intros [|i] k E; discriminate]|exact Hw]. apply own_alloc. exact Ho.
  - (* MkTerm *) destruct (takes_inv _ _ _ _ _ Ht Hw) as (-> & P & Hr & Hk). eexists _, _. split; [reflexivity|]. unfold add. cbn [hd].
    eapply Inv_tree; [|reflexivity|apply wf_new; [reflexivity|kids_tac Hk]|exact Hr]. eapply own_perm; [|unfold new_term; apply own_int_init, own_alloc; eapply own_perm; [apply (perm_mid _ _ _ (others v) P)|exact Ho]].
    rewrite image_eq. cbn [l_items l_int l_names l_doms l_sts map flat_map app]. ip.
  - (* MkBin *) destruct (takes_inv _ _ _ _ _ Ht Hw) as (-> & P & Hr & Hk). eexists _, _. split; [reflexivity|]. unfold add. cbn [hd].
    eapply Inv_tree; [|reflexivity|apply wf_new; [reflexivity|kids_tac Hk]|exact Hr]. eapply own_perm; [|unfold new_bin; apply own_int_init, own_alloc; eapply own_perm; [apply (perm_mid _ _ _ (others v) P)|exact Ho]].
    rewrite image_eq. cbn [l_items l_int l_names l_doms l_sts map flat_map app]. ip.
  - (* MkRed *) eexists _, _. split; [reflexivity|]. unfold add. cbn [hd].
    eapply Inv_tree; [|reflexivity|apply wf_new; [exact Logic.I|intros i k E; destruct (kids_null _ _ _ E)]|exact Hw].
    rewrite image_eq, images_null, roots_null. cbn [l_items l_int l_names l_doms l_sts map app]. apply own_alloc. exact Ho.
  - (* CopyExpr NULL *) eexists h, []. split; [destruct (enough h); reflexivity|]. split; assumption.
  - (* CopyExpr *) unfold all_nodes in Hin. apply in_flat_map in Hin as (t0 & H0 & Hin). assert (Hwt : wf t0) by (rewrite Forall_forall in Hw; apply Hw; exact H0).
    pose proof (wf_sub _ _ Hwt Hin) as Hwt'. pose proof (roots_one _ _ (own_roots _ _ Ho0) H0) as Hnd.
    assert (Hincl : incl (image t) (flat_map image (v_t v) ++ others v)).
    { intros i Hi. apply in_app_iff. left. apply in_flat_map. exists t0. split; [exact H0|]. apply (image_sub _ _ Hin). exact Hi. }
    assert (Hsz : size t <= enough h) by (unfold enough; pose proof (size_enough _ _ _ Ho Hincl (nodup_sub _ _ Hnd Hin)); lia).
    destruct (copy_ok t Hwt' He _ Hsz h _ Ho Hincl) as (h' & new & o' & E & R & F & O & _). exists h', new. split; [exact E|].
    specialize (R []). rewrite app_nil_r, one_kid in R. injection R as Ro _. rewrite <- Ro in O. eapply Inv_tree; [exact O|reflexivity|apply renumber_wf; exact Hwt'|exact Hw].
  - (* FreeExpr *) destruct (takes_inv _ _ _ _ _ Ht Hw) as (-> & P & Hr & Hk). apply (own_perm _ _ _ (perm_mid _ _ _ (others v) P)) in Ho.
    assert (Hf : frees (free_expr (enough h)) k).
    { destruct k as [t|]; [|apply frees_null; intros; destruct (enough h); reflexivity]. destruct (Hk t eq_refl) as [Wt Et]. apply free_expr_ok; auto. unfold enough. pose proof (size_cells _ _ _ Ho). lia. }
    destruct (Hf h _ Ho) as (h' & E & O & _). exists h', []. cbn [exec]. rewrite E. split; [reflexivity|]. split; [exact O|exact Hr].
  - (* MkRoot *) destruct (own_names_copy _ n _ (own_alloc h {| c_lab := LRoot n; c_fields := [None] |} _ Ho)) as (h' & E & O & _); [right; apply (in_nm v n Hn)|].
    exists h', [h_fresh h]. cbn [exec]. unfold new_root. rewrite E. split; [reflexivity|]. unfold add. cbn [hd]. eapply Inv_tree; [|reflexivity|apply wf_new; [reflexivity|intros [|[|i]] k Ek; discriminate]|exact Hw].
    eapply own_perm; [|exact O]. rewrite image_eq. cbn [l_items l_int l_names l_doms l_sts map flat_map oimage app at_root option_map]. apply perm_swap.
  - (* MkAss *) destruct (takes_inv _ _ _ _ _ Ht Hw) as (-> & P & Hr & Hk). eexists _, _. split; [reflexivity|]. unfold add. cbn [hd].
    eapply Inv_tree; [|reflexivity|apply wf_new; [reflexivity|kids_tac Hk]|exact Hr]. eapply own_perm; [|unfold new_ass; apply own_alloc; eapply own_perm; [apply (perm_mid _ _ _ (others v) P)|exact Ho]].
    rewrite image_eq. cbn [l_items l_int l_names l_doms l_sts map flat_map app]. change (oimage None) with (@nil item). change (at_root None) with (@None nat). ip.
  - (* MkUser *) destruct (takes_inv _ _ _ _ _ Ht Hw) as (-> & P & Hr & Hk).
    destruct (own_dom_copy h d _ Ho0) as (h1 & E1 & O1 & F1); [intros x Hx; apply in_dom; apply Hd; exact Hx|].
    destruct (own_st_copy h1 s _ O1) as (h2 & s' & E2 & O2 & F2 & Es); [intros x Hx; apply in_app_iff; right; apply in_st; apply Hs; exact Hx|].
    cbn [exec]. unfold new_user. rewrite E1. cbn [bind]. rewrite E2. cbn [bind]. eexists _, _. split; [reflexivity|]. unfold add. cbn [hd tl].
    replace (match s with Some _ => _ | None => None end) with s' by (subst s'; destruct s; reflexivity).
    eapply Inv_tree; [|reflexivity|apply wf_new; [reflexivity|kids_tac Hk]|exact Hr].
    eapply own_perm; [|apply own_alloc; eapply own_perm; [|exact O2]; apply Permutation_app_head, Permutation_app_head; rewrite items_eq; apply (perm_mid _ _ _ (others v) P)].
    rewrite image_eq. unfold l_items. cbn [l_int l_names l_doms l_sts map flat_map app]. change (oimage None) with (@nil item). change (at_root None) with (@None nat). ip.
  - (* MkBlock *) eexists _, _. split; [reflexivity|]. unfold add. cbn [hd]. eapply Inv_tree; [|reflexivity|apply wf_new; [reflexivity|intros [|[|[|i]]] k Ek; discriminate]|exact Hw]. apply own_alloc. exact Ho.
  - (* MkFor *) destruct (takes_inv _ _ _ _ _ Ht1 Hw) as (-> & P1 & Hr1 & Hk1). destruct (takes_inv _ _ _ _ _ Ht2 Hr1) as (-> & P2 & Hr2 & Hk2).
    destruct (own_dom_copy h d _ Ho0) as (h1 & E1 & O1 & F1); [intros x Hx; apply in_dom; apply Hd; exact Hx|].
    cbn [exec]. unfold new_for. rewrite E1. cbn [bind]. eexists _, _. split; [reflexivity|]. unfold add. cbn [hd].
    eapply Inv_tree; [|reflexivity| |exact Hr2].
    + rewrite <- F1. eapply own_perm; [|apply own_int_init, own_alloc; eapply own_perm; [|exact O1]; apply Permutation_app_head; rewrite items_eq, P1, P2; reflexivity].
      rewrite image_eq. unfold l_items. cbn [l_int l_names l_doms l_sts map flat_map app]. change (oimage None) with (@nil item). change (at_root None) with (@None nat). ip.
    + apply wf_new; [reflexivity|]. intros i q E. destruct i as [|[|[|[|i]]]]; cbn in E; try discriminate; [injection E as E; apply Hk1; exact E|injection E as E; apply Hk2; exact E|destruct i; discriminate].
  - (* MkGuard *) eexists _, _. split; [reflexivity|]. unfold add. cbn [hd].
    eapply Inv_tree; [|reflexivity|apply wf_new; [cbn; lia|]|exact Hw].
    + rewrite image_eq. cbn [map flat_map oimage at_root option_map app]. rewrite images_null, roots_null. cbn [l_items l_int l_names l_doms l_sts map app]. apply own_alloc. exact Ho.
    + intros [|[|i]] k E; try discriminate. cbn [nth_error] in E. destruct (kids_null _ _ _ E).
  - (* FreeStmt *) apply (HeapProofs.perm_forall _ _ _ Hp) in Hw. inversion Hw as [|? ? Wt Hr]; subst.
    assert (O1 : own h (image t ++ flat_map image rest ++ others v)) by (eapply own_perm; [|exact Ho]; rewrite app_assoc; apply Permutation_app_tail; exact (HeapProofs.flat_perm image _ _ Hp)).
    destruct (proj2 (free_stmt_ok t Wt He) (enough h)) with (h := h) (L := flat_map image rest ++ others v) as (h' & E & O & _); [unfold enough; pose proof (size_cells _ _ _ O1); lia|exact O1|].
    exists h', []. cbn [exec]. rewrite E. split; [reflexivity|]. fold (next_kid t). split.
    + rewrite items_eq. cbn [with_t v_t]. rewrite flat_map_app. destruct (next_kid t) as [k|] eqn:Ek; cbn [somes flat_map oimage] in *; rewrite ?app_nil_r, <- ?app_assoc; exact O.
    + cbn [with_t v_t]. apply Forall_app. split; [|exact Hr]. destruct (next_kid t) as [k|] eqn:Ek; cbn; [|constructor]. constructor; [|constructor]. destruct t as [x l ks]. apply next_in in Ek. apply wf_inv in Wt as (_ & _ & Wk). apply Wk. exact Ek.
  - (* FreeClast *) destruct (takes_inv _ _ _ _ _ Ht Hw) as (-> & P & Hr & Hk). apply (own_perm _ _ _ (perm_mid _ _ _ (others v) P)) in Ho.
    assert (Hf : frees (free_stmts (enough h)) k).
    { destruct k as [t|]; [|apply frees_null; intros; destruct (enough h); reflexivity]. destruct (Hk t eq_refl) as [Wt Et]. apply (proj1 (free_stmt_ok t Wt Et)). unfold enough. pose proof (size_cells _ _ _ Ho). lia. }
    destruct (Hf h _ Ho) as (h' & E & O & _). exists h', []. cbn [exec]. rewrite E. split; [reflexivity|]. split; [exact O|exact Hr].
  - (* Write *) assert (Htin : In t (v_t v)) by (eapply Permutation_in; [symmetry; exact Hp|left; reflexivity]). pose proof (roots_one _ _ (own_roots _ _ Ho0) Htin) as Hnd.
    apply (HeapProofs.perm_forall _ _ _ Hp) in Hw. inversion Hw as [|? ? Wt Hm]; subst. destruct (takes_inv _ _ _ _ _ Ht Hm) as (-> & P & Hr & Hk).
    destruct (fill_ok x i k l ks t Hnd Wt Hin Hi Hk) as (Wf' & M & P1 & P2).
    assert (O1 : own h (ICell x {| c_lab := l; c_fields := map at_root ks |} :: M ++ oimage k ++ flat_map image rest ++ others v)).
    { eapply own_perm; [|exact Ho]. pose proof (HeapProofs.flat_perm image _ _ Hp) as Pt. cbn [flat_map] in Pt. rewrite Pt, P, P1, <- app_assoc. ip. }
    destruct (own_write _ _ _ i (at_root k) _ O1) as (h' & E & O & _).
    { cbn [c_fields]. rewrite map_length. apply nth_error_Some. rewrite Hi. discriminate. }
    exists h', []. cbn [exec]. rewrite E. split; [reflexivity|]. cbn [c_lab c_fields] in O.
    eapply Inv_tree; [|reflexivity|exact Wf'|exact Hr]. eapply own_perm; [|exact O]. rewrite P2. ip.
  - (* NamesNew *) eexists _, _. split; [reflexivity|]. split; [|exact Hw]. rewrite items_eq in *. eapply own_perm; [|apply own_names_new; exact Ho]. unfold others. cbn [with_n v_t v_n v_d v_s app map]. ip.
  - (* NamesCopy *) destruct (own_names_copy h n _ Ho0 (in_nm v n Hn)) as (h' & E & O & _). exists h', []. cbn [exec]. rewrite E. split; [reflexivity|]. split; [|exact Hw].
    eapply own_perm; [|exact O]. rewrite !items_eq. unfold others. cbn [with_n v_t v_n v_d v_s app map]. ip.
  - (* NamesFree *) unfold takes_ref in Hp. cbn [opt app] in Hp. apply (Permutation_map INm) in Hp. cbn [map] in Hp.
    destruct (own_names_free h n (flat_map image (v_t v) ++ map INm rest ++ map IDom (v_d v) ++ map ISt (v_s v))) as (h' & E & O & _).
    { eapply own_perm; [|exact Ho]. unfold others. rewrite Hp. ip. }
    exists h', []. cbn [exec]. rewrite E. split; [reflexivity|]. split; [exact O|exact Hw].
  - (* DomNew *) eexists _, _. split; [reflexivity|]. split; [|exact Hw]. rewrite items_eq in *. eapply own_perm; [|apply own_dom_new; exact Ho]. unfold others. cbn [with_d v_t v_n v_d v_s app map]. ip.
  - (* DomFree *) unfold takes_ref in Hp. apply (Permutation_map IDom) in Hp. rewrite map_app in Hp.
    destruct (own_dom_free h p (flat_map image (v_t v) ++ map INm (v_n v) ++ map IDom rest ++ map ISt (v_s v))) as (h' & E & O & _).
    { eapply own_perm; [|exact Ho]. unfold others. rewrite Hp. ip. }
    exists h', []. cbn [exec]. rewrite E. split; [reflexivity|]. split; [exact O|exact Hw].
  - (* StNew *) eexists _, _. split; [reflexivity|]. split; [|exact Hw]. rewrite items_eq in *. eapply own_perm; [|apply own_st_new; exact Ho]. unfold others. cbn [with_s v_t v_n v_d v_s app map]. ip.
  - (* StFree *) unfold takes_ref in Hp. apply (Permutation_map ISt) in Hp. rewrite map_app in Hp.
    destruct (own_st_free h p (flat_map image (v_t v) ++ map INm (v_n v) ++ map IDom (v_d v) ++ map ISt rest)) as (h' & E & O & _).
    { eapply own_perm; [|exact Ho]. unfold others. rewrite Hp. ip. }
    exists h', []. cbn [exec]. rewrite E. split; [reflexivity|]. split; [exact O|exact Hw].
Qed.
Lemma Inv_start : Inv start v0.
Proof. split; [|constructor]. split; cbn; try constructor; try (intros; discriminate); try contradiction; intros; tauto. Qed.
Lemma history_inv h v : history h v -> Inv h v.
Proof.
  induction 1 as [|h v o after h' new H IH HU HE]; [exact Inv_start|].
  destruct (step _ _ _ _ IH HU) as (h2 & new2 & E & HI). rewrite HE in E. injection E as <- <-. exact HI.
Qed.
