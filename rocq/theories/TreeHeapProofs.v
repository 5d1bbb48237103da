(** What the constructors, destructors and the copy of clast nodes do to the memory the user owns. *)
From Coq Require Import ZArith List Bool Arith String Permutation Lia.
From Verif Require HeapModel HeapProofs.
From Verif Require Import ClastModel TreeHeapModel TreeHeapSpec TreeHeapOwn.
Import ListNotations.
Local Open Scope nat_scope.
Local Arguments Nat.eqb : simpl never.
Local Arguments Nat.ltb : simpl never.
Local Arguments Nat.leb : simpl never.
Local Arguments HeapModel.put : simpl never.
Local Arguments HeapModel.del : simpl never.

(** permutations of items *)
Definition label_eq_dec (a b : label) : {a = b} + {a <> b}.
Proof.
  decide equality; try apply Z.eq_dec; try apply Nat.eq_dec; try apply string_dec; try (apply list_eq_dec; apply Z.eq_dec);
    try (decide equality; (apply Nat.eq_dec || apply string_dec)); decide equality.
Defined.
Definition cell_eq_dec (a b : cell) : {a = b} + {a <> b}.
Proof. decide equality; [apply list_eq_dec; decide equality; apply Nat.eq_dec|apply label_eq_dec]. Defined.
Definition item_eq_dec (a b : item) : {a = b} + {a <> b}.
Proof. decide equality; try apply Nat.eq_dec. apply cell_eq_dec. Defined.
Opaque item_eq_dec.
Notation ci l z := (count_occ item_eq_dec l z).
Definition one (a z : item) : nat := if item_eq_dec a z then 1 else 0.
Lemma ci_cons a l z : ci (a :: l) z = one a z + ci l z.
Proof. unfold one. cbn. destruct (item_eq_dec a z); reflexivity. Qed.
Lemma ci_nil z : ci [] z = 0.
Proof. reflexivity. Qed.
Ltac ip := apply (Permutation_count_occ item_eq_dec); intro; cbn [app map]; unfold ptr; rewrite ?count_occ_app, ?ci_cons, ?count_occ_app, ?ci_nil; repeat (rewrite ?count_occ_app, ?ci_cons, ?ci_nil); lia.

Section TreeInd.
Context (P : tree -> Prop) (IH : forall x l ks, (forall k, In (Some k) ks -> P k) -> P (T x l ks)).
Fixpoint tree_ind' (t : tree) : P t :=
  match t with
  | T x l ks => IH x l ks ((fix go (ks : list (option tree)) : forall k, In (Some k) ks -> P k :=
      match ks with
      | [] => fun k H => match H with end
      | o :: ks' => fun k H => match H with
                              | or_introl E => match o as o return o = Some k -> P k with
                                               | Some k0 => fun E => match E in _ = s return match s with Some k => P k | None => True end with eq_refl => tree_ind' k0 end
                                               | None => fun E => match E in _ = s return match s with Some k => P k | None => True end with eq_refl => I end
                                               end E
                              | or_intror H' => go ks' k H'
                              end
      end) ks)
  end.
End TreeInd.

Definition l_items (x : nat) (l : label) : list item :=
  (if l_int l then [IInt x] else []) ++ map INm (l_names l) ++ map IDom (l_doms l) ++ map ISt (l_sts l).
Fixpoint image (t : tree) : list item :=
  match t with T x l ks => ICell x {| c_lab := l; c_fields := map at_root ks |} :: l_items x l ++ flat_map (fun o => match o with Some k => image k | None => [] end) ks end.
Definition oimage (o : option tree) : list item := match o with Some k => image k | None => [] end.
Definition cell_of (t : tree) : cell := {| c_lab := lab t; c_fields := map at_root (kids t) |}.
Lemma image_eq x l ks : image (T x l ks) = ICell x {| c_lab := l; c_fields := map at_root ks |} :: l_items x l ++ flat_map oimage ks.
Proof. reflexivity. Qed.
Definition onodes (o : option tree) : list tree := match o with Some k => nodes k | None => [] end.
Lemma nodes_eq x l ks : nodes (T x l ks) = T x l ks :: flat_map onodes ks.
Proof. reflexivity. Qed.
Definition size (t : tree) : nat := List.length (nodes t).
Lemma size_kid x l ks k : In (Some k) ks -> S (size k) <= size (T x l ks).
Proof.
  intros H. unfold size. rewrite nodes_eq. cbn [List.length]. apply le_n_S. apply in_split in H as (a & b & ->). rewrite flat_map_app. cbn [flat_map onodes]. rewrite !app_length. lia.
Qed.

(** the parts of an image *)
Lemma cells_image t : flat_map i_cells (image t) = map (fun n => (root n, cell_of n)) (nodes t).
Proof.
  induction t as [x l ks IH] using tree_ind'. rewrite image_eq, nodes_eq. cbn [flat_map i_cells map app]. f_equal. rewrite flat_map_app.
  replace (flat_map i_cells (l_items x l)) with (@nil (nat * cell)).
  - cbn [app]. induction ks as [|o ks IHks]; [reflexivity|]. cbn [flat_map]. rewrite flat_map_app, map_app. f_equal; [|apply IHks; intros k Hk; apply IH; right; exact Hk].
    destruct o as [k|]; [apply IH; left; reflexivity|reflexivity].
  - unfold l_items. destruct l as [| | | | | |[?|] [?|]| |[?|] ? ?|]; reflexivity.
Qed.
Lemma part_image (f : item -> list nat) (g : tree -> list nat) :
  (forall x c, f (ICell x c) = []) -> (forall x l ks, flat_map f (l_items x l) = g (T x l ks)) ->
  forall t, flat_map f (image t) = flat_map g (nodes t).
Proof.
  intros H1 H2 t. induction t as [x l ks IH] using tree_ind'. rewrite image_eq, nodes_eq. cbn [flat_map]. rewrite H1, flat_map_app. cbn [app]. rewrite (H2 x l ks). f_equal.
  induction ks as [|o ks IHks]; [reflexivity|]. cbn [flat_map]. rewrite !flat_map_app. f_equal; [|apply IHks; intros k Hk; apply IH; right; exact Hk].
  destruct o as [k|]; [apply IH; left; reflexivity|reflexivity].
Qed.
Ltac parts := apply part_image; [reflexivity|]; intros x l ks; unfold l_items; destruct l as [| | | | | |[?|] [?|]| |[?|] ? ?|]; reflexivity.
Lemma ints_image t : flat_map i_ints (image t) = flat_map (fun t => if l_int (lab t) then [root t] else []) (nodes t).
Proof. revert t. parts. Qed.
Lemma nms_image t : flat_map i_nms (image t) = flat_map (fun t => l_names (lab t)) (nodes t).
Proof. revert t. parts. Qed.
Lemma doms_image t : flat_map i_doms (image t) = flat_map (fun t => l_doms (lab t)) (nodes t).
Proof. revert t. parts. Qed.
Lemma sts_image t : flat_map i_sts (image t) = flat_map (fun t => l_sts (lab t)) (nodes t).
Proof. revert t. parts. Qed.
Lemma cell_in_image t n : In n (nodes t) -> In (ICell (root n) (cell_of n)) (image t).
Proof.
  induction t as [x l ks IH] using tree_ind'. rewrite nodes_eq, image_eq. intros [<-|H]; [left; reflexivity|]. right. apply in_app_iff. right.
  apply in_flat_map in H as ([k|] & Hk & H); [|contradiction]. apply in_flat_map. exists (Some k). split; [exact Hk|]. apply IH; assumption.
Qed.
Lemma image_sub t n : In n (nodes t) -> incl (image n) (image t).
Proof.
  induction t as [x l ks IH] using tree_ind'. rewrite nodes_eq. intros [<-|H]; [apply incl_refl|]. rewrite (image_eq x l ks).
  apply in_flat_map in H as ([k|] & Hk & H); [|contradiction]. intros i Hi. right. apply in_app_iff. right. apply in_flat_map. exists (Some k). split; [exact Hk|]. apply (IH k Hk H). exact Hi.
Qed.

(** well-formed trees *)
Definition arity (l : label) (n : nat) : Prop :=
  match l with
  | LName _ => n = 0
  | LTerm _ | LBin _ _ | LRoot _ => n = 1
  | LRed _ => True
  | LAss _ | LUser _ _ | LBlock => n = 2
  | LFor _ _ _ => n = 4
  | LGuard _ => 2 <= n
  end.
Inductive wf : tree -> Prop :=
| Wf x l ks : arity l (List.length ks) -> (forall i k, nth_error ks i = Some (Some k) -> is_expr (lab k) = for_expr l i) ->
    (forall k, In (Some k) ks -> wf k) -> wf (T x l ks).
Lemma wf_inv x l ks : wf (T x l ks) -> arity l (List.length ks) /\ (forall i k, nth_error ks i = Some (Some k) -> is_expr (lab k) = for_expr l i) /\ (forall k, In (Some k) ks -> wf k).
Proof. inversion 1; subst. auto. Qed.

(** ** freeing expressions *)
Definition frees (f : heap -> ptr -> option heap) (o : option tree) : Prop :=
  forall h L, own h (oimage o ++ L) -> exists h', f h (at_root o) = Some h' /\ own h' L /\ h_fresh h' = h_fresh h.
Lemma all_frees f x c ks : (forall o, In o ks -> frees f o) -> forall i h L, own h (flat_map oimage ks ++ ICell x c :: L) ->
  skipn i (c_fields c) = map at_root ks -> exists h', free_fields f h x i (List.length (map at_root ks)) = Some h' /\ own h' (ICell x c :: L) /\ h_fresh h' = h_fresh h.
Proof.
  induction ks as [|o ks IH]; intros Hf i h L Ho Hi; [exists h; auto|]. cbn [flat_map] in Ho. rewrite <- app_assoc in Ho.
  assert (Hn : nth_error (c_fields c) i = Some (at_root o) /\ skipn (S i) (c_fields c) = map at_root ks).
  { cbn [map] in Hi. clear -Hi. revert Hi. generalize (c_fields c). intros l. revert l. induction i as [|i IH]; intros [|p l] Hi; cbn in Hi; try discriminate.
    - injection Hi as -> ->. split; reflexivity.
    - exact (IH l Hi). }
  destruct Hn as [Hn Hi']. cbn [map List.length free_fields]. rewrite (own_fld _ _ x c i (at_root o) Ho); [|rewrite !in_app_iff; cbn; auto|exact Hn]. cbn [bind].
  destruct (Hf o (or_introl eq_refl) h _ Ho) as (h1 & E1 & O1 & F1). rewrite E1. cbn [bind].
  destruct (IH (fun o Ho => Hf o (or_intror Ho)) (S i) h1 L O1 Hi') as (h2 & E2 & O2 & F2). exists h2. split; [exact E2|]. split; [exact O2|lia].
Qed.
Lemma frees_null f : (forall h, f h None = Some h) -> frees f None.
Proof. intros H h L Ho. exists h. auto. Qed.

Ltac inn := rewrite ?in_app_iff; cbn [In]; rewrite ?in_app_iff; cbn [In]; tauto.
Ltac rd O i := match type of O with context [ICell ?x ?c] => erewrite (own_fld _ _ x c i _ O); [|inn|reflexivity] end; cbn [bind].
Ltac clr O h1 E1 O1 F1 := match type of O with context [ICell ?x ?c] => destruct (own_int_clear _ x _ c O) as (h1 & E1 & O1 & F1); [inn|] end; rewrite E1; cbn [bind].
Ltac fin h := exists h; split; [assumption || reflexivity|]; split; [assumption|lia].
Lemma free_expr_ok t : wf t -> is_expr (lab t) = true -> forall fuel, size t <= fuel -> frees (free_expr fuel) (Some t).
Proof.
  induction t as [x l ks IH] using tree_ind'. intros Hw He fuel Hs h L Ho. apply wf_inv in Hw as (Ha & Hk & Hw).
  assert (H0 : 1 <= size (T x l ks)) by (unfold size; rewrite nodes_eq; cbn; lia). destruct fuel as [|f]; [lia|].
  assert (Hks : (forall i, for_expr l i = true) -> forall o, In o ks -> frees (free_expr f) o).
  { intros Hx o Hin. destruct o as [k|]; [|apply frees_null; intros; destruct f; reflexivity]. apply IH; [exact Hin|apply Hw; exact Hin| |].
    - apply In_nth_error in Hin as [i Hi]. rewrite (Hk i k Hi). apply Hx.
    - pose proof (size_kid x l ks k Hin). lia. }
  cbn [oimage] in Ho. rewrite image_eq in Ho. cbn [at_root option_map root free_expr app] in *. rewrite (own_read _ _ _ _ Ho). cbn [bind c_lab c_fields].
  destruct l; cbn in He; try discriminate; cbn in Ha.
  - destruct ks; [|discriminate]. cbn in Ho. cbn [map]. destruct (own_dealloc _ _ _ _ Ho) as (h1 & E1 & O1 & F1). fin h1.
  - destruct ks as [|o [|? ?]]; try discriminate. cbn [map].
    assert (O1 : own h (IInt x :: oimage o ++ ICell x {| c_lab := LTerm val; c_fields := [at_root o] |} :: L)) by (eapply own_perm; [|exact Ho]; cbn [l_items l_int l_names l_doms l_sts map flat_map app]; ip).
    clr O1 h1 E1 O1' F1. rd O1' 0.
    destruct (Hks (fun _ => eq_refl) o (or_introl eq_refl) _ _ O1') as (h2 & E2 & O2 & F2). rewrite E2. cbn [bind].
    destruct (own_dealloc _ _ _ _ O2) as (h3 & E3 & O3 & F3). fin h3.
  - destruct ks as [|o [|? ?]]; try discriminate. cbn [map].
    assert (O1 : own h (IInt x :: oimage o ++ ICell x {| c_lab := LBin t rhs; c_fields := [at_root o] |} :: L)) by (eapply own_perm; [|exact Ho]; cbn [l_items l_int l_names l_doms l_sts map flat_map app]; ip).
    clr O1 h1 E1 O1' F1. rd O1' 0.
    destruct (Hks (fun _ => eq_refl) o (or_introl eq_refl) _ _ O1') as (h2 & E2 & O2 & F2). rewrite E2. cbn [bind].
    destruct (own_dealloc _ _ _ _ O2) as (h3 & E3 & O3 & F3). fin h3.
  - assert (O1 : own h (flat_map oimage ks ++ ICell x {| c_lab := LRed t; c_fields := map at_root ks |} :: L)) by (eapply own_perm; [|exact Ho]; cbn [l_items l_int l_names l_doms l_sts map app]; ip).
    destruct (all_frees _ _ _ _ (Hks (fun _ => eq_refl)) 0 _ _ O1 eq_refl) as (h1 & E1 & O1' & F1). rewrite E1. cbn [bind].
    destruct (own_dealloc _ _ _ _ O1') as (h3 & E3 & O3 & F3). fin h3.
Qed.

(** ** freeing statements *)
Definition next_kid (t : tree) : option tree := nth (next_place (lab t)) (kids t) None.
Definition frees_one (f : heap -> nat -> option heap) (t : tree) : Prop :=
  forall h L, own h (image t ++ L) -> exists h', f h (root t) = Some h' /\ own h' (oimage (next_kid t) ++ L) /\ h_fresh h' = h_fresh h.
Lemma next_of_cell x l ks : arity l (List.length ks) -> is_expr l = false -> next_of {| c_lab := l; c_fields := map at_root ks |} = Some (at_root (next_kid (T x l ks))).
Proof.
  intros Ha He. destruct l; cbn in He; try discriminate; cbn in Ha; unfold next_kid; cbn [lab kids next_place];
    destruct ks as [|? ks]; cbn in Ha; try lia; try discriminate; destruct ks as [|? ks]; cbn in Ha; try lia; try discriminate; try reflexivity;
    destruct ks as [|? ks]; cbn in Ha; try lia; try discriminate; try reflexivity; destruct ks as [|? ks]; cbn in Ha; try lia; try discriminate;
    destruct ks as [|? ks]; cbn in Ha; try lia; try discriminate; reflexivity.
Qed.
Lemma next_in x l ks k : next_kid (T x l ks) = Some k -> In (Some k) ks.
Proof.
  unfold next_kid. cbn. intros E. rewrite <- E. destruct (Nat.lt_ge_cases (next_place l) (List.length ks)) as [H|H]; [apply nth_In; exact H|]. rewrite nth_overflow in E by exact H. discriminate.
Qed.
Lemma next_stmt l : is_expr l = false -> for_expr l (next_place l) = false.
Proof. destruct l; cbn; try discriminate; reflexivity. Qed.

Ltac split_items := eapply own_perm; [|eassumption]; cbn [l_items l_int l_names l_doms l_sts map flat_map app opt]; ip.
Lemma free_stmt_ok t : wf t -> is_expr (lab t) = false ->
  (forall fuel, 2 * size t <= fuel -> frees (free_stmts fuel) (Some t)) /\ (forall fuel, 2 * size t <= S fuel -> frees_one (free_stmt fuel) t).
Proof.
  induction t as [x l ks IH] using tree_ind'. intros Hw He. pose proof (wf_inv _ _ _ Hw) as (Ha & Hk & Hkw).
  assert (H0 : 1 <= size (T x l ks)) by (unfold size; rewrite nodes_eq; cbn; lia).
  assert (HE : forall f i o, 2 * size (T x l ks) <= S (S f) -> nth_error ks i = Some o -> for_expr l i = true -> frees (free_expr f) o).
  { intros f i o Hf Hi Hx. destruct o as [k|]; [|apply frees_null; intros; destruct f; reflexivity]. pose proof (nth_error_In _ _ Hi) as Hin.
    apply free_expr_ok; [apply Hkw; exact Hin|rewrite (Hk i k Hi); exact Hx|]. pose proof (size_kid x l ks k Hin). lia. }
  assert (HS : forall f i o, 2 * size (T x l ks) <= S (S f) -> nth_error ks i = Some o -> for_expr l i = false -> frees (free_stmts f) o).
  { intros f i o Hf Hi Hx. destruct o as [k|]; [|apply frees_null; intros; destruct f; reflexivity]. pose proof (nth_error_In _ _ Hi) as Hin.
    apply (IH k Hin); [apply Hkw; exact Hin|rewrite (Hk i k Hi); exact Hx|]. pose proof (size_kid x l ks k Hin). lia. }
  assert (HB : forall fuel, 2 * size (T x l ks) <= S fuel -> frees_one (free_stmt fuel) (T x l ks)).
  { intros fuel Hf h L Ho. destruct fuel as [|f]; [lia|]. specialize (HE f) as HE. specialize (HS f) as HS. rewrite image_eq in Ho. cbn [app] in Ho.
    cbn [free_stmt root]. rewrite (own_read _ _ _ _ Ho). cbn [bind c_lab c_fields]. unfold next_kid. cbn [lab kids].
    destruct l; cbn in He; try discriminate; cbn [arity] in Ha; cbn [next_place].
    - destruct ks as [|o [|? ?]]; try discriminate. cbn [map nth] in *.
      assert (O1 : own h (INm names :: ICell x {| c_lab := LRoot names; c_fields := [at_root o] |} :: oimage o ++ L)) by split_items.
      destruct (own_names_free _ _ _ O1) as (h1 & E1 & O1' & F1). rewrite E1. cbn [bind]. destruct (own_dealloc _ _ _ _ O1') as (h3 & E3 & O3 & F3). fin h3.
    - destruct ks as [|o [|n [|? ?]]]; try discriminate. cbn [map nth] in *.
      assert (O1 : own h (oimage o ++ ICell x {| c_lab := LAss lhs; c_fields := [at_root o; at_root n] |} :: oimage n ++ L)) by split_items.
      destruct (HE 0 o Hf eq_refl eq_refl _ _ O1) as (h1 & E1 & O1' & F1). rewrite E1. cbn [bind]. destruct (own_dealloc _ _ _ _ O1') as (h3 & E3 & O3 & F3). fin h3.
    - destruct ks as [|o [|n [|? ?]]]; try discriminate. cbn [map nth] in *.
      assert (O1 : own h (map IDom (opt dom) ++ map ISt (opt st) ++ oimage o ++ ICell x {| c_lab := LUser dom st; c_fields := [at_root o; at_root n] |} :: oimage n ++ L)) by split_items.
      destruct (own_dom_free _ _ _ O1) as (h1 & E1 & O1' & F1). rewrite E1. cbn [bind].
      unfold st_of. erewrite (own_read_in _ _ x {| c_lab := LUser dom st; c_fields := [at_root o; at_root n] |} O1'); [|inn]. cbn [bind c_lab]. destruct (own_st_free _ _ _ O1') as (h2 & E2 & O2 & F2). rewrite E2. cbn [bind]. rd O2 0.
      destruct (HS 0 o Hf eq_refl eq_refl _ _ O2) as (h3 & E3 & O3 & F3). rewrite E3. cbn [bind]. destruct (own_dealloc _ _ _ _ O3) as (h4 & E4 & O4 & F4). fin h4.
    - destruct ks as [|o [|n [|? ?]]]; try discriminate. cbn [map nth] in *.
      assert (O1 : own h (oimage o ++ ICell x {| c_lab := LBlock; c_fields := [at_root o; at_root n] |} :: oimage n ++ L)) by split_items.
      destruct (HS 0 o Hf eq_refl eq_refl _ _ O1) as (h1 & E1 & O1' & F1). rewrite E1. cbn [bind]. destruct (own_dealloc _ _ _ _ O1') as (h3 & E3 & O3 & F3). fin h3.
    - destruct ks as [|a [|b [|c [|n [|? ?]]]]]; try discriminate. cbn [map nth] in *.
      assert (O1 : own h (map IDom (opt dom) ++ oimage a ++ oimage b ++ IInt x :: oimage c ++ ICell x {| c_lab := LFor dom it stride; c_fields := [at_root a; at_root b; at_root c; at_root n] |} :: oimage n ++ L)) by split_items.
      destruct (own_dom_free _ _ _ O1) as (h1 & E1 & O1' & F1). rewrite E1. cbn [bind]. rd O1' 0.
      destruct (HE 0 a Hf eq_refl eq_refl _ _ O1') as (h2 & E2 & O2 & F2). rewrite E2. cbn [bind]. rd O2 1.
      destruct (HE 1 b Hf eq_refl eq_refl _ _ O2) as (h3 & E3 & O3 & F3). rewrite E3. cbn [bind].
      clr O3 h4 E4 O4 F4. rd O4 2.
      destruct (HS 2 c Hf eq_refl eq_refl _ _ O4) as (h5 & E5 & O5 & F5). rewrite E5. cbn [bind]. destruct (own_dealloc _ _ _ _ O5) as (h6 & E6 & O6 & F6). fin h6.
    - destruct ks as [|a [|n ks]]; cbn in Ha; try lia. cbn [map nth] in *.
      assert (O1 : own h (oimage a ++ flat_map oimage ks ++ ICell x {| c_lab := LGuard signs; c_fields := at_root a :: at_root n :: map at_root ks |} :: oimage n ++ L)) by split_items.
      destruct (HS 0 a Hf eq_refl eq_refl _ _ O1) as (h1 & E1 & O1' & F1). rewrite E1. cbn [bind].
      assert (Hall : forall o, In o ks -> frees (free_expr f) o).
      { intros o Hin. apply In_nth_error in Hin as [i Hi]. apply (HE (S (S i)) o Hf Hi). cbn. reflexivity. }
      destruct (all_frees _ _ _ _ Hall 2 _ _ O1' eq_refl) as (h2 & E2 & O2 & F2). rewrite E2. cbn [bind]. destruct (own_dealloc _ _ _ _ O2) as (h3 & E3 & O3 & F3). fin h3. }
  split; [|exact HB]. intros fuel Hf h L Ho. destruct fuel as [|f]; [lia|]. cbn [at_root option_map free_stmts root].
  assert (Hr : get (h_cells h) x = Some {| c_lab := l; c_fields := map at_root ks |}) by (cbn [oimage] in Ho; rewrite image_eq in Ho; exact (own_read _ _ _ _ Ho)).
  rewrite Hr. cbn [bind]. rewrite (next_of_cell x l ks Ha He). cbn [bind].
  destruct (HB f Hf h L Ho) as (h1 & E1 & O1 & F1). cbn [root] in E1. rewrite E1. cbn [bind].
  assert (Hn : frees (free_stmts f) (next_kid (T x l ks))).
  { destruct (next_kid (T x l ks)) as [k|] eqn:E; [|apply frees_null; intros; destruct f; reflexivity]. pose proof (next_in _ _ _ _ E) as Hin.
    apply (IH k Hin); [apply Hkw; exact Hin| |pose proof (size_kid x l ks k Hin); lia].
    unfold next_kid in E. cbn [lab kids] in E. rewrite <- (next_stmt l He). apply Hk. rewrite <- E. apply nth_error_nth'.
    destruct (Nat.lt_ge_cases (next_place l) (List.length ks)) as [H|H]; [exact H|]. rewrite nth_overflow in E by exact H. discriminate. }
  destruct (Hn h1 L O1) as (h2 & E2 & O2 & F2). exists h2. split; [exact E2|]. split; [exact O2|lia].
Qed.
Lemma size_cells h t L : own h (image t ++ L) -> size t <= List.length (h_cells h).
Proof.
  intros Ho. rewrite (Permutation_length (O_cells _ _ Ho)), flat_map_app, app_length, cells_image, map_length. unfold size. lia.
Qed.
