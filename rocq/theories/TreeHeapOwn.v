(** Ownership of memory as a list of items: what each primitive needs and leaves. *)
From Coq Require Import ZArith List Bool Arith String Permutation Lia.
From Verif Require HeapModel HeapProofs.
From Verif Require Import ClastModel TreeHeapModel TreeHeapSpec.
Import ListNotations.
Local Open Scope nat_scope.
Local Arguments Nat.eqb : simpl never.
Local Arguments Nat.ltb : simpl never.
Local Arguments Nat.leb : simpl never.

Notation keys := HeapProofs.keys.
Notation cnt l x := (count_occ Nat.eq_dec l x).

Inductive item := ICell (x : nat) (c : cell) | IInt (x : nat) | INm (n : nat) | IDom (d : nat) | ISt (s : nat).
Definition i_cells (i : item) : list (nat * cell) := match i with ICell x c => [(x, c)] | _ => [] end.
Definition i_ints (i : item) : list nat := match i with IInt x => [x] | _ => [] end.
Definition i_nms (i : item) : list nat := match i with INm x => [x] | _ => [] end.
Definition i_doms (i : item) : list nat := match i with IDom x => [x] | _ => [] end.
Definition i_sts (i : item) : list nat := match i with ISt x => [x] | _ => [] end.

Record own (h : heap) (L : list item) : Prop := {
  O_nd : NoDup (keys (h_cells h));
  O_cells : Permutation (h_cells h) (flat_map i_cells L);
  O_ints : Permutation (h_ints h) (flat_map i_ints L);
  O_doms : Permutation (h_doms h) (flat_map i_doms L);
  O_sts : Permutation (h_sts h) (flat_map i_sts L);
  O_ndn : NoDup (keys (h_nms h));
  O_nms : forall n r, get (h_nms h) n = Some r -> r = Z.of_nat (cnt (flat_map i_nms L) n);
  O_live : forall n, In n (keys (h_nms h)) <-> In n (flat_map i_nms L);
  O_fresh : forall x, In x (keys (h_cells h)) -> x < h_fresh h;
  O_freshn : forall x, In x (keys (h_nms h)) -> x < h_fresh h
}.

Lemma own_perm h L L' : Permutation L L' -> own h L -> own h L'.
Proof.
  intros Hp [A B C D E F G H I J].
  split; auto; try (etransitivity; [eassumption|apply HeapProofs.flat_perm; exact Hp]).
  - intros n r Hn. rewrite (G n r Hn). f_equal. apply HeapProofs.cnt_perm. apply HeapProofs.flat_perm. exact Hp.
  - intros n. rewrite H. split; apply Permutation_in; apply HeapProofs.flat_perm; [exact Hp|symmetry; exact Hp].
Qed.

Lemma get_of {A} (m : list (nat * A)) x a : NoDup (keys m) -> In (x, a) m -> get m x = Some a.
Proof.
  induction m as [|[y b] m IH]; cbn; intros Hn Hi; [contradiction|]. inversion Hn as [|? ? Hy Hn']; subst.
  destruct Hi as [E|Hi]; [injection E as -> ->; rewrite Nat.eqb_refl; reflexivity|].
  destruct (Nat.eqb_spec y x) as [->|]; [|apply IH; assumption]. exfalso. apply Hy. apply (in_map fst) in Hi. exact Hi.
Qed.
Lemma get_is {A} (m : list (nat * A)) x a : get m x = Some a -> In (x, a) m.
Proof. induction m as [|[y b] m IH]; cbn; [discriminate|]. destruct (Nat.eqb_spec y x) as [->|]; [intros H; injection H as ->; auto|auto]. Qed.
Lemma del_notin {A} (m : list (nat * A)) x : ~ In x (keys m) -> del m x = m.
Proof.
  induction m as [|[y b] m IH]; cbn; intros H; [reflexivity|]. destruct (Nat.eqb_spec y x) as [->|]; [exfalso; apply H; auto|].
  cbn. f_equal. apply IH. intros K. apply H. auto.
Qed.
Lemma del_perm {A} (m m' : list (nat * A)) x : Permutation m m' -> Permutation (del m x) (del m' x).
Proof.
  unfold del. induction 1 as [|y l l' H IH|y z l|l l' l'' H1 IH1 H2 IH2]; cbn; [constructor|..].
  - destruct (negb _); [constructor; exact IH|exact IH].
  - destruct (negb _), (negb _); try apply Permutation_refl. apply perm_swap.
  - etransitivity; eassumption.
Qed.
Lemma put_perm {A} (m m' : list (nat * A)) x a : Permutation m m' -> Permutation (put m x a) (put m' x a).
Proof. intros H. unfold put. apply Permutation_map. exact H. Qed.
Lemma put_notin {A} (m : list (nat * A)) x a : ~ In x (keys m) -> put m x a = m.
Proof.
  induction m as [|[y b] m IH]; cbn; intros H; [reflexivity|]. destruct (Nat.eqb_spec y x) as [->|]; [exfalso; apply H; auto|].
  f_equal. apply IH. intros K. apply H. auto.
Qed.
Lemma keys_perm {A} (m m' : list (nat * A)) : Permutation m m' -> Permutation (keys m) (keys m').
Proof. apply Permutation_map. Qed.

Local Arguments HeapModel.put : simpl never.
Local Arguments HeapModel.del : simpl never.
Local Arguments HeapProofs.keys : simpl never.
Lemma del_here {A} (m : list (nat * A)) x a : ~ In x (keys m) -> del ((x, a) :: m) x = m.
Proof. intros H. unfold HeapModel.del. cbn. rewrite Nat.eqb_refl. cbn. apply (del_notin m x H). Qed.
Lemma put_here {A} (m : list (nat * A)) x a b : ~ In x (keys m) -> put ((x, a) :: m) x b = (x, b) :: m.
Proof. intros H. unfold HeapModel.put. cbn. rewrite Nat.eqb_refl. f_equal. apply (put_notin m x b H). Qed.
Section Cell.
Context (h : heap) (x : nat) (c : cell) (L : list item).
Hypothesis Ho : own h (ICell x c :: L).
Lemma own_read : get (h_cells h) x = Some c.
Proof. destruct Ho as [A B _ _ _ _ _ _ _ _]. apply get_of; [exact A|]. eapply Permutation_in; [symmetry; exact B|]. left. reflexivity. Qed.
Lemma own_notin : ~ In x (keys (flat_map i_cells L)).
Proof. destruct Ho as [A B _ _ _ _ _ _ _ _]. apply (Permutation_NoDup (keys_perm _ _ B)) in A. cbn in A. inversion A. assumption. Qed.
Lemma own_dealloc : exists h', dealloc h x = Some h' /\ own h' L /\ h_fresh h' = h_fresh h.
Proof.
  unfold dealloc. rewrite own_read. eexists. split; [reflexivity|]. split; [|reflexivity].
  pose proof own_notin as Hn. destruct Ho as [A B C D E F G H I J]. split; cbn in *; auto.
  - apply HeapProofs.nodup_del. exact A.
  - rewrite (del_perm _ _ x B). rewrite del_here by exact Hn. reflexivity.
  - intros y Hy. apply I. change (In y (keys (del (h_cells h) x))) in Hy. rewrite HeapProofs.keys_del in Hy. apply in_remove in Hy. tauto.
Qed.
Lemma own_put c' : own (with_cells h (put (h_cells h) x c')) (ICell x c' :: L).
Proof.
  pose proof own_notin as Hn. destruct Ho as [A B C D E F G H I J]. split; cbn in *; auto.
  - rewrite HeapProofs.keys_put. exact A.
  - rewrite (put_perm _ _ x c' B). rewrite put_here by exact Hn. reflexivity.
  - intros y Hy. apply I. change (In y (keys (put (h_cells h) x c'))) in Hy. rewrite HeapProofs.keys_put in Hy. exact Hy.
Qed.
End Cell.
Lemma own_read_in h L x c : own h L -> In (ICell x c) L -> get (h_cells h) x = Some c.
Proof. intros Ho Hi. apply in_split in Hi as (a & b & ->). eapply own_read. eapply own_perm; [|exact Ho]. symmetry. apply Permutation_middle. Qed.
Lemma own_write h x c i p L : own h (ICell x c :: L) -> i < List.length (c_fields c) ->
  exists h', write h x i p = Some h' /\ own h' (ICell x {| c_lab := c_lab c; c_fields := set_nth i p (c_fields c) |} :: L) /\ h_fresh h' = h_fresh h.
Proof.
  intros Ho Hi. unfold write. rewrite (own_read _ _ _ _ Ho). cbn [bind]. destruct (Nat.ltb_spec i (List.length (c_fields c))); [|lia].
  eexists. split; [reflexivity|]. split; [apply own_put with (c := c); exact Ho|reflexivity].
Qed.
Lemma own_fld h L x c i p : own h L -> In (ICell x c) L -> nth_error (c_fields c) i = Some p -> fld h x i = Some p.
Proof. intros Ho Hi E. unfold fld. rewrite (own_read_in _ _ _ _ Ho Hi). exact E. Qed.
Lemma own_fresh_cell h L x c : own h L -> In (ICell x c) L -> x < h_fresh h.
Proof. intros Ho Hi. apply (O_fresh _ _ Ho). eapply HeapProofs.get_in. eapply own_read_in; eassumption. Qed.

Lemma own_alloc h c L : own h L -> own (alloc h c) (ICell (h_fresh h) c :: L).
Proof.
  intros [A B C D E F G H I J]. unfold alloc. split; cbn; auto.
  - constructor; [|exact A]. intros K. apply I in K. cbn in K. lia.
  - intros x [<-|Hx]; [cbn; lia|]. apply I in Hx. lia.
  - intros x Hx. apply J in Hx. lia.
Qed.
Lemma fresh_alloc h c : h_fresh (alloc h c) = S (h_fresh h).
Proof. reflexivity. Qed.
Lemma own_next h L : own h L -> own (next_fresh h) L.
Proof. intros [A B C D E F G H I J]. split; cbn; auto; intros x Hx; [apply I in Hx|apply J in Hx]; lia. Qed.

Lemma remove1_spec x l r : Permutation l (x :: r) -> exists l', remove1 x l = Some l' /\ Permutation l' r.
Proof.
  revert r. induction l as [|y l IH]; intros r Hp.
  - apply Permutation_nil in Hp. discriminate.
  - cbn. destruct (Nat.eqb_spec y x) as [->|Hn]; [eexists; split; [reflexivity|]; apply Permutation_cons_inv in Hp; exact Hp|].
    assert (Hi : In x (y :: l)) by (eapply Permutation_in; [symmetry; exact Hp|left; reflexivity]). destruct Hi as [Hi|Hi]; [congruence|].
    assert (Hy : In y r) by (assert (Hy : In y (x :: r)) by (eapply Permutation_in; [exact Hp|left; reflexivity]); destruct Hy as [Hy|Hy]; [congruence|exact Hy]).
    apply in_split in Hy as (a & b & ->). destruct (IH (a ++ b)) as (l' & E & Hl).
    { apply (Permutation_cons_inv (a := y)). rewrite Hp. change (x :: a ++ y :: b) with ((x :: a) ++ y :: b). symmetry. apply (Permutation_middle (x :: a) b y). }
    rewrite E. eexists. split; [reflexivity|]. rewrite Hl. apply Permutation_middle.
Qed.
Lemma in_list_ok x l : In x l -> in_list x l = true.
Proof. intros H. unfold in_list. destruct (in_dec _ _ _); [reflexivity|contradiction]. Qed.

Lemma own_int_init h x L : own h L -> own (int_init h x) (IInt x :: L).
Proof. intros [A B C D E F G H I J]. split; cbn; auto. Qed.
Lemma own_int_clear h x L c : own h (IInt x :: L) -> In (ICell x c) L -> exists h', int_clear h x = Some h' /\ own h' L /\ h_fresh h' = h_fresh h.
Proof.
  intros Ho Hi. pose proof (own_read_in _ _ _ _ Ho (or_intror Hi)) as Hr. destruct Ho as [A B C D E F G H I J]. cbn in *. destruct (remove1_spec _ _ _ C) as (l & El & Hl). unfold int_clear. rewrite Hr, El. cbn [bind].
  eexists. split; [reflexivity|]. split; [|reflexivity]. split; cbn; auto.
Qed.
Lemma own_dom_copy h d L : own h L -> (forall x, d = Some x -> In (IDom x) L) -> exists h', dom_copy h d = Some h' /\ own h' (map IDom (opt d) ++ L) /\ h_fresh h' = h_fresh h.
Proof.
  intros Ho Hd. destruct d as [d|]; cbn; [|eauto]. specialize (Hd d eq_refl). pose proof Ho as [A B C D E F G H I J].
  rewrite in_list_ok.
  - eexists. split; [reflexivity|]. split; [|reflexivity]. split; cbn; auto.
  - eapply Permutation_in; [symmetry; exact D|]. apply in_flat_map. exists (IDom d). split; [exact Hd|left; reflexivity].
Qed.
Lemma own_dom_free h d L : own h (map IDom (opt d) ++ L) -> exists h', dom_free h d = Some h' /\ own h' L /\ h_fresh h' = h_fresh h.
Proof.
  destruct d as [d|]; cbn; [|eauto]. intros [A B C D E F G H I J]. cbn in *. destruct (remove1_spec _ _ _ D) as (l & El & Hl). rewrite El. cbn [bind].
  eexists. split; [reflexivity|]. split; [|reflexivity]. split; cbn; auto.
Qed.
Lemma own_st_copy h s L : own h L -> (forall x, s = Some x -> In (ISt x) L) ->
  exists h' s', st_copy h s = Some (h', s') /\ own h' (map ISt (opt s') ++ L) /\ h_fresh h <= h_fresh h' /\ (s' = match s with Some _ => Some (h_fresh h) | None => None end).
Proof.
  intros Ho Hd. destruct s as [s|]; cbn; [|exists h, None; cbn; auto]. specialize (Hd s eq_refl).
  rewrite in_list_ok.
  - eexists _, _. split; [reflexivity|]. split; [|split; [cbn; lia|reflexivity]]. cbn [opt map app]. apply own_next. destruct Ho as [A B C D E F G H I J]. split; cbn; auto.
  - eapply Permutation_in; [symmetry; exact (O_sts _ _ Ho)|]. apply in_flat_map. exists (ISt s). split; [exact Hd|left; reflexivity].
Qed.
Lemma own_st_free h s L : own h (map ISt (opt s) ++ L) -> exists h', st_free h s = Some h' /\ own h' L /\ h_fresh h' = h_fresh h.
Proof.
  destruct s as [d|]; cbn; [|eauto]. intros [A B C D E F G H I J]. cbn in *. destruct (remove1_spec _ _ _ E) as (l & El & Hl). rewrite El. cbn [bind].
  eexists. split; [reflexivity|]. split; [|reflexivity]. split; cbn; auto.
Qed.
Lemma own_names_new h L : own h L -> own (names_new h) (INm (h_fresh h) :: L).
Proof.
  intros [A B C D E F G H I J]. unfold names_new. assert (Hf : ~ In (h_fresh h) (keys (h_nms h))) by (intros K; apply J in K; lia). split; cbn; auto.
  - constructor; assumption.
  - intros n r. destruct (Nat.eqb_spec (h_fresh h) n) as [<-|Hn].
    + intros K. injection K as <-. destruct (Nat.eq_dec _ _); [|congruence]. rewrite H in Hf. apply (count_occ_not_In Nat.eq_dec) in Hf. rewrite Hf. reflexivity.
    + intros K. destruct (Nat.eq_dec _ _); [congruence|]. apply G. exact K.
  - intros n. change (keys ((h_fresh h, 1%Z) :: h_nms h)) with (h_fresh h :: keys (h_nms h)). cbn [In]. rewrite H. tauto.
  - intros x Hx. apply I in Hx. lia.
  - intros x [<-|Hx]; [cbn; lia|]. apply J in Hx. lia.
Qed.
Lemma own_names_copy h n L : own h L -> In (INm n) L -> exists h', names_copy h n = Some h' /\ own h' (INm n :: L) /\ h_fresh h' = h_fresh h.
Proof.
  intros [A B C D E F G H I J] Hi. assert (Hn : In n (flat_map i_nms L)) by (apply in_flat_map; exists (INm n); split; [exact Hi|left; reflexivity]).
  pose proof (proj2 (H n) Hn) as Hk. apply HeapProofs.in_get in Hk as [r Er]. unfold names_copy. rewrite Er. cbn [bind]. eexists. split; [reflexivity|]. split; [|reflexivity].
  split; cbn; auto.
  - rewrite HeapProofs.keys_put. exact F.
  - intros m q. rewrite HeapProofs.get_put. destruct (Nat.eqb_spec m n) as [->|Hm].
    + rewrite Er. intros K. injection K as <-. rewrite (G n r Er). destruct (Nat.eq_dec n n); [|congruence]. lia.
    + intros K. destruct (Nat.eq_dec n m); [congruence|]. apply G. exact K.
  - intros m. rewrite HeapProofs.keys_put, H. split; [auto|]. intros [<-|K]; assumption.
  - intros x Hx. rewrite HeapProofs.keys_put in Hx. apply J. exact Hx.
Qed.
Lemma own_names_free h n L : own h (INm n :: L) -> exists h', names_free h n = Some h' /\ own h' L /\ h_fresh h' = h_fresh h.
Proof.
  intros [A B C D E F G H I J]. cbn in *. assert (Hk : In n (keys (h_nms h))) by (apply H; auto). apply HeapProofs.in_get in Hk as [r Er].
  pose proof (G n r Er) as Hr. destruct (Nat.eq_dec n n); [|congruence]. unfold names_free. rewrite Er. cbn [bind].
  destruct (Z.eqb_spec (r - 1) 0) as [E0|E0]; (eexists; split; [reflexivity|]; split; [|reflexivity]; split; cbn; auto).
  - apply HeapProofs.nodup_del. exact F.
  - intros m q. rewrite HeapProofs.get_del. destruct (Nat.eqb_spec m n) as [->|Hm]; [discriminate|]. intros K. rewrite (G m q K). destruct (Nat.eq_dec n m); [congruence|reflexivity].
  - intros m. assert (Hno : ~ In n (flat_map i_nms L)) by (apply (count_occ_not_In Nat.eq_dec); lia). rewrite HeapProofs.keys_del. split.
    + intros K. apply in_remove in K as [K Kn]. apply H in K as [K|K]; [congruence|exact K].
    + intros K. apply in_in_remove; [intros ->; contradiction|]. apply H. auto.
  - intros x Hx. rewrite HeapProofs.keys_del in Hx. apply in_remove in Hx as [Hx _]. apply J. exact Hx.
  - rewrite HeapProofs.keys_put. exact F.
  - intros m q. rewrite HeapProofs.get_put. destruct (Nat.eqb_spec m n) as [->|Hm].
    + rewrite Er. intros K. injection K as <-. lia.
    + intros K. rewrite (G m q K). destruct (Nat.eq_dec n m); [congruence|reflexivity].
  - intros m. rewrite HeapProofs.keys_put, H. split; [|auto]. intros [<-|K]; [|exact K]. apply (count_occ_In Nat.eq_dec). lia.
  - intros x Hx. rewrite HeapProofs.keys_put in Hx. apply J. exact Hx.
Qed.
Lemma own_dom_new h L : own h L -> own (next_fresh (with_doms h (h_fresh h :: h_doms h))) (IDom (h_fresh h) :: L).
Proof. intros Ho. apply own_next. destruct Ho as [A B C D E F G H I J]. split; cbn; auto. Qed.
Lemma own_st_new h L : own h L -> own (next_fresh (with_sts h (h_fresh h :: h_sts h))) (ISt (h_fresh h) :: L).
Proof. intros Ho. apply own_next. destruct Ho as [A B C D E F G H I J]. split; cbn; auto. Qed.
