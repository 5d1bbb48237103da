(** Invariant of the memory: what the user owns is what is allocated. *)
From Coq Require Import ZArith List Bool Arith Permutation Lia.
From Verif Require Import HeapModel HeapSpec.
Import ListNotations.
Local Arguments Nat.eqb : simpl never.
Local Arguments Nat.leb : simpl never.

Definition keys {A} (m : list (nat * A)) : list nat := map fst m.
Notation cnt l x := (count_occ Nat.eq_dec l x).
Lemma cnt_perm l l' : Permutation l l' <-> forall x, cnt l x = cnt l' x.
Proof. apply Permutation_count_occ. Qed.
Ltac pm := apply cnt_perm; intro; rewrite ?count_occ_app; cbn [count_occ app]; rewrite ?count_occ_app; unfold keys in *; repeat (destruct (Nat.eq_dec _ _)); try lia.

(** ** maps *)
Section MapP.
Context {A : Type}.
Implicit Type m : list (nat * A).
Lemma get_in m x a : get m x = Some a -> In x (keys m).
Proof. induction m as [|[y b] m IH]; cbn; [discriminate|]. destruct (Nat.eqb_spec y x); [auto|]. intros H. right. apply IH. exact H. Qed.
Lemma in_get m x : In x (keys m) -> exists a, get m x = Some a.
Proof. induction m as [|[y b] m IH]; cbn; [contradiction|]. intros [->|H]; [rewrite Nat.eqb_refl; eauto|]. destruct (Nat.eqb_spec y x); eauto. Qed.
Lemma notin_get m x : ~ In x (keys m) -> get m x = None.
Proof. intros H. destruct (get m x) eqn:E; [|reflexivity]. apply get_in in E. contradiction. Qed.
Lemma get_del m x y : get (del m x) y = if y =? x then None else get m y.
Proof.
  induction m as [|[z b] m IH]; cbn; [destruct (y =? x); reflexivity|]. fold (del m x). destruct (Nat.eqb_spec z x) as [->|Hz]; cbn.
  - rewrite IH. destruct (Nat.eqb_spec y x) as [Hy|Hy]; [reflexivity|]. destruct (Nat.eqb_spec x y) as [E|E]; [congruence|reflexivity].
  - rewrite IH. destruct (Nat.eqb_spec z y) as [E|E]; [subst z; destruct (Nat.eqb_spec y x); [congruence|reflexivity]|reflexivity].
Qed.
Lemma get_put m x a y : get (put m x a) y = if y =? x then (match get m x with Some _ => Some a | None => None end) else get m y.
Proof.
  induction m as [|[z b] m IH]; cbn; [destruct (y =? x); reflexivity|]. destruct (Nat.eqb_spec z x) as [->|Hz]; cbn.
  - destruct (Nat.eqb_spec x y) as [->|Hy]; [rewrite Nat.eqb_refl; reflexivity|]. fold (put m x a). rewrite IH. destruct (Nat.eqb_spec y x); [congruence|]. reflexivity.
  - destruct (Nat.eqb_spec z y) as [->|Hy]; [destruct (Nat.eqb_spec y x); [congruence|reflexivity]|]. exact IH.
Qed.
Lemma keys_put m x a : keys (put m x a) = keys m.
Proof. unfold keys, put. rewrite map_map. apply map_ext. intros [z b]. cbn. destruct (Nat.eqb_spec z x); [symmetry; assumption|reflexivity]. Qed.
Lemma keys_del m x : keys (del m x) = remove Nat.eq_dec x (keys m).
Proof.
  induction m as [|[z b] m IH]; cbn; [reflexivity|]. fold (del m x). destruct (Nat.eq_dec x z) as [->|Hn]; [rewrite Nat.eqb_refl; exact IH|].
  destruct (Nat.eqb_spec z x); [congruence|]. cbn. f_equal. exact IH.
Qed.
Lemma nodup_del m x : NoDup (keys m) -> NoDup (keys (del m x)).
Proof. intros H. unfold keys, del. induction m as [|[z b] m IH]; cbn; [constructor|]. inversion H; subst. destruct (z =? x); cbn; [auto|]. constructor; [|auto].
  intros Hin. apply H2. apply in_map_iff in Hin as (p & <- & Hp). apply filter_In in Hp as [Hp _]. apply in_map. exact Hp. Qed.
Lemma perm_del m x rest : NoDup (keys m) -> Permutation (keys m) (x :: rest) -> Permutation (keys (del m x)) rest.
Proof.
  intros Hn Hp. rewrite keys_del. assert (Hr : ~ In x rest) by (apply (Permutation_NoDup Hp) in Hn; inversion Hn; assumption).
  assert (E : Permutation (remove Nat.eq_dec x (keys m)) (remove Nat.eq_dec x (x :: rest))).
  { clear - Hp. induction Hp as [|y l l' Hp IH|y z l|l l' l'' H1 IH1 H2 IH2]; cbn; [constructor|..].
    - destruct (Nat.eq_dec x y); [exact IH|constructor; exact IH].
    - destruct (Nat.eq_dec x z), (Nat.eq_dec x y); try apply Permutation_refl. apply perm_swap.
    - eapply Permutation_trans; eassumption. }
  rewrite E. cbn. destruct (Nat.eq_dec x x); [|congruence]. rewrite notin_remove by exact Hr. apply Permutation_refl.
Qed.
Lemma len_keys m : length (keys m) = length m.
Proof. apply map_length. Qed.
Lemma len_put m x a : length (put m x a) = length m.
Proof. apply map_length. Qed.
Lemma len_del m x : NoDup (keys m) -> In x (keys m) -> S (length (del m x)) = length m.
Proof.
  intros Hn Hx. apply in_split in Hx as (l1 & l2 & E). assert (Hp : Permutation (keys m) (x :: l1 ++ l2)) by (rewrite E; symmetry; apply Permutation_middle).
  pose proof (perm_del m x _ Hn Hp) as H. apply Permutation_length in H, Hp. rewrite len_keys in *. cbn in Hp. lia.
Qed.
End MapP.
Local Arguments del : simpl never.
Local Arguments put : simpl never.

Lemma concat_perm {A} (l l' : list (list A)) : Permutation l l' -> Permutation (concat l) (concat l').
Proof.
  induction 1 as [|x l l' H IH|x y l|l l' l'' H1 IH1 H2 IH2]; cbn; [constructor|apply Permutation_app_head; exact IH| |eapply Permutation_trans; eassumption].
  rewrite !app_assoc. apply Permutation_app_tail. apply Permutation_app_comm.
Qed.
Lemma flat_perm {A B} (f : A -> list B) (l l' : list A) : Permutation l l' -> Permutation (flat_map f l) (flat_map f l').
Proof. intros H. rewrite !flat_map_concat_map. apply concat_perm. apply Permutation_map. exact H. Qed.
Lemma perm_in {A} (l l' : list A) x : Permutation l l' -> In x l -> In x l'.
Proof. intros H. apply Permutation_in. exact H. Qed.
Lemma perm_forall {A} (P : A -> Prop) (l l' : list A) : Permutation l l' -> Forall P l -> Forall P l'.
Proof. intros H Hf. rewrite Forall_forall in *. intros x Hx. apply Hf. eapply Permutation_in; [symmetry; exact H|exact Hx]. Qed.

(** ** statements *)
Fixpoint seg (st : list (nat * stcell)) (l : list (nat * Z)) : Prop :=
  match l with [] => True | (x, n) :: r => get st x = Some {| st_num := n; st_next := head fst r |} /\ seg st r end.
Definition addrs (ls : list (list (nat * Z))) : list nat := map fst (concat ls).
Definition bal (c : counters) (n : nat) : Prop := (c_alloc c - c_freed c = Z.of_nat n)%Z.
Record SInv (st : list (nat * stcell)) (c : counters) (ls : list (list (nat * Z))) : Prop := {
  S_nd : NoDup (keys st);
  S_perm : Permutation (keys st) (addrs ls);
  S_seg : Forall (seg st) ls;
  S_cnt : bal c (length st)
}.
Lemma seg_ext st st' l : (forall x, In x (map fst l) -> get st' x = get st x) -> seg st l -> seg st' l.
Proof.
  induction l as [|[x n] l IH]; cbn; intros H Hs; [exact I|]. destruct Hs as [H1 H2]. split; [rewrite H by auto; exact H1|]. apply IH; [intros y Hy; apply H; auto|exact H2].
Qed.
Lemma addrs_cons l ls : addrs (l :: ls) = map fst l ++ addrs ls.
Proof. unfold addrs. cbn. apply map_app. Qed.
Lemma addrs_app a b : addrs (a ++ b) = addrs a ++ addrs b.
Proof. unfold addrs. rewrite concat_app, map_app. reflexivity. Qed.
Lemma addrs_perm a b : Permutation a b -> Permutation (addrs a) (addrs b).
Proof. intros H. apply Permutation_map. apply concat_perm. exact H. Qed.
Lemma in_addrs x l ls : In l ls -> In x (map fst l) -> In x (addrs ls).
Proof. intros H1 H2. unfold addrs. apply in_map_iff in H2 as (p & <- & Hp). apply in_map. apply in_concat. eauto. Qed.
Lemma SInv_perm st c a b : Permutation a b -> SInv st c a -> SInv st c b.
Proof. intros H [H1 H2 H3 H4]. split; [exact H1|rewrite H2; apply addrs_perm; exact H|eapply perm_forall; eassumption|exact H4]. Qed.
Lemma SInv_nil st c ls : SInv st c ([] :: ls) <-> SInv st c ls.
Proof. split; intros [H1 H2 H3 H4]; split; auto; [inversion H3; assumption|constructor; [exact I|assumption]]. Qed.

Lemma st_free_spec l : forall fuel m ls, SInv (m_st m) (m_cst m) (l :: ls) -> length l <= fuel ->
  exists m', st_free_loop fuel m (head fst l) = Some m' /\ SInv (m_st m') (m_cst m') ls /\ m_bl m' = m_bl m /\ m_cbl m' = m_cbl m.
Proof.
  induction l as [|[x n] l IH]; intros fuel m ls Hi Hf.
  - exists m. split; [destruct fuel; reflexivity|]. split; [apply SInv_nil; exact Hi|auto].
  - destruct fuel as [|fuel]; [cbn in Hf; lia|]. destruct Hi as [H1 H2 H3 H4]. inversion H3 as [|? ? Hs Hr]; subst. destruct Hs as [Hg Hs].
    cbn [st_free_loop head fst]. rewrite Hg. cbn [st_next].
    rewrite addrs_cons in H2. cbn [map fst app] in H2.
    assert (Hnd : NoDup (x :: map fst l ++ addrs ls)) by (eapply Permutation_NoDup; eassumption). inversion Hnd as [|? ? Hx Hnd']; subst.
    match goal with |- context [st_free_loop fuel ?m1 _] => change (m_bl m) with (m_bl m1); change (m_cbl m) with (m_cbl m1) end. apply IH; [|cbn in Hf; lia]. cbn. split.
    + apply nodup_del. exact H1.
    + rewrite addrs_cons. apply perm_del; assumption.
    + constructor.
      * eapply seg_ext; [|exact Hs]. intros y Hy. rewrite get_del. destruct (Nat.eqb_spec y x) as [->|]; [|reflexivity]. exfalso. apply Hx. apply in_app_iff. auto.
      * rewrite Forall_forall in *. intros l' Hl'. eapply seg_ext; [|apply Hr; exact Hl']. intros y Hy. rewrite get_del. destruct (Nat.eqb_spec y x) as [->|]; [|reflexivity].
        exfalso. apply Hx. apply in_app_iff. right. eapply in_addrs; eassumption.
    + unfold bal in *. cbn. pose proof (len_del (m_st m) x H1) as Hl. rewrite <- Hl in H4; [lia|]. eapply get_in. exact Hg.
Qed.
Lemma chain_len st c l ls : SInv st c (l :: ls) -> length l <= length st.
Proof. intros [_ H _ _]. apply Permutation_length in H. rewrite len_keys, addrs_cons, app_length, map_length in H. lia. Qed.

(** ** blocks *)
Record BInv (mb : list (nat * blcell)) (c : counters) (bl : list (nat * list (nat * Z))) (br : list nat) : Prop := {
  B_nd : NoDup (keys mb);
  B_perm : Permutation (keys mb) (keys bl);
  B_get : forall b l, In (b, l) bl -> get mb b = Some {| bl_stmt := head fst l; bl_refs := Z.of_nat (cnt br b) |};
  B_live : forall b, In b br <-> In b (keys bl);
  B_cnt : bal c (length mb)
}.
Record MInv (m : mem) (sl : list (list (nat * Z))) (bl : list (nat * list (nat * Z))) (br : list nat) : Prop := {
  M_st : SInv (m_st m) (m_cst m) (sl ++ map snd bl);
  M_bl : BInv (m_bl m) (m_cbl m) bl br
}.
Lemma MInv_br m sl bl br br' : Permutation br br' -> MInv m sl bl br -> MInv m sl bl br'.
Proof.
  intros Hp [H1 [A B C D E]]. split; [exact H1|]. split; auto.
  - intros b l Hb. rewrite (C b l Hb), (proj1 (cnt_perm _ _) Hp b). reflexivity.
  - intros b. rewrite <- D. split; apply Permutation_in; [symmetry; exact Hp|exact Hp].
Qed.
Lemma MInv_sl m sl sl' bl br : Permutation sl sl' -> MInv m sl bl br -> MInv m sl' bl br.
Proof. intros Hp [H1 H2]. split; [|exact H2]. eapply SInv_perm; [|exact H1]. apply Permutation_app_tail. exact Hp. Qed.
Lemma MInv_bl m sl bl bl' br : Permutation bl bl' -> MInv m sl bl br -> MInv m sl bl' br.
Proof.
  intros Hp [H1 [A B C D E]]. split; [eapply SInv_perm; [|exact H1]; apply Permutation_app_head; apply Permutation_map; exact Hp|].
  split; auto.
  - rewrite B. apply Permutation_map. exact Hp.
  - intros b l Hb. apply C. eapply Permutation_in; [symmetry; exact Hp|exact Hb].
  - intros b. rewrite D. split; apply Permutation_in; apply Permutation_map; [exact Hp|symmetry; exact Hp].
Qed.
Lemma MInv_nil_sl m sl bl br : MInv m ([] :: sl) bl br <-> MInv m sl bl br.
Proof. split; intros [H1 H2]; split; try exact H2; cbn in *; apply SInv_nil; exact H1. Qed.
Lemma alive_all refs bl : (forall b, In b (keys bl) -> In b refs) -> alive refs bl = bl.
Proof.
  induction bl as [|[b l] bl IH]; cbn; intros H; [reflexivity|]. destruct (in_dec _ _ _) as [|n]; [f_equal; apply IH; intros; apply H; auto|]. destruct n. apply H. auto.
Qed.
Lemma alive_app refs a b : alive refs (a ++ b) = alive refs a ++ alive refs b.
Proof. apply filter_app. Qed.
Lemma alive_alive r r' bl : (forall x, In x r -> In x r') -> alive r (alive r' bl) = alive r bl.
Proof.
  intros H. unfold alive. induction bl as [|[b l] bl IH]; cbn; [reflexivity|]. destruct (in_dec _ b r') as [i|n]; cbn.
  - destruct (in_dec _ b r); [f_equal; exact IH|exact IH].
  - destruct (in_dec _ b r) as [i|]; [exfalso; apply n; apply H; exact i|exact IH].
Qed.
Lemma alive_ext r r' bl : (forall x, In x r <-> In x r') -> alive r bl = alive r' bl.
Proof. intros H. apply filter_ext. intros p. destruct (in_dec _ _ r) as [i|n], (in_dec _ _ r') as [i'|n']; try reflexivity; apply H in i || apply H in i'; contradiction. Qed.

Lemma bl_free_spec m sl bl b br : MInv m sl bl (b :: br) ->
  exists m', bl_free m (Some b) = Some m' /\ MInv m' sl (alive br bl) br.
Proof.
  intros [Hs [A B C D E]]. assert (Hb : In b (keys bl)) by (apply D; left; reflexivity).
  apply in_map_iff in Hb as ([b' l] & Eb & Hb). cbn in Eb. subst b'. pose proof (C b l Hb) as Hg.
  unfold bl_free. rewrite Hg. cbn [bl_refs bl_stmt]. cbn [count_occ]. destruct (Nat.eq_dec b b); [|congruence].
  replace (Z.of_nat (S (cnt br b)) - 1)%Z with (Z.of_nat (cnt br b)) by lia.
  assert (Hndb : NoDup (keys bl)) by (eapply Permutation_NoDup; eassumption).
  destruct (Z.eqb_spec (Z.of_nat (cnt br b)) 0) as [E0|E0].
  - assert (Hnb : ~ In b br) by (apply (count_occ_not_In Nat.eq_dec); lia).
    apply in_split in Hb as (bl1 & bl2 & Ebl).
    assert (Hal : alive br bl = bl1 ++ bl2).
    { subst bl. rewrite alive_app. cbn. destruct (in_dec Nat.eq_dec b br); [contradiction|].
      unfold keys in Hndb. rewrite map_app in Hndb. cbn in Hndb. apply NoDup_remove_2 in Hndb.
      assert (Ha : forall x, In x (map fst bl1 ++ map fst bl2) -> In x br).
      { intros x Hx. assert (Hx' : In x (b :: br)) by (apply D; unfold keys; rewrite map_app; cbn; apply in_app_iff in Hx as [Hx|Hx]; apply in_app_iff; [auto|right; right; exact Hx]).
        destruct Hx' as [<-|Hx']; [contradiction|exact Hx']. }
      f_equal; apply alive_all; intros x Hx; apply Ha; apply in_app_iff; auto. }
    rewrite Hal.
    set (m2 := {| m_st := m_st (bl_set m b _); m_bl := _; m_cst := _; m_cbl := _ |}).
    assert (Hs2 : SInv (m_st m2) (m_cst m2) (l :: sl ++ map snd (bl1 ++ bl2))).
    { eapply SInv_perm; [|exact Hs]. subst bl. rewrite !map_app. cbn. rewrite app_assoc, (app_assoc sl (map snd bl1)). symmetry. apply Permutation_middle. }
    destruct (st_free_spec l (length (m_st m2)) m2 _ Hs2 (chain_len _ _ _ _ Hs2)) as (m3 & E3 & Hs3 & Eb3 & Ec3).
    assert (E3' : (match head fst l with Some s => st_free m2 (Some s) | None => Some m2 end) = Some m3).
    { destruct l as [|[x n] l]; [destruct (length (m_st m2)); exact E3|exact E3]. }
    rewrite E3'. eexists. split; [reflexivity|]. split; cbn.
    + exact Hs3.
    + rewrite Eb3, Ec3. cbn.
      assert (Hk : keys (put (m_bl m) b {| bl_stmt := head fst l; bl_refs := Z.of_nat (cnt br b) |}) = keys (m_bl m)) by apply keys_put.
      split.
      * apply nodup_del. rewrite Hk. exact A.
      * apply perm_del; [rewrite Hk; exact A|]. rewrite Hk, B. subst bl. unfold keys. rewrite !map_app. cbn. symmetry. apply Permutation_middle.
      * intros b' l' Hb'. rewrite get_del, get_put. destruct (Nat.eqb_spec b' b) as [->|Hne].
        { exfalso. subst bl. unfold keys in Hndb. rewrite map_app in Hndb. cbn in Hndb. apply NoDup_remove_2 in Hndb. apply Hndb. rewrite <- map_app. apply (in_map fst) in Hb'. exact Hb'. }
        rewrite (C b' l'); [|subst bl; apply in_app_iff in Hb' as [H|H]; apply in_app_iff; cbn; auto]. cbn. destruct (Nat.eq_dec b b'); [congruence|reflexivity].
      * intros x. rewrite <- Hal. unfold keys, alive. split.
        -- intros Hx. assert (Hx' : In x (keys bl)) by (apply D; right; exact Hx). apply in_map_iff in Hx' as ([y ly] & Ey & Hy). cbn in Ey. subst y.
           apply in_map_iff. exists (x, ly). split; [reflexivity|]. apply filter_In. split; [exact Hy|]. cbn. destruct (in_dec _ x br); [reflexivity|contradiction].
        -- intros Hx. apply in_map_iff in Hx as ([y ly] & Ey & Hy). cbn in Ey. subst y. apply filter_In in Hy as [_ Hy]. cbn in Hy. destruct (in_dec _ x br); [assumption|discriminate].
      * unfold bal in *. cbn. assert (Hl := len_del (put (m_bl m) b {| bl_stmt := head fst l; bl_refs := Z.of_nat (cnt br b) |}) b).
        rewrite Hk, len_put in Hl. specialize (Hl A). rewrite <- Hl in E; [lia|]. eapply get_in; exact Hg.
  - assert (Hnb : In b br) by (apply (count_occ_In Nat.eq_dec); lia). eexists. split; [reflexivity|].
    assert (Hal : alive br bl = bl). { apply alive_all. intros x Hx. apply D in Hx as [<-|Hx]; assumption. }
    rewrite Hal. split; cbn; [exact Hs|]. split.
    + rewrite keys_put. exact A.
    + rewrite keys_put. exact B.
    + intros b' l' Hb'. rewrite get_put, Hg, (C b' l' Hb'). destruct (Nat.eqb_spec b' b) as [->|Hne].
      * do 2 f_equal. specialize (C b l' Hb'). rewrite Hg in C. injection C. auto.
      * cbn. destruct (Nat.eq_dec b b'); [congruence|reflexivity].
    + intros x. rewrite <- D. cbn. split; [auto|]. intros [<-|H]; assumption.
    + rewrite len_put. exact E.
Qed.
Lemma bl_free_opt m sl bl p br : MInv m sl bl (opt p ++ br) -> exists m', bl_free m p = Some m' /\ MInv m' sl (alive br bl) br.
Proof.
  destruct p as [b|]; cbn [opt app]; [apply bl_free_spec|]. intros H. exists m. split; [reflexivity|].
  rewrite alive_all; [exact H|]. intros b Hb. destruct H as [_ [_ _ _ D _]]. apply D. exact Hb.
Qed.

(** ** block lists *)
Fixpoint lseg (li : list (nat * licell)) (l : list (nat * nat)) : Prop :=
  match l with [] => True | (x, b) :: r => get li x = Some {| li_block := Some b; li_next := head fst r |} /\ lseg li r end.
Record LInv (li : list (nat * licell)) (ls : list (list (nat * nat))) : Prop := {
  L_nd : NoDup (keys li);
  L_perm : Permutation (keys li) (map fst (concat ls));
  L_seg : Forall (lseg li) ls
}.
Lemma lseg_ext li li' l : (forall x, In x (map fst l) -> get li' x = get li x) -> lseg li l -> lseg li' l.
Proof.
  induction l as [|[x n] l IH]; cbn; intros H Hs; [exact I|]. destruct Hs as [H1 H2]. split; [rewrite H by auto; exact H1|]. apply IH; [intros y Hy; apply H; auto|exact H2].
Qed.
Lemma in_laddrs x (l : list (nat * nat)) ls : In l ls -> In x (map fst l) -> In x (map fst (concat ls)).
Proof. intros H1 H2. apply in_map_iff in H2 as (p & <- & Hp). apply in_map. apply in_concat. eauto. Qed.
Lemma LInv_perm li a b : Permutation a b -> LInv li a -> LInv li b.
Proof. intros H [H1 H2 H3]. split; [exact H1|rewrite H2; apply Permutation_map, concat_perm; exact H|eapply perm_forall; eassumption]. Qed.
Lemma LInv_nil li ls : LInv li ([] :: ls) <-> LInv li ls.
Proof. split; intros [H1 H2 H3]; split; auto; [inversion H3; assumption|constructor; [exact I|assumption]]. Qed.
Lemma li_free_spec l : forall fuel m li ls sl bl br, LInv li (l :: ls) -> MInv m sl bl (map snd l ++ br) -> length l <= fuel ->
  exists m' li', li_free_loop fuel m li (head fst l) = Some (m', li') /\ LInv li' ls /\ MInv m' sl (alive br bl) br.
Proof.
  induction l as [|[x b] l IH]; intros fuel m li ls sl bl br Hl Hm Hf.
  - exists m, li. split; [destruct fuel; reflexivity|]. split; [apply LInv_nil; exact Hl|]. cbn in Hm. rewrite alive_all; [exact Hm|].
    intros y Hy. destruct Hm as [_ [_ _ _ D _]]. apply D. exact Hy.
  - destruct fuel as [|fuel]; [cbn in Hf; lia|]. destruct Hl as [H1 H2 H3]. inversion H3 as [|? ? Hs Hr]; subst. destruct Hs as [Hg Hs].
    cbn [li_free_loop head fst]. rewrite Hg. cbn [li_block li_next]. cbn [map snd app] in Hm.
    destruct (bl_free_spec _ _ _ _ _ Hm) as (m1 & -> & Hm1).
    cbn [concat] in H2. rewrite map_app in H2. cbn [map fst app] in H2.
    assert (Hnd : NoDup (x :: map fst l ++ map fst (concat ls))) by (eapply Permutation_NoDup; eassumption). inversion Hnd as [|? ? Hx Hnd']; subst.
    destruct (IH fuel m1 (del li x) ls sl (alive (map snd l ++ br) bl) br) as (m' & li' & E & Hl' & Hm').
    + split.
      * apply nodup_del. exact H1.
      * cbn. rewrite map_app. apply perm_del; assumption.
      * constructor.
        -- eapply lseg_ext; [|exact Hs]. intros y Hy. rewrite get_del. destruct (Nat.eqb_spec y x) as [->|]; [|reflexivity]. exfalso. apply Hx. apply in_app_iff. auto.
        -- rewrite Forall_forall in *. intros l' Hl'. eapply lseg_ext; [|apply Hr; exact Hl']. intros y Hy. rewrite get_del. destruct (Nat.eqb_spec y x) as [->|]; [|reflexivity].
           exfalso. apply Hx. apply in_app_iff. right. eapply in_laddrs; eassumption.
    + exact Hm1.
    + cbn in Hf. lia.
    + exists m', li'. split; [exact E|]. split; [exact Hl'|]. rewrite alive_alive in Hm'; [exact Hm'|]. intros y Hy. apply in_app_iff. auto.
Qed.

(** ** strides *)
Record RInv (sr : list (nat * Z)) (refs : list nat) : Prop := {
  R_nd : NoDup (keys sr);
  R_get : forall x, get sr x = if in_dec Nat.eq_dec x refs then Some (Z.of_nat (cnt refs x)) else None
}.
Lemma RInv_perm sr a b : Permutation a b -> RInv sr a -> RInv sr b.
Proof.
  intros Hp [H1 H2]. split; [exact H1|]. intros x. rewrite H2. rewrite (proj1 (cnt_perm _ _) Hp x).
  destruct (in_dec _ x a) as [i|n], (in_dec _ x b) as [i'|n']; try reflexivity; exfalso; [apply n'|apply n]; eapply Permutation_in; [exact Hp|exact i|symmetry; exact Hp|exact i'].
Qed.
Lemma sr_free_spec sr p refs : RInv sr (opt p ++ refs) -> exists sr', sr_free sr p = Some sr' /\ RInv sr' refs.
Proof.
  destruct p as [x|]; cbn [opt app]; intros [H1 H2]; [|exists sr; split; [reflexivity|split; assumption]].
  unfold sr_free. rewrite H2. destruct (in_dec _ _ _) as [_|n]; [|destruct n; left; reflexivity]. cbn [count_occ]. destruct (Nat.eq_dec x x); [|congruence].
  replace (Z.of_nat (S (cnt refs x)) - 1)%Z with (Z.of_nat (cnt refs x)) by lia.
  destruct (Z.of_nat (cnt refs x) >? 0)%Z eqn:Eg.
  - assert (Hin : In x refs) by (apply (count_occ_In Nat.eq_dec); apply Z.gtb_lt in Eg; lia).
    eexists. split; [reflexivity|]. split; [rewrite keys_put; exact H1|]. intros y. rewrite get_put, !H2.
    destruct (Nat.eqb_spec y x) as [->|Hn].
    + destruct (in_dec _ x (x :: refs)) as [_|n]; [|destruct n; left; reflexivity]. destruct (in_dec _ x refs); [reflexivity|contradiction].
    + destruct (in_dec _ y (x :: refs)) as [[<-|i]|n]; [congruence| |]; destruct (in_dec _ y refs) as [i'|n']; try contradiction; [|destruct n; right; exact i'|reflexivity].
      cbn. destruct (Nat.eq_dec x y); [congruence|reflexivity].
  - assert (Hin : ~ In x refs) by (apply (count_occ_not_In Nat.eq_dec); rewrite Z.gtb_ltb in Eg; apply Z.ltb_ge in Eg; lia).
    eexists. split; [reflexivity|]. split; [apply nodup_del; exact H1|]. intros y. rewrite get_del, H2.
    destruct (Nat.eqb_spec y x) as [->|Hn]; [destruct (in_dec _ x refs); [contradiction|reflexivity]|].
    destruct (in_dec _ y (x :: refs)) as [[<-|i]|n]; [congruence| |]; destruct (in_dec _ y refs) as [i'|n']; try contradiction; [|destruct n; right; exact i'|reflexivity].
    cbn. destruct (Nat.eq_dec x y); [congruence|reflexivity].
Qed.
Lemma sr_ref_spec sr x refs : RInv sr refs -> In x refs -> exists sr', sr_ref sr x = Some sr' /\ RInv sr' (x :: refs).
Proof.
  intros [H1 H2] Hx. unfold sr_ref. rewrite H2. destruct (in_dec _ x refs); [|contradiction]. eexists. split; [reflexivity|].
  split; [rewrite keys_put; exact H1|]. intros y. rewrite get_put, !H2. destruct (Nat.eqb_spec y x) as [->|Hn].
  - destruct (in_dec _ x refs); [|contradiction]. destruct (in_dec _ x (x :: refs)) as [_|n]; [|destruct n; left; reflexivity]. cbn. destruct (Nat.eq_dec x x); [|congruence]. f_equal. lia.
  - destruct (in_dec _ y (x :: refs)) as [[<-|i']|n]; [congruence| |]; destruct (in_dec _ y refs) as [i''|n']; try contradiction; [|destruct n; right; exact i''|reflexivity].
    cbn. destruct (Nat.eq_dec x y); [congruence|reflexivity].
Qed.

(** ** loops *)
Section Tseg.
Variable lo : list (nat * locell).
Fixpoint tseg (t : tree) (nxt : ptr) : Prop :=
  match t with
  | T a b s f => get lo a = Some {| lo_block := b; lo_stride := s; lo_inner := head root f; lo_next := nxt |} /\
                 (fix go (l : list tree) : Prop := match l with [] => True | t' :: r => tseg t' (head root r) /\ go r end) f
  end.
Fixpoint fseg (l : list tree) : Prop := match l with [] => True | t' :: r => tseg t' (head root r) /\ fseg r end.
Lemma tseg_eq a b s f nxt : tseg (T a b s f) nxt = (get lo a = Some {| lo_block := b; lo_stride := s; lo_inner := head root f; lo_next := nxt |} /\ fseg f).
Proof. reflexivity. Qed.
End Tseg.
Section TreeInd.
Variable P : tree -> Prop.
Hypothesis H : forall a b s f, Forall P f -> P (T a b s f).
Fixpoint tree_ind' (t : tree) : P t :=
  match t with T a b s f => H a b s f ((fix go l : Forall P l := match l with [] => Forall_nil P | t' :: r => Forall_cons t' (tree_ind' t') (go r) end) f) end.
End TreeInd.
Lemma tseg_ext lo lo' t : forall nxt, (forall x, In x (t_addrs t) -> get lo' x = get lo x) -> tseg lo t nxt -> tseg lo' t nxt.
Proof.
  induction t as [a b s f IH] using tree_ind'. intros nxt Hx Hs. rewrite tseg_eq in *. destruct Hs as [H1 H2]. split; [rewrite Hx by (left; reflexivity); exact H1|].
  assert (Hf : forall x, In x (flat_map t_addrs f) -> get lo' x = get lo x) by (intros x Hin; apply Hx; right; exact Hin). clear Hx H1.
  induction f as [|t f IHf]; [exact I|]. inversion IH; subst. cbn in *. destruct H2 as [Ha Hb]. split.
  - apply H1; [|exact Ha]. intros x Hx. apply Hf. apply in_app_iff. auto.
  - apply IHf; auto. intros x Hx. apply Hf. apply in_app_iff. auto.
Qed.
Lemma fseg_ext lo lo' f : (forall x, In x (flat_map t_addrs f) -> get lo' x = get lo x) -> fseg lo f -> fseg lo' f.
Proof.
  induction f as [|t f IH]; cbn; intros Hx Hs; [exact I|]. destruct Hs as [H1 H2]. split.
  - eapply tseg_ext; [|exact H1]. intros x Hin. apply Hx. apply in_app_iff. auto.
  - apply IH; [|exact H2]. intros x Hin. apply Hx. apply in_app_iff. auto.
Qed.
Definition faddrs (ls : list (list tree)) : list nat := flat_map t_addrs (concat ls).
Lemma faddrs_cons f ls : faddrs (f :: ls) = flat_map t_addrs f ++ faddrs ls.
Proof. unfold faddrs. cbn. apply flat_map_app. Qed.
Lemma faddrs_app a b : faddrs (a ++ b) = faddrs a ++ faddrs b.
Proof. unfold faddrs. rewrite concat_app. apply flat_map_app. Qed.
Lemma in_faddrs x f ls : In f ls -> In x (flat_map t_addrs f) -> In x (faddrs ls).
Proof. intros H1 H2. unfold faddrs. apply in_flat_map in H2 as (t & Ht & Hx). apply in_flat_map. exists t. split; [apply in_concat; eauto|exact Hx]. Qed.
(** [X]: cells whose freeing is under way; they are counted as freed already *)
Record FInv (lo : list (nat * locell)) (c : counters) (X : list (nat * locell)) (ls : list (list tree)) : Prop := {
  F_nd : NoDup (keys lo);
  F_perm : Permutation (keys lo) (keys X ++ faddrs ls);
  F_X : forall a d, In (a, d) X -> get lo a = Some d;
  F_seg : Forall (fseg lo) ls;
  F_cnt : (c_alloc c - c_freed c + Z.of_nat (length X) = Z.of_nat (length lo))%Z
}.
Lemma FInv_perm lo c X a b : Permutation a b -> FInv lo c X a -> FInv lo c X b.
Proof. intros H [A B C D E]. split; auto; [rewrite B; apply Permutation_app_head, flat_perm, concat_perm; exact H|eapply perm_forall; eassumption]. Qed.
Lemma FInv_nil lo c X ls : FInv lo c X ([] :: ls) <-> FInv lo c X ls.
Proof. split; intros [A B C D E]; split; auto; [inversion D; assumption|constructor; [exact I|assumption]]. Qed.
Lemma FInv_ne lo c X f ls : FInv lo c X (nonempty f ++ ls) <-> FInv lo c X (f :: ls).
Proof. destruct f; cbn; [symmetry; apply FInv_nil|tauto]. Qed.

Definition own_stride (t : tree) : list nat := match t with T _ _ s _ => opt s end.
Definition fb1 (block inner : bool) (t : tree) : list nat := if block then (if inner then t_blocks t else own_block t) else [].
Definition fs1 (inner : bool) (t : tree) : list nat := if inner then t_strides t else own_stride t.
Definition kept1 (inner : bool) (t : tree) : list (list tree) := if inner then [] else nonempty (kids t).
Definition freed (next : bool) (f : list tree) : list tree := if next then f else firstn 1 f.
Definition keptn (next : bool) (f : list tree) : list (list tree) := if next then [] else nonempty (tl f).
Definition fsize (f : list tree) : nat := length (flat_map t_addrs f).

Lemma open_top lo c X a b s inn rest ls : FInv lo c X ((T a b s inn :: rest) :: ls) ->
  get lo a = Some {| lo_block := b; lo_stride := s; lo_inner := head root inn; lo_next := head root rest |} /\
  FInv lo (leak_down c) ((a, {| lo_block := b; lo_stride := s; lo_inner := head root inn; lo_next := head root rest |}) :: X) (inn :: rest :: ls).
Proof.
  intros [A B C D E]. inversion D as [|? ? H1 H2]; subst. cbn [fseg] in H1. rewrite tseg_eq in H1. destruct H1 as [[H1 H3] H4]. split; [exact H1|]. split.
  - exact A.
  - rewrite B. rewrite !faddrs_cons. unfold keys. cbn. pm.
  - intros a' d' [Hd|Hd]; [injection Hd as <- <-; exact H1|apply C; exact Hd].
  - constructor; [exact H3|]. constructor; assumption.
  - cbn [length leak_down c_alloc c_freed]. lia.
Qed.
Lemma drop_top lo c X a d ls : FInv lo c ((a, d) :: X) ls -> FInv (del lo a) c X ls.
Proof.
  intros [A B C D E]. cbn [keys map fst app] in B.
  assert (Hnd : NoDup (a :: keys X ++ faddrs ls)) by (eapply Permutation_NoDup; eassumption). inversion Hnd as [|? ? Ha Hnd']; subst. split.
  - apply nodup_del. exact A.
  - apply perm_del; assumption.
  - intros a' d' Hd. rewrite get_del. destruct (Nat.eqb_spec a' a) as [->|]; [|apply C; right; exact Hd]. exfalso. apply Ha. apply in_app_iff. left. apply (in_map fst) in Hd. exact Hd.
  - rewrite Forall_forall in *. intros f Hf. eapply fseg_ext; [|apply D; exact Hf]. intros x Hx. rewrite get_del. destruct (Nat.eqb_spec x a) as [->|]; [|reflexivity].
    exfalso. apply Ha. apply in_app_iff. right. eapply in_faddrs; eassumption.
  - pose proof (len_del lo a A) as Hl. assert (Hin : In a (keys lo)) by (eapply get_in; apply C; left; reflexivity). specialize (Hl Hin). cbn [length] in E. lia.
Qed.
Lemma alive_idem m sl bl br : MInv m sl bl br -> alive br bl = bl.
Proof. intros [_ [_ _ _ D _]]. apply alive_all. intros b Hb. apply D. exact Hb. Qed.

Lemma lo_parts_spec block inner : forall n next f fuel m X ls sl bl br sr, fsize f <= n -> n <= fuel ->
  FInv (l_lo m) (l_clo m) X (f :: ls) ->
  MInv (l_mem m) sl bl (flat_map (fb1 block inner) (freed next f) ++ br) ->
  RInv (l_sr m) (flat_map (fs1 inner) (freed next f) ++ sr) ->
  exists m', lo_free_parts fuel m (head root f) block inner next = Some m' /\
    FInv (l_lo m') (l_clo m') X (flat_map (kept1 inner) (freed next f) ++ keptn next f ++ ls) /\
    MInv (l_mem m') sl (alive br bl) br /\ RInv (l_sr m') sr.
Proof.
  induction n as [|n IH]; intros next f fuel m X ls sl bl br sr Hn Hfu HF HM HR.
  - destruct f as [|[a b s inn] rest]; [|unfold fsize in Hn; cbn in Hn; lia].
    assert (E : freed next (@nil tree) = []) by (destruct next; reflexivity). rewrite E in *. cbn [flat_map app] in *.
    exists m. split; [destruct fuel; reflexivity|]. split; [destruct next; cbn; apply (proj1 (FInv_nil _ _ _ _)) in HF; exact HF|]. split; [rewrite (alive_idem _ _ _ _ HM); exact HM|exact HR].
  - destruct f as [|[a b s inn] rest].
    { assert (E : freed next (@nil tree) = []) by (destruct next; reflexivity). rewrite E in *. cbn [flat_map app] in *.
      exists m. split; [destruct fuel; reflexivity|]. split; [destruct next; cbn; apply (proj1 (FInv_nil _ _ _ _)) in HF; exact HF|]. split; [rewrite (alive_idem _ _ _ _ HM); exact HM|exact HR]. }
    destruct fuel as [|fuel]; [lia|]. assert (Hfu' : n <= fuel) by lia. clear Hfu.
    assert (Hin : fsize inn <= n) by (unfold fsize in *; cbn in Hn; rewrite app_length in Hn; lia).
    assert (Hre : fsize rest <= n) by (unfold fsize in *; cbn in Hn; rewrite app_length in Hn; lia). clear Hn.
    destruct (open_top _ _ _ _ _ _ _ _ _ HF) as [Hg HF1]. set (cell := {| lo_block := b; lo_stride := s; lo_inner := head root inn; lo_next := head root rest |}) in *.
    set (more := if next then rest else []).
    assert (Efr : freed next (T a b s inn :: rest) = T a b s inn :: more) by (unfold freed, more; destruct next; reflexivity).
    rewrite Efr in *. cbn [flat_map] in HM, HR |- *.
    set (ibs := if block then (if inner then flat_map t_blocks inn else []) else []).
    set (iss := if inner then flat_map t_strides inn else []).
    set (mbs := flat_map (fb1 block inner) more) in *. set (mss := flat_map (fs1 inner) more) in *.
    cbn [lo_free_parts head root]. rewrite Hg. unfold cell at 1. cbn [lo_block].
    (* the block *)
    assert (Hb : exists m1, (if block then bl_free (l_mem m) b else Some (l_mem m)) = Some m1 /\ MInv m1 sl (alive (ibs ++ mbs ++ br) bl) (ibs ++ mbs ++ br)).
    { unfold fb1, ibs in *. destruct block.
      - apply bl_free_opt. eapply MInv_br; [|exact HM]. destruct inner; cbn [t_blocks own_block]; pm.
      - cbn [app] in *. exists (l_mem m). split; [reflexivity|]. rewrite (alive_idem _ _ _ _ HM). exact HM. }
    destruct Hb as (m1 & -> & HM1). unfold cell at 1. cbn [lo_inner].
    set (lm := {| l_mem := m1; l_sr := l_sr m; l_lo := l_lo m; l_clo := leak_down (l_clo m) |}).
    (* inner loops *)
    assert (Hi : exists m2, (if inner then lo_free_parts fuel lm (head root inn) block inner true else Some lm) = Some m2 /\
        FInv (l_lo m2) (l_clo m2) ((a, cell) :: X) (kept1 inner (T a b s inn) ++ rest :: ls) /\
        MInv (l_mem m2) sl (alive (mbs ++ br) bl) (mbs ++ br) /\ RInv (l_sr m2) (opt s ++ mss ++ sr)).
    { unfold kept1. destruct inner.
      - destruct (IH true inn fuel lm ((a, cell) :: X) (rest :: ls) sl (alive (ibs ++ mbs ++ br) bl) (mbs ++ br) (opt s ++ mss ++ sr)) as (m2 & E2 & HF2 & HM2 & HR2); auto.
        + eapply MInv_br; [|exact HM1]. unfold ibs, freed. destruct block; [apply Permutation_refl|]. assert (E : flat_map (fb1 false true) inn = []) by (clear; induction inn; auto). rewrite E. reflexivity.
        + eapply RInv_perm; [|exact HR]. unfold freed. change (flat_map (fs1 true) inn) with (flat_map t_strides inn). cbn [fs1 t_strides]. pm.
        + exists m2. split; [exact E2|]. split.
          * unfold freed in HF2. assert (E : flat_map (kept1 true) inn = []) by (clear; induction inn; auto). rewrite E in HF2. cbn in HF2. exact HF2.
          * split; [|exact HR2]. rewrite alive_alive in HM2; [exact HM2|]. intros x Hx. apply in_app_iff. auto.
      - exists lm. split; [reflexivity|]. split; [apply FInv_ne; exact HF1|]. unfold ibs in HM1. split; [destruct block; exact HM1|].
        eapply RInv_perm; [|exact HR]. unfold fs1. cbn [own_stride]. pm. }
    destruct Hi as (m2 & -> & HF2 & HM2 & HR2). unfold cell at 1. cbn [lo_stride].
    destruct (sr_free_spec _ _ _ HR2) as (sr' & -> & HR3). apply drop_top in HF2.
    unfold cell at 1. cbn [lo_next].
    set (m3 := {| l_mem := l_mem m2; l_sr := sr'; l_lo := del (l_lo m2) a; l_clo := l_clo m2 |}).
    assert (HF3 : FInv (l_lo m3) (l_clo m3) X (rest :: kept1 inner (T a b s inn) ++ ls)).
    { eapply FInv_perm; [|exact HF2]. symmetry. apply Permutation_middle. }
    destruct next; cbn [keptn app] in *.
    + destruct (IH true rest fuel m3 X (kept1 inner (T a b s inn) ++ ls) sl (alive (mbs ++ br) bl) br sr) as (m' & E' & HF' & HM' & HR'); auto.
      exists m'. split; [exact E'|]. split.
      * eapply FInv_perm; [|exact HF']. cbn [keptn app]. unfold freed, more. rewrite !app_assoc. apply Permutation_app_tail. apply Permutation_app_comm.
      * split; [|exact HR']. rewrite alive_alive in HM'; [exact HM'|]. intros x Hx. apply in_app_iff. auto.
    + exists m3. split; [destruct fuel; reflexivity|]. unfold mbs, mss, more in *. cbn [flat_map app] in *. split; [|split; assumption].
      rewrite app_nil_r. cbn [tl]. apply (proj2 (FInv_ne _ _ _ _ _)) in HF3. eapply FInv_perm; [|exact HF3]. rewrite !app_assoc. apply Permutation_app_tail. apply Permutation_app_comm.
Qed.
Lemma lo_free_parts_all : forall fuel m p, lo_free fuel m p = lo_free_parts fuel m p true true true.
Proof.
  induction fuel as [|fuel IH]; intros m p; destruct p as [x|]; try reflexivity. cbn. destruct (get (l_lo m) x) as [c|]; [|reflexivity].
  destruct (bl_free (l_mem m) (lo_block c)) as [m1|]; [|reflexivity]. rewrite IH.
  match goal with |- match ?e with _ => _ end = _ => destruct e as [m2|]; [|reflexivity] end.
  destruct (sr_free (l_sr m2) (lo_stride c)); [|reflexivity]. apply IH.
Qed.

(** what lo_free_parts leaves, compared with the specification *)
Lemma fp_snd block inner t : snd (freed_parts block inner t) = kept1 inner t.
Proof.
  induction t as [a b s f IH] using tree_ind'. cbn. destruct inner; [|destruct f; reflexivity]. cbn.
  induction f as [|t f IHf]; [reflexivity|]. inversion IH; subst. cbn. rewrite H1. cbn. apply IHf. assumption.
Qed.
Lemma fp_blocks block inner t : Permutation (t_blocks t) (fb1 block inner t ++ fst (freed_parts block inner t) ++ flat_map t_blocks (concat (snd (freed_parts block inner t)))).
Proof.
  rewrite fp_snd. destruct inner; cbn [kept1 concat flat_map].
  - rewrite app_nil_r. destruct block; cbn [fb1].
    + assert (E : fst (freed_parts true true t) = []); [|rewrite E, app_nil_r; reflexivity].
      induction t as [a b s f IH] using tree_ind'. cbn. induction f as [|t f IHf]; [reflexivity|]. inversion IH; subst. cbn. rewrite H1. apply IHf. assumption.
    + assert (E : fst (freed_parts false true t) = t_blocks t); [|rewrite E; reflexivity].
      induction t as [a b s f IH] using tree_ind'. cbn. f_equal. induction f as [|t f IHf]; [reflexivity|]. inversion IH; subst. cbn. rewrite H1. f_equal. apply IHf. assumption.
  - destruct t as [a b s f]. cbn. assert (E : flat_map t_blocks (concat (nonempty f)) = flat_map t_blocks f) by (destruct f; cbn; [reflexivity|rewrite app_nil_r; reflexivity]). rewrite E.
    destruct block; cbn; [reflexivity|reflexivity].
Qed.
Lemma fp_strides inner t : Permutation (t_strides t) (fs1 inner t ++ flat_map t_strides (concat (kept1 inner t))).
Proof.
  destruct inner; cbn; [rewrite app_nil_r; reflexivity|]. destruct t as [a b s f]. cbn.
  assert (E : flat_map t_strides (concat (nonempty f)) = flat_map t_strides f) by (destruct f; cbn; [reflexivity|rewrite app_nil_r; reflexivity]). rewrite E. reflexivity.
Qed.
Lemma fp_blocks_all block inner f :
  Permutation (flat_map t_blocks f) (flat_map (fb1 block inner) f ++ flat_map fst (map (freed_parts block inner) f) ++ flat_map t_blocks (concat (flat_map (kept1 inner) f))).
Proof.
  induction f as [|t f IH]; [reflexivity|]. cbn. rewrite (fp_blocks block inner t), IH, fp_snd. rewrite concat_app, flat_map_app. pm.
Qed.
Lemma fp_strides_all inner f : Permutation (flat_map t_strides f) (flat_map (fs1 inner) f ++ flat_map t_strides (concat (flat_map (kept1 inner) f))).
Proof. induction f as [|t f IH]; [reflexivity|]. cbn. rewrite (fp_strides inner t), IH. rewrite concat_app, flat_map_app. pm. Qed.
Lemma fp_snd_all block inner f : flat_map snd (map (freed_parts block inner) f) = flat_map (kept1 inner) f.
Proof. induction f as [|t f IH]; [reflexivity|]. cbn. rewrite fp_snd, IH. reflexivity. Qed.

(** ** counters and fresh addresses *)
Definition cdown (c c' : counters) : Prop := c_alloc c' = c_alloc c /\ c_max c' = c_max c /\ (c_freed c <= c_freed c')%Z.
Definition cup (c c' : counters) : Prop := c_freed c' = c_freed c /\ (c_alloc c <= c_alloc c')%Z /\ c_max c' = Z.max (c_max c) (c_alloc c' - c_freed c').
Definition cstep (c c' : counters) : Prop := cdown c c' \/ cup c c'.
Lemma cdown_refl c : cdown c c.
Proof. repeat split; lia. Qed.
Lemma cdown_trans a b c : cdown a b -> cdown b c -> cdown a c.
Proof. unfold cdown. intros (A & B & C) (D & E & F). repeat split; [congruence|congruence|lia]. Qed.
Lemma cdown_leak c : cdown c (leak_down c).
Proof. unfold cdown, leak_down. cbn. lia. Qed.
Lemma cup_leak c : cup c (leak_up c).
Proof. unfold cup, leak_up. cbn. rewrite Z.gtb_ltb. destruct (Z.ltb_spec (c_max c) (c_alloc c + 1 - c_freed c)); repeat split; lia. Qed.
Lemma cup_trans a b c : cup a b -> cup b c -> cup a c.
Proof. unfold cup. intros (A & B & C) (D & E & F). repeat split; [congruence|lia|]. rewrite F, C. lia. Qed.

Definition sub {A} (m' m : list (nat * A)) : Prop := forall x, In x (keys m') -> In x (keys m).
Lemma sub_refl {A} (m : list (nat * A)) : sub m m. Proof. intros x H; exact H. Qed.
Lemma sub_trans {A} (a b c : list (nat * A)) : sub a b -> sub b c -> sub a c. Proof. intros H1 H2 x H. auto. Qed.
Lemma sub_del {A} (m : list (nat * A)) x : sub (del m x) m.
Proof. intros y Hy. rewrite keys_del in Hy. apply in_remove in Hy as [H _]. exact H. Qed.
Lemma sub_put {A} (m : list (nat * A)) x a : sub (put m x a) m.
Proof. intros y Hy. rewrite keys_put in Hy. exact Hy. Qed.
Definition mdown (m m' : mem) : Prop := sub (m_st m') (m_st m) /\ sub (m_bl m') (m_bl m) /\ cdown (m_cst m) (m_cst m') /\ cdown (m_cbl m) (m_cbl m').
Lemma mdown_refl m : mdown m m.
Proof. repeat split; try apply sub_refl; try apply cdown_refl; lia. Qed.
Lemma mdown_trans a b c : mdown a b -> mdown b c -> mdown a c.
Proof. intros (A & B & C & D) (E & F & G & H). split; [eapply sub_trans; eassumption|]. split; [eapply sub_trans; eassumption|]. split; eapply cdown_trans; eassumption. Qed.
Lemma st_free_down : forall fuel m p m', st_free_loop fuel m p = Some m' -> mdown m m'.
Proof.
  induction fuel as [|fuel IH]; intros m p m' H; destruct p as [x|]; cbn in H; try discriminate; try (injection H as <-; apply mdown_refl).
  destruct (get (m_st m) x) as [c|]; [|discriminate]. apply IH in H. eapply mdown_trans; [|exact H]. repeat split; cbn; try apply sub_del; try apply sub_refl; try lia.
Qed.
Lemma bl_set_down m x c : mdown m (bl_set m x c).
Proof. repeat split; cbn; try apply sub_put; try apply sub_refl; lia. Qed.
Lemma bl_free_down m p m' : bl_free m p = Some m' -> mdown m m'.
Proof.
  destruct p as [x|]; unfold bl_free; cbv zeta; intros H; [|injection H as <-; apply mdown_refl]. destruct (get (m_bl m) x) as [c|]; [|discriminate].
  destruct (bl_refs c - 1 =? 0)%Z; [|injection H as <-; apply bl_set_down].
  match type of H with match ?e with _ => _ end = _ => destruct e as [m3|] eqn:E; [|discriminate] end. injection H as <-.
  match type of E with context [st_free ?m2 _] => set (m2' := m2) in *; assert (H2 : mdown m m2') end.
  { repeat split; cbn; try apply sub_put; try apply sub_refl; lia. }
  assert (H3 : mdown m2' m3) by (destruct (bl_stmt c); [eapply st_free_down; exact E|injection E as <-; apply mdown_refl]).
  eapply mdown_trans; [exact H2|]. eapply mdown_trans; [exact H3|]. repeat split; cbn; try apply sub_del; try apply sub_refl; lia.
Qed.
Lemma st_link_down m x p m' : st_link m x p = Some m' -> mdown m m'.
Proof. unfold st_link. destruct (get (m_st m) x); [|discriminate]. intros H. injection H as <-. repeat split; cbn; try apply sub_put; try apply sub_refl; lia. Qed.
Lemma bl_ref_down m x m' : bl_ref m x = Some m' -> mdown m m'.
Proof. unfold bl_ref. destruct (get (m_bl m) x); [|discriminate]. intros H. injection H as <-. apply bl_set_down. Qed.
Lemma bl_merge_down m p q m' : bl_merge m p q = Some m' -> mdown m m'.
Proof.
  unfold bl_merge. destruct p as [x|], q as [y|]; try (intros H; injection H as <-; apply mdown_refl).
  destruct (get (m_bl m) x) as [cb|]; [|discriminate]. destruct (get (m_bl m) y) as [cm|]; [|discriminate].
  match goal with |- match ?e with _ => _ end = _ -> _ => destruct e as [m1|] eqn:E; [|discriminate] end.
  assert (H1 : mdown m m1).
  { destruct (bl_stmt cb); [destruct (st_last _ _ _); [eapply st_link_down; exact E|discriminate]|injection E as <-; apply bl_set_down]. }
  destruct (get (m_bl m1) y) as [cm'|]; [|discriminate]. intros H. eapply mdown_trans; [exact H1|]. eapply mdown_trans; [|eapply bl_free_down; exact H]. apply bl_set_down.
Qed.
Lemma li_free_down : forall fuel m li p m' li', li_free_loop fuel m li p = Some (m', li') -> mdown m m' /\ sub li' li.
Proof.
  induction fuel as [|fuel IH]; intros m li p m' li' H; destruct p as [x|]; cbn in H; try discriminate; try (injection H as <- <-; split; [apply mdown_refl|apply sub_refl]).
  destruct (get li x) as [c|]; [|discriminate]. destruct (bl_free m (li_block c)) as [m1|] eqn:E; [|discriminate]. apply IH in H as [H1 H2].
  split; [eapply mdown_trans; [eapply bl_free_down; exact E|exact H1]|eapply sub_trans; [exact H2|apply sub_del]].
Qed.
Lemma sr_free_sub sr p sr' : sr_free sr p = Some sr' -> sub sr' sr.
Proof.
  destruct p as [x|]; cbn; [|intros H; injection H as <-; apply sub_refl]. destruct (get sr x); [|discriminate]. destruct (_ >? _)%Z; intros H; injection H as <-; [apply sub_put|apply sub_del].
Qed.
Lemma lo_parts_down block inner : forall fuel next m p m', lo_free_parts fuel m p block inner next = Some m' ->
  mdown (l_mem m) (l_mem m') /\ sub (l_sr m') (l_sr m) /\ sub (l_lo m') (l_lo m) /\ cdown (l_clo m) (l_clo m').
Proof.
  induction fuel as [|fuel IH]; intros next m p m' H; destruct p as [x|]; cbn in H; try discriminate;
    try (injection H as <-; split; [apply mdown_refl|split; [apply sub_refl|split; [apply sub_refl|apply cdown_refl]]]).
  destruct (get (l_lo m) x) as [c|]; [|discriminate].
  destruct (if block then bl_free (l_mem m) (lo_block c) else Some (l_mem m)) as [m1|] eqn:E1; [|discriminate].
  assert (H1 : mdown (l_mem m) m1) by (destruct block; [eapply bl_free_down; exact E1|injection E1 as <-; apply mdown_refl]).
  match type of H with match ?e with _ => _ end = _ => destruct e as [m2|] eqn:E2; [|discriminate] end.
  assert (H2 : mdown m1 (l_mem m2) /\ sub (l_sr m2) (l_sr m) /\ sub (l_lo m2) (l_lo m) /\ cdown (leak_down (l_clo m)) (l_clo m2)).
  { destruct inner; [apply IH in E2; exact E2|]. injection E2 as <-. split; [apply mdown_refl|split; [apply sub_refl|split; [apply sub_refl|apply cdown_refl]]]. }
  destruct H2 as (A & B & C & D). destruct (sr_free (l_sr m2) (lo_stride c)) as [s|] eqn:E3; [|discriminate]. apply sr_free_sub in E3.
  apply IH in H. cbn in H. destruct H as (F & G & I & J). split; [eapply mdown_trans; [exact H1|eapply mdown_trans; eassumption]|].
  split; [eapply sub_trans; [exact G|eapply sub_trans; eassumption]|]. split; [eapply sub_trans; [exact I|eapply sub_trans; [apply sub_del|exact C]]|].
  eapply cdown_trans; [apply cdown_leak|eapply cdown_trans; eassumption].
Qed.
Lemma st_copy_down : forall fuel m fresh now p m' l, st_copy_loop fuel m fresh now p = Some (m', l) ->
  (forall x, In x (keys (m_st m')) -> In x (keys (m_st m)) \/ fresh <= x < fresh + length l) /\ m_bl m' = m_bl m /\ m_cbl m' = m_cbl m /\
  ((m' = m /\ l = []) \/ cup (m_cst m) (m_cst m')).
Proof.
  induction fuel as [|fuel IH]; intros m fresh now p m' l H; destruct p as [x|]; cbn in H; try discriminate; try (injection H as <- <-; cbn; solve [auto 6]).
  destruct (get (m_st m) x) as [c|]; [|discriminate]. set (m1 := st_new m fresh _) in *.
  match type of H with match ?e with _ => _ end = _ => destruct e as [m2|] eqn:E2; [|discriminate] end.
  assert (H2 : keys (m_st m2) = fresh :: keys (m_st m) /\ m_bl m2 = m_bl m /\ m_cbl m2 = m_cbl m /\ m_cst m2 = leak_up (m_cst m)).
  { destruct now as [y|]; [|injection E2 as <-; auto]. match type of E2 with match ?e with _ => _ end = _ => destruct e; [|discriminate] end. injection E2 as <-. cbn [m_st m_bl m_cst m_cbl]. rewrite keys_put. auto. }
  destruct H2 as (K & B & C & D). destruct (get (m_st m2) x) as [c'|]; [|discriminate].
  destruct (st_copy_loop fuel m2 (S fresh) (Some fresh) (st_next c')) as [[m3 l3]|] eqn:E3; [|discriminate]. injection H as <- <-.
  apply IH in E3 as (F & G & I & J). split; [|split; [congruence|split; [congruence|]]].
  - intros z Hz. apply F in Hz. rewrite K in Hz. cbn. destruct Hz as [[<-|Hz]|Hz]; [right; lia|auto|right; lia].
  - right. destruct J as [[-> ->]|J]; [rewrite D; apply cup_leak|]. rewrite D in J. eapply cup_trans; [apply cup_leak|exact J].
Qed.

Definition below {A} (m : list (nat * A)) (n : nat) : Prop := forall x, In x (keys m) -> x < n.
Record hb (h : heap) : Prop := {
  hb_st : below (m_st (h_mem h)) (h_fresh h); hb_bl : below (m_bl (h_mem h)) (h_fresh h); hb_li : below (h_li h) (h_fresh h);
  hb_sr : below (h_sr h) (h_fresh h); hb_lo : below (h_lo h) (h_fresh h)
}.
Record hstep (h h' : heap) : Prop := {
  hs_b : hb h -> hb h';
  hs_st : cstep (m_cst (h_mem h)) (m_cst (h_mem h')); hs_bl : cstep (m_cbl (h_mem h)) (m_cbl (h_mem h')); hs_lo : cstep (h_clo h) (h_clo h')
}.
Lemma below_sub {A} (m m' : list (nat * A)) n : sub m' m -> below m n -> below m' n.
Proof. intros H1 H2 x Hx. auto. Qed.
Lemma below_S {A} (m : list (nat * A)) n k : n <= k -> below m n -> below m k.
Proof. intros H1 H2 x Hx. apply H2 in Hx. lia. Qed.
Lemma below_cons {A} (m : list (nat * A)) n a : below m n -> below ((n, a) :: m) (S n).
Proof. intros H x [<-|Hx]; [cbn; lia|]. apply H in Hx. lia. Qed.
Lemma sr_ref_sub sr x sr' : sr_ref sr x = Some sr' -> sub sr' sr.
Proof. unfold sr_ref. destruct (get sr x); [|discriminate]. intros H. injection H as <-. apply sub_put. Qed.
Lemma no_new_inv {A} (f : A -> heap) o h new : no_new f o = Some (h, new) -> exists a, o = Some a /\ h = f a /\ new = [].
Proof. destruct o; cbn; [|discriminate]. intros H. injection H as <- <-. eauto. Qed.
Lemma with_mem_step h m : mdown (h_mem h) m -> hstep h (with_mem h m).
Proof.
  intros (A & B & C & D). split; cbn; [|left; assumption|left; assumption|left; apply cdown_refl].
  intros [E F G H I]. split; cbn; auto; eapply below_sub; eassumption.
Qed.
Lemma with_sr_step h s : sub s (h_sr h) -> hstep h (with_sr h s).
Proof. intros A. split; cbn; try (left; apply cdown_refl). intros [E F G H I]. split; cbn; auto; eapply below_sub; eassumption. Qed.
Lemma exec_step h o h' new : exec h o = Some (h', new) -> hstep h h'.
Proof.
  destruct o; cbn [exec]; intros H.
  - injection H as <- <-. split; cbn; try (left; apply cdown_refl); [|right; apply cup_leak].
    intros [A B C D E]. split; cbn; try (eapply below_S; [|eassumption]; lia). apply below_cons. exact A.
  - apply no_new_inv in H as (m & E & -> & ->). apply with_mem_step. eapply st_free_down. exact E.
  - destruct (st_copy_loop _ _ _ _ _) as [[m l]|] eqn:E; [|discriminate]. injection H as <- <-. apply st_copy_down in E as (A & B & C & D). split; cbn.
    + intros [F G I J K]. split; cbn; try (eapply below_S; [|eassumption]; lia).
      * intros x Hx. apply A in Hx as [Hx|Hx]; [apply F in Hx; lia|lia].
      * rewrite B. eapply below_S; [|eassumption]. lia.
    + destruct D as [[-> ->]|D]; [left; apply cdown_refl|right; exact D].
    + rewrite C. left. apply cdown_refl.
    + left. apply cdown_refl.
  - apply no_new_inv in H as (m & E & -> & ->). apply with_mem_step. eapply st_link_down. exact E.
  - injection H as <- <-. split; cbn; try (left; apply cdown_refl); [|right; apply cup_leak].
    intros [A B C D E]. split; cbn; try (eapply below_S; [|eassumption]; lia). apply below_cons. exact B.
  - destruct p as [s|]; [|discriminate]. destruct (get (m_st (h_mem h)) s); [|discriminate]. injection H as <- <-. split; cbn; try (left; apply cdown_refl); [|right; apply cup_leak].
    intros [A B C D E]. split; cbn; try (eapply below_S; [|eassumption]; lia). apply below_cons. exact B.
  - destruct p as [b|]; [|injection H as <- <-; split; [auto|left; apply cdown_refl..]]. apply no_new_inv in H as (m & E & -> & ->). apply with_mem_step. eapply bl_ref_down. exact E.
  - apply no_new_inv in H as (m & E & -> & ->). apply with_mem_step. eapply bl_free_down. exact E.
  - apply no_new_inv in H as (m & E & -> & ->). apply with_mem_step. eapply bl_merge_down. exact E.
  - destruct p as [b|]; [|discriminate]. destruct (bl_ref (h_mem h) b) as [m|] eqn:Er; [|discriminate]. injection H as <- <-. apply bl_ref_down in Er as (A & B & C & D).
    split; cbn; [|left; assumption|left; assumption|left; apply cdown_refl].
    intros [E F G H I]. split; cbn; try (eapply below_S; [|eassumption]; lia); [eapply below_sub; [exact A|]|eapply below_sub; [exact B|]|apply below_cons; exact G]; (eapply below_S; [|eassumption]; lia).
  - destruct (get (h_li h) n) as [c|]; [|discriminate]. injection H as <- <-. split; cbn; try (left; apply cdown_refl). intros [A B C D E]. split; cbn; auto. eapply below_sub; [apply sub_put|exact C].
  - destruct (li_free_loop _ _ _ _) as [[m li]|] eqn:E; [|discriminate]. injection H as <- <-. apply li_free_down in E as [(A & B & C & D) L].
    split; cbn; [|left; assumption|left; assumption|left; apply cdown_refl]. intros [E F G H I]. split; cbn; auto; eapply below_sub; eassumption.
  - injection H as <- <-. split; cbn; try (left; apply cdown_refl). intros [A B C D E]. split; cbn; try (eapply below_S; [|eassumption]; lia). apply below_cons. exact D.
  - destruct p as [b|]; [|injection H as <- <-; split; [auto|left; apply cdown_refl..]]. apply no_new_inv in H as (m & E & -> & ->). apply with_sr_step. eapply sr_ref_sub. exact E.
  - apply no_new_inv in H as (m & E & -> & ->). apply with_sr_step. eapply sr_free_sub. exact E.
  - match type of H with match ?e with _ => _ end = _ => destruct e as [sr|] eqn:E; [|discriminate] end. injection H as <- <-.
    assert (Hs : sub sr (h_sr h)) by (destruct s; [eapply sr_ref_sub; exact E|injection E as <-; apply sub_refl]).
    split; cbn; try (left; apply cdown_refl); [|right; apply cup_leak]. intros [A B C D F]. split; cbn; try (eapply below_S; [|eassumption]; lia); [eapply below_sub; [exact Hs|]; eapply below_S; [|exact D]; lia|apply below_cons; exact F].
  - apply no_new_inv in H as (m & E & -> & ->). rewrite lo_free_parts_all in E. apply lo_parts_down in E as ((A & B & C & D) & F & G & I).
    split; cbn in *; [|left; assumption..]. intros [K L M N O]. split; cbn; auto; eapply below_sub; eassumption.
  - apply no_new_inv in H as (m & E & -> & ->). apply lo_parts_down in E as ((A & B & C & D) & F & G & I).
    split; cbn in *; [|left; assumption..]. intros [K L M N O]. split; cbn; auto; eapply below_sub; eassumption.
Qed.
