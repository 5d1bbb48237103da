(** Every call the user may make succeeds and keeps memory and view in agreement. *)
From Coq Require Import ZArith List Bool Arith Permutation Lia.
From Verif Require Import HeapModel HeapSpec HeapProofs.
Import ListNotations.
Local Arguments Nat.eqb : simpl never.
Local Arguments del : simpl never.
Local Arguments put : simpl never.

Record Inv (h : heap) (v : view) : Prop := {
  I_m : MInv (h_mem h) (v_sl v) (v_bl v) (block_refs v);
  I_l : LInv (h_li h) (v_ll v);
  I_r : RInv (h_sr h) (stride_refs v);
  I_f : FInv (h_lo h) (h_clo h) [] (v_lo v);
  I_b : hb h
}.

(** *** statements *)
Lemma in_perm_addr st c ls l x : SInv st c ls -> In l ls -> In x (map fst l) -> In x (keys st).
Proof. intros [A B C D] H1 H2. eapply Permutation_in; [symmetry; exact B|]. eapply in_addrs; eassumption. Qed.
Lemma SInv_new st c ls x n : SInv st c ls -> ~ In x (keys st) -> SInv ((x, {| st_num := n; st_next := None |}) :: st) (leak_up c) ([(x, n)] :: ls).
Proof.
  intros HI Hx. pose proof HI as [A B C D]. split.
  - constructor; assumption.
  - rewrite addrs_cons. cbn. constructor. exact B.
  - constructor; [cbn; rewrite Nat.eqb_refl; auto|]. rewrite Forall_forall in *. intros l Hl. eapply seg_ext; [|apply C; exact Hl].
    intros y Hy. cbn. destruct (Nat.eqb_spec x y) as [E|E]; [subst y; exfalso; apply Hx; eapply in_perm_addr; eassumption|reflexivity].
  - unfold bal in *. cbn. lia.
Qed.
Lemma seg_app st l1 x n l2 : seg st (l1 ++ (x, n) :: l2) -> get st x = Some {| st_num := n; st_next := head fst l2 |}.
Proof. induction l1 as [|[y k] l1 IH]; cbn; [intros [H _]; exact H|]. intros [_ H]. apply IH. exact H. Qed.
Lemma seg_link st l x n l' : ~ In x (map fst l) -> ~ In x (map fst l') -> seg st (l ++ [(x, n)]) -> seg st l' ->
  seg (put st x {| st_num := n; st_next := head fst l' |}) (l ++ (x, n) :: l').
Proof.
  intros H1 H2 H3 H4. induction l as [|[y k] l IH]; cbn in *.
  - destruct H3 as [H3 _]. split; [rewrite get_put, Nat.eqb_refl, H3; reflexivity|]. eapply seg_ext; [|exact H4]. intros y Hy. rewrite get_put. destruct (Nat.eqb_spec y x) as [E|E]; [subst y; contradiction|reflexivity].
  - destruct H3 as [H3 H5]. split; [|apply IH; auto]. rewrite get_put. destruct (Nat.eqb_spec y x) as [E|E]; [exfalso; apply H1; auto|]. rewrite H3. do 2 f_equal. destruct l as [|[z j] l]; reflexivity.
Qed.
Lemma SInv_link st c l x n l' rest : SInv st c ((l ++ [(x, n)]) :: l' :: rest) -> SInv (put st x {| st_num := n; st_next := head fst l' |}) c ((l ++ (x, n) :: l') :: rest).
Proof.
  intros [A B C D]. inversion C as [|? ? H1 H2]; subst. inversion H2 as [|? ? H3 H4]; subst.
  rewrite !addrs_cons, map_app in B. cbn [map fst] in B.
  assert (Hnd : NoDup ((map fst l ++ [x]) ++ map fst l' ++ addrs rest)) by (eapply Permutation_NoDup; eassumption).
  rewrite <- app_assoc in Hnd. cbn [app] in Hnd. apply NoDup_remove_2 in Hnd. rewrite !in_app_iff in Hnd.
  split.
  - rewrite keys_put. exact A.
  - rewrite keys_put, B, addrs_cons, map_app. cbn. pm.
  - constructor.
    + apply seg_link; tauto.
    + rewrite Forall_forall in *. intros l2 Hl2. eapply seg_ext; [|apply H4; exact Hl2]. intros y Hy. rewrite get_put. destruct (Nat.eqb_spec y x) as [E|E]; [|reflexivity].
      subst y. exfalso. apply Hnd. right. right. eapply in_addrs; eassumption.
  - unfold bal in *. rewrite len_put. exact D.
Qed.
Lemma takes_MInv p l from rest m bl br : takes fst p l from rest -> MInv m from bl br -> p = head fst l /\ MInv m (l :: rest) bl br.
Proof. intros [-> [[-> ->]|[_ H]]] HM; (split; [reflexivity|]); [apply MInv_nil_sl; exact HM|eapply MInv_sl; eassumption]. Qed.
Lemma takes_LInv p l from rest li : takes fst p l from rest -> LInv li from -> p = head fst l /\ LInv li (l :: rest).
Proof. intros [-> [[-> ->]|[_ H]]] HM; (split; [reflexivity|]); [apply LInv_nil; exact HM|eapply LInv_perm; eassumption]. Qed.
Lemma takes_FInv p f from rest lo c X : takes root p f from rest -> FInv lo c X from -> p = head root f /\ FInv lo c X (f :: rest).
Proof. intros [-> [[-> ->]|[_ H]]] HM; (split; [reflexivity|]); [apply FInv_nil; exact HM|eapply FInv_perm; eassumption]. Qed.
Lemma takes_perm {A} (f : A -> nat) p l from rest : takes f p l from rest -> Permutation (concat from) (l ++ concat rest).
Proof. intros [_ [[-> ->]|[_ H]]]; [reflexivity|]. apply concat_perm in H. exact H. Qed.

Lemma st_copy_spec : forall l fuel m fresh done pre ls, length l <= fuel -> (forall x, In x (keys (m_st m)) -> x < fresh) ->
  SInv (m_st m) (m_cst m) (done :: ls) -> In (pre ++ l) ls ->
  exists m', st_copy_loop fuel m fresh (head fst (rev done)) (head fst l) = Some (m', seq fresh (length l)) /\
    SInv (m_st m') (m_cst m') ((done ++ combine (seq fresh (length l)) (map snd l)) :: ls) /\ m_bl m' = m_bl m /\ m_cbl m' = m_cbl m.
Proof.
  induction l as [|[x n] l IH]; intros fuel m fresh done pre ls Hf Hb HI Hin.
  - exists m. cbn. rewrite app_nil_r. destruct fuel; auto.
  - destruct fuel as [|fuel]; [cbn in Hf; lia|]. cbn [head fst st_copy_loop].
    assert (Hg : forall st c d, SInv st c (d :: ls) -> get st x = Some {| st_num := n; st_next := head fst l |}).
    { intros st c d [_ _ C _]. inversion C as [|? ? _ H]; subst. rewrite Forall_forall in H. specialize (H _ Hin). apply seg_app in H. exact H. }
    rewrite (Hg _ _ _ HI). cbn [st_num].
    assert (Hfr : ~ In fresh (keys (m_st m))) by (intros H; apply Hb in H; lia).
    pose proof (SInv_new _ _ _ fresh n HI Hfr) as HN. set (m1 := st_new m fresh {| st_num := n; st_next := None |}) in *.
    assert (H2 : exists m2, (match head fst (rev done) with
                  | None => Some m1
                  | Some y => match get (m_st m1) y with
                              | None => None
                              | Some cy => Some {| m_st := put (m_st m1) y {| st_num := st_num cy; st_next := Some fresh |}; m_bl := m_bl m1; m_cst := m_cst m1; m_cbl := m_cbl m1 |}
                              end end) = Some m2 /\ SInv (m_st m2) (m_cst m2) ((done ++ [(fresh, n)]) :: ls) /\ m_bl m2 = m_bl m /\ m_cbl m2 = m_cbl m /\ (forall z, In z (keys (m_st m2)) -> z < S fresh)).
    { assert (Hz : forall z, In z (keys (m_st m1)) -> z < S fresh) by (intros z [<-|Hz]; [cbn; lia|apply Hb in Hz; lia]).
      destruct (rev done) as [|[y k] rd] eqn:Er.
      - assert (Ed : done = []) by (rewrite <- (rev_involutive done), Er; reflexivity). rewrite Ed in *. exists m1. cbn [head]. split; [reflexivity|]. split; [|split; [reflexivity|split; [reflexivity|exact Hz]]].
        cbn [app]. eapply SInv_perm in HN; [|apply perm_swap]. apply (proj1 (SInv_nil _ _ _)) in HN. exact HN.
      - assert (Ed : done = rev rd ++ [(y, k)]) by (rewrite <- (rev_involutive done), Er; reflexivity). rewrite Ed in *. cbn [head fst].
        eapply SInv_perm in HN; [|apply perm_swap].
        assert (Hy : get (m_st m1) y = Some {| st_num := k; st_next := None |}).
        { destruct HN as [_ _ C _]. inversion C as [|? ? H _]; subst. apply seg_app in H. exact H. }
        rewrite Hy. cbn [st_num]. apply SInv_link in HN. cbn [head fst] in HN. rewrite <- app_assoc. cbn [app].
        eexists. split; [reflexivity|]. cbn [m_st m_bl m_cst m_cbl]. split; [exact HN|]. split; [reflexivity|]. split; [reflexivity|]. intros z Hzz. rewrite keys_put in Hzz. apply Hz. exact Hzz. }
    destruct H2 as (m2 & E2 & HI2 & Hb2 & Hc2 & Hz2). rewrite E2. rewrite (Hg _ _ _ HI2). cbn [st_next].
    destruct (IH fuel m2 (S fresh) (done ++ [(fresh, n)]) (pre ++ [(x, n)]) ls) as (m' & E' & HI' & Hb' & Hc'); auto.
    + cbn in Hf. lia.
    + rewrite <- app_assoc. exact Hin.
    + rewrite rev_app_distr in E'. cbn [rev app head fst] in E'. rewrite E'. exists m'. split; [reflexivity|]. split; [|split; congruence].
      cbn [length seq map snd combine]. rewrite <- app_assoc in HI'. exact HI'.
Qed.

(** *** blocks *)
Lemma MInv_new_bl m sl l bl br x : MInv m (l :: sl) bl br -> ~ In x (keys (m_bl m)) -> MInv (bl_new m x (head fst l)) sl ((x, l) :: bl) (x :: br).
Proof.
  intros [HS [A B C D E]] Hx. assert (Hxb : ~ In x (keys bl)) by (intros H; apply Hx; eapply Permutation_in; [symmetry; exact B|exact H]).
  assert (Hxr : ~ In x br) by (intros H; apply Hxb; apply D; exact H). split; cbn.
  - eapply SInv_perm; [|exact HS]. cbn. apply Permutation_middle.
  - split.
    + constructor; assumption.
    + cbn. constructor. exact B.
    + intros b l' [H|H].
      * injection H as <- <-. cbn. rewrite Nat.eqb_refl. destruct (Nat.eq_dec x x); [|congruence]. apply (count_occ_not_In Nat.eq_dec) in Hxr. rewrite Hxr. reflexivity.
      * cbn. destruct (Nat.eqb_spec x b) as [Ex|Ex]; [subst b; exfalso; apply Hxb; apply (in_map fst) in H; exact H|]. destruct (Nat.eq_dec x b); [contradiction|]. apply C. exact H.
    + intros b. cbn. rewrite D. reflexivity.
    + unfold bal in *. cbn. lia.
Qed.
Lemma bl_ref_spec m sl bl br b : MInv m sl bl br -> In b br -> exists m', bl_ref m b = Some m' /\ MInv m' sl bl (b :: br).
Proof.
  intros [HS [A B C D E]] Hb. pose proof (proj1 (D b) Hb) as Hk. apply in_map_iff in Hk as ([b' l] & Eb & Hl). cbn in Eb. subst b'. pose proof (C _ _ Hl) as Hg.
  unfold bl_ref. rewrite Hg. cbn [bl_stmt bl_refs]. eexists. split; [reflexivity|]. split; cbn; [exact HS|]. split.
  - rewrite keys_put. exact A.
  - rewrite keys_put. exact B.
  - intros b' l' Hl'. rewrite get_put, Hg, (C _ _ Hl'). cbn. destruct (Nat.eqb_spec b' b) as [Ex|Ex].
    + subst b'. destruct (Nat.eq_dec b b); [|congruence]. rewrite (C _ _ Hl') in Hg. injection Hg as Hh. rewrite Hh. do 2 f_equal. lia.
    + destruct (Nat.eq_dec b b'); [congruence|reflexivity].
  - intros x. cbn. rewrite D. split; [|auto]. intros [<-|H]; [apply D; exact Hb|exact H].
  - rewrite len_put. exact E.
Qed.
Lemma st_last_spec st c ls m : forall l pre x n fuel, m_st m = st -> SInv st c ls -> In (pre ++ l ++ [(x, n)]) ls -> length l < fuel ->
  forall y, head fst (l ++ [(x, n)]) = Some y -> st_last fuel m y = Some x.
Proof.
  induction l as [|[z k] l IH]; intros pre x n fuel Em HI Hin Hf y Hy; (destruct fuel as [|fuel]; [cbn in Hf; lia|]); cbn in Hy; injection Hy as <-; cbn [st_last]; rewrite Em.
  - destruct HI as [_ _ C _]. rewrite Forall_forall in C. specialize (C _ Hin). apply seg_app in C. rewrite C. reflexivity.
  - pose proof HI as [_ _ C _]. rewrite Forall_forall in C. specialize (C _ Hin). cbn in C. apply seg_app in C. rewrite C. cbn [st_next].
    destruct (head fst (l ++ [(x, n)])) as [w|] eqn:Ew; [|destruct l; discriminate].
    apply (IH (pre ++ [(z, k)]) x n fuel Em HI); [rewrite <- app_assoc; exact Hin|cbn in Hf; lia|exact Ew].
Qed.
Lemma bl_merge_spec m sl bl b y lb lm others br : b <> y -> Permutation bl ((b, lb) :: (y, lm) :: others) -> MInv m sl bl (y :: br) -> In b br ->
  exists m', bl_merge m (Some b) (Some y) = Some m' /\ MInv m' sl (alive br ((b, lb ++ lm) :: (y, []) :: others)) br.
Proof.
  intros Hne Hp HM Hbr. apply (MInv_bl _ _ _ _ _ Hp) in HM. pose proof HM as [HS [A B C D E]].
  pose proof (C b lb (or_introl eq_refl)) as Hgb. pose proof (C y lm (or_intror (or_introl eq_refl))) as Hgy.
  unfold bl_merge. rewrite Hgb, Hgy. cbn [bl_stmt bl_refs].
  assert (Hnd : NoDup (keys ((b, lb) :: (y, lm) :: others))) by (eapply Permutation_NoDup; eassumption).
  cbn in Hnd. inversion Hnd as [|? ? Hb1 Hnd1]; subst. inversion Hnd1 as [|? ? Hy1 Hnd2]; subst.
  assert (Hm1 : exists m1, (match head fst lb with
        | Some s => match st_last (length (m_st m)) m s with Some l => st_link m l (head fst lm) | None => None end
        | None => Some (bl_set m b {| bl_stmt := head fst lm; bl_refs := Z.of_nat (cnt (y :: br) b) |}) end) = Some m1 /\
      SInv (m_st m1) (m_cst m1) (sl ++ (lb ++ lm) :: map snd others) /\ keys (m_bl m1) = keys (m_bl m) /\ length (m_bl m1) = length (m_bl m) /\ m_cbl m1 = m_cbl m /\
      get (m_bl m1) b = Some {| bl_stmt := head fst (lb ++ lm); bl_refs := Z.of_nat (cnt (y :: br) b) |} /\ (forall z, z <> b -> get (m_bl m1) z = get (m_bl m) z)).
  { destruct (rev lb) as [|[x n] rl] eqn:Er.
    - assert (El : lb = []) by (rewrite <- (rev_involutive lb), Er; reflexivity). rewrite El in *. cbn [head app]. eexists. split; [reflexivity|]. cbn.
      split; [|split; [apply keys_put|split; [apply len_put|split; [reflexivity|split]]]].
      + cbn in HS. apply (proj1 (SInv_nil _ _ _)). eapply SInv_perm; [|exact HS]. symmetry. apply Permutation_middle.
      + rewrite get_put, Nat.eqb_refl, Hgb. reflexivity.
      + intros z Hz. rewrite get_put. destruct (Nat.eqb_spec z b); [contradiction|reflexivity].
    - assert (El : lb = rev rl ++ [(x, n)]) by (rewrite <- (rev_involutive lb), Er; reflexivity).
      cbn in HS. eapply SInv_perm in HS; [|symmetry; apply Permutation_middle]. eapply SInv_perm in HS; [|constructor; symmetry; apply Permutation_middle].
      destruct (head fst lb) as [s|] eqn:Eh; [|rewrite El in Eh; destruct (rev rl); discriminate].
      pose proof (chain_len _ _ _ _ HS) as Hlen.
      rewrite (st_last_spec (m_st m) (m_cst m) _ m (rev rl) [] x n (length (m_st m)) eq_refl HS).
      + assert (Hg : get (m_st m) x = Some {| st_num := n; st_next := None |}).
        { pose proof HS as [_ _ Cs _]. inversion Cs as [|? ? H _]; subst. apply seg_app in H. exact H. }
        unfold st_link. rewrite Hg. cbn [st_num]. rewrite El in HS. apply SInv_link in HS.
        eexists. split; [reflexivity|]. cbn [m_st m_bl m_cst m_cbl]. split.
        * eapply SInv_perm; [|exact HS]. rewrite El, <- app_assoc. cbn [app]. apply Permutation_middle.
        * split; [reflexivity|]. split; [reflexivity|]. split; [reflexivity|]. split; [|reflexivity]. rewrite Hgb. rewrite <- Eh. rewrite El. destruct (rev rl) as [|[z k] r']; reflexivity.
      + left. exact El.
      + rewrite El, app_length in Hlen. cbn in Hlen. lia.
      + rewrite <- El. exact Eh. }
  destruct Hm1 as (m1 & -> & HS1 & Hk1 & Hl1 & Hc1 & Hgb1 & Hgo1). rewrite (Hgo1 y) by congruence. rewrite Hgy. cbn [bl_refs].
  apply bl_free_spec. split; cbn [bl_set m_st m_bl m_cst m_cbl].
  - cbn [map snd]. eapply SInv_perm; [|apply SInv_nil; exact HS1]. rewrite Permutation_middle. apply Permutation_app_head. apply perm_swap.
  - split.
    + rewrite keys_put, Hk1. exact A.
    + rewrite keys_put, Hk1. exact B.
    + intros z lz Hz. rewrite get_put. destruct Hz as [Hz|[Hz|Hz]].
      * injection Hz as <- <-. destruct (Nat.eqb_spec b y); [contradiction|]. rewrite Hgb1. reflexivity.
      * injection Hz as <- <-. rewrite Nat.eqb_refl, (Hgo1 y) by congruence. rewrite Hgy. reflexivity.
      * assert (Hzk : In z (keys others)) by (apply (in_map fst) in Hz; exact Hz).
        destruct (Nat.eqb_spec z y) as [Ez|Ez]; [subst z; contradiction|]. rewrite Hgo1 by (intros ->; apply Hb1; right; exact Hzk). apply C. right. right. exact Hz.
    + intros z. rewrite D. reflexivity.
    + rewrite len_put, Hl1, Hc1. exact E.
Qed.

(** *** block lists *)
Lemma lseg_app li l1 x b l2 : lseg li (l1 ++ (x, b) :: l2) -> get li x = Some {| li_block := Some b; li_next := head fst l2 |}.
Proof. induction l1 as [|[y k] l1 IH]; cbn; [intros [H _]; exact H|]. intros [_ H]. apply IH. exact H. Qed.
Lemma lseg_link li l x b l' : ~ In x (map fst l) -> ~ In x (map fst l') -> lseg li (l ++ [(x, b)]) -> lseg li l' ->
  lseg (put li x {| li_block := Some b; li_next := head fst l' |}) (l ++ (x, b) :: l').
Proof.
  intros H1 H2 H3 H4. induction l as [|[y k] l IH]; cbn in *.
  - destruct H3 as [H3 _]. split; [rewrite get_put, Nat.eqb_refl, H3; reflexivity|]. eapply lseg_ext; [|exact H4]. intros y Hy. rewrite get_put. destruct (Nat.eqb_spec y x) as [E|E]; [subst y; contradiction|reflexivity].
  - destruct H3 as [H3 H5]. split; [|apply IH; auto]. rewrite get_put. destruct (Nat.eqb_spec y x) as [E|E]; [exfalso; apply H1; auto|]. rewrite H3. do 2 f_equal. destruct l as [|[z j] l]; reflexivity.
Qed.
Lemma LInv_link li l x b l' rest : LInv li ((l ++ [(x, b)]) :: l' :: rest) ->
  exists c, get li x = Some c /\ li_block c = Some b /\ LInv (put li x {| li_block := Some b; li_next := head fst l' |}) ((l ++ (x, b) :: l') :: rest).
Proof.
  intros [A B C]. inversion C as [|? ? H1 H2]; subst. inversion H2 as [|? ? H3 H4]; subst.
  cbn [concat] in B. rewrite !map_app in B. cbn [map fst] in B.
  assert (Hnd : NoDup ((map fst l ++ [x]) ++ map fst l' ++ map fst (concat rest))) by (eapply Permutation_NoDup; eassumption).
  rewrite <- app_assoc in Hnd. cbn [app] in Hnd. apply NoDup_remove_2 in Hnd. rewrite !in_app_iff in Hnd.
  eexists. split; [eapply lseg_app; exact H1|]. split; [reflexivity|]. split.
  - rewrite keys_put. exact A.
  - rewrite keys_put, B. cbn [concat]. rewrite !map_app. cbn. pm.
  - constructor.
    + apply lseg_link; tauto.
    + rewrite Forall_forall in *. intros l2 Hl2. eapply lseg_ext; [|apply H4; exact Hl2]. intros y Hy. rewrite get_put. destruct (Nat.eqb_spec y x) as [E|E]; [|reflexivity].
      subst y. exfalso. apply Hnd. right. right. eapply in_laddrs; eassumption.
Qed.
Lemma LInv_new li ls x b : LInv li ls -> ~ In x (keys li) -> LInv ((x, {| li_block := Some b; li_next := None |}) :: li) ([(x, b)] :: ls).
Proof.
  intros [A B C] Hx. split.
  - constructor; assumption.
  - cbn. constructor. exact B.
  - constructor; [cbn; rewrite Nat.eqb_refl; auto|]. rewrite Forall_forall in *. intros l Hl. eapply lseg_ext; [|apply C; exact Hl].
    intros y Hy. cbn. destruct (Nat.eqb_spec x y) as [E|E]; [|reflexivity]. subst y. exfalso. apply Hx. eapply Permutation_in; [symmetry; exact B|]. eapply in_laddrs; eassumption.
Qed.
Lemma LInv_len li l ls : LInv li (l :: ls) -> length l <= length li.
Proof. intros [_ H _]. apply Permutation_length in H. rewrite len_keys in H. cbn in H. rewrite map_app, app_length, map_length in H. lia. Qed.

(** *** loops *)
Lemma FInv_new lo c f_in f_next ls x b s : FInv lo c [] (f_in :: f_next :: ls) -> ~ In x (keys lo) ->
  FInv ((x, {| lo_block := b; lo_stride := s; lo_inner := head root f_in; lo_next := head root f_next |}) :: lo) (leak_up c) [] ((T x b s f_in :: f_next) :: ls).
Proof.
  intros [A B C D E] Hx. inversion D as [|? ? H1 H2]; subst. inversion H2 as [|? ? H3 H4]; subst. cbn [keys map app] in B.
  assert (Hext : forall f, (forall y, In y (flat_map t_addrs f) -> In y (keys lo)) -> fseg lo f -> fseg ((x, {| lo_block := b; lo_stride := s; lo_inner := head root f_in; lo_next := head root f_next |}) :: lo) f).
  { intros f Hf Hs. eapply fseg_ext; [|exact Hs]. intros y Hy. cbn. destruct (Nat.eqb_spec x y) as [Ey|Ey]; [|reflexivity]. subst y. exfalso. apply Hx. apply Hf. exact Hy. }
  assert (Hk : forall f, In f (f_in :: f_next :: ls) -> forall y, In y (flat_map t_addrs f) -> In y (keys lo)).
  { intros f Hf y Hy. eapply Permutation_in; [symmetry; exact B|]. eapply in_faddrs; eassumption. }
  split.
  - constructor; assumption.
  - cbn [keys map fst app]. rewrite faddrs_cons. cbn [flat_map t_addrs app]. constructor. fold (keys lo). rewrite B, !faddrs_cons, app_assoc. reflexivity.
  - intros a d [].
  - constructor.
    + cbn [fseg]. rewrite tseg_eq. split; [split|].
      * cbn. rewrite Nat.eqb_refl. reflexivity.
      * apply Hext; [apply Hk; left; reflexivity|exact H1].
      * apply Hext; [apply Hk; right; left; reflexivity|exact H3].
    + rewrite Forall_forall in *. intros f Hf. apply Hext; [apply Hk; right; right; exact Hf|apply H4; exact Hf].
  - cbn. cbn in E. lia.
Qed.
Lemma FInv_len lo c f ls : FInv lo c [] (f :: ls) -> fsize f <= length lo.
Proof. intros [_ H _ _ _]. apply Permutation_length in H. rewrite len_keys in H. cbn [keys map app] in H. rewrite faddrs_cons, app_length in H. unfold fsize. lia. Qed.
Lemma hb_fresh_not {A} (m : list (nat * A)) n : below m n -> ~ In n (keys m).
Proof. intros H Hin. apply H in Hin. lia. Qed.

Lemma alive_refs v v' m sl : MInv m sl (alive (block_refs v) (v_bl v)) (block_refs v) -> sl = v_sl v -> v' = settle v -> MInv m (v_sl v') (v_bl v') (block_refs v').
Proof. intros H -> ->. exact H. Qed.

Theorem step h v o after : Inv h v -> user v o after -> exists h' new, exec h o = Some (h', new) /\ Inv h' (after new).
Proof.
  intros HI HU. pose proof HI as [HM HL HR HF HB]. pose proof HB as [B1 B2 B3 B4 B5].
  assert (K : (exists h' new, exec h o = Some (h', new) /\
     MInv (h_mem h') (v_sl (after new)) (v_bl (after new)) (block_refs (after new)) /\ LInv (h_li h') (v_ll (after new)) /\
     RInv (h_sr h') (stride_refs (after new)) /\ FInv (h_lo h') (h_clo h') [] (v_lo (after new))) -> exists h' new, exec h o = Some (h', new) /\ Inv h' (after new)).
  { intros (h' & new & E & A & B & C & D). exists h', new. split; [exact E|]. split; auto. apply exec_step in E as [Hs _ _ _]. apply Hs. exact HB. }
  apply K. clear K HI. destruct HU; cbn [exec].
  - (* StAlloc *)
    eexists _, _. split; [reflexivity|]. cbn. split; [|auto]. destruct HM as [HS HBl]. split; [|exact HBl]. cbn. apply SInv_new; [exact HS|]. apply hb_fresh_not. exact B1.
  - (* StFree *)
    destruct (takes_MInv _ _ _ _ _ _ _ H HM) as [-> [HS HBl]]. cbn [app] in HS.
    destruct (st_free_spec l (length (m_st (h_mem h))) _ _ HS (chain_len _ _ _ _ HS)) as (m' & E & HS' & Eb & Ec).
    unfold st_free. rewrite E. eexists _, _. split; [reflexivity|]. cbn. split; [|auto]. split; [exact HS'|]. rewrite Eb, Ec. exact HBl.
  - (* StCopy *)
    destruct HM as [HS HBl]. destruct l as [|p l0]; [cbn [head]|].
    + eexists _, _. split; [destruct (length (m_st (h_mem h))); reflexivity|]. cbn. split; [split; assumption|auto].
    + set (l := p :: l0) in *.
      assert (Hin : In ([] ++ l) (v_sl v ++ map snd (v_bl v))).
      { apply in_app_iff. destruct H as [H|[H|[b H]]]; [discriminate|auto|right; apply (in_map snd) in H; exact H]. }
      assert (Hlen : length l <= length (m_st (h_mem h))).
      { apply in_split in Hin as (l1 & l2 & El). eapply (chain_len _ _ l (l1 ++ l2)). eapply SInv_perm; [|exact HS]. rewrite El. symmetry. apply Permutation_middle. }
      destruct (st_copy_spec l _ (h_mem h) (h_fresh h) [] [] _ Hlen B1 (proj2 (SInv_nil _ _ _) HS) Hin) as (m' & E & HS' & Eb & Ec).
      cbn [rev head] in E. rewrite E. eexists _, _. split; [reflexivity|]. cbn. split; [|auto]. split; [|rewrite Eb, Ec; exact HBl].
      destruct p as [x n]. exact HS'.
  - (* StLink *)
    apply (MInv_sl _ _ _ _ _ H) in HM. assert (Hm2 : p = head fst l' /\ MInv (h_mem h) (l' :: (l ++ [(x, n)]) :: rest) (v_bl v) (block_refs v)).
    { destruct H0 as [-> [[-> ->]|[_ Hp]]]; (split; [reflexivity|]); [apply MInv_nil_sl; exact HM|]. eapply MInv_sl; [|exact HM]. rewrite Hp. apply perm_swap. }
    destruct Hm2 as [-> [HS HBl]]. cbn [app] in HS. eapply SInv_perm in HS; [|apply perm_swap].
    assert (Hg : get (m_st (h_mem h)) x = Some {| st_num := n; st_next := None |}).
    { pose proof HS as [_ _ C _]. inversion C as [|? ? Hs _]; subst. apply seg_app in Hs. exact Hs. }
    unfold st_link. rewrite Hg. eexists _, _. split; [reflexivity|]. cbn. split; [|auto]. split; [|exact HBl]. cbn. apply SInv_link. exact HS.
  - (* BlMalloc *)
    eexists _, _. split; [reflexivity|]. cbn. split; [|auto]. apply (MInv_new_bl _ _ []); [apply MInv_nil_sl; exact HM|]. apply hb_fresh_not. exact B2.
  - (* BlAlloc *)
    destruct (takes_MInv _ _ _ _ _ _ _ H0 HM) as [-> HM']. destruct l as [|[s n] l]; [congruence|]. cbn [head fst].
    assert (Hg : exists c, get (m_st (h_mem h)) s = Some c). { destruct HM' as [[_ _ C _] _]. inversion C as [|? ? Hs _]; subst. destruct Hs as [Hs _]. eauto. }
    destruct Hg as [c Hg]. rewrite Hg. eexists _, _. split; [reflexivity|]. cbn. split; [|auto]. apply (MInv_new_bl _ _ ((s, n) :: l)); [exact HM'|]. apply hb_fresh_not. exact B2.
  - (* BlCopy *)
    destruct p as [b|].
    + destruct (bl_ref_spec _ _ _ _ b HM (H b eq_refl)) as (m' & E & HM'). rewrite E. eexists _, _. split; [reflexivity|]. cbn. auto.
    + eexists _, _. split; [reflexivity|]. cbn. auto.
  - (* BlFree *)
    assert (HM' : MInv (h_mem h) (v_sl v) (v_bl v) (opt p ++ block_refs (with_br v rest))).
    { eapply MInv_br; [|exact HM]. unfold takes_ref in H. unfold block_refs. cbn. rewrite H. pm. }
    destruct (bl_free_opt _ _ _ _ _ HM') as (m' & E & HM2). rewrite E. eexists _, _. split; [reflexivity|]. cbn. auto.
  - (* BlMerge NULL *)
    assert (E : bl_merge (h_mem h) p q = Some (h_mem h)) by (destruct H as [-> | ->]; [reflexivity|destruct p; reflexivity]). rewrite E. eexists _, _. split; [reflexivity|]. cbn. auto.
  - (* BlMerge *)
    set (v1 := with_br (with_bl v ((b, lb ++ lm) :: (m, []) :: others)) rest).
    assert (HM' : MInv (h_mem h) (v_sl v) (v_bl v) (m :: block_refs v1)).
    { eapply MInv_br; [|exact HM]. unfold takes_ref in H1. unfold block_refs. cbn. rewrite H1. reflexivity. }
    assert (Hb : In b (block_refs v1)).
    { unfold block_refs in H0 |- *. cbn. unfold takes_ref in H1. apply in_app_iff in H0 as [H0|H0]; [|apply in_app_iff; auto]. apply (Permutation_in _ H1) in H0. destruct H0 as [H0|H0]; [congruence|apply in_app_iff; auto]. }
    destruct (bl_merge_spec _ _ _ _ _ _ _ _ _ H H2 HM' Hb) as (m' & E & HM2). rewrite E. eexists _, _. split; [reflexivity|]. cbn -[block_refs]. auto.
  - (* LiAlloc *)
    destruct (bl_ref_spec _ _ _ _ b HM H) as (m' & E & HM'). rewrite E. eexists _, _. split; [reflexivity|]. cbn. split; [|split; [|auto]].
    + eapply MInv_br; [|exact HM']. unfold block_refs. cbn. pm.
    + apply LInv_new; [exact HL|]. apply hb_fresh_not. exact B3.
  - (* LiLink *)
    assert (Hr : Permutation (map snd (concat (v_ll v))) (map snd (concat ((l ++ (x, b) :: l') :: rest)))).
    { apply Permutation_map. rewrite (concat_perm _ _ H). cbn. rewrite (takes_perm _ _ _ _ _ H0). rewrite <- !app_assoc. reflexivity. }
    apply (LInv_perm _ _ _ H) in HL. assert (Hl2 : p = head fst l' /\ LInv (h_li h) (l' :: (l ++ [(x, b)]) :: rest)).
    { destruct H0 as [-> [[-> ->]|[_ Hp]]]; (split; [reflexivity|]); [apply LInv_nil; exact HL|]. eapply LInv_perm; [|exact HL]. rewrite Hp. apply perm_swap. }
    destruct Hl2 as [-> HL2]. eapply LInv_perm in HL2; [|apply perm_swap]. apply LInv_link in HL2 as (c & Hg & Hc & HL2). rewrite Hg, Hc.
    eexists _, _. split; [reflexivity|]. cbn. split; [|auto]. eapply MInv_br; [|exact HM]. unfold block_refs. cbn -[concat]. rewrite Hr. reflexivity.
  - (* LiFree *)
    pose proof (takes_perm _ _ _ _ _ H) as Hp. destruct (takes_LInv _ _ _ _ _ H HL) as [-> HL'].
    assert (HM' : MInv (h_mem h) (v_sl v) (v_bl v) (map snd l ++ block_refs (with_ll v rest))).
    { eapply MInv_br; [|exact HM]. unfold block_refs. cbn. rewrite Hp, map_app. pm. }
    destruct (li_free_spec l _ _ _ _ _ _ _ HL' HM' (LInv_len _ _ _ HL')) as (m' & li' & E & HL2 & HM2). rewrite E. eexists _, _. split; [reflexivity|]. cbn -[block_refs]. auto.
  - (* SrAlloc *)
    eexists _, _. split; [reflexivity|]. cbn. split; [exact HM|]. split; [exact HL|]. split; [|exact HF]. destruct HR as [R1 R2].
    assert (Hx : ~ In (h_fresh h) (keys (h_sr h))) by (apply hb_fresh_not; exact B4). assert (Hxr : ~ In (h_fresh h) (stride_refs v)).
    { intros Hin. pose proof (R2 (h_fresh h)) as Hg. destruct (in_dec _ _ _); [|contradiction]. apply get_in in Hg. contradiction. }
    split; [constructor; assumption|]. intros y. unfold stride_refs. cbn [v_sr with_srs v_lo app get]. fold (stride_refs v). destruct (Nat.eqb_spec (h_fresh h) y) as [Ey|Ey].
    + subst y. destruct (in_dec _ _ _) as [_|n]; [|destruct n; left; reflexivity]. apply (count_occ_not_In Nat.eq_dec) in Hxr. cbn [count_occ]. destruct (Nat.eq_dec _ _); [|congruence]. rewrite Hxr. reflexivity.
    + rewrite R2. fold (stride_refs v). destruct (in_dec _ y (stride_refs v)) as [i|n], (in_dec _ y (h_fresh h :: stride_refs v)) as [[?|i']|n']; try contradiction; try reflexivity; try (destruct n'; right; assumption).
      cbn. destruct (Nat.eq_dec _ _); [contradiction|reflexivity].
  - (* SrCopy *)
    destruct p as [s|].
    + destruct (sr_ref_spec _ _ _ HR (H s eq_refl)) as (sr' & E & HR'). rewrite E. eexists _, _. split; [reflexivity|]. cbn. auto.
    + eexists _, _. split; [reflexivity|]. cbn. auto.
  - (* SrFree *)
    assert (HR' : RInv (h_sr h) (opt p ++ stride_refs (with_srs v rest))).
    { eapply RInv_perm; [|exact HR]. unfold takes_ref in H. unfold stride_refs. cbn. rewrite H. pm. }
    destruct (sr_free_spec _ _ _ HR') as (sr' & E & HR2). rewrite E. eexists _, _. split; [reflexivity|]. cbn. auto.
  - (* LoAlloc *)
    pose proof (takes_perm _ _ _ _ _ H1) as P1. pose proof (takes_perm _ _ _ _ _ H2) as P2.
    assert (HF' : inner = head root f_in /\ next = head root f_next /\ FInv (h_lo h) (h_clo h) [] (f_in :: f_next :: lo)).
    { destruct (takes_FInv _ _ _ _ _ _ _ H1 HF) as [-> HF1]. destruct H2 as [-> [[-> ->]|[_ Hp]]]; (split; [reflexivity|]; split; [reflexivity|]).
      - eapply FInv_perm; [apply perm_swap|]. apply FInv_nil. exact HF1.
      - eapply FInv_perm; [|exact HF1]. constructor. exact Hp. }
    destruct HF' as (-> & -> & HF1).
    assert (Hs : exists sr, (match s with Some y => sr_ref (h_sr h) y | None => Some (h_sr h) end) = Some sr /\ RInv sr (opt s ++ stride_refs v)).
    { destruct s as [y|]; [|eauto]. apply sr_ref_spec; [exact HR|apply H0; reflexivity]. }
    destruct Hs as (sr & -> & HR'). eexists _, _. split; [reflexivity|]. cbn. split; [|split; [exact HL|split]].
    + eapply MInv_br; [|exact HM]. unfold block_refs, takes_ref in *. cbn. rewrite H, P1, P2, !flat_map_app. pm.
    + eapply RInv_perm; [|exact HR']. unfold stride_refs. cbn. rewrite P1, P2, !flat_map_app. pm.
    + apply FInv_new; [exact HF1|]. apply hb_fresh_not. exact B5.
  - (* LoFree *)
    pose proof (takes_perm _ _ _ _ _ H) as P. destruct (takes_FInv _ _ _ _ _ _ _ H HF) as [-> HF1]. rewrite lo_free_parts_all.
    destruct (lo_parts_spec true true (fsize f) true f (length (h_lo h)) (to_l h) [] rest (v_sl v) (v_bl v) (block_refs (with_lo v rest)) (stride_refs (with_lo v rest))) as (m' & E & HF2 & HM2 & HR2).
    + lia.
    + eapply FInv_len. exact HF1.
    + exact HF1.
    + eapply MInv_br; [|exact HM]. unfold block_refs. cbn. rewrite P, flat_map_app. change (flat_map (fb1 true true) f) with (flat_map t_blocks f). pm.
    + eapply RInv_perm; [|exact HR]. unfold stride_refs. cbn. rewrite P, flat_map_app. change (flat_map (fs1 true) f) with (flat_map t_strides f). pm.
    + rewrite E. eexists _, _. split; [reflexivity|]. cbn -[block_refs]. split; [exact HM2|]. split; [exact HL|]. split; [exact HR2|].
      unfold freed in HF2. assert (E0 : flat_map (kept1 true) f = []) by (clear; induction f; auto). rewrite E0 in HF2. exact HF2.
  - (* LoFreeParts *)
    pose proof (takes_perm _ _ _ _ _ H) as P. destruct (takes_FInv _ _ _ _ _ _ _ H HF) as [-> HF1].
    set (fr := freed next f). set (kp := keptn next f).
    assert (Pf : Permutation f (fr ++ concat kp)).
    { unfold fr, kp, freed, keptn. destruct next; cbn; [rewrite app_nil_r; reflexivity|]. destruct f as [|t [|t' f]]; cbn; rewrite ?app_nil_r; reflexivity. }
    change (if next then f else firstn 1 f) with fr. change (if next then [] else nonempty (tl f)) with kp.
    set (v1 := with_lo (with_br v (flat_map fst (map (freed_parts block inner) fr) ++ v_br v)) (flat_map snd (map (freed_parts block inner) fr) ++ kp ++ rest)).
    destruct (lo_parts_spec block inner (fsize f) next f (length (h_lo h)) (to_l h) [] rest (v_sl v) (v_bl v) (block_refs v1) (stride_refs v1)) as (m' & E & HF2 & HM2 & HR2).
    + lia.
    + eapply FInv_len. exact HF1.
    + exact HF1.
    + eapply MInv_br; [|exact HM]. fold fr. unfold block_refs, v1. cbn. rewrite fp_snd_all. rewrite P, Pf, !concat_app, !flat_map_app. rewrite (fp_blocks_all block inner fr). pm.
    + eapply RInv_perm; [|exact HR]. fold fr. unfold stride_refs, v1. cbn. rewrite fp_snd_all. rewrite P, Pf, !concat_app, !flat_map_app. rewrite (fp_strides_all inner fr). pm.
    + rewrite E. eexists _, _. split; [reflexivity|]. cbn -[block_refs]. split; [exact HM2|]. split; [exact HL|]. split; [exact HR2|]. rewrite fp_snd_all. exact HF2.
Qed.
