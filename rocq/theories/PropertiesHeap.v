(** C31, C32: memory of statements, blocks, block lists, strides and loops, and the leak counters. *)
From Coq Require Import ZArith List Bool Arith Permutation Lia.
From Verif Require Import HeapModel HeapSpec HeapProofs HeapInv.
Import ListNotations.
Local Arguments Nat.eqb : simpl never.

Lemma Inv_start : Inv start v0.
Proof.
  repeat split; cbn; try constructor; try lia; try contradiction; try (intros x []); try reflexivity.
Qed.
Lemma history_inv past h v : history past h v -> Inv h v.
Proof.
  induction 1 as [|past h v o after h' new H IH HU HE]; [exact Inv_start|].
  destruct (step _ _ _ _ IH HU) as (h2 & new2 & E & HI). rewrite HE in E. injection E as <- <-. exact HI.
Qed.

(** Whatever the user has done before, a call the ownership rules allow reads, writes and frees only allocated
    memory, and ends. *)
Theorem C31_no_invalid_access past h v o after : history past h v -> user v o after -> exists h' new, exec h o = Some (h', new).
Proof. intros H HU. destruct (step _ _ _ _ (history_inv _ _ _ H) HU) as (h' & new & E & _). eauto. Qed.
Print Assumptions C31_no_invalid_access.

Lemma live_keys {A} (m : list (nat * A)) x : (exists c, get m x = Some c) <-> In x (keys m).
Proof. split; [intros [c H]; eapply get_in; exact H|apply in_get]. Qed.
Lemma seg_chain h l : seg (m_st (h_mem h)) l -> chain h (head fst l) l.
Proof.
  induction l as [|[x n] l IH]; cbn; [constructor|]. intros [H1 H2]. change n with (st_num {| st_num := n; st_next := head fst l |}). constructor; [exact H1|]. apply IH. exact H2.
Qed.
Lemma tset {A B} (f : A -> list B) (x : B) l : In x (flat_map f l) <-> exists a, In a l /\ In x (f a).
Proof. apply in_flat_map. Qed.

(** A block is allocated exactly as long as there is a reference to it: the user's own, one from a block list
    or one from a loop.  Its counter is the number of references, and its statements are the ones it was given. *)
Theorem C31_blocks past h v : history past h v ->
  (forall b, bl_live h b <-> In b (v_br v) \/ (exists l n, In l (v_ll v) /\ In (n, b) l) \/ (exists f t, In f (v_lo v) /\ In t f /\ In b (t_blocks t))) /\
  (forall b, bl_live h b -> exists l c, In (b, l) (v_bl v) /\ get (m_bl (h_mem h)) b = Some c /\
     bl_refs c = Z.of_nat (count_occ Nat.eq_dec (v_br v) b + count_occ Nat.eq_dec (map snd (concat (v_ll v))) b + count_occ Nat.eq_dec (flat_map t_blocks (concat (v_lo v))) b) /\
     chain h (bl_stmt c) l).
Proof.
  intros H. apply history_inv in H as [[HS [A B C D E]] _ _ _ _].
  assert (Hl : forall b, bl_live h b <-> In b (block_refs v)).
  { intros b. unfold bl_live. rewrite live_keys, D. split; apply Permutation_in; [exact B|symmetry; exact B]. }
  split.
  - intros b. rewrite Hl. unfold block_refs. rewrite !in_app_iff. split; (intros [K|[K|K]]; [left; exact K|right; left|right; right]).
    + apply in_map_iff in K as ([n b'] & Eb & Hb). cbn in Eb. subst b'. apply in_concat in Hb as (l & Hl' & Hb). exists l, n. auto.
    + apply in_flat_map in K as (t & Ht & Hb). apply in_concat in Ht as (f & Hf & Ht). exists f, t. auto.
    + destruct K as (l & n & Hl' & Hb). apply (in_map snd (concat (v_ll v)) (n, b)). apply in_concat. eauto.
    + destruct K as (f & t & Hf & Ht & Hb). apply in_flat_map. exists t. split; [apply in_concat; eauto|exact Hb].
  - intros b Hb. apply Hl in Hb. pose proof (proj1 (D b) Hb) as Hk. apply in_map_iff in Hk as ([b' l] & Eb & Hb'). cbn in Eb. subst b'.
    exists l, {| bl_stmt := head fst l; bl_refs := Z.of_nat (count_occ Nat.eq_dec (block_refs v) b) |}. split; [exact Hb'|]. split; [apply C; exact Hb'|]. cbn [bl_refs bl_stmt]. split.
    + f_equal. unfold block_refs. rewrite !count_occ_app. lia.
    + apply seg_chain. destruct HS as [_ _ HSg _]. rewrite Forall_forall in HSg. apply HSg. apply in_app_iff. right. apply (in_map snd) in Hb'. exact Hb'.
Qed.
Print Assumptions C31_blocks.

(** A statement is allocated exactly when it is in a list of the user or in a live block, and it is in only one place. *)
Theorem C31_statements past h v : history past h v ->
  (forall x, st_live h x <-> (exists l n, In l (v_sl v) /\ In (x, n) l) \/ (exists b l n, bl_live h b /\ In (b, l) (v_bl v) /\ In (x, n) l)) /\
  NoDup (map fst (concat (v_sl v) ++ concat (map snd (v_bl v)))) /\
  (forall l, In l (v_sl v) -> chain h (head fst l) l).
Proof.
  intros H. apply history_inv in H as [[[A B C D] [A' B' C' D' E']] _ _ _ _]. unfold addrs in B. rewrite concat_app in B.
  assert (Hb : forall b l, In (b, l) (v_bl v) -> bl_live h b) by (intros b l Hbl; unfold bl_live; exists {| bl_stmt := head fst l; bl_refs := Z.of_nat (count_occ Nat.eq_dec (block_refs v) b) |}; apply C'; exact Hbl).
  split; [|split].
  - intros x. unfold st_live. rewrite live_keys. split.
    + intros Hx. apply (Permutation_in _ B) in Hx. rewrite map_app in Hx. apply in_app_iff in Hx as [Hx|Hx]; apply in_map_iff in Hx as ([x' n] & Ex & Hx); cbn in Ex; subst x'; apply in_concat in Hx as (l & Hl & Hx).
      * left. eauto.
      * right. apply in_map_iff in Hl as ([b l'] & El & Hl). cbn in El. subst l'. exists b, l, n. split; [eapply Hb; exact Hl|auto].
    + intros K. eapply Permutation_in; [symmetry; exact B|]. rewrite map_app. apply in_app_iff. destruct K as [(l & n & Hl & Hx)|(b & l & n & _ & Hl & Hx)]; [left|right]; apply (in_map fst _ (x, n)); apply in_concat; exists l; (split; [|exact Hx]); [exact Hl|].
      apply (in_map snd) in Hl. exact Hl.
  - eapply Permutation_NoDup; [exact B|exact A].
  - intros l Hl. apply seg_chain. rewrite Forall_forall in C. apply C. apply in_app_iff. auto.
Qed.
Print Assumptions C31_statements.

(** List nodes, loops and strides: allocated exactly when the user has them. *)
Theorem C31_lists_loops_strides past h v : history past h v ->
  (forall x, li_live h x <-> exists l b, In l (v_ll v) /\ In (x, b) l) /\
  (forall x, lo_live h x <-> exists f t, In f (v_lo v) /\ In t f /\ In x (t_addrs t)) /\
  (forall x, sr_live h x <-> In x (v_sr v) \/ exists f t, In f (v_lo v) /\ In t f /\ In x (t_strides t)) /\
  (forall x n, get (h_sr h) x = Some n -> n = Z.of_nat (count_occ Nat.eq_dec (v_sr v) x + count_occ Nat.eq_dec (flat_map t_strides (concat (v_lo v))) x)).
Proof.
  intros H. apply history_inv in H as [_ [A B C] [R1 R2] [F1 F2 F3 F4 F5] _]. split; [|split; [|split]].
  - intros x. unfold li_live. rewrite live_keys. split.
    + intros Hx. apply (Permutation_in _ B) in Hx. apply in_map_iff in Hx as ([x' b] & Ex & Hx). cbn in Ex. subst x'. apply in_concat in Hx as (l & Hl & Hx). eauto.
    + intros (l & b & Hl & Hx). eapply Permutation_in; [symmetry; exact B|]. apply (in_map fst _ (x, b)). apply in_concat. eauto.
  - intros x. unfold lo_live. rewrite live_keys. cbn in F2. split.
    + intros Hx. apply (Permutation_in _ F2) in Hx. apply in_flat_map in Hx as (t & Ht & Hx). apply in_concat in Ht as (f & Hf & Ht). eauto.
    + intros (f & t & Hf & Ht & Hx). eapply Permutation_in; [symmetry; exact F2|]. apply in_flat_map. exists t. split; [apply in_concat; eauto|exact Hx].
  - intros x. unfold sr_live. rewrite R2. transitivity (In x (stride_refs v)).
    + destruct (in_dec Nat.eq_dec x (stride_refs v)); split; intros K; try assumption; try (destruct K; discriminate); try contradiction. eauto.
    + unfold stride_refs. rewrite in_app_iff. split; (intros [K|K]; [left; exact K|right]).
      * apply in_flat_map in K as (t & Ht & Hb). apply in_concat in Ht as (f & Hf & Ht). exists f, t. auto.
      * destruct K as (f & t & Hf & Ht & Hb). apply in_flat_map. exists t. split; [apply in_concat; eauto|exact Hb].
  - intros x n Hg. rewrite R2 in Hg. destruct (in_dec _ _ _); [|discriminate]. injection Hg as <-. f_equal. unfold stride_refs. rewrite count_occ_app. lia.
Qed.
Print Assumptions C31_lists_loops_strides.

(** When the user has given up everything, nothing is allocated. *)
Theorem C31_nothing_left past h v : history past h v -> v_sl v = [] -> v_br v = [] -> v_ll v = [] -> v_sr v = [] -> v_lo v = [] ->
  forall x, ~ st_live h x /\ ~ bl_live h x /\ ~ li_live h x /\ ~ sr_live h x /\ ~ lo_live h x.
Proof.
  intros H E1 E2 E3 E4 E5 x. destruct (C31_blocks _ _ _ H) as [Hb _]. destruct (C31_statements _ _ _ H) as (Hs & _ & _). destruct (C31_lists_loops_strides _ _ _ H) as (Hl & Ho & Hr & _).
  rewrite E1, E2, E3, E4, E5 in *. assert (Hbl : forall b, ~ bl_live h b) by (intros b K; apply Hb in K as [K|[(l & n & K & _)|(f & t & K & _)]]; destruct K).
  repeat split.
  - intros K. apply Hs in K as [(l & n & K & _)|(b & l & n & K & _)]; [destruct K|apply (Hbl b K)].
  - apply Hbl.
  - intros K. apply Hl in K as (l & b & K & _). destruct K.
  - intros K. apply Hr in K as [K|(f & t & K & _)]; destruct K.
  - intros K. apply Ho in K as (f & t & K & _). destruct K.
Qed.
Print Assumptions C31_nothing_left.

(** *** C32 *)
Lemma number_keys {A} (m : list (nat * A)) : NoDup (keys m) -> number_of (fun x => exists c, get m x = Some c) (length m).
Proof. intros H. exists (keys m). split; [exact H|]. split; [apply live_keys|apply len_keys]. Qed.
Lemma number_unique P n n' : number_of P n -> number_of P n' -> n = n'.
Proof. intros (l & H1 & H2 & <-) (l' & H1' & H2' & <-). apply Permutation_length. apply NoDup_Permutation; auto. intros x. rewrite <- H2, <- H2'. reflexivity. Qed.

(** The difference of the allocated and the freed counter is the number of allocated structures. *)
Theorem C32_balance_partial past h v : history past h v -> exists ns nb nl,
  number_of (st_live h) ns /\ number_of (bl_live h) nb /\ number_of (lo_live h) nl /\
  (c_alloc (m_cst (h_mem h)) - c_freed (m_cst (h_mem h)) = Z.of_nat ns)%Z /\
  (c_alloc (m_cbl (h_mem h)) - c_freed (m_cbl (h_mem h)) = Z.of_nat nb)%Z /\
  (c_alloc (h_clo h) - c_freed (h_clo h) = Z.of_nat nl)%Z.
Proof.
  intros H. apply history_inv in H as [[[A B C D] [A' B' C' D' E']] _ _ [F1 F2 F3 F4 F5] _].
  exists (length (m_st (h_mem h))), (length (m_bl (h_mem h))), (length (h_lo h)). repeat split; try (apply number_keys; assumption); [exact D|exact E'|cbn in F5; lia].
Qed.
Print Assumptions C32_balance_partial.

(** [c] counts [live]: at the end of a history its maximum is the largest number there was. *)
Definition maximum (get_c : heap -> counters) (past : list heap) (h : heap) : Prop :=
  (forall h', In h' past -> (c_alloc (get_c h') - c_freed (get_c h') <= c_max (get_c h))%Z) /\
  (exists h', In h' past /\ (c_alloc (get_c h') - c_freed (get_c h') = c_max (get_c h))%Z).
Lemma history_maximum get_c : get_c start = c0 -> (forall h h', hstep h h' -> cstep (get_c h) (get_c h')) -> forall past h v, history past h v -> In h past /\ maximum get_c past h.
Proof.
  intros H0 Hs. induction 1 as [|past h v o after h' new H IH HU HE].
  - split; [left; reflexivity|]. split; [intros h [<-|[]]; rewrite H0; cbn; lia|]. exists start. split; [left; reflexivity|rewrite H0; reflexivity].
  - split; [left; reflexivity|]. apply exec_step in HE. apply Hs in HE. destruct IH as [Hh [Hle (hm & Hm & Em)]]. pose proof (Hle h Hh) as Hlh.
    destruct HE as [(E1 & E2 & E3)|(E1 & E2 & E3)].
    + split; [intros k [<-|Hk]; [rewrite E1, E2; lia|rewrite E2; apply Hle; exact Hk]|]. exists hm. split; [right; exact Hm|rewrite E2; exact Em].
    + split; [intros k [<-|Hk]; [rewrite E3; lia|rewrite E3; apply Hle in Hk; lia]|].
      destruct (Z.max_spec (c_max (get_c h)) (c_alloc (get_c h') - c_freed (get_c h'))) as [[_ E]|[_ E]]; [exists h'; split; [left; reflexivity|congruence]|exists hm; split; [right; exact Hm|congruence]].
Qed.
Lemma past_history past h v : history past h v -> forall h', In h' past -> exists past' v', history past' h' v'.
Proof. induction 1 as [|past h v o after h' new H IH HU HE]; intros k [<-|Hk]; [exists [start], v0; constructor|destruct Hk|eexists _, _; econstructor; eassumption|apply IH; exact Hk]. Qed.

(** The max counter is the largest number of structures that were allocated at the same time. *)
Theorem C32_maximum_partial past h v : history past h v ->
  (forall (c : heap -> counters) (live : heap -> nat -> Prop),
     (c, live) = ((fun h => m_cst (h_mem h)), st_live) \/ (c, live) = ((fun h => m_cbl (h_mem h)), bl_live) \/ (c, live) = (h_clo, lo_live) ->
     (forall h' n, In h' past -> number_of (live h') n -> (Z.of_nat n <= c_max (c h))%Z) /\
     (exists h' n, In h' past /\ number_of (live h') n /\ Z.of_nat n = c_max (c h))).
Proof.
  intros H c live Hc.
  assert (Hm : maximum c past h).
  { destruct Hc as [Hc|[Hc|Hc]]; injection Hc as -> ->; eapply history_maximum; try exact H; try reflexivity; intros k k' [_ ? ? ?]; assumption. }
  assert (Hn : forall h', In h' past -> exists n, number_of (live h') n /\ (c_alloc (c h') - c_freed (c h') = Z.of_nat n)%Z).
  { intros h' Hh. destruct (past_history _ _ _ H _ Hh) as (p' & v' & H'). destruct (C32_balance_partial _ _ _ H') as (ns & nb & nl & A & B & C & D & E & F).
    destruct Hc as [Hc|[Hc|Hc]]; injection Hc as -> ->; eauto. }
  destruct Hm as [Hle (hm & Hin & Em)]. split.
  - intros h' n Hh Hnn. destruct (Hn h' Hh) as (n' & Hn' & E). rewrite (number_unique _ _ _ Hnn Hn'). rewrite <- E. apply Hle. exact Hh.
  - destruct (Hn hm Hin) as (n & Hn' & E). exists hm, n. split; [exact Hin|]. split; [exact Hn'|]. congruence.
Qed.
Print Assumptions C32_maximum_partial.

(** *** A history: two statements, two blocks that are merged, a list node and a loop that share the block,
    and everything freed in the end. *)
Lemma call past h v o after h' new v' : history past h v -> user v o after -> exec h o = Some (h', new) -> after new = v' -> history (h' :: past) h' v'.
Proof. intros H HU E <-. exact (H_call _ _ _ _ _ _ _ H HU E). Qed.
(** the call [U], whose conditions [tac] proves, after the history [H] *)
Tactic Notation "next" hyp(H) "by" uconstr(U) "with" tactic3(tac) :=
  let N := fresh "N" in
  eassert (N : history _ _ _); [eapply (call _ _ _ _ _ _ _ _ H); [eapply U; tac|cbv; reflexivity|cbv; reflexivity]|clear H; rename N into H].
Ltac same := cbn; solve [apply Permutation_refl|apply perm_swap].
Ltac take := split; [reflexivity|]; first [left; split; reflexivity|right; split; [discriminate|same]].
Example C31_example : exists past h v, history past h v /\
  block_refs v = [2; 2] /\ v_bl v = [(2, [(0, 1%Z); (1, 2%Z)])] /\ bl_live h 2 /\ ~ bl_live h 3 /\ c_max (m_cbl (h_mem h)) = 2%Z /\ c_freed (m_cbl (h_mem h)) = 1%Z /\
  exists past' h' v', history past' h' v' /\ incl past past' /\ v_sl v' = [] /\ v_br v' = [] /\ v_ll v' = [] /\ v_sr v' = [] /\ v_lo v' = [] /\
    c_alloc (m_cst (h_mem h')) = 2%Z /\ c_freed (m_cst (h_mem h')) = 2%Z /\ c_freed (m_cbl (h_mem h')) = 2%Z.
Proof.
  pose proof H_start as H. set (past0 := [start]) in H. unfold start in H.
  next H by (U_st_alloc _ 1%Z) with idtac.
  next H by (U_st_alloc _ 2%Z) with idtac.
  next H by (U_bl_alloc _ (Some 0) [(0, 1%Z)] [[(1, 2%Z)]]) with (solve [discriminate|take]).
  next H by (U_bl_alloc _ (Some 1) [(1, 2%Z)] []) with (solve [discriminate|take]).
  next H by (U_li_alloc _ 2) with (cbn; auto).
  next H by (U_sr_alloc _) with idtac.
  next H by (U_lo_alloc _ (Some 2) (Some 5) None None [] [] [3] [] []) with (solve [take|same|intros y E; injection E as <-; left; reflexivity]).
  next H by (U_bl_merge _ 2 3 [(0, 1%Z)] [(1, 2%Z)] [] []) with (solve [discriminate|same|cbn; auto]).
  eexists _, _, _. split; [exact H|]. split; [reflexivity|]. split; [reflexivity|]. split; [eexists; reflexivity|]. split; [intros [c K]; discriminate|]. split; [reflexivity|]. split; [reflexivity|].
  next H by (U_lo_free_parts _ (Some 6) [T 6 (Some 2) (Some 5) []] [] false true true) with take.
  next H by (U_li_free _ (Some 4) [(4, 2)] []) with take.
  next H by (U_sr_free _ (Some 5) []) with same.
  next H by (U_bl_free _ (Some 2) []) with same.
  eexists _, _, _. split; [exact H|]. split; [|repeat split; reflexivity]. intros k Hk. do 4 right. exact Hk.
Qed.

(** Outside the rules memory is misused: a second free of the same block is caught, and a block merged with
    itself leaves its statements allocated for ever, in a ring. *)
Example C31_double_free : exists past h v h', history past h v /\ exec h (BlFree (Some 0)) = Some (h', []) /\ exec h' (BlFree (Some 0)) = None.
Proof. assert (H1 := H_call _ _ _ _ _ _ _ H_start (U_bl_malloc _) eq_refl). eexists _, _, _, _. split; [exact H1|]. split; reflexivity. Qed.
Theorem C31_self_merge_refuted : exists past h v h', history past h v /\ v_br v = [1] /\ v_sl v = [] /\ v_ll v = [] /\ v_lo v = [] /\
  exec h (BlMerge (Some 1) (Some 1)) = Some (h', []) /\ ~ bl_live h' 1 /\ exists c, get (m_st (h_mem h')) 0 = Some c /\ st_next c = Some 0.
Proof.
  pose proof H_start as H. unfold start in H.
  next H by (U_st_alloc _ 1%Z) with idtac. next H by (U_bl_alloc _ (Some 0) [(0, 1%Z)] []) with (solve [discriminate|take]).
  eexists _, _, _, _. split; [exact H|]. do 4 (split; [reflexivity|]). split; [reflexivity|]. split; [intros [c K]; discriminate|]. eexists. split; reflexivity.
Qed.
Print Assumptions C31_self_merge_refuted.
