(** Proofs about FilterModel.v *)
From Coq Require Import ZArith List Bool Arith String Lia.
From Verif Require Import ClastModel FilterModel FilterSpec PprintStmt.
Import ListNotations.

Section Add.
Context {A : Type} (dec : forall a b : A, {a = b} + {a <> b}).
Lemma add_in l a x : In x (add_if_new dec l a) <-> In x l \/ x = a.
Proof. unfold add_if_new. destruct (in_dec dec a l) as [H|H]; [|rewrite in_app_iff; cbn; intuition congruence]. split; [auto|]. intros [?| ->]; auto. Qed.
Lemma nodup_app_cons (l : list A) a : NoDup l -> ~ In a l -> NoDup (l ++ [a]).
Proof.
  intros H N. apply NoDup_Add with (a := a) (l := l); [|split; assumption].
  clear. induction l; cbn; constructor; assumption.
Qed.
Lemma add_nodup l a : NoDup l -> NoDup (add_if_new dec l a).
Proof. intros H. unfold add_if_new. destruct (in_dec dec a l) as [Hi|Hi]; [exact H|]. apply nodup_app_cons; assumption. Qed.
Lemma concat_in l2 : forall l1 x, In x (concat_if_new dec l1 l2) <-> In x l1 \/ In x l2.
Proof.
  unfold concat_if_new. induction l2 as [|a l2 IH]; intros l1 x; cbn [fold_left]; [cbn; intuition|].
  rewrite IH, add_in. cbn. intuition congruence.
Qed.
Lemma concat_nodup l2 : forall l1, NoDup l1 -> NoDup (concat_if_new dec l1 l2).
Proof. unfold concat_if_new. induction l2 as [|a l2 IH]; intros l1 H; cbn [fold_left]; [exact H|]. apply IH, add_nodup, H. Qed.
End Add.

Lemma list_compare_le l1 l2 : NoDup l1 -> ((list_compare l1 l2 <= 0)%Z <-> forall n, In n l1 -> In n l2).
Proof.
  intros _. unfold list_compare.
  assert (E : forallb (fun a => existsb (Nat.eqb a) l2) l1 = true <-> forall n, In n l1 -> In n l2).
  { rewrite forallb_forall. split; intros H n Hn; specialize (H n Hn).
    - apply existsb_exists in H as (m & Hm & Em). apply Nat.eqb_eq in Em. subst. exact Hm.
    - apply existsb_exists. exists n. split; [exact H|apply Nat.eqb_refl]. }
  destruct (forallb (fun a => existsb (Nat.eqb a) l2) l1); [|split; [lia|intros H; apply E in H; discriminate]].
  split; [intros _; apply E; reflexivity|]. intros _. destruct (List.length l1 =? List.length l2); lia.
Qed.
Lemma list_compare_0 l1 l2 : NoDup l1 -> NoDup l2 -> (list_compare l1 l2 = 0%Z <-> forall n, In n l1 <-> In n l2).
Proof.
  intros H1 H2. pose proof (list_compare_le l1 l2 H1) as E. unfold list_compare in *.
  destruct (forallb (fun a => existsb (Nat.eqb a) l2) l1).
  - assert (Hs : forall n, In n l1 -> In n l2) by (apply E; destruct (List.length l1 =? List.length l2); lia).
    destruct (Nat.eqb_spec (List.length l1) (List.length l2)) as [El|El].
    + split; [intros _|reflexivity]. intros n. split; [apply Hs|]. intros Hn. apply (@NoDup_length_incl nat l1 l2 H1); [lia|exact Hs|exact Hn].
    + split; [discriminate|]. intros H. exfalso. apply El. apply Nat.le_antisymm; apply NoDup_incl_length; try assumption; intros n Hn; apply H; exact Hn.
  - split; [discriminate|]. intros H. exfalso. assert (1 <= 0)%Z; [|lia]. apply E. intros n. apply H.
Qed.

(** unfolding *)
Lemma node_eq f p s : node f p s =
  match s with
  | SAss _ _ => None
  | SBlock _ => None
  | SGuard _ t => Some (join ([], []) (chain f p 0 t))
  | SUser n _ => Some ([], add_if_new Nat.eq_dec [] n)
  | SFor it _ _ _ body =>
    let r := chain f p 0 body in
    let '(loops, stmts) := join ([], []) r in
    Some (if loop_matches f it (snd r) then add_if_new path_dec loops p else loops, stmts)
  end.
Proof.
  assert (G : forall c i, (fix chain (i : nat) (c : list stmt) : found :=
    match c with
    | [] => ([], [])
    | s :: next => match node f (p ++ [i]) s with Some r => join r (chain (S i) next) | None => ([], []) end
    end) i c = chain f p i c).
  { induction c as [|a c IH]; intros i; [reflexivity|]. cbn [chain]. destruct (node f (p ++ [i]) a); [rewrite IH; reflexivity|reflexivity]. }
  destruct s; cbn [node]; rewrite ?G; reflexivity.
Qed.

(** a path below [p], relative to chain position [i] *)
Lemma join_loops a b x : In x (fst (join a b)) <-> In x (fst a) \/ In x (fst b).
Proof. apply concat_in. Qed.
Lemma join_stmts a b x : In x (snd (join a b)) <-> In x (snd a) \/ In x (snd b).
Proof. apply concat_in. Qed.
Lemma join_nodup a b : NoDup (fst a) -> NoDup (snd a) -> NoDup (fst (join a b)) /\ NoDup (snd (join a b)).
Proof. intros H1 H2. split; apply concat_nodup; assumption. Qed.

Definition nd (r : found) := NoDup (fst r) /\ NoDup (snd r).
Lemma nd0 : nd ([], []). Proof. split; constructor. Qed.
Lemma nd_join a b : nd a -> nd (join a b). Proof. intros [H1 H2]. apply join_nodup; assumption. Qed.

Definition node_nd (s : stmt) := forall f p r, node f p s = Some r -> nd r.
Lemma chain_nd_of c : Forall node_nd c -> forall f p i, nd (chain f p i c).
Proof.
  induction 1 as [|s c Hs Hc IH]; intros f p i; cbn [chain]; [apply nd0|]. destruct (node f (p ++ [i]) s) as [r|] eqn:E; [|apply nd0].
  apply nd_join, (Hs _ _ _ E).
Qed.
Lemma node_nd_all s : node_nd s.
Proof.
  induction s as [x e|n l|b IH|it lb ub st b IH|qs b IH] using stmt_ind'; intros f p r E; rewrite node_eq in E.
  - discriminate.
  - injection E as <-. split; cbn [fst snd]; [constructor|]. apply add_nodup. constructor.
  - discriminate.
  - cbv zeta in E. destruct (nd_join ([], []) (chain f p 0 b) nd0) as [J1 J2]. destruct (join ([], []) (chain f p 0 b)) as [loops stmts]. cbn [fst snd] in *. injection E as <-.
    split; cbn [fst snd]; [|exact J2]. destruct (loop_matches _ _ _); [apply add_nodup; exact J1|exact J1].
  - injection E as <-. apply nd_join, nd0.
Qed.
Lemma chain_nd f p i c : nd (chain f p i c).
Proof. apply chain_nd_of. induction c; constructor; [apply node_nd_all|assumption]. Qed.

(** ** everything returned exists *)
Lemma at_shift c i k p s : at_path (skipn i c) (k :: p) s <-> at_path c (i + k :: p) s.
Proof.
  assert (E : nth_error (skipn i c) k = nth_error c (i + k)).
  { revert c. induction i as [|i IH]; intros c; [reflexivity|]. destruct c; cbn; [destruct k; reflexivity|apply IH]. }
  split; intros H.
  - inversion H; subst; rewrite E in *; [apply At_here; assumption|eapply At_for; eassumption|eapply At_guard; eassumption|eapply At_block; eassumption].
  - inversion H; subst; rewrite <- E in *; [apply At_here; assumption|eapply At_for; eassumption|eapply At_guard; eassumption|eapply At_block; eassumption].
Qed.

(** loops found by a chain starting at position [i] under [p]: [p ++ (i + k) :: q] *)
Definition is_for (c : list stmt) (q : path) : Prop := exists it lb ub st b, at_path c q (SFor it lb ub st b).
Definition node_sound (s : stmt) := forall f p r, node f p s = Some r ->
  (forall x, In x (fst r) -> exists q, x = p ++ q /\ is_for [s] (0 :: q)) /\
  (forall n, In n (snd r) -> contains [s] n).
Lemma cons_path s c k q t : at_path (s :: c) (k :: q) t <-> match k with O => at_path [s] (0 :: q) t | S k' => at_path c (k' :: q) t end.
Proof.
  destruct k as [|k].
  - split; intros H; (inversion H; subst; [apply At_here; assumption|eapply At_for; eassumption|eapply At_guard; eassumption|eapply At_block; eassumption]).
  - symmetry. apply (at_shift (s :: c) 1 k q t).
Qed.
Lemma path_ne c p s : at_path c p s -> exists k q, p = k :: q.
Proof. intros H; inversion H; subst; eauto. Qed.

Lemma contains_cons s c n : contains (s :: c) n <-> contains [s] n \/ contains c n.
Proof.
  split.
  - intros (p & subs & H). destruct (path_ne _ _ _ H) as (k & q & ->). apply cons_path in H. destruct k as [|k]; [left|right]; do 2 eexists; exact H.
  - intros [(p & subs & H)|(p & subs & H)]; destruct (path_ne _ _ _ H) as (k & q & ->).
    + destruct k as [|k]; [exists (0 :: q), subs; apply cons_path; exact H|]. exfalso. inversion H; subst; destruct k; discriminate.
    + exists (S k :: q), subs. apply cons_path. exact H.
Qed.

Lemma chain_sound_of c : Forall node_sound c -> forall f p i,
  (forall x, In x (fst (chain f p i c)) -> exists k q, x = p ++ (i + k) :: q /\ is_for c (k :: q)) /\
  (forall n, In n (snd (chain f p i c)) -> contains c n).
Proof.
  induction 1 as [|s c Hs Hc IH]; intros f p i; cbn [chain]; [split; intros ? []|].
  destruct (node f (p ++ [i]) s) as [r|] eqn:E; [|split; intros ? []].
  destruct (Hs _ _ _ E) as [N1 N2]. destruct (IH f p (S i)) as [C1 C2]. split.
  - intros x Hx. apply join_loops in Hx as [Hx|Hx].
    + destruct (N1 x Hx) as (q & -> & it & lb & ub & st & b & Hq). exists 0, q. rewrite Nat.add_0_r, <- app_assoc. split; [reflexivity|].
      do 5 eexists. apply cons_path. exact Hq.
    + destruct (C1 x Hx) as (k & q & -> & it & lb & ub & st & b & Hq). exists (S k), q. split; [f_equal; f_equal; lia|].
      do 5 eexists. apply cons_path. exact Hq.
  - intros n Hn. apply contains_cons. apply join_stmts in Hn as [Hn|Hn]; auto.
Qed.
Lemma node_sound_all s : node_sound s.
Proof.
  induction s as [x e|n l|b IH|it lb ub st b IH|qs b IH] using stmt_ind'; intros f p r E; rewrite node_eq in E.
  - discriminate.
  - injection E as <-. cbn. split; [intros ? []|]. intros m [<-|[]]. exists [0], l. apply At_here. reflexivity.
  - discriminate.
  - cbv zeta in E. destruct (chain_sound_of b IH f p 0) as [C1 C2].
    pose proof (join_loops ([], []) (chain f p 0 b)) as J1. pose proof (join_stmts ([], []) (chain f p 0 b)) as J2.
    destruct (join ([], []) (chain f p 0 b)) as [loops stmts]. cbn [fst snd] in *. injection E as <-. cbn [fst snd]. split.
    + intros x Hx. assert (Hx' : In x loops \/ x = p) by (destruct (loop_matches _ _ _); [apply add_in in Hx; exact Hx|left; exact Hx]).
      destruct Hx' as [Hx'| ->].
      * apply J1 in Hx' as [[]|Hx']. destruct (C1 x Hx') as (k & q & -> & i' & lb' & ub' & st' & b' & Hq). exists (k :: q). split; [reflexivity|].
        do 5 eexists. eapply At_for; [reflexivity|exact Hq].
      * exists []. rewrite app_nil_r. split; [reflexivity|]. do 5 eexists. apply At_here. reflexivity.
    + intros n Hn. apply J2 in Hn as [[]|Hn]. destruct (C2 n Hn) as (q & subs & Hq). exists (0 :: q), subs. eapply At_for; [reflexivity|exact Hq].
  - injection E as <-. destruct (chain_sound_of b IH f p 0) as [C1 C2]. split.
    + intros x Hx. apply join_loops in Hx as [[]|Hx]. destruct (C1 x Hx) as (k & q & -> & i' & lb' & ub' & st' & b' & Hq). exists (k :: q). split; [reflexivity|].
      do 5 eexists. eapply At_guard; [reflexivity|exact Hq].
    + intros n Hn. apply join_stmts in Hn as [[]|Hn]. destruct (C2 n Hn) as (q & subs & Hq). exists (0 :: q), subs. eapply At_guard; [reflexivity|exact Hq].
Qed.
Lemma filter_sound f c : (forall x, In x (fst (clast_filter f c)) -> is_for c x) /\ (forall n, In n (snd (clast_filter f c)) -> contains c n) /\ nd (clast_filter f c).
Proof.
  assert (H : Forall node_sound c) by (induction c; constructor; [apply node_sound_all|assumption]).
  destruct (chain_sound_of c H f [] 0) as [C1 C2]. unfold clast_filter. split; [|split].
  - intros x Hx. apply join_loops in Hx as [[]|Hx]. destruct (C1 x Hx) as (k & q & -> & Hq). exact Hq.
  - intros n Hn. apply join_stmts in Hn as [[]|Hn]. apply C2, Hn.
  - apply nd_join, nd0.
Qed.

(** ** without assignments and blocks, everything wanted is found and nothing else *)
Definition exact_ok (f : filter) : Prop := match f_stmts f with Some fs => f_kind f = FExact -> NoDup fs | None => True end.
Definition found_loop (f : filter) (c : list stmt) (q : path) : Prop :=
  exists it lb ub st b, at_path c q (SFor it lb ub st b) /\ wanted f it b.
Lemma nab_cons s c : no_ass_block (s :: c) <-> no_ass_block [s] /\ no_ass_block c.
Proof.
  split.
  - intros H. split; intros p t Ht; destruct (path_ne _ _ _ Ht) as (k & q & ->).
    + destruct k as [|k]; [apply (H (0 :: q)), cons_path; exact Ht|]. exfalso. inversion Ht; subst; destruct k; discriminate.
    + apply (H (S k :: q)), cons_path, Ht.
  - intros [H1 H2] p t Ht. destruct (path_ne _ _ _ Ht) as (k & q & ->). apply cons_path in Ht. destruct k; [eapply H1|eapply H2]; exact Ht.
Qed.
Lemma nab_for it lb ub st b : no_ass_block [SFor it lb ub st b] -> no_ass_block b.
Proof. intros H p s Hp. apply (H (0 :: p)). eapply At_for; [reflexivity|exact Hp]. Qed.
Lemma nab_guard qs b : no_ass_block [SGuard qs b] -> no_ass_block b.
Proof. intros H p s Hp. apply (H (0 :: p)). eapply At_guard; [reflexivity|exact Hp]. Qed.

Definition node_full (s : stmt) := forall f p, exact_ok f -> no_ass_block [s] ->
  exists r, node f p s = Some r /\
  (forall q, In (p ++ q) (fst r) <-> found_loop f [s] (0 :: q)) /\ (forall x, In x (fst r) -> exists q, x = p ++ q) /\
  (forall n, In n (snd r) <-> contains [s] n).
Lemma chain_full_of c : Forall node_full c -> forall f p i, exact_ok f -> no_ass_block c ->
  (forall k q, In (p ++ (i + k) :: q) (fst (chain f p i c)) <-> found_loop f c (k :: q)) /\
  (forall x, In x (fst (chain f p i c)) -> exists k q, x = p ++ (i + k) :: q) /\
  (forall n, In n (snd (chain f p i c)) <-> contains c n).
Proof.
  induction 1 as [|s c Hs Hc IH]; intros f p i Hf Hn; cbn [chain].
  - split; [|split].
    + intros k q. split; [intros []|]. intros (it & lb & ub & st & b & Hq & _). inversion Hq; subst; destruct k; discriminate.
    + intros x [].
    + intros n. split; [intros []|]. intros (q & subs & Hq). inversion Hq; subst; destruct i0; discriminate.
  - apply nab_cons in Hn as [Hn1 Hn2]. destruct (Hs f (p ++ [i]) Hf Hn1) as (r & -> & N1 & N2 & N3).
    destruct (IH f p (S i) Hf Hn2) as (C1 & C2 & C3). split; [|split].
    + intros k q. rewrite join_loops. split.
      * intros [H|H].
        -- destruct (N2 _ H) as (q' & E). rewrite <- app_assoc in E. apply app_inv_head in E. cbn in E. injection E as E1 E2. assert (k = 0) by lia. subst k q'.
           replace (p ++ i + 0 :: q) with ((p ++ [i]) ++ q) in H by (rewrite <- app_assoc, Nat.add_0_r; reflexivity). apply N1 in H.
           destruct H as (it & lb & ub & st & b & Hq & W). do 5 eexists. split; [apply cons_path; exact Hq|exact W].
        -- destruct (C2 _ H) as (k' & q' & E). apply app_inv_head in E. injection E as E1 E2. destruct k as [|k]; [lia|]. assert (k' = k) by lia. subst k' q'.
           replace (i + S k) with (S i + k) in H by lia. apply C1 in H. destruct H as (it & lb & ub & st & b & Hq & W). do 5 eexists. split; [apply cons_path; exact Hq|exact W].
      * intros (it & lb & ub & st & b & Hq & W). apply cons_path in Hq. destruct k as [|k].
        -- left. rewrite Nat.add_0_r. replace (p ++ i :: q) with ((p ++ [i]) ++ q) by (rewrite <- app_assoc; reflexivity). apply N1. do 5 eexists. split; [exact Hq|exact W].
        -- right. replace (i + S k) with (S i + k) by lia. apply C1. do 5 eexists. split; [exact Hq|exact W].
    + intros x Hx. apply join_loops in Hx as [Hx|Hx].
      * destruct (N2 _ Hx) as (q & ->). exists 0, q. rewrite <- app_assoc, Nat.add_0_r. reflexivity.
      * destruct (C2 _ Hx) as (k & q & ->). exists (S k), q. f_equal. f_equal. lia.
    + intros n. rewrite join_stmts, contains_cons, N3, C3. reflexivity.
Qed.
Lemma app_nil_self {A} (p q : list A) : p = p ++ q -> q = [].
Proof. intros H. rewrite <- (app_nil_r p) in H at 1. apply app_inv_head in H. symmetry. exact H. Qed.

Lemma node_full_all s : node_full s.
Proof.
  induction s as [x e|n l|b IH|it lb ub st b IH|qs b IH] using stmt_ind'; intros f p Hf Hn; rewrite node_eq.
  - exfalso. destruct (Hn [0] (SAss x e) (At_here [SAss x e] 0 _ eq_refl)) as [H _]. eapply H. reflexivity.
  - eexists. split; [reflexivity|]. cbn. split; [|split].
    + intros q. split; [intros []|]. intros (it & lb & ub & st & b & Hq & _). inversion Hq as [? ? ? E|? ? ? ? ? ? ? ? ? E|? ? ? ? ? ? E|? ? ? ? ? E]; discriminate E.
    + intros x [].
    + intros m. split.
      * intros [<-|[]]. exists [0], l. apply At_here. reflexivity.
      * intros (q & subs & Hq). left. inversion Hq as [? i ? E|? i ? ? ? ? ? ? ? E|? i ? ? ? ? E|? i ? ? ? E]; subst; destruct i; try (destruct i; discriminate E); try discriminate E. injection E. auto.
  - exfalso. destruct (Hn [0] (SBlock b) (At_here [SBlock b] 0 _ eq_refl)) as [_ H]. eapply H. reflexivity.
  - cbv zeta. destruct (chain_full_of b IH f p 0 Hf (nab_for _ _ _ _ _ Hn)) as (C1 & C2 & C3). destruct (chain_nd f p 0 b) as [_ ND].
    assert (M : loop_matches f it (snd (chain f p 0 b)) = true <-> wanted f it b).
    { unfold loop_matches, wanted. rewrite andb_true_iff.
      assert (E1 : match f_iter f with Some i => String.eqb it i | None => true end = true <-> match f_iter f with Some i => it = i | None => True end)
        by (destruct (f_iter f); [apply String.eqb_eq|tauto]).
      rewrite E1. unfold exact_ok in Hf. destruct (f_stmts f) as [fs|]; [|tauto]. destruct (f_kind f).
      - rewrite Z.eqb_eq, (list_compare_0 _ fs ND (Hf eq_refl)). split; intros [W1 W2]; (split; [exact W1|]); intros n; rewrite <- (W2 n), C3; reflexivity.
      - rewrite Z.leb_le, (list_compare_le _ fs ND). split; intros [W1 W2]; (split; [exact W1|]); intros n Hx; apply W2, C3, Hx. }
    pose proof (join_loops ([], []) (chain f p 0 b)) as J1. pose proof (join_stmts ([], []) (chain f p 0 b)) as J2.
    destruct (join ([], []) (chain f p 0 b)) as [loops stmts]. cbn [fst snd] in *. eexists. split; [reflexivity|]. cbn [fst snd].
    assert (Hin : forall x, In x (if loop_matches f it (snd (chain f p 0 b)) then add_if_new path_dec loops p else loops) <-> In x (fst (chain f p 0 b)) \/ (x = p /\ wanted f it b)).
    { intros x. destruct (loop_matches f it (snd (chain f p 0 b))).
      - rewrite add_in, J1. cbn. intuition.
      - rewrite J1. cbn. split; [intros [[]|H]; auto|]. intros [H|[_ W]]; [auto|]. apply M in W. discriminate. }
    split; [|split].
    + intros q. rewrite Hin. split.
      * intros [H|[H W]].
        -- destruct (C2 _ H) as (k & q' & E). apply app_inv_head in E. subst q. cbn in H. rewrite (C1 k q') in H. destruct H as (it' & lb' & ub' & st' & b' & Hq & W).
           do 5 eexists. split; [eapply At_for; [reflexivity|exact Hq]|exact W].
        -- symmetry in H. apply app_nil_self in H. subst q. do 5 eexists. split; [apply At_here; reflexivity|exact W].
      * intros (it' & lb' & ub' & st' & b' & Hq & W). inversion Hq as [? i ? E|? i ? ? ? ? ? ? ? E Hb|? i ? ? ? ? E Hb|? i ? ? ? E Hb]; subst; cbn in E; try discriminate E.
        -- injection E as <- <- <- <- <-. right. rewrite app_nil_r. split; [reflexivity|exact W].
        -- injection E as <- <- <- <- <-. left. destruct (path_ne _ _ _ Hb) as (k & q' & ->). apply (C1 k q'). do 5 eexists. split; [exact Hb|exact W].
    + intros x Hx. apply Hin in Hx as [Hx|[-> _]]; [|exists []; rewrite app_nil_r; reflexivity]. destruct (C2 _ Hx) as (k & q & ->). exists (k :: q). reflexivity.
    + intros n. rewrite J2. cbn [In]. split.
      * intros [[]|H]. apply C3 in H as (q & subs & Hq). exists (0 :: q), subs. eapply At_for; [reflexivity|exact Hq].
      * intros (q & subs & Hq). right. apply C3. inversion Hq as [? i ? E|? i ? ? ? ? ? ? ? E Hb|? i ? ? ? ? E Hb|? i ? ? ? E Hb]; subst; destruct i as [|[|]]; cbn in E; try discriminate E.
        injection E as <- <- <- <- <-. do 2 eexists. exact Hb.
  - destruct (chain_full_of b IH f p 0 Hf (nab_guard _ _ Hn)) as (C1 & C2 & C3). eexists. split; [reflexivity|]. split; [|split].
    + intros q. rewrite join_loops. cbn [fst In]. split.
      * intros [[]|H]. destruct (C2 _ H) as (k & q' & E). apply app_inv_head in E. subst q. cbn in H. rewrite (C1 k q') in H. destruct H as (it' & lb' & ub' & st' & b' & Hq & W).
        do 5 eexists. split; [eapply At_guard; [reflexivity|exact Hq]|exact W].
      * intros (it' & lb' & ub' & st' & b' & Hq & W). right. inversion Hq as [? i ? E|? i ? ? ? ? ? ? ? E Hb|? i ? ? ? ? E Hb|? i ? ? ? E Hb]; subst; cbn in E; try discriminate E.
        injection E as <- <-. destruct (path_ne _ _ _ Hb) as (k & q' & ->). apply (C1 k q'). do 5 eexists. split; [exact Hb|exact W].
    + intros x Hx. apply join_loops in Hx as [[]|Hx]. destruct (C2 _ Hx) as (k & q & ->). exists (k :: q). reflexivity.
    + intros n. rewrite join_stmts. cbn [snd In]. split.
      * intros [[]|H]. apply C3 in H as (q & subs & Hq). exists (0 :: q), subs. eapply At_guard; [reflexivity|exact Hq].
      * intros (q & subs & Hq). right. apply C3. inversion Hq as [? i ? E|? i ? ? ? ? ? ? ? E Hb|? i ? ? ? ? E Hb|? i ? ? ? E Hb]; subst; destruct i as [|[|]]; cbn in E; try discriminate E.
        injection E as <- <-. do 2 eexists. exact Hb.
Qed.
Lemma filter_full f c : exact_ok f -> no_ass_block c ->
  (forall q, In q (fst (clast_filter f c)) <-> found_loop f c q) /\ (forall n, In n (snd (clast_filter f c)) <-> contains c n).
Proof.
  intros Hf Hn. assert (H : Forall node_full c) by (clear; induction c; constructor; [apply node_full_all|assumption]).
  destruct (chain_full_of c H f [] 0 Hf Hn) as (C1 & C2 & C3). unfold clast_filter. split.
  - intros q. rewrite join_loops. cbn [fst In]. split.
    + intros [[]|Hq]. destruct (C2 _ Hq) as (k & q' & ->). apply (C1 k q'), Hq.
    + intros W. right. assert (W' := W). destruct W' as (it & lb & ub & st & b & Hq & _). destruct (path_ne _ _ _ Hq) as (k & q' & ->). apply (C1 k q'), W.
  - intros n. rewrite join_stmts. cbn [snd In]. rewrite C3. tauto.
Qed.
