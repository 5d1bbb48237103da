(** Facts about dates (scattering vectors) used by the order proof. *)
From Coq Require Import ZArith List Bool Arith Lia.
From Verif Require Import LoopModel LoopSpec LoopLists.
Import ListNotations.
Local Arguments Nat.ltb : simpl never.
Local Arguments Nat.leb : simpl never.
Local Arguments Nat.eqb : simpl never.

Definition ct (p : list bool) : nat := length (filter (fun k => k) p).
Definition cf (p : list bool) : nat := length (filter negb p).

Lemma ct_cf p : ct p + cf p = length p.
Proof. unfold ct, cf. induction p as [|[] p IH]; cbn in *; lia. Qed.
Lemma ct_app p q : ct (p ++ q) = ct p + ct q.
Proof. unfold ct. rewrite filter_app, app_length. reflexivity. Qed.
Lemma cf_app p q : cf (p ++ q) = cf p + cf q.
Proof. unfold cf. rewrite filter_app, app_length. reflexivity. Qed.
Lemma ct_repeat k : ct (repeat false k) = 0.
Proof. unfold ct. induction k; cbn in *; auto. Qed.
Lemma cf_repeat k : cf (repeat false k) = k.
Proof. unfold cf. induction k; cbn in *; auto. Qed.

Lemma lex_lt_irrefl u : ~ lex_lt u u.
Proof. induction u as [|a u IH]; intros H; inversion H; subst; [lia|auto]. Qed.
Lemma lex_lt_trans u v w : lex_lt u v -> lex_lt v w -> lex_lt u w.
Proof.
  intros H. revert w. induction H as [a b u v H|a u v H IH]; intros w Hw; inversion Hw; subst.
  - apply lex_here; lia.
  - apply lex_here; lia.
  - apply lex_here; lia.
  - apply lex_next; auto.
Qed.
Lemma lex_lt_asym u v : lex_lt u v -> lex_lt v u -> False.
Proof. intros H1 H2. apply (lex_lt_irrefl u). eapply lex_lt_trans; eauto. Qed.
Lemma lex_lt_app u v w : lex_lt (u ++ v) (u ++ w) <-> lex_lt v w.
Proof.
  induction u as [|a u IH]; cbn; [tauto|]. split; intros H.
  - inversion H; subst; [lia|tauto].
  - apply lex_next. tauto.
Qed.

(** the part of the date recorded by a prefix of the kinds *)
Fixpoint dpre (p : list bool) (s x : list Z) : list Z :=
  match p with
  | [] => []
  | true :: p => hd 0%Z s :: dpre p (tl s) x
  | false :: p => hd 0%Z x :: dpre p s (tl x)
  end.
Lemma skipn_S_tl {A} n (x : list A) : skipn (S n) x = skipn n (tl x).
Proof. destruct x; [rewrite !skipn_nil|]; reflexivity. Qed.
Lemma date_app p : forall q s x, date (p ++ q) s x = dpre p s x ++ date q (skipn (ct p) s) (skipn (cf p) x).
Proof.
  induction p as [|[] p IH]; intros q s x; cbn [app date dpre].
  - reflexivity.
  - rewrite IH. change (ct (true :: p)) with (S (ct p)). change (cf (true :: p)) with (cf p). rewrite skipn_S_tl. reflexivity.
  - rewrite IH. change (ct (false :: p)) with (ct p). change (cf (false :: p)) with (S (cf p)). rewrite skipn_S_tl. reflexivity.
Qed.
Lemma firstn_S_eq n (x y : list Z) : firstn (S n) x = firstn (S n) y -> hd 0%Z x = hd 0%Z y /\ firstn n (tl x) = firstn n (tl y).
Proof. destruct x, y; cbn; intros H; try discriminate; [auto|]. injection H as -> ->. auto. Qed.
Lemma dpre_eq p : forall s s' x x', (forall i, i < ct p -> nth i s 0%Z = nth i s' 0%Z) -> firstn (cf p) x = firstn (cf p) x' ->
  dpre p s x = dpre p s' x'.
Proof.
  induction p as [|[] p IH]; intros s s' x x' Hs Hx; cbn [dpre]; [reflexivity| |].
  - change (ct (true :: p)) with (S (ct p)) in Hs. change (cf (true :: p)) with (cf p) in Hx. f_equal.
    + specialize (Hs 0 ltac:(lia)). destruct s, s'; exact Hs.
    + apply IH; [|exact Hx]. intros i Hi. specialize (Hs (S i) ltac:(lia)). destruct s, s'; cbn in *; try exact Hs; destruct i; exact Hs.
  - change (ct (false :: p)) with (ct p) in Hs. change (cf (false :: p)) with (S (cf p)) in Hx.
    apply firstn_S_eq in Hx as [H1 H2]. f_equal; [exact H1|]. apply IH; assumption.
Qed.

Lemma date_repeat k : forall s x, k = length x -> date (repeat false k) s x = x.
Proof. induction k; intros s x Hk; destruct x; cbn in *; try discriminate; [reflexivity|]. f_equal. apply IHk. lia. Qed.

Section Pos.
Variable kinds : list bool.
Notation nb := (length kinds).
(** depth [n] with [scalar] scalar dimensions done *)
Definition at_pos (n scalar : nat) : Prop := ct (firstn (n + scalar) kinds) = scalar.
Definition same_scal (scalar : nat) (s s' : list Z) : Prop := forall i, i < scalar -> nth i s 0%Z = nth i s' 0%Z.

Lemma at_pos_le n scalar : at_pos n scalar -> scalar <= ct kinds.
Proof.
  unfold at_pos. intros H. rewrite <- (firstn_skipn (n + scalar) kinds), ct_app. lia.
Qed.
Lemma at_pos_end n scalar : at_pos n scalar -> nb <= n + scalar -> scalar = ct kinds /\ cf kinds <= n.
Proof.
  unfold at_pos. intros H Hn. rewrite firstn_all2 in H by exact Hn. pose proof (ct_cf kinds). lia.
Qed.
Lemma at_pos_mid n scalar : at_pos n scalar -> n + scalar < nb -> cf (firstn (n + scalar) kinds) = n.
Proof.
  unfold at_pos. intros H Hn. pose proof (ct_cf (firstn (n + scalar) kinds)) as E. rewrite firstn_length in E. lia.
Qed.
Lemma nth_split_b {A} (d : A) i : forall l, i < length l -> l = firstn i l ++ nth i l d :: skipn (S i) l.
Proof. induction i; intros [|a l] H; cbn in *; try lia; [reflexivity|]. f_equal. apply IHi. lia. Qed.
Lemma nth_hd_skipn n : forall (x : list Z), hd 0%Z (skipn n x) = nth n x 0%Z.
Proof. induction n; intros [|a x]; cbn; auto. Qed.
Lemma nth_firstn_lt n m : forall (x : list Z), n < m -> nth n (firstn m x) 0%Z = nth n x 0%Z.
Proof.
  revert m. induction n; intros [|m] [|a x] H; cbn; try lia; auto. apply IHn. lia.
Qed.
Lemma firstn_S_nth i : forall (l : list bool) , i < length l -> firstn (S i) l = firstn i l ++ [nth i l false].
Proof. induction i; intros [|a l] H; cbn in *; try lia; [reflexivity|]. f_equal. apply IHi. lia. Qed.
Lemma at_pos_next n scalar : at_pos n scalar -> nth (n + scalar) kinds false = false -> at_pos (S n) scalar.
Proof.
  unfold at_pos. intros H Hk. replace (S n + scalar) with (S (n + scalar)) by lia.
  destruct (Nat.lt_ge_cases (n + scalar) nb) as [Hl|Hl].
  - rewrite firstn_S_nth, ct_app, H, Hk by exact Hl. cbn. lia.
  - rewrite firstn_all2 in * by lia. exact H.
Qed.
Lemma at_pos_scal n scalar : at_pos n scalar -> nth (n + scalar) kinds false = true -> at_pos n (S scalar).
Proof.
  unfold at_pos. intros H Hk. replace (n + S scalar) with (S (n + scalar)) by lia.
  destruct (Nat.lt_ge_cases (n + scalar) nb) as [Hl|Hl].
  - rewrite firstn_S_nth, ct_app, H, Hk by exact Hl. cbn. lia.
  - rewrite nth_overflow in Hk by lia. discriminate.
Qed.
Lemma at_pos_no_false n scalar : at_pos n scalar -> nth (n + scalar) kinds false = false -> cf kinds <= n -> nb <= n + scalar.
Proof.
  intros H Hk Hn. destruct (Nat.le_gt_cases nb (n + scalar)) as [Hg|Hg]; [exact Hg|exfalso].
  pose proof (at_pos_mid _ _ H Hg) as E. pose proof (nth_split_b false _ _ Hg) as E2.
  rewrite E2, cf_app in Hn. rewrite Hk in Hn. change (cf (false :: skipn (S (n + scalar)) kinds)) with (S (cf (skipn (S (n + scalar)) kinds))) in Hn. lia.
Qed.
Lemma at_pos_nonscalar n scalar : at_pos n scalar -> nth (n + scalar) kinds false = false -> n + scalar < nb -> n < cf kinds.
Proof.
  intros H Hk Hg. destruct (Nat.lt_ge_cases n (cf kinds)) as [Hn|Hn]; [exact Hn|].
  pose proof (at_pos_no_false n scalar H Hk Hn). lia.
Qed.
Lemma at_pos_scalar_le n scalar : at_pos n scalar -> nth (n + scalar) kinds false = true -> n <= cf kinds.
Proof.
  intros H Hk. destruct (Nat.lt_ge_cases (n + scalar) nb) as [Hl|Hl]; [|rewrite nth_overflow in Hk by lia; discriminate].
  pose proof (at_pos_mid _ _ H Hl) as E. rewrite <- E. rewrite <- (firstn_skipn (n + scalar) kinds) at 2. rewrite cf_app. lia.
Qed.
End Pos.

Section Keys.
Variable kinds : list bool.
Variable M : nat.
Variable tie : bool.
Hypothesis HSM : cf kinds <= M.
Notation nb := (length kinds).
Notation at_pos := (at_pos kinds).

(** all M coordinates as kinds *)
Definition kindsM : list bool := kinds ++ repeat false (M - cf kinds).
Lemma kindsM_cf : cf kindsM = M.
Proof. unfold kindsM. rewrite cf_app, cf_repeat. lia. Qed.
Lemma kindsM_ct : ct kindsM = ct kinds.
Proof. unfold kindsM. rewrite ct_app, ct_repeat. lia. Qed.

Lemma date_M s x : M <= length x -> date kinds s (firstn M x) = date kindsM s (firstn M x).
Proof.
  intros Hx. unfold kindsM. rewrite date_app. replace kinds with (kinds ++ []) at 1 by apply app_nil_r.
  rewrite date_app. f_equal. cbn [date]. symmetry. apply date_repeat. rewrite skipn_length, firstn_length. lia.
Qed.




(** position in the extended kinds *)
Lemma at_posM n scalar : at_pos n scalar -> n <= M ->
  exists p q, kindsM = p ++ q /\ ct p = scalar /\ cf p = n /\
    (nth (n + scalar) kinds false = true -> exists q', q = true :: q') /\
    (nth (n + scalar) kinds false = false -> n < M -> exists q', q = false :: q').
Proof.
  intros H Hn. destruct (Nat.lt_ge_cases (n + scalar) nb) as [Hl|Hl].
  - exists (firstn (n + scalar) kinds), (skipn (n + scalar) kinds ++ repeat false (M - cf kinds)).
    split; [unfold kindsM; rewrite app_assoc, firstn_skipn; reflexivity|]. split; [exact H|]. split; [apply at_pos_mid; assumption|].
    pose proof (nth_split_b false (n + scalar) kinds Hl) as E.
    assert (E2 : skipn (n + scalar) kinds = nth (n + scalar) kinds false :: skipn (S (n + scalar)) kinds).
    { rewrite E at 1. rewrite skipn_app, skipn_all2 by (rewrite firstn_length; lia).
      rewrite firstn_length. replace (n + scalar - Nat.min (n + scalar) nb) with 0 by lia. reflexivity. }
    rewrite E2. split; intros Hk; rewrite Hk; cbn; eauto.
  - destruct (at_pos_end kinds _ _ H Hl) as [H1 H2].
    exists (kinds ++ repeat false (n - cf kinds)), (repeat false (M - n)).
    split; [unfold kindsM; rewrite <- app_assoc, <- repeat_app; do 2 f_equal; lia|].
    rewrite ct_app, cf_app, ct_repeat, cf_repeat. split; [lia|]. split; [lia|].
    rewrite nth_overflow by lia. split; [discriminate|]. intros _ Hlt. 
    destruct (M - n) as [|k] eqn:Ek; [lia|]. exists (repeat false k). reflexivity.
Qed.

Notation prec := (prec kinds M tie).

(** common prefix of the dates of two instances *)
Lemma date_split n scalar s s' x x' : at_pos n scalar -> n <= M -> same_scal scalar s s' -> agree n x x' ->
  M <= length x -> M <= length x' ->
  exists u q, date kinds s (firstn M x) = u ++ date q (skipn scalar s) (skipn n (firstn M x)) /\
              date kinds s' (firstn M x') = u ++ date q (skipn scalar s') (skipn n (firstn M x')) /\
    (nth (n + scalar) kinds false = true -> exists q', q = true :: q') /\
    (nth (n + scalar) kinds false = false -> n < M -> exists q', q = false :: q').
Proof.
  intros H Hn Hs Hx Hl Hl'. destruct (at_posM n scalar H Hn) as (p & q & E & Ec & Ef & Hq).
  exists (dpre p s (firstn M x)), q. rewrite !date_M by assumption. rewrite E, !date_app, Ec, Ef.
  split; [reflexivity|]. split; [|exact Hq]. f_equal. symmetry. apply dpre_eq.
  - rewrite Ec. exact Hs.
  - rewrite Ef, !firstn_firstn, Nat.min_l by exact Hn. exact Hx.
Qed.

Lemma agree_le n m x x' : m <= n -> agree n x x' -> agree m x x'.
Proof.
  unfold agree. intros H E. rewrite <- (Nat.min_l m n H), <- !firstn_firstn, E. reflexivity.
Qed.

(** everything agrees: equal dates *)
Lemma date_equal n scalar s s' x x' : at_pos n scalar -> nb <= n + scalar -> M <= n -> same_scal scalar s s' -> agree n x x' ->
  M <= length x -> M <= length x' -> date kinds s (firstn M x) = date kinds s' (firstn M x').
Proof.
  intros H Hn HM Hs Hx Hl Hl'. destruct (at_pos_end kinds _ _ H Hn) as [E _]. subst scalar.
  pose proof (agree_le n M x x' HM Hx) as Hxm. unfold agree in Hxm. rewrite Hxm.
  rewrite !date_M by assumption. rewrite <- (app_nil_r kindsM), !date_app. cbn [date].
  f_equal. apply dpre_eq; [|reflexivity]. rewrite kindsM_ct. exact Hs.
Qed.

(** the next dimension is the iterator [n] *)
Lemma prec_value n scalar b b' x x' :
  at_pos n scalar -> nth (n + scalar) kinds false = false -> (tie = true -> n < M) ->
  same_scal scalar (b_scal b) (b_scal b') -> agree n x x' -> M <= length x -> M <= length x' ->
  (nth n x 0 < nth n x' 0)%Z -> ~ prec b' x' b x.
Proof.
  intros H Hk Ht Hs Hx Hl Hl' Hlt Hp.
  destruct (Nat.lt_ge_cases n M) as [Hn|Hn].
  - destruct (date_split n scalar _ _ x x' H ltac:(lia) Hs Hx Hl Hl') as (u & q & E1 & E2 & _ & Hq).
    destruct (Hq Hk Hn) as (q' & ->). unfold prec in Hp. rewrite E1, E2 in Hp. cbn [date] in Hp.
    rewrite !nth_hd_skipn, !nth_firstn_lt in Hp by exact Hn. destruct Hp as [Hp|(_ & Hp & _)].
    + apply lex_lt_app in Hp. inversion Hp; subst; lia.
    + apply app_inv_head in Hp. injection Hp as Hp _. lia.
  - assert (Hend : nb <= n + scalar).
    { destruct (Nat.le_gt_cases nb (n + scalar)) as [Hg|Hg]; [exact Hg|exfalso].
      pose proof (at_pos_mid kinds _ _ H Hg) as E. pose proof (nth_split_b false _ _ Hg) as E2.
      rewrite E2, cf_app in HSM. rewrite Hk in HSM. change (cf (false :: skipn (S (n + scalar)) kinds)) with (S (cf (skipn (S (n + scalar)) kinds))) in HSM. lia. }
    pose proof (date_equal n scalar _ _ x x' H Hend Hn Hs Hx Hl Hl') as E. unfold prec in Hp. rewrite E in Hp.
    destruct Hp as [Hp|(Hp & _)]; [exact (lex_lt_irrefl _ Hp)|]. specialize (Ht Hp). lia.
Qed.

(** no ordered dimension is left *)
Lemma prec_end n scalar b b' x x' :
  at_pos n scalar -> nb <= n + scalar -> M <= n ->
  same_scal scalar (b_scal b) (b_scal b') -> agree n x x' -> M <= length x -> M <= length x' ->
  (tie = true -> b_pos b <= b_pos b') -> ~ prec b' x' b x.
Proof.
  intros H Hend Hn Hs Hx Hl Hl' Ht Hp.
  pose proof (date_equal n scalar _ _ x x' H Hend Hn Hs Hx Hl Hl') as E. unfold prec in Hp. rewrite E in Hp.
  destruct Hp as [Hp|(Hp & _ & Hp')]; [exact (lex_lt_irrefl _ Hp)|]. specialize (Ht Hp). lia.
Qed.


(** the next dimension is a scalar *)
Lemma prec_scalar n scalar b b' x x' :
  at_pos n scalar -> n <= M -> nth (n + scalar) kinds false = true ->
  same_scal scalar (b_scal b) (b_scal b') -> agree n x x' -> M <= length x -> M <= length x' ->
  (nth scalar (b_scal b) 0 < nth scalar (b_scal b') 0)%Z -> ~ prec b' x' b x.
Proof.
  intros H Hn Hk Hs Hx Hl Hl' Hlt Hp.
  destruct (date_split n scalar _ _ x x' H Hn Hs Hx Hl Hl') as (u & q & E1 & E2 & Hq & _).
  destruct (Hq Hk) as (q' & ->). unfold prec in Hp. rewrite E1, E2 in Hp. cbn [date] in Hp.
  rewrite !nth_hd_skipn in Hp. destruct Hp as [Hp|(_ & Hp & _)].
  - apply lex_lt_app in Hp. inversion Hp; subst; lia.
  - apply app_inv_head in Hp. injection Hp as Hp _. lia.
Qed.

Lemma prec_irrefl b x : ~ prec b x b x.
Proof. intros [H|(_ & _ & H)]; [exact (lex_lt_irrefl _ H)|lia]. Qed.

(** at a scalar dimension all coordinates before it are ordered ones *)
End Keys.

(** run lengths *)
Lemma run_lengths_length kinds : length (run_lengths kinds) = length kinds.
Proof. induction kinds as [|[] ks IH]; cbn; auto. destruct (run_lengths ks); cbn in *; lia. Qed.
Lemma run_lengths_nth kinds : forall i,
  nth i (run_lengths kinds) 0 = if nth i kinds false then S (nth (S i) (run_lengths kinds) 0) else 0.
Proof.
  induction kinds as [|k ks IH]; intros i; [destruct i; reflexivity|].
  assert (E : run_lengths (k :: ks) = (if k then S (nth 0 (run_lengths ks) 0) else 0) :: run_lengths ks).
  { cbn. destruct k; [|reflexivity]. destruct (run_lengths ks); reflexivity. }
  rewrite E. destruct i; cbn [nth]; [destruct k; reflexivity|]. apply IH.
Qed.
