(** cloog_program_block: a block runs its statements at the date of its first statement, and
    this keeps the order of the dates. *)
From Coq Require Import ZArith List Bool Arith Lia Sorting.Sorted.
From Verif Require Import LoopModel LoopSpec LoopKeys ProgramModel ProgramSpec.
Import ListNotations.
Local Open Scope nat_scope.
Local Arguments Nat.ltb : simpl never.
Local Arguments Nat.leb : simpl never.
Local Arguments Nat.eqb : simpl never.
Local Arguments Nat.sub : simpl never.

(** The date [t] with [c] added to its last coordinate. *)
Fixpoint bump (c : Z) (t : list Z) : list Z :=
  match t with
  | [] => []
  | [x] => [(x + c)%Z]
  | x :: r => x :: bump c r
  end.
Lemma bump_cons : forall c x y r, bump c (x :: y :: r) = x :: bump c (y :: r). Proof. reflexivity. Qed.
Lemma bump_0 : forall t, bump 0 t = t.
Proof. induction t as [|x [|y r] IH]; [reflexivity|cbn; f_equal; lia|]. rewrite bump_cons, IH. reflexivity. Qed.
Lemma bump_bump : forall a b t, bump a (bump b t) = bump (b + a) t.
Proof.
  induction t as [|x [|y r] IH]; [reflexivity|cbn; f_equal; lia|]. rewrite !bump_cons.
  destruct (bump b (y :: r)) as [|z q] eqn:E; [cbn in E; destruct r; discriminate|].
  rewrite bump_cons, IH. reflexivity.
Qed.
Lemma bump_length : forall c t, length (bump c t) = length t.
Proof. induction t as [|x [|y r] IH]; [reflexivity|reflexivity|]. rewrite bump_cons. cbn [length] in *. now rewrite IH. Qed.
Lemma bump_inj : forall c t t', bump c t = bump c t' -> t = t'.
Proof.
  intros c t t' H. rewrite <- (bump_0 t), <- (bump_0 t'). replace 0%Z with (c + - c)%Z by lia.
  rewrite <- !bump_bump, H. reflexivity.
Qed.
Lemma bump_nth : forall c t1 t2, length t1 = length t2 ->
  (forall k, Datatypes.S k < length t1 -> nth k t2 0%Z = nth k t1 0%Z) ->
  (0 < length t1 -> nth (length t1 - 1) t2 0%Z = (nth (length t1 - 1) t1 0 + c)%Z) -> t2 = bump c t1.
Proof.
  induction t1 as [|x [|y r] IH]; intros t2 Hl H1 H2.
  - destruct t2; [reflexivity|discriminate].
  - destruct t2 as [|z [|]]; try discriminate. cbn in *. f_equal. apply H2. lia.
  - destruct t2 as [|z t2]; [discriminate|]. rewrite bump_cons. f_equal.
    + apply (H1 0). cbn. lia.
    + apply IH; [cbn in *; lia| |].
      * intros k Hk. apply (H1 (Datatypes.S k)). cbn in *. lia.
      * intros _. assert (Hc : 0 < length (x :: y :: r)) by (cbn; lia). specialize (H2 Hc).
        replace (length (x :: y :: r) - 1) with (Datatypes.S (length (y :: r) - 1)) in H2 by (cbn; lia). exact H2.
Qed.
Lemma bump_between : forall c c' t t', length t = length t' ->
  lex_lt (bump c t) (bump c' t') -> ~ lex_lt t t' -> exists j, (0 <= j /\ j + c < c')%Z /\ t = bump j t'.
Proof.
  induction t as [|x [|y r] IH]; intros t' Hl H Hn.
  - inversion H.
  - destruct t' as [|z [|]]; try discriminate. cbn in H. exists (x - z)%Z. cbn. split; [|f_equal; lia].
    assert (~ (x < z)%Z) by (intros Hc; apply Hn; apply lex_here; exact Hc).
    inversion H as [? ? ? ? Hlt|? ? ? Hlt]; subst; [lia|inversion Hlt].
  - destruct t' as [|z [|w q]]; try discriminate. rewrite !bump_cons in H.
    inversion H as [? ? ? ? Hlt|? ? ? Hlt]; subst; [exfalso; apply Hn; apply lex_here; exact Hlt|].
    destruct (IH (w :: q)) as (j & Hj & E); [cbn in *; lia|exact Hlt|intros Hc; apply Hn; apply lex_next; exact Hc|].
    exists j. split; [exact Hj|]. rewrite bump_cons, E. reflexivity.
Qed.

Section S.
Variable P : Poly.
Variable S : Sem P.
Variable C : Scat P.
Variable rel : ScatSem C.
Hypothesis L : Laws P S.
Hypothesis CL : ScatLaws P S C rel.

Lemma inj_split : forall l1 a l2 t i, s_injective C (l1 ++ a :: l2) = true -> rel a t i = true ->
  forall x i', In x (l1 ++ l2) -> rel x t i' = true -> False.
Proof.
  intros l1 a l2 t i Hi Ha x i' Hx Hr.
  assert (Hp : exists b, b <> length l1 /\ nth_error (l1 ++ a :: l2) b = Some x).
  { apply in_app_or in Hx. destruct Hx as [Hx|Hx]; apply In_nth_error in Hx; destruct Hx as [b Hb].
    - exists b. assert (b < length l1) by (apply nth_error_Some; congruence). split; [lia|]. rewrite nth_error_app1 by lia. exact Hb.
    - exists (length l1 + Datatypes.S b). split; [lia|]. rewrite nth_error_app2 by lia.
      replace (length l1 + Datatypes.S b - length l1) with (Datatypes.S b) by lia. exact Hb. }
  destruct Hp as (b & Hb & Hn).
  assert (Hn' : nth_error (l1 ++ a :: l2) (length l1) = Some a).
  { rewrite nth_error_app2 by lia. rewrite Nat.sub_diag. reflexivity. }
  destruct (SC_injective _ _ _ _ CL _ _ _ _ _ _ _ _ Hi Hn Hn' Hr Ha). contradiction.
Qed.
Lemma inj_self : forall l1 a l2 t i i', s_injective C (l1 ++ a :: l2) = true -> rel a t i = true -> rel a t i' = true -> i = i'.
Proof.
  intros l1 a l2 t i i' Hi Ha Hr.
  assert (Hn' : nth_error (l1 ++ a :: l2) (length l1) = Some a).
  { rewrite nth_error_app2 by lia. rewrite Nat.sub_diag. reflexivity. }
  eapply SC_injective; eauto.
Qed.

(** * cloog_scattering_lazy_block *)
Lemma lazy_block_from_sound : forall s1 s2 all n r i, r + i = n -> lazy_block_from P C s1 s2 all n r i = true ->
  (forall k, i <= k -> k + 1 < n -> s_delta C s1 s2 k = Some 0%Z) /\
  (i < n -> exists c, s_delta C s1 s2 (n - 1) = Some c /\ (c = 0%Z \/ (c = 1%Z /\ s_injective C all = true))).
Proof.
  induction r as [|r IH]; intros i Hr H.
  - split; intros; lia.
  - cbn in H. destruct (s_delta C s1 s2 i) as [c|] eqn:Ed; [|discriminate].
    destruct (Z.eqb_spec c 0) as [->|Hc].
    + destruct (IH (Datatypes.S i) ltac:(lia) H) as [H1 H2]. split.
      * intros k Hk Hn. destruct (Nat.eq_dec k i) as [->|]; [exact Ed|]. apply H1; lia.
      * intros _. destruct (Nat.eq_dec (Datatypes.S i) n) as [E|E]; [|apply H2; lia].
        exists 0%Z. split; [|left; reflexivity]. replace (n - 1) with i by lia. exact Ed.
    + destruct (Nat.ltb_spec (i + 1) n); [discriminate|].
      destruct (Z.eqb_spec c 1) as [->|]; [|discriminate]. cbn in H.
      destruct (s_injective C all) eqn:Ei; [|discriminate]. split; [intros; lia|].
      intros _. exists 1%Z. split; [replace (n - 1) with i by lia; exact Ed|]. right. split; reflexivity.
Qed.

Lemma lazy_block_sound : forall s1 s2 all, lazy_block P C s1 s2 all = true ->
  exists c, (c = 0%Z \/ (c = 1%Z /\ s_injective C all = true)) /\
    forall t1 t2 i, rel s1 t1 i = true -> rel s2 t2 i = true -> t2 = bump c t1.
Proof.
  intros s1 s2 all H. unfold lazy_block in H.
  destruct (Nat.eqb_spec (s_dim C s1) (s_dim C s2)) as [Hd|]; [|discriminate]. cbn in H.
  destruct (lazy_block_from_sound s1 s2 all (s_dim C s1) (s_dim C s1) 0) as [H1 H2]; [lia|exact H|].
  assert (Hc : exists c, (c = 0%Z \/ (c = 1%Z /\ s_injective C all = true)) /\ (0 < s_dim C s1 -> s_delta C s1 s2 (s_dim C s1 - 1) = Some c)).
  { destruct (Nat.eq_dec (s_dim C s1) 0) as [E|E].
    - exists 0%Z. split; [left; reflexivity|lia].
    - destruct H2 as (c & Hc & Hc'); [lia|]. exists c. split; [exact Hc'|intros _; exact Hc]. }
  destruct Hc as (c & Hc & Hlast). exists c. split; [exact Hc|].
  intros t1 t2 i Hr1 Hr2. pose proof (SC_len _ _ _ _ CL _ _ _ Hr1) as L1. pose proof (SC_len _ _ _ _ CL _ _ _ Hr2) as L2.
  apply bump_nth; [lia| |].
  - intros k Hk. rewrite (SC_delta _ _ _ _ CL s1 s2 k 0 t1 t2 i); [lia|apply H1; lia|exact Hr1|exact Hr2].
  - intros Hp. rewrite L1 in *. eapply SC_delta; eauto.
Qed.

(** * Blocks with their members: number, domain, scattering, distance to the first statement *)
Definition item := (nat * dom P * smap C)%type.
Definition i_num (x : item) := fst (fst x).
Definition i_dom (x : item) := snd (fst x).
Definition i_map (x : item) := snd x.
Record gblock := { g_dom : dom P; g_map : smap C; g_mem : list (item * Z); g_max : Z }.
Definition gloop (B : gblock) : ploop P :=
  {| pl_dom := g_dom B; pl_stmts := map (fun m => i_num (fst m)) (g_mem B); pl_scal := None |}.
Definition iloop (x : item) : ploop P := {| pl_dom := i_dom x; pl_stmts := [i_num x]; pl_scal := None |}.
Definition at_ (d : dom P) (s : smap C) (t i : list Z) : Prop := mem S d i = true /\ rel s t i = true.

(** each iteration of the item has one date *)
Definition dated1 (x : item) : Prop :=
  (forall i, mem S (i_dom x) i = true -> exists t, rel (i_map x) t i = true) /\
  (forall i t t', mem S (i_dom x) i = true -> rel (i_map x) t i = true -> rel (i_map x) t' i = true -> t = t').

Definition member_ok (B : gblock) (m : item * Z) : Prop :=
  (0 <= snd m <= g_max B)%Z /\ dated1 (fst m) /\
  (forall i t, at_ (i_dom (fst m)) (i_map (fst m)) t i -> exists t0, at_ (g_dom B) (g_map B) t0 i /\ t = bump (snd m) t0) /\
  (forall i t0, at_ (g_dom B) (g_map B) t0 i -> at_ (i_dom (fst m)) (i_map (fst m)) (bump (snd m) t0) i).
Record ginv (B : gblock) : Prop := {
  gi_mem : Forall (member_ok B) (g_mem B);
  gi_sorted : StronglySorted Z.le (map snd (g_mem B));
  gi_last : exists ms x, g_mem B = ms ++ [(x, g_max B)];
  gi_head : exists x ms, g_mem B = (x, 0%Z) :: ms /\ g_dom B = i_dom x /\ g_map B = i_map x
}.
(** Nothing of [s] is dated between the first and the last statement of [B]. *)
Definition iso (B : gblock) (s : smap C) : Prop :=
  (1 <= g_max B)%Z -> forall j i i' t0, (0 <= j <= g_max B)%Z -> at_ (g_dom B) (g_map B) t0 i' ->
    rel s (bump j t0) i = true -> False.
Definition self_iso (B : gblock) : Prop :=
  (1 <= g_max B)%Z -> forall j i i' t0, (0 <= j <= g_max B)%Z -> at_ (g_dom B) (g_map B) t0 i' ->
    rel (g_map B) (bump j t0) i = true -> j = 0%Z /\ i = i'.
Definition iso_all (Bs : list gblock) (rest : list (smap C)) : Prop :=
  forall l1 B l2, Bs = l1 ++ B :: l2 -> self_iso B /\ forall s, In s (map g_map (l1 ++ l2) ++ rest) -> iso B s.

Definition members (Bs : list gblock) : list item := flat_map (fun B => map fst (g_mem B)) Bs.

Lemma sorted_snoc : forall l x, StronglySorted Z.le l -> Forall (fun y => (y <= x)%Z) l -> StronglySorted Z.le (l ++ [x]).
Proof.
  induction l as [|y l IH]; intros x H1 H2; cbn.
  - constructor; constructor.
  - inversion H1; subst. inversion H2; subst. constructor; [apply IH; auto|].
    apply Forall_app. split; [assumption|]. constructor; [assumption|constructor].
Qed.

Lemma snoc_split : forall {A} (l : list A) a l1 b l2, l ++ [a] = l1 ++ b :: l2 ->
  (l2 = [] /\ l1 = l /\ b = a) \/ (exists l2', l2 = l2' ++ [a] /\ l = l1 ++ b :: l2').
Proof.
  intros A l a l1 b l2 H. destruct (@exists_last _ (b :: l2)) as (q & z & E); [congruence|].
  destruct l2 as [|y l2].
  - left. apply app_inj_tail in H. destruct H as [-> ->]. auto.
  - right. destruct q as [|w q]; [destruct l2; discriminate|]. cbn in E. injection E as <- E.
    rewrite E in H. exists q. split; [|].
    + rewrite app_comm_cons, app_assoc in H. apply app_inj_tail in H. destruct H as [_ ->]. exact E.
    + rewrite app_comm_cons, app_assoc in H. apply app_inj_tail in H. apply H.
Qed.

Lemma merge_inv : forall Ds B x rest ref,
  Forall ginv Ds -> ginv B -> dated1 x -> iso_all (Ds ++ [B]) (i_map x :: rest) ->
  (exists ms, g_mem B = ms ++ [(ref, g_max B)]) ->
  lazy_equal P (i_dom ref) (i_dom x) = true ->
  lazy_block P C (i_map ref) (i_map x) (map g_map Ds ++ g_map B :: i_map x :: rest) = true ->
  exists c, (0 <= c)%Z /\
    let B' := {| g_dom := g_dom B; g_map := g_map B; g_mem := g_mem B ++ [(x, (g_max B + c)%Z)]; g_max := (g_max B + c)%Z |} in
    ginv B' /\ iso_all (Ds ++ [B']) rest.
Proof.
  intros Ds B x rest ref HD HB Hx Hiso (ms & Hms) Heq Hlb.
  destruct (lazy_block_sound _ _ _ Hlb) as (c & Hc & Hdelta).
  destruct (L_lazy_equal P S L _ _ Heq) as [_ Hmem].
  assert (Hc0 : (0 <= c)%Z) by (destruct Hc as [-> | [-> _]]; lia).
  destruct HB as [Hm Hs Hl Hh].
  assert (Href : member_ok B (ref, g_max B)).
  { rewrite Forall_forall in Hm. apply Hm. rewrite Hms. apply in_or_app. right. left. reflexivity. }
  destruct Href as (Hr1 & Hr2 & Hr3 & Hr4). cbn [fst snd] in *.
  assert (Hmax : (0 <= g_max B)%Z) by lia.
  (* the dates of the new member *)
  assert (Hfwd : forall i t0, at_ (g_dom B) (g_map B) t0 i -> at_ (i_dom x) (i_map x) (bump (g_max B + c) t0) i).
  { intros i t0 H0. destruct (Hr4 i t0 H0) as [Ha Hb]. split; [rewrite <- Hmem; exact Ha|].
    destruct Hx as [Hx1 Hx2]. destruct (Hx1 i) as [t2 Ht2]; [rewrite <- Hmem; exact Ha|].
    rewrite <- bump_bump. rewrite <- (Hdelta _ _ _ Hb Ht2). exact Ht2. }
  assert (Hbwd : forall i t, at_ (i_dom x) (i_map x) t i -> exists t0, at_ (g_dom B) (g_map B) t0 i /\ t = bump (g_max B + c) t0).
  { intros i t [Ha Hb]. destruct Hr2 as [Hr2 _]. cbn in Hr2. destruct (Hr2 i) as [t1 Ht1]; [rewrite Hmem; exact Ha|].
    destruct (Hr3 i t1) as (t0 & H0 & E); [split; [rewrite Hmem; exact Ha|exact Ht1]|].
    exists t0. split; [exact H0|]. rewrite <- bump_bump, <- E. exact (Hdelta _ _ _ Ht1 Hb). }
  exists c. split; [exact Hc0|].
  set (B' := {| g_dom := g_dom B; g_map := g_map B; g_mem := g_mem B ++ [(x, (g_max B + c)%Z)]; g_max := (g_max B + c)%Z |}). cbv zeta. split.
  - constructor.
    + cbn. apply Forall_app. split.
      * eapply Forall_impl; [|exact Hm]. intros m (Q1 & Q2 & Q3 & Q4). split; [cbn; lia|]. split; [exact Q2|]. split; [exact Q3|exact Q4].
      * constructor; [|constructor]. split; [cbn; lia|]. split; [exact Hx|]. split; [exact Hbwd|exact Hfwd].
    + cbn. rewrite map_app. apply sorted_snoc; [exact Hs|]. apply Forall_forall. intros z Hz. apply in_map_iff in Hz.
      destruct Hz as (m & <- & Hin). rewrite Forall_forall in Hm. destruct (Hm m Hin) as [Q1 _]. cbn. lia.
    + cbn. exists (g_mem B), x. reflexivity.
    + cbn. destruct Hh as (x0 & ms0 & E0 & E1 & E2). exists x0, (ms0 ++ [(x, (g_max B + c)%Z)]). rewrite E0. auto.
  - intros l1 X l2 E. apply snoc_split in E. destruct E as [(-> & -> & ->) | (l2' & -> & ->)].
    + (* the block itself *)
      destruct (Hiso Ds B [] eq_refl) as [Hself Hoth]. rewrite app_nil_r in Hoth.
      destruct Hc as [-> | [-> Hinj]].
      * (* same date *)
        assert (EB : g_max B' = g_max B) by (cbn; lia). split.
        -- intros H1 j i i' t0 Hj H0 Hr. rewrite EB in *. apply (Hself H1 j i i' t0); auto.
        -- intros s Hs' H1 j i i' t0 Hj H0 Hr. rewrite EB in *. rewrite app_nil_r in Hs'.
           apply (Hoth s) with (j := j) (i := i) (i' := i') (t0 := t0); auto.
           apply in_app_or in Hs'. apply in_or_app. destruct Hs'; [left; assumption|right; right; assumption].
      * (* one later *)
        assert (Hself0 : forall i i' t0, at_ (g_dom B) (g_map B) t0 i' -> rel (g_map B) t0 i = true -> i = i').
        { intros i i' t0 [_ Hb] Hr. eapply inj_self; [exact Hinj|exact Hr|exact Hb]. }
        assert (Hstart : forall s i i' t0, In s (map g_map Ds ++ i_map x :: rest) -> at_ (g_dom B) (g_map B) t0 i' -> rel s t0 i = true -> False).
        { intros s i i' t0 Hin [_ Hb] Hr. eapply inj_split; [exact Hinj|exact Hb|exact Hin|exact Hr]. }
        assert (Hinj2 : s_injective C ((map g_map Ds ++ [g_map B]) ++ i_map x :: rest) = true) by (rewrite <- app_assoc; exact Hinj).
        assert (Hnew : forall s i i' t0, In s ((map g_map Ds ++ [g_map B]) ++ rest) -> at_ (g_dom B) (g_map B) t0 i' -> rel s (bump (g_max B + 1) t0) i = true -> False).
        { intros s i i' t0 Hin H0 Hr. destruct (Hfwd _ _ H0) as [_ Hb]. eapply inj_split; [exact Hinj2|exact Hb|exact Hin|exact Hr]. }
        cbn [g_max B'] in *. split.
        -- intros _ j i i' t0 Hj H0 Hr. cbn in Hj, H0, Hr.
           destruct (Z.eq_dec j (g_max B + 1)) as [->|Hj1].
           { exfalso. apply (Hnew (g_map B) i i' t0); auto. apply in_or_app. left. apply in_or_app. right. left. reflexivity. }
           destruct (Z.eq_dec j 0) as [->|Hj0]; [split; [reflexivity|]; rewrite bump_0 in Hr; eapply Hself0; eauto|].
           apply (Hself ltac:(lia) j i i' t0); auto. lia.
        -- intros s Hs' _ j i i' t0 Hj H0 Hr. cbn in Hj, H0, Hr. rewrite app_nil_r in Hs'.
           destruct (Z.eq_dec j (g_max B + 1)) as [->|Hj1].
           { apply (Hnew s i i' t0); auto. apply in_app_or in Hs'. apply in_or_app. destruct Hs'; [left; apply in_or_app; left|right]; assumption. }
           assert (Hs2 : In s (map g_map Ds ++ i_map x :: rest)) by (apply in_app_or in Hs'; apply in_or_app; destruct Hs'; [left|right; right]; assumption).
           destruct (Z.eq_dec j 0) as [->|Hj0]; [rewrite bump_0 in Hr; eapply Hstart; eauto|].
           apply (Hoth s Hs2 ltac:(lia) j i i' t0); auto. lia.
    + (* a finished block *)
      destruct (Hiso l1 X (l2' ++ [B])) as [Q1 Q2]; [rewrite <- app_assoc; reflexivity|]. split; [exact Q1|].
      intros s Hin. apply Q2. rewrite app_assoc, map_app in *. cbn in *. apply in_app_or in Hin. apply in_or_app.
      destruct Hin; [left; assumption|right; right; assumption].
Qed.

Lemma scan_inv : forall rest Ds B lsr ssr ref,
  Forall ginv Ds -> ginv B -> Forall dated1 rest -> iso_all (Ds ++ [B]) (map i_map rest) ->
  (exists ms, g_mem B = ms ++ [(ref, g_max B)]) ->
  block_scan P C (map gloop Ds) (map g_map Ds) (gloop B) (g_map B) (i_dom ref) (i_map ref) (map iloop rest) (map i_map rest) = Some (lsr, ssr) ->
  exists Bs, lsr = map gloop Bs /\ ssr = map g_map Bs /\ Forall ginv Bs /\ members Bs = members (Ds ++ [B]) ++ rest /\ iso_all Bs [].
Proof.
  induction rest as [|x rest IH]; intros Ds B lsr ssr ref HD HB Hd Hiso Href H.
  - cbn in H. injection H as <- <-. exists (Ds ++ [B]). rewrite !map_app. split; [reflexivity|]. split; [reflexivity|].
    split; [apply Forall_app; split; [exact HD|constructor; [exact HB|constructor]]|]. rewrite app_nil_r. split; [reflexivity|exact Hiso].
  - cbn [map block_scan] in H. inversion Hd as [|? ? Hx Hd']; subst.
    change (pl_dom P (iloop x)) with (i_dom x) in H.
    destruct (lazy_equal P (i_dom ref) (i_dom x) && lazy_block P C (i_map ref) (i_map x) (map g_map Ds ++ g_map B :: i_map x :: map i_map rest)) eqn:E.
    + apply andb_true_iff in E. destruct E as [E1 E2].
      destruct (merge_inv Ds B x (map i_map rest) ref HD HB Hx Hiso Href E1 E2) as (c & Hc & HB' & Hiso').
      set (B' := {| g_dom := g_dom B; g_map := g_map B; g_mem := g_mem B ++ [(x, (g_max B + c)%Z)]; g_max := (g_max B + c)%Z |}) in *.
      assert (EB : merge_loop P (gloop B) (iloop x) = gloop B').
      { unfold merge_loop, gloop, iloop. cbn. rewrite map_app. reflexivity. }
      rewrite EB in H. change (g_map B) with (g_map B') in H.
      destruct (IH Ds B' lsr ssr x HD HB' Hd' Hiso' ltac:(exists (g_mem B); reflexivity) H) as (Bs & R1 & R2 & R3 & R4 & R5).
      exists Bs. split; [exact R1|]. split; [exact R2|]. split; [exact R3|]. split; [|exact R5].
      rewrite R4. unfold members. rewrite !flat_map_app. cbn. rewrite map_app, !app_nil_r, <- !app_assoc. reflexivity.
    + set (B' := {| g_dom := i_dom x; g_map := i_map x; g_mem := [(x, 0%Z)]; g_max := 0%Z |}).
      assert (HB' : ginv B').
      { constructor; cbn.
        - constructor; [|constructor]. split; [cbn; lia|]. split; [exact Hx|]. cbn. split.
          + intros i t Ht. exists t. split; [exact Ht|]. rewrite bump_0. reflexivity.
          + intros i t0 Ht. rewrite bump_0. exact Ht.
        - constructor; constructor.
        - exists [], x. reflexivity.
        - exists x, []. auto. }
      assert (Hiso' : iso_all ((Ds ++ [B]) ++ [B']) (map i_map rest)).
      { intros l1 X l2 Es. apply snoc_split in Es. destruct Es as [(-> & -> & ->) | (l2' & -> & Es)].
        - split; [intros H1; cbn in H1; lia|]. intros s _ H1. cbn in H1. lia.
        - destruct (Hiso l1 X l2' Es) as [Q1 Q2]. split; [exact Q1|]. intros s Hin. apply Q2.
          rewrite app_assoc, map_app, <- app_assoc in Hin. exact Hin. }
      assert (Hm1 : map gloop Ds ++ [gloop B] = map gloop (Ds ++ [B])) by (rewrite map_app; reflexivity).
      assert (Hm2 : map g_map Ds ++ [g_map B] = map g_map (Ds ++ [B])) by (rewrite map_app; reflexivity).
      rewrite Hm1, Hm2 in H. change (iloop x) with (gloop B') in H. change (i_map x) with (g_map B') in H at 1.
      destruct (IH (Ds ++ [B]) B' lsr ssr x) as (Bs & R1 & R2 & R3 & R4 & R5); auto.
      { apply Forall_app. split; [exact HD|constructor; [exact HB|constructor]]. }
      { exists []. reflexivity. }
      exists Bs. split; [exact R1|]. split; [exact R2|]. split; [exact R3|]. split; [|exact R5].
      rewrite R4. unfold members. rewrite !flat_map_app. cbn. rewrite !app_nil_r, <- !app_assoc. reflexivity.
Qed.

Fixpoint number (k : nat) (input : list (dom P * smap C)) : list item :=
  match input with
  | [] => []
  | (d, s) :: r => (Datatypes.S k, d, s) :: number (Datatypes.S k) r
  end.
Lemma number_loops : forall input k, from_domains P k (map fst input) = map iloop (number k input).
Proof. induction input as [|[d s] r IH]; intros k; cbn; [reflexivity|]. rewrite IH. reflexivity. Qed.
Lemma number_maps : forall input k, map i_map (number k input) = map snd input.
Proof. induction input as [|[d s] r IH]; intros k; cbn; [reflexivity|]. rewrite IH. reflexivity. Qed.
Lemma number_nth : forall input k x, In x (number k input) <-> exists j d s, nth_error input j = Some (d, s) /\ x = (Datatypes.S (k + j), d, s).
Proof.
  induction input as [|[d s] r IH]; intros k x; cbn.
  - split; [tauto|]. intros (j & d & s & H & _). destruct j; discriminate.
  - rewrite IH. split.
    + intros [<-|(j & d' & s' & H & ->)].
      * exists 0, d, s. rewrite Nat.add_0_r. split; reflexivity.
      * exists (Datatypes.S j), d', s'. split; [exact H|]. replace (k + Datatypes.S j) with (Datatypes.S k + j) by lia. reflexivity.
    + intros ([|j] & d' & s' & H & ->).
      * left. cbn in H. injection H as -> ->. rewrite Nat.add_0_r. reflexivity.
      * right. exists j, d', s'. split; [exact H|]. replace (k + Datatypes.S j) with (Datatypes.S k + j) by lia. reflexivity.
Qed.
Lemma number_nums : forall input k, map i_num (number k input) = seq (Datatypes.S k) (length input).
Proof. induction input as [|[d s] r IH]; intros k; cbn; [reflexivity|]. rewrite IH. reflexivity. Qed.

(** What blocking guarantees; without blocking ([noblocks]) it holds as well. *)
Lemma single_blocks : forall items, Forall dated1 items ->
  exists Bs, map iloop items = map gloop Bs /\ map i_map items = map g_map Bs /\ Forall ginv Bs /\
    members Bs = items /\ iso_all Bs [].
Proof.
  intros items Hd.
  exists (map (fun x => {| g_dom := i_dom x; g_map := i_map x; g_mem := [(x, 0%Z)]; g_max := 0%Z |}) items).
  rewrite !map_map. split; [reflexivity|]. split; [reflexivity|]. split; [|split].
  - apply Forall_forall. intros B HB. apply in_map_iff in HB. destruct HB as (x & <- & Hx).
    rewrite Forall_forall in Hd. constructor; cbn.
    + constructor; [|constructor]. split; [cbn; lia|]. split; [apply Hd; exact Hx|]. cbn. split.
      * intros i t Ht. exists t. split; [exact Ht|]. rewrite bump_0. reflexivity.
      * intros i t0 Ht. rewrite bump_0. exact Ht.
    + constructor; constructor.
    + exists [], x. reflexivity.
    + exists x, []. auto.
  - unfold members. clear Hd. induction items as [|x r IH]; cbn; [reflexivity|]. now rewrite IH.
  - intros l1 B l2 E. assert (HB : In B (l1 ++ B :: l2)) by (apply in_or_app; right; left; reflexivity). rewrite <- E in HB.
    apply in_map_iff in HB. destruct HB as (x & <- & _). split; [intros H1; cbn in H1; lia|intros s _ H1; cbn in H1; lia].
Qed.

Theorem block_result : forall nb items lsr ssr, Forall dated1 items ->
  (if nb : bool then Some (map iloop items, map i_map items) else program_block P C (map iloop items) (map i_map items)) = Some (lsr, ssr) ->
  exists Bs, lsr = map gloop Bs /\ ssr = map g_map Bs /\ Forall ginv Bs /\ members Bs = items /\ iso_all Bs [].
Proof.
  intros nb items lsr ssr Hd H. destruct nb.
  - injection H as <- <-. apply single_blocks. exact Hd.
  - destruct items as [|x [|y r]].
    + cbn in H. injection H as <- <-. apply (single_blocks []). constructor.
    + cbn in H. injection H as <- <-. apply (single_blocks [x]). exact Hd.
    + unfold program_block in H. cbn [map] in H.
      inversion Hd as [|? ? Hx Hd']; subst.
      set (B := {| g_dom := i_dom x; g_map := i_map x; g_mem := [(x, 0%Z)]; g_max := 0%Z |}).
      destruct (single_blocks [x] ltac:(constructor; [exact Hx|constructor])) as (Bs0 & _).
      assert (HB : ginv B).
      { constructor; cbn.
        - constructor; [|constructor]. split; [cbn; lia|]. split; [exact Hx|]. cbn. split.
          + intros i t Ht. exists t. split; [exact Ht|]. rewrite bump_0. reflexivity.
          + intros i t0 Ht. rewrite bump_0. exact Ht.
        - constructor; constructor.
        - exists [], x. reflexivity.
        - exists x, []. auto. }
      assert (Hi : iso_all ([] ++ [B]) (map i_map (y :: r))).
      { intros l1 X l2 Es. destruct l1 as [|? [|]]; try discriminate. cbn in Es. injection Es as <- <-.
        split; [intros H1; cbn in H1; lia|intros s _ H1; cbn in H1; lia]. }
      destruct (scan_inv (y :: r) [] B lsr ssr x (Forall_nil _) HB Hd' Hi ltac:(exists []; reflexivity) H) as (Bs & R).
      exists Bs. exact R.
Qed.

(** The date of the block of an item. *)
Theorem block_order : forall Bs, Forall ginv Bs -> iso_all Bs [] ->
  forall a a' B B' j j' m m' t t' t0 t0' i i',
  nth_error Bs a = Some B -> nth_error Bs a' = Some B' ->
  nth_error (g_mem B) j = Some m -> nth_error (g_mem B') j' = Some m' ->
  at_ (i_dom (fst m)) (i_map (fst m)) t i -> at_ (i_dom (fst m')) (i_map (fst m')) t' i' ->
  s_dim C (g_map B) = s_dim C (g_map B') ->
  at_ (g_dom B) (g_map B) t0 i -> at_ (g_dom B') (g_map B') t0' i' ->
  lex_lt t t' -> lex_lt t0 t0' \/ (a = a' /\ i = i' /\ t0 = t0' /\ j < j').
Proof.
  intros Bs Hg Hiso a a' B B' j j' m m' t t' t0 t0' i i' Ha Ha' Hm Hm' Ht Ht' Hdim H0 H0' Hlt.
  assert (HB : ginv B) by (rewrite Forall_forall in Hg; apply Hg; eapply nth_error_In; eauto).
  assert (HB' : ginv B') by (rewrite Forall_forall in Hg; apply Hg; eapply nth_error_In; eauto).
  assert (Hmk : forall X y n, ginv X -> nth_error (g_mem X) n = Some y -> member_ok X y).
  { intros X y n [Q _ _ _] Hn. rewrite Forall_forall in Q. apply Q. eapply nth_error_In; eauto. }
  pose proof (Hmk _ _ _ HB Hm) as (M1 & M2 & M3 & M4). pose proof (Hmk _ _ _ HB' Hm') as (M1' & M2' & M3' & M4').
  (* each block has one date per iteration *)
  assert (Hu : forall X y n t1 t2 k, ginv X -> nth_error (g_mem X) n = Some y -> at_ (g_dom X) (g_map X) t1 k -> at_ (g_dom X) (g_map X) t2 k -> t1 = t2).
  { intros X y n t1 t2 k HX Hn A1 A2. pose proof (Hmk _ _ _ HX Hn) as (_ & [_ D] & _ & Q4).
    apply (bump_inj (snd y)). destruct (Q4 _ _ A1), (Q4 _ _ A2). eapply D; eauto. }
  destruct (M3 i t Ht) as (t0x & A0 & E). assert (t0x = t0) by (eapply Hu; [exact HB|exact Hm|exact A0|exact H0]). subst t0x t.
  destruct (M3' i' t' Ht') as (t0x & A0' & E'). assert (t0x = t0') by (eapply Hu; [exact HB'|exact Hm'|exact A0'|exact H0']). subst t0x t'.
  clear A0 A0'.
  assert (Hlen : length t0 = length t0').
  { rewrite (SC_len _ _ _ _ CL _ _ _ (proj2 H0)), (SC_len _ _ _ _ CL _ _ _ (proj2 H0')). exact Hdim. }
  assert (Hdec : lex_lt t0 t0' \/ ~ lex_lt t0 t0').
  { clear. revert t0'. induction t0 as [|x r IH]; intros [|y q]; try (right; intros H; inversion H; fail).
    destruct (Z.lt_trichotomy x y) as [H|[->|H]].
    - left. apply lex_here. exact H.
    - destruct (IH q); [left; apply lex_next; assumption|right; intros Hc; inversion Hc; subst; [lia|contradiction]].
    - right. intros Hc. inversion Hc; subst; lia. }
  destruct Hdec as [|Hn]; [left; assumption|]. right.
  destruct (bump_between _ _ _ _ Hlen Hlt Hn) as (c & Hc & Et).
  apply nth_error_split in Ha'. destruct Ha' as (l1 & l2 & Es & El).
  destruct (Hiso l1 B' l2 Es) as [Hself Hoth].
  assert (Hmax : (1 <= g_max B')%Z) by lia.
  destruct (Nat.eq_dec a a') as [Eaa|Eaa].
  - subst a'. assert (B = B').
    { rewrite Es, nth_error_app2 in Ha by lia. replace (a - length l1) with 0 in Ha by lia. cbn in Ha. congruence. }
    subst B'. destruct H0 as [H01 H02]. rewrite Et in H02.
    destruct (Hself Hmax c i i' t0' ltac:(lia) H0' H02) as [-> ->]. rewrite bump_0 in Et. subst t0.
    split; [congruence|]. split; [reflexivity|]. split; [reflexivity|].
    destruct (Nat.lt_ge_cases j j') as [|Hge]; [assumption|]. exfalso.
    assert (Hs : forall n1 n2 y1 y2, n1 < n2 -> nth_error (g_mem B) n1 = Some y1 -> nth_error (g_mem B) n2 = Some y2 -> (snd y1 <= snd y2)%Z).
    { destruct HB as [_ Hsort _ _]. clear - Hsort. induction (g_mem B) as [|y ys IHy]; intros [|n1] [|n2] y1 y2 Hlt E1 E2; try discriminate; try lia.
      - cbn in *. injection E1 as <-. inversion Hsort as [|? ? _ Hf]; subst. rewrite Forall_forall in Hf. apply Hf. apply in_map. eapply nth_error_In; eauto.
      - cbn in *. inversion Hsort; subst. eapply (IHy ltac:(assumption) n1 n2); eauto. lia. }
    destruct (Nat.eq_dec j j') as [->|]; [assert (m = m') by congruence; subst; lia|].
    pose proof (Hs j' j m' m ltac:(lia) Hm' Hm). lia.
  - exfalso. destruct H0 as [H01 H02]. rewrite Et in H02.
    apply (Hoth (g_map B)) with (j := c) (i := i) (i' := i') (t0 := t0'); auto; [|lia].
    rewrite app_nil_r. apply in_map. rewrite Es in Ha.
    destruct (Nat.lt_ge_cases a (length l1)).
    + rewrite nth_error_app1 in Ha by lia. apply in_or_app. left. eapply nth_error_In; eauto.
    + rewrite nth_error_app2 in Ha by lia. destruct (a - length l1) as [|z] eqn:Ez; [lia|]. cbn in Ha.
      apply in_or_app. right. eapply nth_error_In; eauto.
Qed.
End S.
