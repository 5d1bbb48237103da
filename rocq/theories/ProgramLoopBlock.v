(** cloog_loop_block: which loops are put in one block, and what this does to the order. *)
From Coq Require Import ZArith List Bool Arith Lia Sorting.Sorted.
From Verif Require Import LoopModel LoopSpec LoopKeys ProgramModel ProgramSpec ProgramScalars.
Import ListNotations.
Local Open Scope nat_scope.
Local Arguments Nat.ltb : simpl never.
Local Arguments Nat.leb : simpl never.
Local Arguments Nat.eqb : simpl never.
Local Arguments Nat.sub : simpl never.

(** * The order of scalar vectors *)
Lemma scal_cmp_eq : forall a b, scal_cmp a b = Eq <-> a = b.
Proof.
  induction a as [|x a IH]; intros [|y b]; cbn; split; intros H; try discriminate; try reflexivity.
  - destruct (Z.compare_spec x y) as [->| |]; try discriminate. apply IH in H. congruence.
  - injection H as -> ->. rewrite Z.compare_refl. apply IH. reflexivity.
Qed.
Lemma scal_cmp_anti : forall a b, scal_cmp a b = CompOpp (scal_cmp b a).
Proof.
  induction a as [|x a IH]; intros [|y b]; cbn; try reflexivity.
  rewrite (Z.compare_antisym y x). destruct (y ?= x)%Z; cbn; auto.
Qed.
Lemma scal_cmp_trans : forall a b c, scal_cmp a b = Lt -> scal_cmp b c = Lt -> scal_cmp a c = Lt.
Proof.
  induction a as [|x a IH]; intros [|y b] [|z c]; cbn; try discriminate; try reflexivity.
  destruct (Z.compare_spec x y), (Z.compare_spec y z); try discriminate; intros H1 H2; subst;
    repeat match goal with
    | |- context [(?u ?= ?u)%Z] => rewrite Z.compare_refl
    | H : (?u < ?v)%Z |- context [(?u ?= ?v)%Z] => replace (u ?= v)%Z with Lt by (symmetry; exact H)
    end; eauto.
  replace (x ?= z)%Z with Lt; [reflexivity|]. symmetry. change (x < z)%Z. lia.
Qed.
Definition sle (a b : list Z) : Prop := scal_cmp a b <> Gt.
Definition slt (a b : list Z) : Prop := scal_cmp a b = Lt.
Lemma sle_lt_or_eq : forall a b, sle a b <-> slt a b \/ a = b.
Proof.
  intros a b. unfold sle, slt. rewrite <- scal_cmp_eq. destruct (scal_cmp a b); split; intros H; auto; try congruence.
  destruct H; discriminate.
Qed.
Lemma slt_trans : forall a b c, slt a b -> slt b c -> slt a c. Proof. exact scal_cmp_trans. Qed.
Lemma sle_slt : forall a b c, sle a b -> slt b c -> slt a c.
Proof. intros a b c H1 H2. apply sle_lt_or_eq in H1. destruct H1 as [H1| ->]; [eapply slt_trans; eauto|exact H2]. Qed.
Lemma slt_sle : forall a b c, slt a b -> sle b c -> slt a c.
Proof. intros a b c H1 H2. apply sle_lt_or_eq in H2. destruct H2 as [H2| ->]; [eapply slt_trans; eauto|exact H1]. Qed.
Lemma sle_trans : forall a b c, sle a b -> sle b c -> sle a c.
Proof.
  intros a b c H1 H2. apply sle_lt_or_eq in H1. destruct H1 as [H1| ->]; [|exact H2].
  apply sle_lt_or_eq. left. eapply slt_sle; eauto.
Qed.
Lemma slt_irrefl : forall a, ~ slt a a.
Proof. intros a H. unfold slt in H. assert (scal_cmp a a = Eq) by (apply scal_cmp_eq; reflexivity). congruence. Qed.
Lemma slt_lex : forall a b, length a = length b -> (slt a b <-> lex_lt a b).
Proof.
  unfold slt. induction a as [|x a IH]; intros [|y b] H; try discriminate; cbn.
  - split; [discriminate|intros H1; inversion H1].
  - destruct (Z.compare_spec x y) as [->|Hlt|Hlt].
    + rewrite IH by (cbn in H; lia). split; [apply lex_next|]. intros H1. inversion H1; subst; [lia|assumption].
    + split; [intros _; apply lex_here; exact Hlt|reflexivity].
    + split; [discriminate|]. intros H1. inversion H1; subst; lia.
Qed.
Lemma lex_lt_app_len : forall h h' r r', length h = length h' ->
  (lex_lt (h ++ r) (h' ++ r') <-> lex_lt h h' \/ (h = h' /\ lex_lt r r')).
Proof.
  induction h as [|x h IH]; intros [|y h'] r r' H; try discriminate; cbn.
  - split; [right; split; auto|]. intros [H1|[_ H1]]; [inversion H1|exact H1].
  - split.
    + intros H1. inversion H1; subst; [left; apply lex_here; assumption|].
      match goal with H2 : lex_lt (h ++ r) (h' ++ r') |- _ => apply IH in H2; [|cbn in H; lia]; destruct H2 as [H2|[-> H2]] end.
      * left. apply lex_next. exact H2.
      * right. split; [reflexivity|exact H2].
    + intros [H1|[H1 H2]].
      * inversion H1; subst; [apply lex_here; assumption|]. apply lex_next. apply IH; [cbn in H; lia|]. left. assumption.
      * injection H1 as -> ->. apply lex_next. apply IH; [reflexivity|]. right. split; [reflexivity|exact H2].
Qed.

(** * The last scalar dimensions *)
Fixpoint strip (ks : list bool) : list bool :=
  match ks with
  | [] => []
  | k :: r => match strip r with [] => if k then [] else [false] | r' => k :: r' end
  end.
Lemma strip_spec : forall ks, ks = strip ks ++ repeat true (length ks - length (strip ks)) /\ length (strip ks) <= length ks.
Proof.
  induction ks as [|k r [IH Hl]]; [split; [reflexivity|cbn; lia]|]. cbn [strip].
  destruct (strip r) as [|x r'] eqn:E.
  - destruct k; cbn [length app] in *.
    + split; [|lia]. replace (Datatypes.S (length r) - 0) with (Datatypes.S (length r)) by lia. cbn. f_equal.
      rewrite IH at 1. f_equal. lia.
    + split; [|lia]. f_equal. rewrite IH at 1. reflexivity.
  - cbn [length app] in *. split; [|lia]. f_equal. rewrite IH at 1. reflexivity.
Qed.
Lemma strip_cons : forall k r, strip (k :: r) <> [] -> strip (k :: r) = k :: strip r.
Proof. intros k r H. cbn in *. destruct (strip r); [destruct k; [congruence|reflexivity]|reflexivity]. Qed.
Lemma strip_false : forall r, In false r <-> strip r <> [].
Proof.
  induction r as [|k r IH]; cbn; [split; [tauto|congruence]|].
  destruct (strip r) as [|x r'] eqn:E.
  - destruct k; [|split; [congruence|auto]]. split; [intros [H|H]; [discriminate|apply IH in H; congruence]|congruence].
  - split; [congruence|]. intros _. right. apply IH. congruence.
Qed.
Lemma nscalar_app : forall a b, nscalar (a ++ b) = nscalar a + nscalar b.
Proof. intros. unfold nscalar. rewrite filter_app, app_length. reflexivity. Qed.
Lemma nonscalar_app : forall a b, nonscalar (a ++ b) = nonscalar a + nonscalar b.
Proof. intros. unfold nonscalar. rewrite filter_app, app_length. reflexivity. Qed.
Lemma nscalar_true : forall n, nscalar (repeat true n) = n. Proof. unfold nscalar. induction n; cbn; auto. Qed.
Lemma nonscalar_true : forall n, nonscalar (repeat true n) = 0. Proof. unfold nonscalar. induction n; cbn; auto. Qed.
Lemma date_true : forall n c, length c = n -> date (repeat true n) c [] = c.
Proof. induction n; intros [|x c] H; cbn in *; try discriminate; [reflexivity|]. rewrite IHn; auto. Qed.
Definition top (kinds : list bool) : nat := nscalar (strip kinds).
Lemma date_strip : forall kinds c u, length c = nscalar kinds -> length u = nonscalar kinds ->
  date kinds c u = date (strip kinds) (firstn (top kinds) c) u ++ skipn (top kinds) c.
Proof.
  intros kinds c u H1 H2. destruct (strip_spec kinds) as [E _]. set (n := length kinds - length (strip kinds)) in *.
  rewrite E in H1, H2. rewrite nscalar_app, nscalar_true in H1. rewrite nonscalar_app, nonscalar_true in H2.
  rewrite E at 1. rewrite <- (firstn_skipn (top kinds) c) at 1. rewrite <- (app_nil_r u) at 1.
  rewrite date_app.
  - rewrite date_true; [reflexivity|]. rewrite skipn_length. unfold top. lia.
  - rewrite firstn_length. unfold top. lia.
  - lia.
Qed.
Lemma date_inj2 : forall ks c c' u u', length c = nscalar ks -> length c' = nscalar ks ->
  length u = nonscalar ks -> length u' = nonscalar ks -> date ks c u = date ks c' u' -> c = c' /\ u = u'.
Proof.
  unfold nscalar, nonscalar. induction ks as [|[] ks IH]; intros c c' u u' H1 H2 H3 H4 H; cbn in *.
  - destruct c, c', u, u'; try discriminate. auto.
  - destruct c as [|x c], c' as [|x' c']; try discriminate. cbn in *. injection H as -> H. destruct (IH c c' u u'); auto. subst. auto.
  - destruct u as [|x u], u' as [|x' u']; try discriminate. cbn in *. injection H as -> H. destruct (IH c c' u u'); auto. subst. auto.
Qed.

Section S.
Variable P : Poly.
Variable S : Sem P.
Variable C : Scat P.
Variable rel : ScatSem C.
Hypothesis L : Laws P S.
Hypothesis CL : ScatLaws P S C rel.

(** No scattering dimension that is still scanned has a constant value in this domain. *)
Definition no_constant (n : nat) (d : dom P) : Prop := forall k, k < n -> lazy_isconstant P d k = None.

Lemma all_const_false : forall ns d ks dim, no_constant ns d -> dim + nonscalar ks = ns -> In false ks ->
  all_const P d (run_lengths ks) dim = false.
Proof.
  induction ks as [|[] ks IH]; intros dim Hn Hd Hin; cbn.
  - destruct Hin.
  - destruct Hin as [Hin|Hin]; [discriminate|]. unfold nonscalar in *. cbn in Hd. specialize (IH dim Hn Hd Hin).
    destruct (run_lengths ks) as [|r rs]; [cbn in IH; discriminate|]. exact IH.
  - unfold nonscalar in Hd. cbn in Hd. rewrite Hn by lia. reflexivity.
Qed.
Lemma equal_prefix_strip : forall ns d ks a b dim, no_constant ns d -> dim + nonscalar ks = ns ->
  length a = nscalar ks -> length b = nscalar ks ->
  equal_prefix_from P d (run_lengths ks) a b dim = true -> firstn (top ks) a = firstn (top ks) b.
Proof.
  unfold top. induction ks as [|k ks IH]; intros a b dim Hn Hd Ha Hb H.
  - reflexivity.
  - destruct (strip (k :: ks)) as [|x r] eqn:E; [reflexivity|].
    assert (E' : strip (k :: ks) = k :: strip ks) by (apply strip_cons; congruence).
    rewrite <- E, E'. clear E. destruct k.
    + destruct a as [|x0 a]; [discriminate|]. destruct b as [|y0 b]; [discriminate|].
      assert (Hr : equal_prefix_from P d (run_lengths (true :: ks)) (x0 :: a) (y0 :: b) dim
                   = if (x0 =? y0)%Z then equal_prefix_from P d (run_lengths ks) a b dim else all_const P d (run_lengths ks) dim).
      { cbn. destruct (run_lengths ks); reflexivity. }
      rewrite Hr in H. destruct (Z.eqb_spec x0 y0) as [->|Hne].
      * cbn. f_equal. apply (IH a b dim); auto.
      * exfalso. rewrite (all_const_false ns) in H; [discriminate|exact Hn|exact Hd|].
        apply strip_false. intros Hs. rewrite Hs in E'. cbn in E'. rewrite Hs in E'. discriminate.
    + cbn in H. apply (IH a b (Datatypes.S dim)); auto. unfold nonscalar in *. cbn in Hd. lia.
Qed.

(** * The groups *)
Definition whole (g : ploop P * list (ploop P)) : ploop P := fold_left (merge_loop P) (snd g) (fst g).
Definition flat (G : list (ploop P * list (ploop P))) : list (ploop P) := flat_map (fun g => fst g :: snd g) G.
Lemma whole_dom : forall t b, pl_dom P (fold_left (merge_loop P) t b) = pl_dom P b /\ pl_scal P (fold_left (merge_loop P) t b) = pl_scal P b
  /\ pl_stmts P (fold_left (merge_loop P) t b) = pl_stmts P b ++ flat_map (pl_stmts P) t.
Proof.
  induction t as [|x t IH]; intros b; cbn; [rewrite app_nil_r; auto|].
  destruct (IH (merge_loop P b x)) as (E1 & E2 & E3). rewrite E1, E2, E3. cbn. rewrite <- app_assoc. auto.
Qed.
Definition lle (a b : ploop P) : Prop := sle (scals P a) (scals P b).
Definition llt (a b : ploop P) : Prop := slt (scals P a) (scals P b).

(** what joins a group, and its strict neighbours *)
Definition joined (sd : list nat) (b e : ploop P) : Prop :=
  equal_prefix P sd b e = true /\ lazy_equal P (pl_dom P b) (pl_dom P e) = true.
Definition strict (before : list (ploop P)) (g : ploop P * list (ploop P)) (after : list (ploop P)) : Prop :=
  forall m, In m (fst g :: snd g) -> (forall x, In x before -> llt x m) /\ (forall x, In x after -> llt m x).
Definition groups_ok (sd : list nat) (prev : list (ploop P)) (G : list (ploop P * list (ploop P))) : Prop :=
  forall G1 g G2, G = G1 ++ g :: G2 -> snd g <> [] ->
    (forall e, In e (snd g) -> joined sd (fst g) e) /\ strict (prev ++ flat G1) g (flat G2).

Lemma same_as_spec : forall sd b ls aft0 taken aft rest, same_as P sd b aft0 ls = (taken, aft, rest) ->
  ls = taken ++ rest /\ (forall e, In e taken -> joined sd b e) /\
  (taken = [] -> aft = aft0) /\
  (forall t e, taken = t ++ [e] -> aft = match next_scal_cmp P e rest with Lt => true | _ => false end).
Proof.
  induction ls as [|x ls IH]; intros aft0 taken aft rest H; cbn in H.
  - injection H as <- <- <-. split; [reflexivity|]. split; [intros e []|]. split; [auto|]. intros [|] ? E; discriminate.
  - destruct (equal_prefix P sd b x && lazy_equal P (pl_dom P b) (pl_dom P x)) eqn:E.
    + destruct (same_as P sd b _ ls) as [[t a] r] eqn:Es. injection H as <- <- <-.
      destruct (IH _ _ _ _ Es) as (E1 & E2 & E3 & E4). subst ls. split; [reflexivity|]. split; [|split; [discriminate|]].
      * intros e [<-|He]; [|auto]. apply andb_true_iff in E. exact E.
      * intros t' e Et. destruct t as [|y t].
        -- destruct t' as [|? [|]]; try discriminate. injection Et as <-. cbn. apply E3. reflexivity.
        -- destruct t' as [|? t']; [discriminate|]. injection Et as <- Et. eapply E4. exact Et.
    + injection H as <- <- <-. split; [reflexivity|]. split; [intros e []|]. split; [auto|]. intros [|] ? Et; discriminate.
Qed.

Lemma sorted_app_inv : forall (l1 l2 : list (ploop P)), StronglySorted lle (l1 ++ l2) ->
  StronglySorted lle l2 /\ (forall x y, In x l1 -> In y l2 -> lle x y) /\ StronglySorted lle l1.
Proof.
  induction l1 as [|x l1 IH]; intros l2 H; cbn in *.
  - split; [exact H|]. split; [intros x y []|constructor].
  - inversion H as [|? ? H1 H2]; subst. destruct (IH _ H1) as (Q1 & Q2 & Q3). split; [exact Q1|].
    rewrite Forall_app in H2. destruct H2 as [H2 H3]. split.
    + intros a b [<-|Ha] Hb; [|auto]. rewrite Forall_forall in H3. auto.
    + constructor; auto.
Qed.

Lemma block_groups_spec : forall fuel sd after prev ls out,
  StronglySorted lle (prev ++ ls) -> (after = true -> match ls with [] => True | y :: _ => forall x, In x prev -> llt x y end) ->
  block_groups P fuel sd after ls = Some out ->
  exists G, out = map whole G /\ ls = flat G /\ groups_ok sd prev G.
Proof.
  induction fuel as [|f IH]; intros sd after prev ls out Hs Ha H; [discriminate|].
  cbn in H. destruct ls as [|b r].
  { injection H as <-. exists []. split; [reflexivity|]. split; [reflexivity|]. intros [|] ? ? E; discriminate. }
  set (lt_ := match next_scal_cmp P b r with Lt => true | _ => false end) in *.
  set (keep := match block_groups P f sd lt_ r with Some r' => Some (b :: r') | None => None end) in *.
  assert (Hkeep : keep = Some out -> exists G, out = map whole G /\ b :: r = flat G /\ groups_ok sd prev G).
  { unfold keep. destruct (block_groups P f sd lt_ r) as [r'|] eqn:Er; [|discriminate]. intros E. injection E as <-.
    destruct (IH sd lt_ (prev ++ [b]) r r') as (G & E1 & E2 & E3); auto.
    - rewrite <- app_assoc. exact Hs.
    - unfold lt_, next_scal_cmp. destruct r as [|y r0]; [auto|]. destruct (scal_cmp (scals P b) (scals P y)) eqn:Ec; try discriminate.
      intros _ x Hx. apply in_app_or in Hx. destruct Hx as [Hx|[<-|[]]]; [|exact Ec].
      destruct (sorted_app_inv _ _ Hs) as (_ & Hle & _). eapply sle_slt; [apply Hle; [exact Hx|left; reflexivity]|exact Ec].
    - exists ((b, []) :: G). cbn. rewrite E1, E2. split; [reflexivity|]. split; [reflexivity|].
      intros G1 g G2 Eg Hg. destruct G1 as [|g1 G1]; [cbn in Eg; injection Eg as <- <-; cbn in Hg; congruence|].
      cbn in Eg. injection Eg as <- Eg. destruct (E3 G1 g G2 Eg Hg) as [Q1 Q2]. split; [exact Q1|].
      cbn. rewrite <- app_assoc in Q2. exact Q2. }
  destruct after; cbn in H; [|apply Hkeep; exact H].
  destruct (same_as P sd b lt_ r) as [[taken aft] rest] eqn:Es.
  destruct (same_as_spec _ _ _ _ _ _ _ Es) as (Er & Hj & _ & Hl).
  destruct taken as [|x taken]; [apply Hkeep; exact H|].
  destruct aft; [|apply Hkeep; exact H].
  destruct (@exists_last _ (x :: taken)) as (t & e & Et); [congruence|].
  specialize (Hl t e Et).
  set (lt2 := match next_scal_cmp P b rest with Lt => true | _ => false end) in *.
  destruct (block_groups P f sd lt2 rest) as [r'|] eqn:Eb; [|discriminate]. injection H as <-.
  subst r.
  assert (Hs' : StronglySorted lle ((prev ++ b :: x :: taken) ++ rest)).
  { rewrite <- app_assoc. exact Hs. }
  destruct (sorted_app_inv _ _ Hs') as (_ & Hle' & Hs1).
  assert (Hrest : match rest with [] => True | y :: _ => forall z, In z (prev ++ b :: x :: taken) -> llt z y end).
  { destruct rest as [|y rest]; [auto|]. intros z Hz. unfold next_scal_cmp in Hl.
    assert (Hey : llt e y) by (unfold llt, slt; destruct (scal_cmp (scals P e) (scals P y)); congruence).
    rewrite Et in Hz, Hs1. rewrite app_comm_cons, app_assoc in Hz, Hs1.
    destruct (sorted_app_inv _ _ Hs1) as (_ & Hq & _).
    apply in_app_or in Hz. destruct Hz as [Hz|[<-|[]]]; [|exact Hey].
    eapply sle_slt; [apply Hq; [exact Hz|left; reflexivity]|exact Hey]. }
  assert (Hrest' : forall z y, In z (prev ++ b :: x :: taken) -> In y rest -> llt z y).
  { intros z y Hz Hy. destruct rest as [|y0 rest]; [destruct Hy|]. destruct Hy as [<-|Hy]; [auto|].
    eapply slt_sle; [apply Hrest; exact Hz|]. destruct (sorted_app_inv _ _ Hs') as (Hr & _ & _).
    inversion Hr as [|? ? _ Hf]; subst. rewrite Forall_forall in Hf. apply Hf. exact Hy. }
  destruct (IH sd lt2 (prev ++ b :: x :: taken) rest r') as (G & E1 & E2 & E3); auto.
  exists ((b, x :: taken) :: G). cbn [map flat_map flat]. split; [rewrite E1; reflexivity|].
  split; [cbn; rewrite E2 at 1; reflexivity|].
  intros G1 g G2 Eg Hg. destruct G1 as [|g1 G1].
  - cbn in Eg. injection Eg as <- <-. cbn [fst snd]. split; [exact Hj|].
    intros m Hm. cbn [fst snd] in Hm. unfold flat. cbn [flat_map]. rewrite app_nil_r. split.
    + intros z Hz. specialize (Ha eq_refl z Hz). destruct Hm as [<-|Hm]; [exact Ha|].
      eapply slt_sle; [exact Ha|]. destruct (sorted_app_inv _ _ Hs) as (Hb & _ & _).
      inversion Hb as [|? ? _ Hf]; subst. rewrite Forall_forall in Hf. apply Hf. change (In m ((x :: taken) ++ flat G)). apply in_or_app. left. exact Hm.
    + intros z Hz. apply Hrest'; [apply in_or_app; right; exact Hm|]. rewrite ?E2. exact Hz.
  - cbn in Eg. injection Eg as <- Eg. destruct (E3 G1 g G2 Eg Hg) as [Q1 Q2]. split; [exact Q1|].
    cbn. rewrite <- app_assoc in Q2. exact Q2.
Qed.

Lemma increasing_sorted : forall ls, increasing P ls = true -> StronglySorted lle ls.
Proof.
  intros ls H. apply Sorted_StronglySorted.
  - intros a b c. apply sle_trans.
  - induction ls as [|l r IH]; [constructor|]. cbn in H. apply andb_true_iff in H. destruct H as [H1 H2].
    apply andb_true_iff in H1. destruct H1 as [_ H1]. constructor; [auto|]. destruct r as [|y r]; constructor.
    unfold lle, sle. cbn in H1. destruct (scal_cmp (scals P l) (scals P y)); congruence.
Qed.

(** The groups of cloog_loop_block: either nothing is joined, or the input is sorted. *)
Theorem loop_block_groups : forall nb sd ls out,
  (if nb : bool then Some ls else loop_block P sd ls) = Some out ->
  exists G, out = map whole G /\ ls = flat G /\ groups_ok sd [] G /\
    ((forall g, In g G -> snd g = []) \/ StronglySorted lle ls).
Proof.
  intros nb sd ls out H.
  assert (Hsingle : Some ls = Some out -> exists G, out = map whole G /\ ls = flat G /\ groups_ok sd [] G /\
    ((forall g, In g G -> snd g = []) \/ StronglySorted lle ls)).
  { intros E. injection E as <-. exists (map (fun l => (l, [])) ls).
    assert (Hn : forall g, In g (map (fun l : ploop P => (l, @nil (ploop P))) ls) -> snd g = []).
    { intros g Hg. apply in_map_iff in Hg. destruct Hg as (l & <- & _). reflexivity. }
    split; [rewrite map_map; symmetry; apply map_id|]. split; [|split; [|left; exact Hn]].
    - unfold flat. clear. induction ls; cbn; congruence.
    - intros G1 g G2 E Hg. exfalso. apply Hg, Hn. rewrite E. apply in_or_app. right. left. reflexivity. }
  destruct nb; [auto|]. unfold loop_block in H. destruct ls as [|l [|y r]]; [discriminate|auto|].
  destruct (increasing P (l :: y :: r)) eqn:Ei; [|auto].
  apply increasing_sorted in Ei.
  destruct (block_groups_spec _ sd true [] _ _ Ei ltac:(intros _ x []) H) as (G & E1 & E2 & E3).
  exists G. split; [exact E1|]. split; [exact E2|]. split; [exact E3|]. right. exact Ei.
Qed.

Lemma flat_app : forall G1 G2, flat (G1 ++ G2) = flat G1 ++ flat G2.
Proof. intros. unfold flat. apply flat_map_app. Qed.

(** A loop in a group runs at the date of the first loop of the group. *)
Theorem loop_block_order : forall kinds G,
  groups_ok (run_lengths kinds) [] G -> ((forall g, In g G -> snd g = []) \/ StronglySorted lle (flat G)) ->
  Forall (fun l => length (scals P l) = nscalar kinds) (flat G) ->
  ((forall g, In g G -> snd g = []) \/
    ((forall l, In l (flat G) -> no_constant (nonscalar kinds) (pl_dom P l)) /\
     (forall l u i i', In l (flat G) -> length u = nonscalar kinds -> mem S (pl_dom P l) (u ++ i) = true -> mem S (pl_dom P l) (u ++ i') = true -> i = i'))) ->
  forall a a' g g' j j' l l' u u' i i',
  nth_error G a = Some g -> nth_error G a' = Some g' ->
  nth_error (fst g :: snd g) j = Some l -> nth_error (fst g' :: snd g') j' = Some l' ->
  length u = nonscalar kinds -> length u' = nonscalar kinds ->
  mem S (pl_dom P l) (u ++ i) = true -> mem S (pl_dom P l') (u' ++ i') = true ->
  lex_lt (date kinds (scals P l) u) (date kinds (scals P l') u') ->
  lex_lt (date kinds (scals P (fst g)) u) (date kinds (scals P (fst g')) u') \/
  (a = a' /\ u = u' /\ i = i' /\ j < j').
Proof.
  intros kinds G Hok Hsort Hlen Hinj a a' g g' j j' l l' u u' i i' Ea Ea' Ej Ej' Lu Lu' Hm Hm' Hlt.
  assert (Hin : forall b g0 n l0, nth_error G b = Some g0 -> nth_error (fst g0 :: snd g0) n = Some l0 -> In l0 (flat G)).
  { intros b g0 n l0 E1 E2. unfold flat. apply in_flat_map. exists g0. split; [eapply nth_error_In; exact E1|eapply nth_error_In; exact E2]. }
  pose proof (Hin _ _ _ _ Ea Ej) as I1. pose proof (Hin _ _ _ _ Ea' Ej') as I1'.
  pose proof (Hin _ _ 0 (fst g) Ea eq_refl) as I0. pose proof (Hin _ _ 0 (fst g') Ea' eq_refl) as I0'.
  rewrite Forall_forall in Hlen.
  pose proof (Hlen _ I1) as L1. pose proof (Hlen _ I1') as L1'. pose proof (Hlen _ I0) as L0. pose proof (Hlen _ I0') as L0'.
  assert (Hsing : forall (g0 : ploop P * list (ploop P)) n l0, nth_error (fst g0 :: snd g0) n = Some l0 -> snd g0 = [] -> l0 = fst g0 /\ n = 0).
  { intros g0 n l0 E1 E2. rewrite E2 in E1. destruct n as [|[|]]; cbn in E1; try discriminate. split; congruence. }
  destruct Hinj as [Hnone|[Hnc Hinj]].
  { left. destruct (Hsing _ _ _ Ej (Hnone _ (nth_error_In _ _ Ea))) as [-> _].
    destruct (Hsing _ _ _ Ej' (Hnone _ (nth_error_In _ _ Ea'))) as [-> _]. exact Hlt. }
  (* members of a group agree with its first loop on the scalars before the last scanned dimension *)
  assert (Htop : forall b g0 n l0, nth_error G b = Some g0 -> nth_error (fst g0 :: snd g0) n = Some l0 ->
     firstn (top kinds) (scals P l0) = firstn (top kinds) (scals P (fst g0))).
  { intros b g0 n l0 E1 E2. destruct n as [|n]; [injection E2 as <-; reflexivity|].
    pose proof (nth_error_split _ _ E1) as (G1 & G2 & EG & _).
    assert (Hne : snd g0 <> []) by (intros Hz; cbn in E2; rewrite Hz in E2; destruct n; discriminate).
    destruct (Hok G1 g0 G2 EG Hne) as [Hj _]. destruct (Hj l0) as [Hj1 _]; [cbn in E2; eapply nth_error_In; exact E2|].
    symmetry. unfold equal_prefix in Hj1. eapply (equal_prefix_strip (nonscalar kinds)); [| | | |exact Hj1].
    - apply Hnc. apply (Hin b g0 0); auto.
    - reflexivity.
    - apply Hlen. apply (Hin b g0 0); auto.
    - apply Hlen. apply (Hin b g0 (Datatypes.S n)); auto. }
  pose proof (Htop _ _ _ _ Ea Ej) as T. pose proof (Htop _ _ _ _ Ea' Ej') as T'.
  assert (Hnst : nonscalar (strip kinds) = nonscalar kinds).
  { destruct (strip_spec kinds) as [E _]. rewrite E at 2. rewrite nonscalar_app, nonscalar_true. lia. }
  assert (Hnsc : top kinds <= nscalar kinds).
  { destruct (strip_spec kinds) as [E _]. unfold top. rewrite E at 2. rewrite nscalar_app. lia. }
  assert (Hhl : forall l0 v, length (scals P l0) = nscalar kinds -> length v = nonscalar kinds ->
     length (date (strip kinds) (firstn (top kinds) (scals P l0)) v) = length (strip kinds)).
  { intros l0 v E1 E2. apply date_length; [rewrite firstn_length; unfold top in *; lia|lia]. }
  rewrite !(date_strip kinds) in Hlt by assumption. rewrite !(date_strip kinds) by assumption.
  rewrite lex_lt_app_len in Hlt by (rewrite !Hhl by assumption; reflexivity).
  rewrite lex_lt_app_len by (rewrite !Hhl by assumption; reflexivity).
  rewrite <- T, <- T'. destruct Hlt as [Hlt|[Heq Hlt]]; [left; left; exact Hlt|].
  apply date_inj2 in Heq; try (rewrite firstn_length; unfold top in *; lia); try lia.
  destruct Heq as [Hc ->]. rewrite Hc.
  (* the scalars of l are smaller *)
  assert (Hsl : llt l l').
  { apply slt_lex; [lia|]. rewrite <- (firstn_skipn (top kinds) (scals P l)), <- (firstn_skipn (top kinds) (scals P l')), Hc.
    apply lex_lt_app. exact Hlt. }
  destruct Hsort as [Hnone|Hsort].
  { left. right. split; [reflexivity|].
    destruct (Hsing _ _ _ Ej (Hnone _ (nth_error_In _ _ Ea))) as [-> _].
    destruct (Hsing _ _ _ Ej' (Hnone _ (nth_error_In _ _ Ea'))) as [-> _]. exact Hlt. }
  destruct (lt_eq_lt_dec a a') as [[Haa|Haa]|Haa].
  - (* different groups *)
    assert (Hd : (snd g = [] /\ snd g' = []) \/ llt (fst g) (fst g')).
    { pose proof (nth_error_split _ _ Ea) as (G1 & G2 & EG & El). pose proof (nth_error_split _ _ Ea') as (G1' & G2' & EG' & El').
      destruct (snd g) as [|y ys] eqn:Es.
      - destruct (snd g') as [|y' ys'] eqn:Es'; [left; split; reflexivity|]. right.
        destruct (Hok G1' g' G2' EG') as [_ Hst]; [congruence|]. destruct (Hst (fst g')) as [Hb _]; [left; reflexivity|].
        apply Hb. cbn. unfold flat. apply in_flat_map. exists g. split; [|left; reflexivity].
        rewrite EG', nth_error_app1 in Ea by lia. eapply nth_error_In; exact Ea.
      - right. destruct (Hok G1 g G2 EG) as [_ Hst]; [congruence|]. destruct (Hst (fst g)) as [_ Hb]; [left; reflexivity|].
        apply Hb. unfold flat. apply in_flat_map. exists g'. split; [|left; reflexivity].
        rewrite EG, nth_error_app2 in Ea' by lia. destruct (a' - length G1) as [|z] eqn:Ez; [lia|]. cbn in Ea'. eapply nth_error_In; exact Ea'. }
    left. right. split; [reflexivity|]. destruct Hd as [[D1 D2]|Hd].
    + destruct (Hsing _ _ _ Ej D1) as [-> _]. destruct (Hsing _ _ _ Ej' D2) as [-> _]. exact Hlt.
    + apply slt_lex in Hd; [|lia].
      rewrite <- (firstn_skipn (top kinds) (scals P (fst g))), <- (firstn_skipn (top kinds) (scals P (fst g'))) in Hd.
      rewrite <- T, <- T', Hc in Hd. apply lex_lt_app in Hd. exact Hd.
  - (* the same group *)
    subst a'. assert (g' = g) by congruence. subst g'. right. split; [reflexivity|]. split; [reflexivity|].
    pose proof (nth_error_split _ _ Ea) as (G1 & G2 & EG & El).
    assert (Hdom : forall n l0, nth_error (fst g :: snd g) n = Some l0 -> forall x, mem S (pl_dom P l0) x = mem S (pl_dom P (fst g)) x).
    { intros n l0 E2 x. destruct n as [|n]; [injection E2 as <-; reflexivity|].
      assert (Hne : snd g <> []) by (intros Hz; cbn in E2; rewrite Hz in E2; destruct n; discriminate).
      destruct (Hok G1 g G2 EG Hne) as [Hj _]. destruct (Hj l0) as [_ Hj2]; [cbn in E2; eapply nth_error_In; exact E2|].
      destruct (L_lazy_equal P S L _ _ Hj2) as [_ Hq]. symmetry. apply Hq. }
    split.
    + rewrite (Hdom _ _ Ej) in Hm. rewrite (Hdom _ _ Ej') in Hm'. eapply (Hinj (fst g)); eauto.
    + destruct (Nat.lt_ge_cases j j') as [|Hge]; [assumption|]. exfalso.
      destruct (Nat.eq_dec j j') as [->|Hne]; [assert (l = l') by congruence; subst; eapply slt_irrefl; exact Hsl|].
      assert (Hle : lle l' l).
      { rewrite EG in Hsort. rewrite flat_app in Hsort. cbn in Hsort. destruct (sorted_app_inv _ _ Hsort) as (Hs2 & _ & _).
        change (StronglySorted lle ((fst g :: snd g) ++ flat G2)) in Hs2. destruct (sorted_app_inv _ _ Hs2) as (_ & _ & Hs3).
        assert (Hjj : j' < j) by lia. clear - Hs3 Ej Ej' Hjj.
        revert j j' Ej Ej' Hjj. induction (fst g :: snd g) as [|y ys IH]; intros j j' Ej Ej' Hjj; [destruct j; discriminate|].
        inversion Hs3 as [|? ? H1 H2]; subst. destruct j as [|j]; [lia|]. destruct j' as [|j'].
        - cbn in Ej, Ej'. injection Ej' as ->. rewrite Forall_forall in H2. apply H2. eapply nth_error_In; exact Ej.
        - apply (IH H1 j j'); auto. lia. }
      eapply slt_irrefl. eapply slt_sle; [exact Hsl|exact Hle].
  - (* later group: impossible *)
    exfalso. assert (Hle : lle l' l).
    { pose proof (nth_error_split _ _ Ea') as (G1' & G2' & EG' & El').
      rewrite EG' in Hsort. change (g' :: G2') with ([g'] ++ G2') in Hsort. rewrite app_assoc, flat_app in Hsort.
      destruct (sorted_app_inv _ _ Hsort) as (_ & Hq & _). apply Hq.
      - rewrite flat_app. apply in_or_app. right. cbn. rewrite app_nil_r. apply nth_error_In in Ej'. exact Ej'.
      - unfold flat. apply in_flat_map. exists g. split; [|eapply nth_error_In; exact Ej].
        rewrite EG', nth_error_app2 in Ea by lia. destruct (a - length G1') as [|z] eqn:Ez; [lia|]. cbn in Ea. eapply nth_error_In; exact Ea. }
    eapply slt_irrefl. eapply slt_sle; [exact Hsl|exact Hle].
Qed.
End S.
