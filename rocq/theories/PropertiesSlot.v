(** C65, second part: filtering, picking and sorting lists of loops in place.  Specification: [chain] of PropertiesChain.v,
    the standard [filter], and LoopModel's bubble sort on lists (whose result C10 shows to be sorted). *)
From Coq Require Import List Arith Lia Permutation.
From Verif Require Import LoopModel ChainModel SlotModel PropertiesChain.
Import ListNotations.

(** from slot [a] over the cells [l] to slot [s] *)
Fixpoint links (m : mem) (a : slot) (l : list nat) (s : slot) : Prop :=
  match l with [] => a = s | x :: l' => rd m a = Some (Some x) /\ links m (NextOf x) l' s end.
Lemma links_end m : forall l a x s, links m a (x :: l) s -> exists z, In z (x :: l) /\ s = NextOf z.
Proof.
  induction l as [|y l IH]; intros a x s [_ L]; [exists x; split; [now left|now symmetry]|]. destruct (IH _ _ _ L) as (z & I & E). exists z. split; [now right|exact E].
Qed.
Lemma rd_wr m s v : rd (wr m s v) s = Some v.
Proof. destruct s; cbn; [reflexivity|]. unfold set_next. now rewrite Nat.eqb_refl. Qed.
Lemma rd_other m s a v : a <> s -> rd (wr m s v) a = rd m a.
Proof. destruct s, a; cbn; try congruence. intros H. unfold set_next. destruct (Nat.eqb_spec x0 x); congruence. Qed.
Lemma links_wr m s v : forall l a, links m a l s -> NoDup l -> (forall x, a = NextOf x -> ~ In x l) -> links (wr m s v) a l s.
Proof.
  induction l as [|x l IH]; intros a L N A; [exact L|]. destruct (links_end m l a x s L) as (z & I & E). destruct L as [R L]. split.
  - rewrite rd_other; [exact R|]. intros ->. exact (A z E I).
  - apply IH; [exact L|now inversion N|]. intros y Ey. injection Ey as <-. now inversion N.
Qed.
Lemma links_snoc m : forall l a s x, links m a l s -> rd m s = Some (Some x) -> links m a (l ++ [x]) (NextOf x).
Proof. induction l as [|y l IH]; intros a s x L R; cbn in *; [subst; auto|]. destruct L as [R1 L]. split; [exact R1|]. now apply IH with s. Qed.
Lemma links_cell m x n : forall l a s, links m a l s -> a <> NextOf x -> ~ In x l -> links {| root := root m; cells := fun y => if Nat.eqb y x then n else cells m y |} a l s.
Proof.
  induction l as [|y l IH]; intros a s L A I; [exact L|]. destruct L as [R L]. split.
  - destruct a as [|z]; cbn in *; [exact R|]. destruct (Nat.eqb_spec z x) as [->|]; [congruence|exact R].
  - apply IH; [exact L|intros E; injection E as ->; apply I; now left|intros J; apply I; now right].
Qed.
Lemma links_chain m : forall l s p lx, links m (NextOf s) l p -> forall e, rd m p = Some e -> chain (cells m) e lx -> exists f, cells m s = Some f /\ chain (cells m) f (l ++ lx).
Proof.
  induction l as [|x l IH]; intros s p lx L e R C; cbn in L.
  - subst p. exists e. auto.
  - destruct L as [R1 L]. destruct (IH _ _ _ L e R C) as (f & Ef & Cf). exists (Some x). split; [exact R1|]. apply C_cons with f; [exact Ef|exact Cf].
Qed.
Lemma root_chain m l p lx e : links m Root l p -> rd m p = Some e -> chain (cells m) e lx -> chain (cells m) (root m) (l ++ lx).
Proof.
  destruct l as [|x l]; cbn [links app]; intros L R C; [subst p; cbn in R; injection R as ->; exact C|]. destruct L as [R1 L]. cbn in R1. injection R1 as ->.
  destruct (links_chain m l x p lx L e R C) as (f & Ef & Cf). now apply C_cons with f.
Qed.
Lemma end_rd m l s : links m Root l s -> (forall x, In x l -> cells m x <> None) -> rd m s <> None.
Proof. destruct l as [|x l]; intros L A; [cbn in L; subst; discriminate|]. destruct (links_end m l Root x s L) as (z & I & ->). exact (A z I). Qed.
Lemma chain_off h h' p l : chain h p l -> (forall x, In x l -> h' x = h x) -> chain h' p l.
Proof. induction 1 as [|p n l E C IH]; intros Q; [constructor|]. apply C_cons with n; [rewrite Q by (now left); exact E|apply IH; intros x I; apply Q; now right]. Qed.
Lemma nodup_head (k : list nat) x l : NoDup (k ++ x :: l) -> NoDup k /\ ~ In x k /\ ~ In x l /\ NoDup (k ++ l) /\ NoDup ((k ++ [x]) ++ l).
Proof.
  intros N. pose proof (NoDup_remove_1 _ _ _ N) as N1. pose proof (NoDup_remove_2 _ _ _ N) as N2. repeat split.
  - clear - N1. induction k as [|z k IH]; [constructor|]. cbn in N1. inversion N1; subst. constructor; [intros I; apply H1; apply in_or_app; now left|now apply IH].
  - intros I. apply N2. apply in_or_app. now left.
  - intros I. apply N2. apply in_or_app. now right.
  - exact N1.
  - now rewrite <- app_assoc.
Qed.
Lemma slot_not_in m k s x : links m Root k s -> ~ In x k -> s <> NextOf x.
Proof. intros L I ->. destruct k as [|y k]; [discriminate L|]. destruct (links_end m k Root y _ L) as (z & J & E). injection E as <-. contradiction. Qed.

(** The loops that are kept make the list, in their order; the others are freed; nothing else changes. *)
Theorem C65_filter :
  forall (keep : nat -> bool) (m : mem) (l : option nat) (lx : list nat) (fuel : nat), chain (cells m) l lx -> length lx <= fuel ->
  exists m', filter_loops keep fuel m Root l = Some m' /\ chain (cells m') (root m') (filter keep lx) /\
  (forall x, In x lx -> keep x = false -> cells m' x = None) /\ (forall x, ~ In x lx -> cells m' x = cells m x).
Proof.
  intros keep m l lx fuel C F.
  assert (G : forall lx fuel m s l k, links m Root k s -> (forall x, In x k -> cells m x <> None) -> chain (cells m) l lx -> NoDup (k ++ lx) -> length lx <= fuel ->
    exists m', filter_loops keep fuel m s l = Some m' /\ chain (cells m') (root m') (k ++ filter keep lx) /\
    (forall x, In x lx -> keep x = false -> cells m' x = None) /\ (forall x, ~ In x k -> ~ In x lx -> cells m' x = cells m x)).
  { clear. induction lx as [|x lx IH]; intros fuel m s l k L A C N F; inversion C as [|p n l0 E C']; subst.
    - rewrite app_nil_r in N. pose proof (end_rd m k s L A) as R. exists (wr m s None). cbn [filter_loops]. destruct fuel; cbn [filter_loops]; (destruct (rd m s); [|congruence]; split; [reflexivity|]; split;
        [apply (root_chain _ k s [] None); [apply links_wr; [exact L|exact N|discriminate]|apply rd_wr|constructor]|split; [intros x []|]; intros x I _; destruct s as [|z]; [reflexivity|]; cbn; unfold set_next; destruct (Nat.eqb_spec x z) as [->|]; [|reflexivity];
         exfalso; exact (slot_not_in m k _ z L I eq_refl)]).
    - destruct fuel as [|fuel]; [cbn in F; lia|]. destruct (nodup_head _ _ _ N) as (Nk & Ik & Il & Nl & Ns). cbn [filter_loops]. rewrite E. cbn [filter]. pose proof (end_rd m k s L A) as R. destruct (keep x) eqn:K.
      + destruct (rd m s) eqn:Rs; [|congruence]. clear R.
        assert (O : forall y, s <> NextOf y -> cells (wr m s (Some x)) y = cells m y) by (intros y Hy; destruct s as [|z]; [reflexivity|]; cbn; unfold set_next; destruct (Nat.eqb_spec y z); congruence).
        assert (OL : forall y, ~ In y k -> cells (wr m s (Some x)) y = cells m y) by (intros y Hy; apply O; now apply (slot_not_in m k)).
        destruct (IH fuel (wr m s (Some x)) (NextOf x) n (k ++ [x])) as (m' & E' & C2 & D' & F').
        * apply links_snoc with s; [apply links_wr; [exact L|exact Nk|discriminate]|apply rd_wr].
        * intros y I. apply in_app_or in I. destruct I as [I|[<-|[]]]; [|rewrite OL by exact Ik; congruence]. destruct s as [|z]; [now apply A|]. cbn. unfold set_next. destruct (Nat.eqb_spec y z); [discriminate|now apply A].
        * apply chain_off with (cells m); [exact C'|]. intros y I. apply OL. intros J. clear - N I J. revert N J. induction k as [|z k IHk]; intros N J; [destruct J|]. cbn in N. inversion N; subst. destruct J as [->|J]; [|now apply IHk]. apply H1. apply in_or_app. right. now right.
        * exact Ns.
        * cbn in F. lia.
        * exists m'. split; [exact E'|]. split; [rewrite <- app_assoc in C2; exact C2|]. split.
          -- intros y [<-|I] Ky; [congruence|now apply D'].
          -- intros y I J. rewrite F'; [apply OL; exact I| |intros Q; apply J; now right]. intros Q. apply in_app_or in Q. destruct Q as [Q|[<-|[]]]; [contradiction|]. apply J. now left.
      + destruct (IH fuel (free m x) s n k) as (m' & E' & C2 & D' & F').
        * apply (links_cell m x None); [exact L|discriminate|exact Ik].
        * intros y I. cbn. destruct (Nat.eqb_spec y x) as [->|]; [contradiction|now apply A].
        * apply chain_off with (cells m); [exact C'|]. intros y I. cbn. destruct (Nat.eqb_spec y x) as [->|]; [contradiction|reflexivity].
        * exact Nl.
        * cbn in F. lia.
        * exists m'. split; [exact E'|]. split; [exact C2|]. split.
          -- intros y [<-|I] Ky; [|now apply D']. rewrite F' by assumption. cbn. now rewrite Nat.eqb_refl.
          -- intros y I J. rewrite F' by (try exact I; intros Q; apply J; now right). cbn. destruct (Nat.eqb_spec y x) as [->|]; [exfalso; apply J; now left|reflexivity]. }
  destruct (G lx fuel m Root l [] eq_refl ltac:(intros x []) C (chain_nodup _ _ _ C) F) as (m' & E & C2 & D & Fr). exists m'. split; [exact E|]. split; [exact C2|]. split; [exact D|]. intros x I. apply Fr; [intros []|exact I].
Qed.
Print Assumptions C65_filter.

(** Picking loops by an array makes the list of them in the order of the array, whatever they pointed to before. *)
Theorem C65_extract :
  forall (m : mem) (loops : list nat), NoDup loops -> (forall x, In x loops -> cells m x <> None) ->
  exists m', extract m Root loops = Some m' /\ chain (cells m') (root m') loops /\ (forall x, ~ In x loops -> cells m' x = cells m x).
Proof.
  intros m loops D S.
  assert (G : forall xs m s k, links m Root k s -> (forall x, In x (k ++ xs) -> cells m x <> None) -> NoDup (k ++ xs) ->
    exists m', extract m s xs = Some m' /\ chain (cells m') (root m') (k ++ xs) /\ (forall x, ~ In x (k ++ xs) -> cells m' x = cells m x)).
  { clear. induction xs as [|x xs IH]; intros m s k L A N; cbn [extract].
    - rewrite app_nil_r in *. pose proof (end_rd m k s L A) as R. destruct (rd m s) eqn:Rs; [|congruence]. exists (wr m s None). split; [reflexivity|]. split.
      + pose proof (root_chain (wr m s None) k s [] None (links_wr m s None k Root L N ltac:(discriminate)) (rd_wr _ _ _) (C_nil _)) as Q. now rewrite app_nil_r in Q.
      + intros x I. destruct s as [|z]; [reflexivity|]. cbn. unfold set_next. destruct (Nat.eqb_spec x z) as [->|]; [|reflexivity]. exfalso. exact (slot_not_in m k _ z L I eq_refl).
    - destruct (nodup_head _ _ _ N) as (Nk & Ik & Il & Nl & Ns). assert (Ak : forall y, In y k -> cells m y <> None) by (intros y I; apply A; apply in_or_app; now left).
      pose proof (end_rd m k s L Ak) as R. destruct (rd m s) eqn:Rs; [|congruence].
      replace (k ++ x :: xs) with ((k ++ [x]) ++ xs) in * by (rewrite <- app_assoc; reflexivity).
      destruct (IH (wr m s (Some x)) (NextOf x) (k ++ [x])) as (m' & E & C & Fr); [| |exact N|].
      + apply links_snoc with s; [apply links_wr; [exact L|exact Nk|discriminate]|apply rd_wr].
      + intros y I. destruct s as [|z]; [now apply A|]. cbn. unfold set_next. destruct (Nat.eqb_spec y z); [discriminate|now apply A].
      + exists m'. split; [exact E|]. split; [exact C|]. intros y I. rewrite Fr by exact I. destruct s as [|z]; [reflexivity|]. cbn. unfold set_next. destruct (Nat.eqb_spec y z) as [->|]; [|reflexivity].
        exfalso. apply (slot_not_in m k _ z L); [|reflexivity]. intros J. apply I. apply in_or_app. left. apply in_or_app. now left. }
  exact (G loops m Root [] eq_refl S D).
Qed.
Print Assumptions C65_extract.

(** Sorting by swapping neighbours in place is LoopModel's bubble sort of the list of loops: it ends after as many rounds, with the
    same order, and links no other loop. *)
Lemma pass_spec gt : forall l fuel m s k x again, links m Root k s -> rd m s = Some (Some x) -> chain (cells m) (Some x) (x :: l) -> NoDup (k ++ x :: l) -> length l < fuel ->
  exists m', pass gt fuel m s again = Some (m', (again || snd (bubble gt x l))%bool) /\ chain (cells m') (root m') (k ++ fst (bubble gt x l)) /\ (forall z, ~ In z (k ++ x :: l) -> cells m' z = cells m z).
Proof.
  induction l as [|y l IH]; intros fuel m s k x again L R C N F; (destruct fuel as [|fuel]; [cbn in F; lia|]); cbn [pass bubble]; rewrite R; inversion C as [|p n l0 E C']; subst.
  - inversion C'; subst. rewrite E. exists m. rewrite Bool.orb_false_r. split; [reflexivity|]. split; [|reflexivity]. exact (root_chain m k s [x] (Some x) L R C).
  - inversion C' as [|p n' l0 Ey C2]; subst. rewrite E.
    destruct (nodup_head _ _ _ N) as (Nk & Ik & Il & Nl & Ns). destruct (nodup_head (k ++ [x]) y l Ns) as (_ & Iy & Iyl & Nyl & _).
    assert (xy : x <> y) by (intros ->; apply Il; now left). assert (yk : ~ In y k) by (intros I; apply Iy; apply in_or_app; now left).
    assert (xl : ~ In x l) by (intros I; apply Il; now right).
    destruct (gt x y) eqn:G.
    + rewrite Ey. set (m1 := wr (wr m (NextOf x) n') (NextOf y) (Some x)). set (m2 := wr m1 s (Some y)).
      pose proof (slot_not_in m k s x L Ik) as sx. pose proof (slot_not_in m k s y L yk) as sy.
      assert (L1 : links m1 Root k s).
      { unfold m1. cbn [wr root cells]. assert (Q : forall mm z v, links mm Root k s -> ~ In z k -> links {| root := root mm; cells := set_next (cells mm) z v |} Root k s) by (intros mm z v Hl Hi; exact (links_cell mm z (Some v) k Root s Hl ltac:(discriminate) Hi)).
        apply (Q {| root := root m; cells := set_next (cells m) x n' |} y (Some x)); [|exact yk]. now apply Q. }
      assert (O : forall z, s <> NextOf z -> z <> x -> z <> y -> cells m2 z = cells m z).
      { intros z H1 H2 H3. change (cells m2 z) with (rd m2 (NextOf z)). unfold m2. rewrite rd_other by congruence. unfold m1. rewrite !rd_other by congruence. reflexivity. }
      assert (Ox : rd m2 (NextOf x) = Some n') by (unfold m2; rewrite rd_other by congruence; unfold m1; rewrite rd_other by congruence; apply rd_wr).
      assert (Oy : rd m2 (NextOf y) = Some (Some x)) by (unfold m2; rewrite rd_other by congruence; apply rd_wr).
      assert (Cx : chain (cells m2) (Some x) (x :: l)).
      { apply C_cons with n'; [exact Ox|]. apply chain_off with (cells m); [exact C2|]. intros z I. apply O; [|intros ->; contradiction|intros ->; contradiction].
        apply (slot_not_in m k s z L). intros J. clear - N I J. revert N J. induction k as [|w k IHk]; intros N J; [destruct J|]. cbn in N. inversion N; subst. destruct J as [->|J]; [|now apply IHk]. apply H1. apply in_or_app. right. right. now right. }
      destruct (IH fuel m2 (NextOf y) (k ++ [y]) x true) as (m' & P & Cm & Fr).
      * apply links_snoc with s; [apply links_wr; [exact L1|exact Nk|discriminate]|apply rd_wr].
      * exact Oy.
      * exact Cx.
      * rewrite <- app_assoc. cbn [app]. apply (Permutation_NoDup (l := k ++ x :: y :: l)); [apply Permutation_app_head; constructor|exact N].
      * cbn in F. lia.
      * exists m'. destruct (bubble gt x l) as [l' b]. cbn [fst snd] in *. rewrite Bool.orb_true_r. split; [exact P|]. split; [rewrite <- app_assoc in Cm; exact Cm|].
        intros z I. assert (I' : ~ In z ((k ++ [y]) ++ x :: l)). { rewrite <- app_assoc. intros J. apply I. apply in_app_or in J. apply in_or_app. destruct J as [J|[J|[J|J]]]; [now left|right; right; now left|right; now left|right; right; now right]. }
        rewrite Fr by exact I'. apply O; [|intros ->; apply I; apply in_or_app; right; now left|intros ->; apply I; apply in_or_app; right; right; now left]. apply (slot_not_in m k s z L). intros J. apply I. apply in_or_app. now left.
    + destruct (IH fuel m (NextOf x) (k ++ [x]) y again) as (m' & P & Cm & Fr).
      * now apply links_snoc with s.
      * exact E.
      * exact C'.
      * now rewrite <- app_assoc.
      * cbn in F. lia.
      * exists m'. destruct (bubble gt y l) as [l' b]. cbn [fst snd] in *. split; [exact P|]. split; [rewrite <- app_assoc in Cm; exact Cm|]. intros z I. apply Fr. now rewrite <- app_assoc.
Qed.
Lemma bubble_perm (gt : nat -> nat -> bool) : forall l x, Permutation (x :: l) (fst (bubble gt x l)).
Proof.
  induction l as [|y l IH]; intros x; cbn [bubble]; [reflexivity|]. destruct (gt x y).
  - specialize (IH x). destruct (bubble gt x l) as [l' b]. cbn [fst] in *. rewrite perm_swap. now constructor.
  - specialize (IH y). destruct (bubble gt y l) as [l' b]. cbn [fst] in *. now constructor.
Qed.
Theorem C65_sort_in_place :
  forall (gt : nat -> nat -> bool) (rounds : nat) (l l' : list nat) (m : mem) (fuel : nat), l <> [] -> chain (cells m) (root m) l -> length l <= fuel ->
  bubble_sort rounds gt l = Some l' ->
  exists m', sort_loops gt rounds fuel m = Some m' /\ chain (cells m') (root m') l' /\ (forall x, ~ In x l -> cells m' x = cells m x).
Proof.
  intros gt. induction rounds as [|rounds IH]; intros l l' m fuel NE C F E; cbn [bubble_sort] in E; [discriminate E|]. destruct l as [|x l]; [congruence|]. cbn [sort_loops].
  pose proof (chain_nodup _ _ _ C) as N. inversion C as [|p n l0 Ex C' Er]; subst.
  assert (C0 : chain (cells m) (Some x) (x :: l)) by (rewrite Er; exact C).
  destruct (pass_spec gt l fuel m Root [] x false eq_refl ltac:(cbn; now rewrite <- Er) C0 N ltac:(cbn in F; lia)) as (m1 & P & C1 & Fr).
  cbn [orb app] in *. rewrite P. pose proof (bubble_perm gt l x) as Q. destruct (bubble gt x l) as [l1 b]. cbn [fst snd] in *. destruct b.
  - destruct (IH l1 l' m1 fuel) as (m' & S & C2 & Fr2); [intros ->; apply Permutation_sym, Permutation_nil in Q; discriminate Q|exact C1|rewrite <- (Permutation_length Q); exact F|exact E|].
    exists m'. split; [exact S|]. split; [exact C2|]. intros z I. rewrite Fr2; [now apply Fr|]. intros J. apply I. apply (Permutation_in _ (Permutation_sym Q) J).
  - injection E as <-. exists m1. auto.
Qed.
Print Assumptions C65_sort_in_place.

Definition m65 : mem := {| root := Some 1; cells := fun x => match x with 1 => Some (Some 2) | 2 => Some (Some 3) | 3 => Some (Some 4) | 4 => Some None | _ => None end |}.
Example C65_slot_example :
  chain (cells m65) (root m65) [1; 2; 3; 4] /\
  (exists m', filter_loops Nat.even 4 m65 Root (Some 1) = Some m' /\ chain (cells m') (root m') [2; 4] /\ cells m' 3 = None) /\
  (exists m', extract m65 Root [3; 1] = Some m' /\ chain (cells m') (root m') [3; 1]) /\
  (exists m', sort_loops (fun a b => Nat.ltb a b) 5 4 m65 = Some m' /\ chain (cells m') (root m') [4; 3; 2; 1]) /\ bubble_sort 5 (fun a b => Nat.ltb a b) [1; 2; 3; 4] = Some [4; 3; 2; 1].
Proof.
  split; [repeat econstructor|]. split; [eexists; split; [reflexivity|split; [repeat econstructor|reflexivity]]|]. split; [eexists; split; [reflexivity|repeat econstructor]|].
  split; [eexists; split; [reflexivity|repeat econstructor]|reflexivity].
Qed.
