(** C65: joining and growing lists of loops is joining lists. *)
From Coq Require Import List Arith Lia.
From Verif Require Import ChainModel.
Import ListNotations.

(** [p] is the head of a list made of the cells [l], in this order *)
Inductive chain (h : heap) : option nat -> list nat -> Prop :=
| C_nil : chain h None []
| C_cons p n l : h p = Some n -> chain h n l -> chain h (Some p) (p :: l).
Definition apart (l l' : list nat) : Prop := forall x, In x l -> ~ In x l'.

Lemma chain_same h p l : chain h p l -> forall l', chain h p l' -> l = l'.
Proof. induction 1 as [|p n l E C IH]; intros l' C'; inversion C'; subst; [reflexivity|]. f_equal. apply IH. congruence. Qed.
Lemma chain_from h p l : chain h p l -> forall x, In x l -> exists l1 l2, l = l1 ++ x :: l2 /\ chain h (Some x) (x :: l2).
Proof.
  induction 1 as [|p n l E C IH]; intros x I; [destruct I|]. destruct I as [->|I]; [exists [], l; split; [reflexivity|econstructor; eauto]|].
  destruct (IH x I) as (l1 & l2 & -> & C2). exists (p :: l1), l2. auto.
Qed.
(** lists have no cell twice *)
Lemma chain_nodup h p l : chain h p l -> NoDup l.
Proof.
  induction 1 as [|p n l E C IH]; constructor; [|exact IH]. intros I. destruct (chain_from h n l C p I) as (l1 & l2 & -> & C2).
  assert (Q : chain h (Some p) (p :: l1 ++ p :: l2)) by (econstructor; eauto). pose proof (chain_same _ _ _ C2 _ Q) as R. apply (f_equal (@length nat)) in R. cbn in R. rewrite app_length in R. cbn in R. lia.
Qed.
Lemma chain_frame h x n p l : chain h p l -> ~ In x l -> chain (set_next h x n) p l.
Proof.
  induction 1 as [|p m l E C IH]; intros I; [constructor|]. apply C_cons with m; [|apply IH; intros J; apply I; now right].
  unfold set_next. destruct (Nat.eqb_spec p x) as [->|]; [exfalso; apply I; now left|exact E].
Qed.
Lemma last_chain h : forall l p a fuel, chain h (Some p) (l ++ [a]) -> length l < fuel -> last_cell fuel h p = Some a /\ h a = Some None.
Proof.
  induction l as [|x l IH]; intros p a [|fuel] C F; try (cbn in F; lia); cbn [app] in C; inversion C as [|p0 n l0 E C']; subst; cbn [last_cell]; rewrite E.
  - inversion C'; subst. auto.
  - destruct n as [q|]; [|inversion C'; destruct l; discriminate]. apply IH; [exact C'|cbn in F; lia].
Qed.
Lemma link h : forall l p a b lb, chain h p (l ++ [a]) -> chain h b lb -> apart (l ++ [a]) lb -> chain (set_next h a b) p (l ++ a :: lb).
Proof.
  intros l p a b lb C B D. pose proof (chain_nodup _ _ _ C) as N. revert p C. induction l as [|x l IH]; intros p C; cbn [app] in *; inversion C as [|p0 n l0 E C']; subst.
  - apply C_cons with b; [unfold set_next; now rewrite Nat.eqb_refl|]. apply chain_frame; [exact B|]. apply D. now left.
  - apply C_cons with n.
    + unfold set_next. destruct (Nat.eqb_spec x a) as [->|]; [|exact E]. exfalso. inversion N; subst. apply H1. apply in_or_app. right. now left.
    + apply IH; [intros y I; apply D; now right|now inversion N|exact C'].
Qed.

(** Joining two lists that share no cell gives the list of all their cells, in order; the while loop ends; no other cell is
    changed, and so no list that shares no cell with the first. *)
Theorem C65_concat :
  forall (h : heap) (a b : option nat) (la lb : list nat) (fuel : nat),
  chain h a la -> chain h b lb -> apart la lb -> length la <= fuel ->
  exists h' p, loop_concat fuel h a b = Some (h', p) /\ chain h' p (la ++ lb) /\ (forall x, ~ In x la -> h' x = h x) /\
  (forall q l, chain h q l -> apart la l -> chain h' q l).
Proof.
  intros h a b la lb fuel A B D F. destruct la as [|x la].
  - inversion A; subst. exists h, b. repeat split; auto.
  - destruct (exists_last (l := x :: la)) as (l & t & E); [discriminate|]. rewrite E in *. destruct a as [p|]; [|inversion A; destruct l; discriminate].
    rewrite app_length in F. cbn in F. destruct (last_chain h l p t fuel A ltac:(lia)) as [L _]. exists (set_next h t b), (Some p). cbn [loop_concat]. rewrite L. split; [reflexivity|].
    split; [rewrite <- app_assoc; now apply link|]. assert (T : In t (l ++ [t])) by (apply in_or_app; right; now left). split.
    + intros y I. unfold set_next. destruct (Nat.eqb_spec y t) as [->|]; [contradiction|reflexivity].
    + intros q m C P. apply chain_frame; [exact C|]. now apply P.
Qed.
Print Assumptions C65_concat.

(** the last cell of a list *)
Definition is_last (now : option nat) (l : list nat) : Prop := match l with [] => True | _ => exists l' t, l = l' ++ [t] /\ now = Some t end.

(** Adding a list at the end: with now at the last cell, the cells of the added list follow, and now is at its first cell
    (cloog_loop_add) or at its last one (cloog_loop_add_list). *)
Theorem C65_add :
  forall (h : heap) (start now loop : option nat) (l lx : list nat) (fuel : nat),
  chain h start l -> is_last now l -> chain h loop lx -> lx <> [] -> apart l lx -> length lx <= fuel ->
  exists h' start', loop_add h start now loop = Some (h', start', loop) /\ chain h' start' (l ++ lx) /\ (forall x, ~ In x l -> h' x = h x) /\
  exists now', loop_add_list fuel h start now loop = Some (h', start', now') /\ is_last now' (l ++ lx).
Proof.
  intros h start now loop l lx fuel A N B NE D F. destruct (exists_last NE) as (m & t & ->). rewrite app_length in F. cbn in F.
  destruct loop as [p|]; [|inversion B; destruct m; discriminate].
  assert (LL : forall l0 : list nat, is_last (Some t) (l0 ++ m ++ [t])) by (intros l0; unfold is_last; destruct (l0 ++ m ++ [t]) eqn:E; [exact I|]; rewrite <- E; exists (l0 ++ m), t; now rewrite app_assoc).
  destruct l as [|x l].
  - inversion A; subst. exists h, (Some p). split; [reflexivity|]. split; [exact B|]. split; [reflexivity|]. exists (Some t). unfold loop_add_list. cbn [loop_add].
    rewrite (proj1 (last_chain h m p t fuel B ltac:(lia))). split; [reflexivity|]. exact (LL []).
  - destruct N as (l' & y & E & ->). rewrite E in *. destruct start as [s|]; [|inversion A; destruct l'; discriminate].
    pose proof (link h l' (Some s) y (Some p) _ A B D) as C. assert (HY : In y (l' ++ [y])) by (apply in_or_app; right; now left).
    destruct (last_chain h l' s y (S (length l')) A ltac:(lia)) as [_ HN]. exists (set_next h y (Some p)), (Some s). unfold loop_add_list. cbn [loop_add]. rewrite HN. split; [reflexivity|].
    split; [rewrite <- app_assoc; exact C|]. split; [intros z I; unfold set_next; destruct (Nat.eqb_spec z y) as [->|]; [contradiction|reflexivity]|].
    exists (Some t). assert (B' : chain (set_next h y (Some p)) (Some p) (m ++ [t])) by (apply chain_frame; [exact B|]; now apply D).
    rewrite (proj1 (last_chain _ m p t fuel B' ltac:(lia))). split; [reflexivity|]. apply LL.
Qed.
Print Assumptions C65_add.

(** Adding single loops one after the other to an empty list gives the list of them, in order. *)
Fixpoint add_all (h : heap) (start now : option nat) (xs : list nat) : option (heap * option nat * option nat) :=
  match xs with
  | [] => Some (h, start, now)
  | x :: xs' => match loop_add h start now (Some x) with Some (h', s, n) => add_all h' s n xs' | None => None end
  end.
Theorem C65_build :
  forall (h : heap) (xs : list nat), NoDup xs -> (forall x, In x xs -> h x = Some None) ->
  exists h' p now, add_all h None None xs = Some (h', p, now) /\ chain h' p xs.
Proof.
  intros h xs. assert (G : forall xs h start now l, chain h start l -> is_last now l -> NoDup (l ++ xs) -> (forall x, In x xs -> h x = Some None) -> exists h' p n, add_all h start now xs = Some (h', p, n) /\ chain h' p (l ++ xs)).
  { clear. induction xs as [|x xs IH]; intros h start now l A N D S; cbn [add_all]; [exists h, start, now; rewrite app_nil_r; auto|].
    assert (B : chain h (Some x) [x]) by (apply C_cons with None; [apply S; now left|constructor]).
    assert (P : apart l [x]) by (intros y I [<-|[]]; apply NoDup_remove_2 in D; apply D; apply in_or_app; now left).
    destruct (C65_add h start now (Some x) l [x] 1 A N B ltac:(discriminate) P ltac:(cbn; lia)) as (h' & s' & E & C & Fr & _). rewrite E.
    replace (l ++ x :: xs) with ((l ++ [x]) ++ xs) in * by (rewrite <- app_assoc; reflexivity).
    apply IH; [exact C| |exact D|].
    - unfold is_last. destruct (l ++ [x]) eqn:EE; [exact I|]. rewrite <- EE. eauto.
    - intros y I. rewrite Fr; [apply S; now right|]. intros J. clear - D I J. rewrite <- app_assoc in D. revert D. induction l as [|z l IH]; [destruct J|]. cbn. intros D. inversion D; subst. destruct J as [->|J]; [|now apply IH]. apply H1. apply in_or_app. right. now right. }
  intros D S. apply (G xs h None None [] (C_nil h) I D S).
Qed.
Print Assumptions C65_build.

(** Adding the loops of a list one by one, without cutting them apart first, appends the list. *)
Lemma chain_ext h h' p l : (forall x, h' x = h x) -> chain h p l -> chain h' p l.
Proof. intros E. induction 1 as [|p n l H C IH]; [constructor|]. apply C_cons with n; [now rewrite E|exact IH]. Qed.
Lemma walk : forall rest fuel h start now l d, chain h l rest -> h now = Some l -> length rest <= fuel ->
  exists h' n', add_each fuel h (Some start) (Some now) l = Some (h', Some start, Some n') /\ (forall x, h' x = h x) /\ exists d', d ++ now :: rest = d' ++ [n'].
Proof.
  induction rest as [|y rest IH]; intros fuel h start now l d C N F; inversion C as [|p n l0 E C']; subst.
  - exists h, now. split; [destruct fuel; reflexivity|]. split; [reflexivity|]. now exists d.
  - destruct fuel as [|fuel]; [cbn in F; lia|]. cbn [add_each loop_add]. rewrite N.
    assert (X : forall x, set_next h now (Some y) x = h x) by (intros x; unfold set_next; destruct (Nat.eqb_spec x now) as [->|]; congruence). rewrite X, E.
    destruct (IH fuel (set_next h now (Some y)) start y n (d ++ [now]) (chain_ext _ _ _ _ X C') ltac:(rewrite X; exact E) ltac:(cbn in F; lia)) as (h' & n' & R & X' & d' & D').
    exists h', n'. split; [exact R|]. split; [intros x; now rewrite X', X|]. exists d'. rewrite <- D', <- app_assoc. reflexivity.
Qed.
Theorem C65_add_each :
  forall (h : heap) (start now l : option nat) (ls lx : list nat) (fuel : nat),
  chain h start ls -> is_last now ls -> chain h l lx -> apart ls lx -> length lx <= fuel ->
  exists h' start' now', add_each fuel h start now l = Some (h', start', now') /\ chain h' start' (ls ++ lx) /\ is_last now' (ls ++ lx) /\
  (forall x, ~ In x ls -> h' x = h x).
Proof.
  intros h start now l ls lx fuel A N B D F. destruct lx as [|x lx].
  - inversion B; subst. exists h, start, now. rewrite app_nil_r. split; [destruct fuel; reflexivity|auto].
  - destruct (C65_add h start now l ls (x :: lx) (length (x :: lx)) A N B ltac:(discriminate) D ltac:(lia)) as (h1 & s1 & E & C & Fr & _).
    inversion B as [|p n l0 Ex C']; subst. destruct fuel as [|fuel]; [cbn in F; lia|]. cbn [add_each]. rewrite E.
    assert (NX : ~ In x ls) by (intros I; apply (D x I); now left). rewrite (Fr x NX), Ex.
    assert (C1 : chain h1 n lx). { clear - C' Fr D. assert (Q : forall y, In y lx -> h1 y = h y) by (intros y I; apply Fr; intros J; apply (D y J); now right). clear D Fr.
      induction C' as [|p m l Hm Cm IH]; [constructor|]. apply C_cons with m; [rewrite Q by (now left); exact Hm|apply IH; intros y I; apply Q; now right]. }
    destruct s1 as [s1|]; [|inversion C; destruct ls; discriminate].
    destruct (walk lx fuel h1 s1 x n ls C1 ltac:(rewrite (Fr x NX); exact Ex) ltac:(cbn in F; lia)) as (h' & n' & R & X & d' & Dd).
    exists h', (Some s1), (Some n'). split; [exact R|]. split; [now apply (chain_ext h1)|]. split.
    + unfold is_last. destruct (ls ++ x :: lx) eqn:EE; [exact I|]. exists d', n'. split; [exact Dd|reflexivity].
    + intros y I. rewrite X. now apply Fr.
Qed.
Print Assumptions C65_add_each.

(** 1 -> 2 and 3 -> 4 are joined; after cloog_loop_add of a list of two loops, the next loop added replaces the second one, after
    cloog_loop_add_list it follows *)
Definition h65 : heap := fun x => match x with 1 => Some (Some 2) | 2 => Some None | 3 => Some (Some 4) | 4 => Some None | 5 => Some None | _ => None end.
Example C65_example :
  chain h65 (Some 1) [1; 2] /\ chain h65 (Some 3) [3; 4] /\ apart [1; 2] [3; 4] /\ is_last (Some 2) [1; 2] /\
  (exists h', loop_concat 2 h65 (Some 1) (Some 3) = Some (h', Some 1) /\ chain h' (Some 1) [1; 2; 3; 4]) /\
  (exists h1 h2, loop_add h65 (Some 1) (Some 2) (Some 3) = Some (h1, Some 1, Some 3) /\ loop_add h1 (Some 1) (Some 3) (Some 5) = Some (h2, Some 1, Some 5) /\ chain h2 (Some 1) [1; 2; 3; 5]) /\
  (exists h1 h2, loop_add_list 2 h65 (Some 1) (Some 2) (Some 3) = Some (h1, Some 1, Some 4) /\ loop_add h1 (Some 1) (Some 4) (Some 5) = Some (h2, Some 1, Some 5) /\ chain h2 (Some 1) [1; 2; 3; 4; 5]) /\
  (exists h1, add_each 2 h65 (Some 1) (Some 2) (Some 3) = Some (h1, Some 1, Some 4) /\ chain h1 (Some 1) [1; 2; 3; 4]).
Proof.
  split; [repeat econstructor|]. split; [repeat econstructor|]. split; [intros x [<-|[<-|[]]] [H|[H|[]]]; discriminate|]. split; [exists [1], 2; split; reflexivity|].
  split; [eexists; split; [reflexivity|repeat econstructor]|]. split; [|split; [|eexists; split; [reflexivity|repeat econstructor]]]; (do 2 eexists; split; [reflexivity|]; split; [reflexivity|repeat econstructor]).
Qed.

(** Sorting relinks the loops: whatever they pointed to before, the list has exactly the given order afterwards. *)
Theorem C65_rebuild :
  forall (h : heap) (order : list nat), NoDup order -> (forall x, In x order -> h x <> None) ->
  exists h' p now, rebuild h None None order = Some (h', p, now) /\ chain h' p order /\ (forall x, ~ In x order -> h' x = h x).
Proof.
  intros h order. assert (G : forall xs h start now l, chain h start l -> is_last now l -> NoDup (l ++ xs) -> (forall x, In x xs -> h x <> None) ->
    exists h' p n, rebuild h start now xs = Some (h', p, n) /\ chain h' p (l ++ xs) /\ (forall x, ~ In x (l ++ xs) -> h' x = h x)).
  { clear. induction xs as [|x xs IH]; intros h start now l A N D S; cbn [rebuild]; [exists h, start, now; rewrite app_nil_r; auto|].
    destruct (h x) as [v|] eqn:Ex; [|exfalso; exact (S x (or_introl eq_refl) Ex)]. set (h0 := set_next h x None).
    assert (NX : ~ In x l) by (intros I; apply NoDup_remove_2 in D; apply D; apply in_or_app; now left).
    assert (B : chain h0 (Some x) [x]) by (apply C_cons with None; [unfold h0, set_next; now rewrite Nat.eqb_refl|constructor]).
    assert (P : apart l [x]) by (intros y I [<-|[]]; contradiction).
    destruct (C65_add h0 start now (Some x) l [x] 1 (chain_frame h x None start l A NX) N B ltac:(discriminate) P ltac:(cbn; lia)) as (h' & s' & E & C & Fr & _). rewrite E.
    replace (l ++ x :: xs) with ((l ++ [x]) ++ xs) in * by (rewrite <- app_assoc; reflexivity).
    assert (K : forall y, ~ In y (l ++ [x]) -> h' y = h y). { intros y I. rewrite Fr by (intros J; apply I; apply in_or_app; now left). unfold h0, set_next. destruct (Nat.eqb_spec y x) as [->|]; [exfalso; apply I; apply in_or_app; right; now left|reflexivity]. }
    destruct (IH h' s' (Some x) (l ++ [x]) C) as (h2 & p & n & R & C2 & K2); [|exact D| |].
    - unfold is_last. destruct (l ++ [x]) eqn:EE; [exact I|]. rewrite <- EE. eauto.
    - intros y I. rewrite K; [apply S; now right|]. intros J. clear - D I J. revert D J. generalize (l ++ [x]) as m. induction m as [|z m IHm]; intros D J; [destruct J|]. cbn in D. inversion D; subst. destruct J as [->|J]; [|now apply IHm]. apply H1. apply in_or_app. now right.
    - exists h2, p, n. split; [exact R|]. split; [exact C2|]. intros y I. rewrite K2 by exact I. apply K. intros J. apply I. apply in_or_app. now left. }
  intros D S. exact (G order h None None [] (C_nil h) I D S).
Qed.
Print Assumptions C65_rebuild.
Example C65_rebuild_example : exists h', rebuild h65 None None [4; 1; 3; 2] = Some (h', Some 4, Some 2) /\ chain h' (Some 4) [4; 1; 3; 2].
Proof. eexists. split; [reflexivity|repeat econstructor]. Qed.

(** The number of loops counted is the length of the list, and an array of so many entries is filled with exactly its loops, in
    order; with one entry more, NULL would be followed. *)
Theorem C65_count :
  forall (h : heap) (l : option nat) (lx : list nat), chain h l lx ->
  (forall fuel, length lx <= fuel -> loop_count fuel h l = Some (length lx)) /\ fill_array (length lx) h l = Some lx /\ fill_array (S (length lx)) h l = None.
Proof.
  induction 1 as [|p n l E C (A & B & D)]; [split; [intros [|fuel] _; reflexivity|split; reflexivity]|]. split; [|split].
  - intros [|fuel] F; cbn in F; [lia|]. cbn [loop_count]. rewrite E, A by lia. reflexivity.
  - cbn [length fill_array]. rewrite E, B. reflexivity.
  - cbn [length] in *. remember (S (length l)) as k. cbn [fill_array]. rewrite E, D. reflexivity.
Qed.
Print Assumptions C65_count.
Example C65_count_example : loop_count 2 h65 (Some 3) = Some 2 /\ fill_array 2 h65 (Some 3) = Some [3; 4] /\ fill_array 3 h65 (Some 3) = None.
Proof. repeat split. Qed.
