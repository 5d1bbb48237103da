(** C65, third part: combining neighbours in place, and sorting. *)
From Coq Require Import List Arith Lia Permutation.
From Verif Require Import ChainModel CombineModel PropertiesChain.
Import ListNotations.

(** [p] is the head of a list of loops with the inner lists given; [cells_of]: all their cells *)
Fixpoint nests (h : heap) (i : inners) (p : option nat) (l : list (nat * list nat)) : Prop :=
  match l with [] => p = None | (x, is) :: l' => p = Some x /\ chain h (i x) is /\ exists n, h x = Some n /\ nests h i n l' end.
Definition cells_of (l : list (nat * list nat)) : list nat := flat_map (fun c => fst c :: snd c) l.
(** on lists: a loop takes the inner loops of those that follow it and are the same *)
Fixpoint combined (same : nat -> nat -> bool) (x : nat) (is : list nat) (l : list (nat * list nat)) : list (nat * list nat) :=
  match l with
  | [] => [(x, is)]
  | (y, js) :: l' => if same x y then combined same x (is ++ js) l' else (x, is) :: combined same y js l'
  end.

Lemma chain_off h h' p l : chain h p l -> (forall x, In x l -> h' x = h x) -> chain h' p l.
Proof. induction 1 as [|p n l E C IH]; intros Q; [constructor|]. apply C_cons with n; [rewrite Q by (now left); exact E|apply IH; intros x I; apply Q; now right]. Qed.
Lemma nests_off h h' i i' : forall l p, nests h i p l -> (forall x, In x (cells_of l) -> h' x = h x) -> (forall x, In x (cells_of l) -> i' x = i x) -> nests h' i' p l.
Proof.
  induction l as [|[x is] l IH]; intros p N Q R; cbn [nests] in *; [exact N|]. destruct N as (-> & C & n & E & N). split; [reflexivity|]. cbn [cells_of flat_map fst snd app] in Q, R. split.
  - rewrite R by (now left). apply chain_off with h; [exact C|]. intros y I. apply Q. right. apply in_or_app. now left.
  - exists n. split; [rewrite Q by (now left); exact E|]. apply IH; [exact N| |]; intros y I; [apply Q|apply R]; right; apply in_or_app; now right.
Qed.
Lemma nodup_parts (a b : list nat) : NoDup (a ++ b) -> NoDup a /\ NoDup b /\ apart a b.
Proof.
  induction a as [|x a IH]; cbn; intros N; [split; [constructor|split; [exact N|intros x []]]|]. inversion N; subst. destruct (IH H2) as (A & B & D). split; [|split; [exact B|]].
  - constructor; [intros I; apply H1; apply in_or_app; now left|exact A].
  - intros y [<-|I] J; [apply H1; apply in_or_app; now right|exact (D y I J)].
Qed.

(** The loops that remain have all inner lists, in order; no inner loop is lost or copied; no other memory is touched; the
    cells of the loops that were absorbed, and no others, are given back. *)
Theorem C65_combine :
  forall (same : nat -> nat -> bool) (h : heap) (i : inners) (x : nat) (is : list nat) (l : list (nat * list nat)) (walks fuel : nat),
  nests h i (Some x) ((x, is) :: l) -> NoDup (cells_of ((x, is) :: l)) -> length l < fuel -> length (cells_of ((x, is) :: l)) <= walks ->
  exists h' i', loop_combine same walks fuel h i x = Some (h', i') /\ nests h' i' (Some x) (combined same x is l) /\
  (forall z, ~ In z (cells_of ((x, is) :: l)) -> h' z = h z /\ i' z = i z) /\
  (forall z, In z (map fst ((x, is) :: l)) -> ~ In z (map fst (combined same x is l)) -> h' z = None).
Proof.
  intros same h i x is l walks fuel. revert fuel h i x is. induction l as [|[y js] l IH]; intros fuel h i x is N D F W; (destruct fuel as [|fuel]; [cbn in F; lia|]).
  - cbn [nests] in N. destruct N as (_ & C & n & E & ->). exists h, i. cbn [loop_combine combined]. rewrite E. split; [reflexivity|]. split; [cbn [nests]; eauto|]. split; [auto|]. intros z I J. contradiction.
  - cbn [nests] in N. destruct N as (_ & C & n & E & Ey & Cy & m & Em & N). subst n. cbn [loop_combine combined]. rewrite E. cbn [length] in F.
    cbn [cells_of flat_map fst snd app] in D, W. fold (cells_of l) in D, W. inversion D as [|? ? Dx D1]; subst. destruct (nodup_parts _ _ D1) as (Dis & D2 & Aisl). inversion D2 as [|? ? Dy D3]; subst. destruct (nodup_parts _ _ D3) as (Djs & Dl & Ajl).
    assert (xy : x <> y) by (intros ->; apply Dx; apply in_or_app; right; now left).
    destruct (same x y) eqn:S.
    + assert (Aij : apart is js) by (intros z I J; apply (Aisl z I); right; apply in_or_app; now left).
      destruct (C65_concat h (i x) (i y) is js walks C Cy Aij) as (h1 & p & P & C1 & Fr & _); [cbn in W; rewrite app_length in W; lia|]. rewrite P.
      assert (yis : ~ In y is) by (intros I; apply (Aisl y I); now left). rewrite (Fr y yis), Em.
      set (h2 := free_cell (set_next h1 x m) y). set (i2 := set_inner i x p).
      assert (O : forall z, z <> x -> z <> y -> h2 z = h1 z) by (intros z Hx Hy; unfold h2, free_cell, set_next; destruct (Nat.eqb_spec z y); [contradiction|]; destruct (Nat.eqb_spec z x); [contradiction|reflexivity]).
      assert (D' : NoDup (cells_of ((x, is ++ js) :: l))).
      { cbn [cells_of flat_map fst snd app]. fold (cells_of l). rewrite <- app_assoc. constructor; [intros I; apply Dx; apply in_app_or in I; apply in_or_app; destruct I as [I|I]; [now left|right; now right]|]. exact (NoDup_remove_1 _ _ _ D1). }
      destruct (IH fuel h2 i2 x (is ++ js)) as (h' & i' & R & N' & Fr' & G).
      * cbn [nests]. split; [reflexivity|]. split.
        -- unfold i2, set_inner. rewrite Nat.eqb_refl. apply chain_off with h1; [exact C1|]. intros z I. apply O; intros ->; apply in_app_or in I.
           ++ apply Dx. apply in_or_app. destruct I as [I|I]; [now left|right; right; apply in_or_app; now left].
           ++ destruct I as [I|I]; [contradiction|]. apply Dy. apply in_or_app. now left.
        -- exists m. split; [unfold h2, free_cell, set_next; destruct (Nat.eqb_spec x y); [contradiction|]; now rewrite Nat.eqb_refl|].
           apply nests_off with h i; [exact N| |].
           ++ intros z I. rewrite O; [apply Fr; intros J; apply (Aisl z J); right; apply in_or_app; now right|intros ->; apply Dx; apply in_or_app; right; right; apply in_or_app; now right|intros ->; apply Dy; apply in_or_app; now right].
           ++ intros z I. unfold i2, set_inner. destruct (Nat.eqb_spec z x) as [->|]; [|reflexivity]. exfalso. apply Dx. apply in_or_app. right. right. apply in_or_app. now right.
      * exact D'.
      * lia.
      * cbn [cells_of flat_map fst snd app length] in *. fold (cells_of l). rewrite !app_length in *. cbn in W. rewrite app_length in W. lia.
      * exists h', i'. split; [exact R|]. split; [exact N'|].
        split; [|intros z [Z|[Z|Z]] J; cbn [fst] in Z; [apply G; [now left|exact J]| |apply G; [now right|exact J]]; subst z; destruct (Fr' y) as [A _];
                 [intros [I|I]; [exact (xy I)|]; cbn [snd flat_map] in I; rewrite <- app_assoc in I; exact (NoDup_remove_2 _ _ _ D1 I)|]; rewrite A; unfold h2, free_cell; now rewrite Nat.eqb_refl].
        intros z I. cbn [cells_of flat_map fst snd app] in I. fold (cells_of l) in I.
        assert (zx : z <> x) by (intros ->; apply I; now left). assert (zy : z <> y) by (intros ->; apply I; right; apply in_or_app; right; now left).
        destruct (Fr' z) as [A B]. { cbn [cells_of flat_map fst snd app]. fold (cells_of l). rewrite <- app_assoc. intros [J|J]; [congruence|]. apply I. right. apply in_app_or in J. apply in_or_app. destruct J as [J|J]; [now left|right; now right]. }
        rewrite A, B. split; [rewrite O by assumption; apply Fr; intros J; apply I; right; apply in_or_app; now left|]. unfold i2, set_inner. destruct (Nat.eqb_spec z x); [contradiction|reflexivity].
    + destruct (IH fuel h i y js) as (h' & i' & R & N' & Fr' & G).
      * cbn [nests]. eauto.
      * exact D2.
      * lia.
      * cbn [cells_of flat_map fst snd app length] in *. fold (cells_of l). rewrite !app_length in *. cbn in W. rewrite app_length in W. lia.
      * exists h', i'. split; [exact R|]. split.
        -- assert (K : forall z, In z (x :: is) -> h' z = h z /\ i' z = i z).
           { intros z I. apply Fr'. intros J. destruct I as [<-|I]; [apply Dx; apply in_or_app; right; exact J|exact (Aisl z I J)]. }
           cbn [nests]. split; [reflexivity|]. split; [rewrite (proj2 (K x (or_introl eq_refl))); apply chain_off with h; [exact C|]; intros z I; apply K; now right|].
           exists (Some y). split; [rewrite (proj1 (K x (or_introl eq_refl))); exact E|exact N'].
        -- split; [|intros z [Z|Z] J; [elim J; now left|apply G; [exact Z|intros Q; apply J; now right]]]. intros z I. apply Fr'. intros J. apply I. cbn [cells_of flat_map fst snd app]. right. apply in_or_app. right. exact J.
Qed.
Print Assumptions C65_combine.

(** loops 1, 2, 3 with inner lists [4], [5; 6], [7]; the first two are the same *)
Definition hc : heap := fun x => match x with 1 => Some (Some 2) | 2 => Some (Some 3) | 5 => Some (Some 6) | 3 | 4 | 6 | 7 => Some None | _ => None end.
Definition ic : inners := fun x => match x with 1 => Some 4 | 2 => Some 5 | 3 => Some 7 | _ => None end.
Example C65_combine_example :
  nests hc ic (Some 1) [(1, [4]); (2, [5; 6]); (3, [7])] /\ NoDup (cells_of [(1, [4]); (2, [5; 6]); (3, [7])]) /\
  combined (fun x y => (x <=? 1) && (y <=? 2))%bool 1 [4] [(2, [5; 6]); (3, [7])] = [(1, [4; 5; 6]); (3, [7])] /\
  exists h' i', loop_combine (fun x y => (x <=? 1) && (y <=? 2))%bool 7 3 hc ic 1 = Some (h', i') /\ nests h' i' (Some 1) [(1, [4; 5; 6]); (3, [7])] /\ h' 2 = None.
Proof.
  split; [cbn; repeat (first [reflexivity|split|eexists|econstructor])|]. split; [cbn; repeat (constructor; [cbn; intuition discriminate|]); constructor|]. split; [reflexivity|].
  do 2 eexists. split; [reflexivity|]. split; [|reflexivity]. cbn [nests]. split; [reflexivity|]. split; [repeat econstructor|]. eexists. split; [reflexivity|]. split; [reflexivity|]. split; [repeat econstructor|]. eexists. split; reflexivity.
Qed.

Lemma chain_live h p l : chain h p l -> forall x, In x l -> h x <> None.
Proof. induction 1 as [|p n l E C IH]; intros x I; [contradiction|]. destruct I as [->|I]; [rewrite E; discriminate|now apply IH]. Qed.
Lemma gather_map a : forall p, (forall k, In k p -> 1 <= k <= length a) -> gather a p = Some (map (fun k => nth (k - 1) a 0) p).
Proof.
  induction p as [|k p IH]; intros Q; [reflexivity|]. assert (K := Q k (or_introl eq_refl)). destruct k as [|k]; [lia|]. cbn [gather map].
  rewrite (nth_error_nth' a 0) by lia. rewrite IH by (intros j J; apply Q; now right). cbn. now rewrite Nat.sub_0_r.
Qed.
Lemma map_seq (a : list nat) : map (fun k => nth (k - 1) a 0) (seq 1 (length a)) = a.
Proof.
  rewrite <- seq_shift, map_map. rewrite (map_ext _ (fun k => nth k a 0)) by (intros k; f_equal; lia). induction a as [|x a IH]; [reflexivity|]. cbn [length seq map nth]. f_equal. rewrite <- seq_shift, map_map. exact IH.
Qed.

(** Sorting a list of loops: if the numbers found are a permutation of 1 .. n, the i-th loop of the result is the one with the i-th
    number, no loop is lost or doubled, and no other loop is touched.  At level 0 nothing changes. *)
Theorem C65_sort :
  forall (domain_sort : list nat -> list nat) (level : nat) (h : heap) (loop : option nat) (lx : list nat) (fuel : nat),
  chain h loop lx -> length lx <= fuel -> Permutation (domain_sort lx) (seq 1 (length lx)) ->
  exists h' res order, loop_sort domain_sort level fuel h loop = Some (h', res) /\ chain h' res order /\ Permutation order lx /\
  (level <> 0 -> forall i k, nth_error (domain_sort lx) i = Some k -> nth_error order i = nth_error lx (k - 1)) /\ (level = 0 -> order = lx) /\
  (forall x, ~ In x lx -> h' x = h x).
Proof.
  intros srt level h loop lx fuel C F P. unfold loop_sort. destruct (Nat.eqb_spec level 0) as [L|L].
  { exists h, loop, lx. repeat (split; [auto; fail|]). split; [intros; contradiction|auto]. }
  destruct (C65_count h loop lx C) as (A & B & _). rewrite (A fuel F). destruct (Nat.eqb_spec (length lx) 1) as [N|N].
  { exists h, loop, lx. repeat (split; [auto; fail|]). split; [|split; [intros; contradiction|auto]]. intros _ i k E. rewrite N in P. cbn in P. apply Permutation_sym, Permutation_length_1_inv in P. rewrite P in E.
    destruct i as [|[|i]]; cbn in E; try discriminate. now injection E as <-. }
  rewrite B. assert (R : forall k, In k (srt lx) -> 1 <= k <= length lx) by (intros k I; apply (Permutation_in _ P) in I; apply in_seq in I; lia).
  rewrite (gather_map lx (srt lx) R). set (order := map (fun k => nth (k - 1) lx 0) (srt lx)).
  assert (Q : Permutation order lx) by (unfold order; rewrite (Permutation_map _ P), map_seq; reflexivity).
  destruct (C65_rebuild h order) as (h' & p & now & E & C' & Fr); [apply (Permutation_NoDup (Permutation_sym Q)); now apply chain_nodup with h loop|intros x I; apply (chain_live _ _ _ C); now apply (Permutation_in _ Q)|].
  rewrite E. exists h', p, order. split; [reflexivity|]. split; [exact C'|]. split; [exact Q|]. split; [|split; [intros; contradiction|]].
  - intros _ i k I. unfold order. rewrite nth_error_map, I. cbn. symmetry. apply nth_error_nth'. assert (K := R k (nth_error_In _ _ I)). lia.
  - intros x I. apply Fr. intros J. apply I. now apply (Permutation_in _ Q).
Qed.
Print Assumptions C65_sort.
(** the list 1, 2 of h65 (C65_rebuild_example), sorted by the numbers 2, 1 *)
Example C65_sort_example : chain h65 (Some 1) [1; 2] /\ Permutation [2; 1] (seq 1 2) /\
  exists h', loop_sort (fun _ => [2; 1]) 1 2 h65 (Some 1) = Some (h', Some 2) /\ chain h' (Some 2) [2; 1] /\ h' 3 = Some (Some 4).
Proof. split; [repeat econstructor|]. split; [constructor|]. eexists. split; [reflexivity|]. split; [repeat econstructor|reflexivity]. Qed.
