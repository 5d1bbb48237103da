(** Properties C07, C08, C09: domain sorting and strongly connected components. *)
From Coq Require Import ZArith List Bool Arith Lia Relations Permutation Sorted.
From Verif Require Import SortModel DomainSortProofs TarjanProofs.
Import ListNotations.

(** C07.  Whenever the sort answers, the answer is a permutation of 1..n, and a
    domain that compares greater than another comes after it.  [must cmp i j]
    (DomainSortProofs): the only comparison the code makes for the pair says that
    domain [i] is after domain [j]. *)
Theorem C07_sort_is_compatible_permutation : forall cmp n fuel permut,
  (forall a, ~ clos_trans nat (fun i j => i < n /\ j < n /\ must cmp i j) a a) ->
  domain_sort fuel n cmp = Some permut ->
  Permutation permut (seq 1 n) /\
  forall i j, i < n -> j < n ->
    ((j < i /\ (cmp i j > 0)%Z) \/ (i < j /\ (cmp j i < 0)%Z)) ->
    exists l1 l2 l3, permut = l1 ++ S j :: l2 ++ S i :: l3.
Proof.
  intros cmp n fuel permut Hac H. destruct (domain_sort_partial cmp n fuel permut Hac H) as [H1 H2].
  split; [exact H1|]. intros i j Hi Hj Hm. apply (H2 i j Hi Hj). unfold must. lia.
Qed.
Print Assumptions C07_sort_is_compatible_permutation.

(** four intervals [8,9] [0,1] [4,5] [2,3] *)
Definition ex_lo (i : nat) : Z := match i with 0 => 8 | 1 => 0 | 2 => 4 | _ => 2 end.
Example C07_case :
  let cmp i j := (ex_lo i - ex_lo j)%Z in
  (forall a, ~ clos_trans nat (fun i j => i < 4 /\ j < 4 /\ must cmp i j) a a) /\
  domain_sort 16 4 cmp = Some [2; 4; 3; 1].
Proof.
  split; [|reflexivity].
  intros a H.
  assert (Hlt : forall a b, clos_trans nat (fun i j => i < 4 /\ j < 4 /\ must (fun i j => ex_lo i - ex_lo j)%Z i j) a b -> (ex_lo a > ex_lo b)%Z).
  { clear. intros a b H. induction H as [a b H|a b c _ IH1 _ IH2]; [|lia]. unfold must in H. lia. }
  specialize (Hlt _ _ H). lia.
Qed.

(** C08.  The sort terminates when the comparisons are acyclic, after at most n*n
    iterations of its emission loop ... *)
Theorem C08_sort_terminates_partial : forall cmp n fuel,
  (forall a, ~ clos_trans nat (fun i j => i < n /\ j < n /\ must cmp i j) a a) ->
  n * n <= fuel -> exists permut, domain_sort fuel n cmp = Some permut.
Proof. exact domain_sort_total. Qed.
Print Assumptions C08_sort_terminates_partial.

(** ... but not on every input: there are four pairwise disjoint sets, each the two
    integer points of a segment {x=0, t=1-y}, {x=1, t=y}, {y=0, t=x}, {y=1, t=1-x}
    with 0 <= x,y <= 1, whose comparison at level 3 is cyclic; no number of iterations
    is enough (finding). *)
Theorem C08_sort_terminates_refuted :
  exists (D : nat -> list (list Z)) n,
    (forall i j p, i < n -> j < n -> i <> j -> In p (D i) -> In p (D j) -> False) /\
    forall fuel, domain_sort fuel n (fun i j => cmp_points 2 (D i) (D j)) = None.
Proof.
  exists seg, 4. split.
  - intros [|[|[|[|i]]]] [|[|[|[|j]]]] p Hi Hj Hne H1 H2; try lia; cbn in H1, H2;
      destruct H1 as [<-|[<-|[]]]; destruct H2 as [H2|[H2|[]]]; discriminate.
  - intros fuel. unfold domain_sort. apply stuck_forever; [lia| |lia].
    intros [|[|[|[|k]]]] Hk; try reflexivity; lia.
Qed.
Print Assumptions C08_sort_terminates_refuted.

(** C09.  The component search always answers; the components partition the nodes;
    two nodes are in the same component exactly when each follows the other
    through a chain of edges; and a component never has an edge to a later one. *)
Theorem C09_components : forall n (e : nat -> nat -> bool),
  let edge x y := x < n /\ y < n /\ x <> y /\ e x y = true in
  let path := clos_refl_trans nat edge in
  exists cs, components n e = Some cs /\
    Permutation (concat cs) (seq 0 n) /\
    (forall c, In c cs -> c <> [] /\ StronglySorted le c) /\
    (forall c x y, In c cs -> In x c -> (In y c <-> (path x y /\ path y x))) /\
    (forall l1 c1 l2 c2 l3 x y, cs = l1 ++ c1 :: l2 ++ c2 :: l3 -> In x c1 -> In y c2 -> ~ path x y).
Proof.
  intros n e edge path.
  destruct (components_spec n e) as (cs & E & HP & Hc & Hcl).
  exists cs. split; [exact E|]. split; [exact HP|]. split; [intros c H; destruct (Hc c H) as (H1 & H2 & _); auto|].
  assert (Hnd : NoDup (concat cs)) by (eapply Permutation_NoDup; [symmetry; exact HP|apply seq_NoDup]).
  assert (Hlater : forall l1 c1 l2 c2 l3 x y, cs = l1 ++ c1 :: l2 ++ c2 :: l3 -> In x c1 -> In y c2 -> ~ path x y).
  { intros l1 c1 l2 c2 l3 x y Hcs Hx Hy Hp.
    pose proof (Hcl l1 c1 (l2 ++ c2 :: l3) Hcs x y Hx Hp) as Hin.
    rewrite Hcs in Hnd. rewrite concat_app in Hnd. cbn in Hnd. rewrite concat_app in Hnd. cbn in Hnd.
    rewrite !app_assoc in Hnd.
    rewrite <- (app_assoc _ _ (concat l3)) in Hnd.
    rewrite <- (app_assoc (concat l1 ++ c1)) in Hnd.
    apply (NoDup_app_disj _ _ y Hnd Hin). apply in_or_app. right. apply in_or_app. left; exact Hy. }
  split; [|exact Hlater].
  intros c x y Hcc Hx. split.
  - intros Hy. destruct (Hc c Hcc) as (_ & _ & Hs). split; apply Hs; assumption.
  - intros [Hp1 Hp2]. apply in_split in Hcc as (l1 & l2 & Hcs).
    pose proof (Hcl l1 c l2 Hcs x y Hx Hp1) as Hin. apply in_app_or in Hin as [Hin|Hin]; [|exact Hin].
    exfalso. apply in_concat in Hin as (d & Hd & Hyd). apply in_split in Hd as (m1 & m2 & ->).
    rewrite <- app_assoc in Hcs. cbn in Hcs.
    exact (Hlater m1 d m2 c l2 y x Hcs Hyd Hx Hp2).
Qed.
Print Assumptions C09_components.

(** 0 <-> 2 in a cycle, 1 follows both, 3 isolated but after 1 *)
Example C09_case :
  components 4 (fun x y => match x, y with 0, 2 | 2, 0 | 1, 0 | 1, 2 | 3, 1 => true | _, _ => false end)
  = Some [[0; 2]; [1]; [3]].
Proof. vm_compute. reflexivity. Qed.
