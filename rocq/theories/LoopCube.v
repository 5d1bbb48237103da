(** A second concrete library: all sets that only distinguish the coordinate values 0, 1 and
    "other" (2), every one of them "convex", and every comparison giving the same fixed answer.  It meets [Laws] (so the instances
    are right) but not [OrderLaws]; it is used for counterexamples. *)
From Coq Require Import ZArith List Bool Arith Lia.
From Verif Require Import LoopModel LoopSpec.
Import ListNotations.
Local Open Scope nat_scope.

Fixpoint cube (n : nat) : list (list Z) :=
  match n with
  | 0 => [[]]
  | S m => map (cons 0%Z) (cube m) ++ map (cons 1%Z) (cube m) ++ map (cons 2%Z) (cube m)
  end.
Fixpoint zl_eqb (l m : list Z) : bool :=
  match l, m with [], [] => true | a :: l', b :: m' => (a =? b)%Z && zl_eqb l' m' | _, _ => false end.
Definition isin (x : list Z) (l : list (list Z)) : bool := existsb (zl_eqb x) l.
Record cdom := { cd : nat; cp : list (list Z) }.
Definition mk (n : nat) (f : list Z -> bool) : cdom := {| cd := n; cp := filter f (cube n) |}.
Definition cls (v : Z) : Z := if (v =? 0)%Z then 0%Z else if (v =? 1)%Z then 1%Z else 2%Z.
(** membership of a class vector, of a point *)
Definition kmem (d : cdom) (k : list Z) : bool := isin k (cube (cd d)) && isin k (cp d).
Definition cmem (d : cdom) (x : list Z) : bool := kmem d (map cls x).
Definition all_in (a b : cdom) : bool := (cd a =? cd b) && forallb (fun x => eqb (kmem a x) (kmem b x)) (cube (cd a)).
Definition none (d : cdom) : bool := forallb (fun x => negb (kmem d x)) (cube (cd d)).
Section Cube.
(** what every comparison of two sets returns *)
Variable c : Z.
Definition CubePoly : Poly := {|
  dom := cdom; sconstr := unit; lbc := Empty_set;
  dim := cd;
  isempty := none; isconvex := fun _ => true; single := fun _ => true;
  simplify_union := fun d => d;
  cut_first := fun d => Some (d, mk (cd d) (fun _ => false));
  difference := fun a b => mk (cd a) (fun x => kmem a x && negb (kmem b x));
  union := fun a b => mk (cd a) (fun x => kmem a x || kmem b x);
  intersection := fun a b => mk (cd a) (fun x => kmem a x && kmem b x);
  empty_like := fun d => mk (cd d) (fun _ => false);
  extend := fun d n => mk n (fun x => kmem d (firstn (cd d) x));
  project := fun d n => mk n (fun y => existsb (fun x => kmem d x && zl_eqb (firstn n x) y) (cube (cd d)));
  lazy_equal := all_in; lazy_disjoint := fun a b => forallb (fun x => negb (kmem a x && kmem b x)) (cube (cd a));
  convex := fun d => d; simple_convex := fun d => d;
  is_bounded := fun _ _ => true;
  bound_splitter := fun d _ => d;
  compare_at := fun _ _ _ => c;
  follows_at := fun _ _ _ => 1%Z;
  lazy_isconstant := fun _ _ => None;
  can_stride := fun _ _ => false; list_stride := fun _ _ => None;
  domain_stride := fun _ _ => (1%Z, 0%Z);
  stride_lower_bound := fun d _ _ => d; add_stride_constraint := fun d _ => d;
  is_otl := fun _ _ => false;
  can_unroll := fun _ _ => None; fixed_offset := fun d l _ i => d;
  gist := fun d _ => d; never_integral := none
|}.
Definition CubeSem : Sem CubePoly := {|
  mem := cmem : dom CubePoly -> _; sok := fun _ _ => true; lbv := fun (e : lbc CubePoly) _ => match (e : Empty_set) with end; pdisj := fun _ => True; polyh := fun _ => True
|}.

Lemma zl_eqb_eq l : forall m, zl_eqb l m = true <-> l = m.
Proof.
  induction l as [|a l IH]; intros [|b m]; cbn; try (split; [discriminate|discriminate]); [split; reflexivity|].
  rewrite andb_true_iff, Z.eqb_eq, IH. split; [intros [-> ->]; reflexivity|intros H; injection H; auto].
Qed.
Lemma isin_in x l : isin x l = true <-> In x l.
Proof.
  unfold isin. rewrite existsb_exists. split.
  - intros (y & Hy & E). apply zl_eqb_eq in E. subst y. exact Hy.
  - intros H. exists x. split; [exact H|]. apply zl_eqb_eq. reflexivity.
Qed.
Lemma bool_iff (a b : bool) : (a = true <-> b = true) -> a = b.
Proof. destruct a, b; intuition congruence. Qed.
Lemma kmem_mk n f x : kmem (mk n f) x = isin x (cube n) && f x.
Proof. unfold kmem, mk. cbn [cd cp]. apply bool_iff. rewrite !andb_true_iff, !isin_in, filter_In. tauto. Qed.
Lemma cube_in n : forall x, In (map cls x) (cube n) <-> length x = n.
Proof.
  induction n as [|n IH]; intros x; cbn.
  - destruct x; cbn; split; intros H; try discriminate; auto. destruct H as [H|[]]; discriminate.
  - rewrite !in_app_iff, !in_map_iff. destruct x as [|v x]; cbn; [split; [intros [H|[H|H]]; destruct H as (y & H & _); discriminate|discriminate]|].
    split.
    + intros [H|[H|H]]; destruct H as (y & H & Hy); injection H as _ H; subst y; f_equal; apply IH; exact Hy.
    + intros H. injection H as H. apply IH in H. unfold cls. destruct (v =? 0)%Z; [left; eauto|]. destruct (v =? 1)%Z; [right; left; eauto|right; right; eauto].
Qed.
Lemma kmem_cube d x : kmem d x = true -> In x (cube (cd d)).
Proof. unfold kmem. intros H. apply andb_prop in H as [H _]. apply isin_in. exact H. Qed.
Lemma cmem_mk n f x : cmem (mk n f) x = (length x =? n) && f (map cls x).
Proof. unfold cmem. rewrite kmem_mk. f_equal. apply bool_iff. rewrite isin_in, cube_in, Nat.eqb_eq. reflexivity. Qed.
Lemma cmem_len d x : cmem d x = true -> length x = cd d.
Proof. intros H. apply kmem_cube in H. apply cube_in. exact H. Qed.
Ltac lenb d x := let E := fresh "E" in destruct (cmem d x) eqn:E; unfold cmem in E; [pose proof (cmem_len d x E)|]; rewrite E.

Theorem cube_laws : Laws CubePoly CubeSem.
Proof.
  constructor; cbn [CubePoly CubeSem dim mem isempty isconvex simplify_union cut_first difference union intersection empty_like extend project
    lazy_equal lazy_disjoint convex simple_convex bound_splitter gist never_integral can_unroll fixed_offset lbv pdisj polyh dom]; try discriminate; try reflexivity; auto; intros.
  - apply cmem_len. exact H.
  - destruct (cmem d x) eqn:E; [|reflexivity]. unfold none in H. rewrite forallb_forall in H. specialize (H _ (kmem_cube _ _ E)). unfold cmem in E. rewrite E in H. discriminate.
  - injection H as <- <-. auto.
  - injection H as <- <-. rewrite cmem_mk, andb_false_r, orb_false_r. reflexivity.
  - injection H0 as <- <-. split; [exact I|]. intros x _. rewrite cmem_mk. apply andb_false_r.
  - rewrite cmem_mk. unfold cmem at 1 2. destruct (kmem a (map cls x)) eqn:E; [|apply andb_false_r]. rewrite (cmem_len a x E), Nat.eqb_refl. reflexivity.
  - rewrite cmem_mk. unfold cmem. destruct (kmem a (map cls x)) eqn:E; [rewrite (cmem_len a x E), Nat.eqb_refl; reflexivity|].
    destruct (kmem b (map cls x)) eqn:E2; [rewrite H, (cmem_len b x E2), Nat.eqb_refl; reflexivity|apply andb_false_r].
  - rewrite cmem_mk. unfold cmem. destruct (kmem a (map cls x)) eqn:E; [|apply andb_false_r]. rewrite (cmem_len a x E), Nat.eqb_refl. reflexivity.
  - rewrite cmem_mk. apply andb_false_r.
  - rewrite cmem_mk, H0, Nat.eqb_refl. unfold cmem. rewrite firstn_map. reflexivity.
  - rewrite cmem_mk. pose proof (cmem_len _ _ H0) as Hl. rewrite firstn_length. replace (Nat.min n (length x)) with n by (cbn in *; lia). rewrite Nat.eqb_refl. cbn.
    apply existsb_exists. exists (map cls x). split; [apply cube_in; exact Hl|]. unfold cmem in H0. rewrite H0. rewrite firstn_map. apply zl_eqb_eq. reflexivity.
  - unfold all_in in H. apply andb_prop in H as [H1 H2]. apply Nat.eqb_eq in H1. split; [exact H1|]. intros x. rewrite forallb_forall in H2. unfold cmem.
    destruct (Nat.eq_dec (length x) (cd a)) as [E|E].
    + specialize (H2 (map cls x) (proj2 (cube_in _ _) E)). apply eqb_prop in H2. exact H2.
    + destruct (kmem a (map cls x)) eqn:E1; [apply cmem_len in E1; lia|]. destruct (kmem b (map cls x)) eqn:E2; [apply cmem_len in E2; lia|]. reflexivity.
  - rewrite forallb_forall in H. destruct (cmem b x) eqn:E; [|reflexivity]. specialize (H _ (kmem_cube _ _ H0)). unfold cmem in *. rewrite H0, E in H. discriminate.
  - rewrite cmem_mk in H2. apply andb_prop in H2 as [_ H2]. apply andb_prop in H2 as [H2 _]. exact H2.
  - destruct (cmem d x) eqn:E; [|reflexivity]. unfold none in H. rewrite forallb_forall in H. specialize (H _ (kmem_cube _ _ E)). unfold cmem in E. rewrite E in H. discriminate.
Qed.
End Cube.
