(** The fuel of the model does not change results: a computation that ends with some fuel ends with
    the same result with more. *)
From Coq Require Import ZArith List Bool Arith Lia.
From Verif Require Import LoopModel LoopCount ProgramModel.
Import ListNotations.
Local Open Scope nat_scope.
Local Arguments Nat.ltb : simpl never. Local Arguments Nat.leb : simpl never. Local Arguments Nat.eqb : simpl never. Local Arguments Nat.sub : simpl never.

Definition upto {A} (a b : option A) : Prop := forall r, a = Some r -> b = Some r.
Lemma upto_refl {A} (a : option A) : upto a a. Proof. intros r H; exact H. Qed.
Lemma upto_bind {A B} (a b : option A) (f g : A -> option B) : upto a b -> (forall x, upto (f x) (g x)) -> upto (obind a f) (obind b g).
Proof. intros H1 H2 r E. unfold obind in *. destruct a as [x|]; [|discriminate]. rewrite (H1 x eq_refl). apply H2. exact E. Qed.
Lemma upto_if {A} (c : bool) (a b a' b' : option A) : upto a a' -> upto b b' -> upto (if c then a else b) (if c then a' else b').
Proof. destruct c; auto. Qed.
Lemma upto_omap {A B} (f g : A -> option B) l : (forall x, In x l -> upto (f x) (g x)) -> upto (omap f l) (omap g l).
Proof.
  induction l as [|x l IH]; intros H; cbn [omap]; [apply upto_refl|]. apply upto_bind; [apply H; left; reflexivity|]. intros y.
  apply upto_bind; [apply IH; intros; apply H; right; assumption|intros; apply upto_refl].
Qed.
Lemma upto_oconcat {A B} (f g : A -> option (list B)) l : (forall x, In x l -> upto (f x) (g x)) -> upto (oconcat f l) (oconcat g l).
Proof. intros H. unfold oconcat. apply upto_bind; [apply upto_omap; exact H|intros; apply upto_refl]. Qed.

Section Fuel.
Variable P : Poly.
Lemma pieces_more : forall n m, n <= m -> (forall d, upto (pieces P n d) (pieces P m d)) /\ (forall d s, upto (pieces_rest P n d s) (pieces_rest P m d s)).
Proof.
  induction n as [|n IH]; intros m Hm; [split; [intros d r E|intros d s r E]; discriminate E|]. destruct m as [|m]; [lia|]. destruct (IH m ltac:(lia)) as (A & B). split.
  - intros d. cbn [pieces]. destruct (cut_first P (simplify_union P d)) as [[f r]|]; [|apply upto_refl]. apply upto_bind; [apply B|intros; apply upto_refl].
  - intros d s. cbn [pieces_rest]. apply upto_if; [apply upto_refl|]. destruct (cut_first P d) as [[t r]|]; [|apply upto_refl]. cbv zeta. apply upto_if; [apply B|].
    apply upto_bind; [apply upto_if; [apply upto_refl|apply A]|]. intros here. apply upto_if; [apply upto_refl|]. apply upto_bind; [apply B|intros; apply upto_refl].
Qed.
Variables n m : nat.
Hypothesis nm : n <= m.
Lemma add_disjoint_more l : upto (add_disjoint P n l) (add_disjoint P m l).
Proof. unfold add_disjoint. apply upto_if; [apply upto_refl|]. apply upto_bind; [apply (proj1 (pieces_more n m nm))|intros; apply upto_refl]. Qed.
Lemma disjoint_more ls : upto (disjoint P n ls) (disjoint P m ls).
Proof. apply upto_oconcat. intros; apply add_disjoint_more. Qed.
Lemma separate_more ls : upto (separate P n ls) (separate P m ls).
Proof.
  assert (Q : forall l q, upto (sep_Q P n l q) (sep_Q P m l q)).
  { intros l q. unfold sep_Q. cbv zeta. apply upto_bind; [apply upto_if; [apply upto_refl|apply add_disjoint_more]|]. intros both. apply upto_bind; [apply upto_if; [apply upto_refl|apply add_disjoint_more]|intros; apply upto_refl]. }
  assert (S1 : forall acc l, upto (sep_step P n acc l) (sep_step P m acc l)).
  { intros [res UQ] l. unfold sep_step. apply upto_bind; [apply upto_oconcat; intros; apply Q|]. intros t. cbv zeta. apply upto_bind; [apply upto_if; [apply upto_refl|apply add_disjoint_more]|intros; apply upto_refl]. }
  assert (S2 : forall l acc, upto (sep_all P n acc l) (sep_all P m acc l)).
  { induction l as [|x l IH]; intros acc; cbn [sep_all]; [apply upto_refl|]. apply upto_bind; [apply S1|intros; apply IH]. }
  unfold separate. destruct (combine P ls) as [|l [|l' r]]; [apply upto_refl|apply disjoint_more|apply S2].
Qed.
Lemma merge_more o level ls : upto (merge P n o level ls) (merge P m o level ls).
Proof.
  assert (Q : forall a b, a <= b -> forall t i s res, upto (merge_split P a o t i s res) (merge_split P b o t i s res)).
  { induction a as [|a IH]; intros b Hb t i s res; [intros r E; discriminate E|]. destruct b as [|b]; [lia|]. cbn [merge_split]. apply upto_if; [apply upto_refl|].
    destruct (cut_first P s) as [[f r]|]; [apply IH; lia|apply upto_refl]. }
  unfold merge. destruct ls as [|l r]; [apply upto_refl|]. apply upto_if; [apply upto_refl|]. cbv zeta. apply upto_if; [apply Q; exact nm|apply upto_refl].
Qed.
Lemma nest_more ctx level ls : upto (nest P n ctx level ls) (nest P m ctx level ls).
Proof. unfold nest. apply upto_bind; [apply disjoint_more|intros; apply upto_refl]. Qed.
Lemma backtrack_more level ls : upto (backtrack P n level ls) (backtrack P m level ls).
Proof. unfold backtrack. apply upto_oconcat. intros t _. destruct (map _ (l_inner P t)); [apply upto_refl|]. apply upto_bind; [apply separate_more|intros; apply upto_refl]. Qed.
Lemma simplify1_more : forall l ctx, upto (simplify1 P n ctx l) (simplify1 P m ctx l).
Proof.
  induction l as [d ot st blk inner IH] using loop_ind'. intros ctx. cbn [simplify1]. cbv zeta. apply upto_bind.
  - apply upto_if; [apply upto_refl|]. apply upto_bind; [apply (proj1 (pieces_more n m nm))|intros; apply upto_refl].
  - intros parts. apply upto_oconcat. intros [[x ot'] st'] _. apply upto_if; [apply upto_refl|]. apply upto_bind; [|intros; apply upto_refl].
    generalize (intersection P x (extend P ctx (dim P x))). intros c. induction IH as [|a r Ha _ IHr]; [apply upto_refl|]. apply upto_bind; [apply Ha|]. intros y. apply upto_bind; [exact IHr|intros; apply upto_refl].
Qed.
Variable scaldims : list nat.
Variable o : options.
Notation rect := (rec_t P).
Definition upto_rec (r1 r2 : rect) : Prop := forall ctx level scalar ls, upto (r1 ctx level scalar ls) (r2 ctx level scalar ls).
Lemma recurse_runs_more (r1 r2 : list (loop P) -> option (list (loop P))) : (forall l, upto (r1 l) (r2 l)) -> forall rs into t s, upto (recurse_runs P r1 rs into t s) (recurse_runs P r2 rs into t s).
Proof.
  intros H. induction rs as [|[b g] rs IH]; intros into t s; cbn [recurse_runs]; [apply upto_refl|]. destruct b; [|apply IH]. apply upto_bind; [apply H|]. intros [|x l]; apply IH.
Qed.
Lemma loop_recurse_more r1 r2 : upto_rec r1 r2 -> forall level scalar c l, upto (loop_recurse P scaldims o r1 level scalar c l) (loop_recurse P scaldims o r2 level scalar c l).
Proof.
  intros H level scalar c l. assert (Q : forall l, upto (recurse_inner P scaldims o r1 level scalar l) (recurse_inner P scaldims o r2 level scalar l)).
  { intros l0. unfold recurse_inner. cbv zeta. apply upto_bind; [apply recurse_runs_more; intros; apply H|intros; apply upto_refl]. }
  unfold loop_recurse. cbv zeta. apply upto_if.
  - destruct (loop_unroll _ _ _) as [|a r]; [apply upto_refl|]. apply upto_omap. intros; apply Q.
  - apply upto_bind; [apply Q|intros; apply upto_refl].
Qed.
Lemma general_more r1 r2 : upto_rec r1 r2 -> forall level scalar ls, upto (generate_general P scaldims o n r1 level scalar ls) (generate_general P scaldims o m r2 level scalar ls).
Proof.
  intros H level scalar ls. unfold generate_general. destruct (get_fl P o ls) as [first last]. cbv zeta.
  apply upto_bind; [apply upto_if; [apply upto_refl|apply upto_if; [apply merge_more|apply separate_more]]|]. intros res. apply upto_bind; [apply upto_refl|]. intros res1. apply upto_bind; [apply upto_refl|]. intros res2.
  apply upto_bind; [apply upto_if; [apply upto_oconcat; intros; apply loop_recurse_more; exact H|apply upto_omap; intros; apply upto_bind; [apply nest_more|intros; apply upto_refl]]|]. intros res3.
  apply upto_bind; [apply upto_refl|]. intros res4. apply upto_if; [apply backtrack_more|apply upto_refl].
Qed.
Lemma components_more r1 r2 : upto_rec r1 r2 -> forall level scalar ls, upto (generate_components P scaldims o n r1 level scalar ls) (generate_components P scaldims o m r2 level scalar ls).
Proof.
  intros H level scalar ls. unfold generate_components. apply upto_if; [apply general_more; exact H|]. apply upto_bind; [apply upto_refl|]. intros cs.
  apply upto_bind; [apply upto_oconcat; intros; apply general_more; exact H|intros; apply upto_refl].
Qed.
End Fuel.

Section Generate.
Variable P : Poly.
Variable scaldims : list nat.
Variable o : options.
Lemma scalar_groups_more (r1 r2 : list (loop P) -> option (list (loop P))) level scalar snew : (forall l, upto (r1 l) (r2 l)) ->
  forall f ls res pending, upto (scalar_groups P scaldims f r1 level scalar snew ls res pending) (scalar_groups P scaldims f r2 level scalar snew ls res pending).
Proof.
  intros H. induction f as [|f IH]; intros ls res pending; cbn [scalar_groups]; [apply upto_refl|]. destruct ls as [|ref r]; [apply upto_refl|]. destruct (take_while _ r) as [grp next]. apply upto_if; [|apply IH].
  apply upto_bind; [apply H|]. intros [|x l]; apply IH.
Qed.
Lemma restricted_more : forall n m, n <= m -> forall level scalar ls, upto (generate_restricted P scaldims o n level scalar ls) (generate_restricted P scaldims o m level scalar ls).
Proof.
  induction n as [|n IH]; intros m Hm level scalar ls; [intros r E; discriminate E|]. destruct m as [|m]; [lia|]. cbn [generate_restricted]. apply upto_if.
  - unfold generate_scalar. apply upto_bind; [apply upto_refl|]. intros sorted. apply scalar_groups_more. intros; apply IH; lia.
  - apply components_more; [exact Hm|]. intros ctx lv sc l. unfold restricted_or_stop. apply upto_if; [apply upto_refl|apply IH; lia].
Qed.
End Generate.
Theorem generate_more P scaldims o ctx ls n m : n <= m -> upto (cloog_program_generate P scaldims o n ctx ls) (cloog_program_generate P scaldims o m ctx ls).
Proof.
  intros Hm. unfold cloog_program_generate, program_generate. destruct ls as [|l r]; [apply upto_refl|]. apply upto_bind.
  - unfold generate. destruct (restrict_all P ctx (l :: r)) as [|l' r']; [apply upto_refl|]. unfold restricted_or_stop. apply upto_if; [apply upto_refl|]. apply restricted_more. exact Hm.
  - intros res. apply upto_if; [apply upto_refl|]. unfold simplify. apply upto_oconcat. intros; apply simplify1_more; exact Hm.
Qed.
Theorem alloc_and_generate_more P C ao o ctx input n m : n <= m -> upto (alloc_and_generate P C ao o n ctx input) (alloc_and_generate P C ao o m ctx input).
Proof.
  intros Hm r. unfold alloc_and_generate. destruct (program_alloc P C ao input) as [[sd ls]|]; [|discriminate]. intros E.
  destruct (cloog_program_generate P sd o n ctx (map (to_loop P) ls)) as [res|] eqn:Eg; [|discriminate]. rewrite (generate_more _ _ _ _ _ _ _ Hm _ Eg). exact E.
Qed.
