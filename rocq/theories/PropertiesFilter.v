(** C35: clast_filter finds all matching loops.  Vocabulary: FilterSpec.v. *)
From Coq Require Import ZArith List Bool Arith String Lia.
From Verif Require Import ClastModel FilterModel FilterSpec FilterProofs.
Import ListNotations.

(** In a tree without assignments and blocks, the loops returned are the loops of the tree that the filter
    asks for, each once, and the statement numbers are those of the tree, each once.  (With the exact kind,
    the filter must not name a statement twice.) *)
Theorem C35_filter_partial :
  forall (f : filter) (c : list stmt) (loops : list path) (stmts : list nat),
  (forall fs, f_stmts f = Some fs -> f_kind f = FExact -> NoDup fs) ->
  no_ass_block c ->
  clast_filter f c = (loops, stmts) ->
  NoDup loops /\ NoDup stmts /\
  (forall p, In p loops <-> exists it lb ub st body, at_path c p (SFor it lb ub st body) /\ wanted f it body) /\
  (forall n, In n stmts <-> contains c n).
Proof.
  intros f c loops stmts Hf Hn E. destruct (filter_sound f c) as (_ & _ & N1 & N2). rewrite E in N1, N2.
  destruct (filter_full f c) as [H1 H2]; [unfold exact_ok; destruct (f_stmts f) as [fs|]; [apply (Hf fs eq_refl)|exact I]|exact Hn|].
  rewrite E in H1, H2. split; [exact N1|]. split; [exact N2|]. split; [exact H1|exact H2].
Qed.
Print Assumptions C35_filter_partial.

(** for i { if (..) for j S1, S2; for j S2 }; S3 and the filter "loops with exactly the statements 1 and 2" *)
Definition tree35 : list stmt :=
  [SFor "i" None None 1 [SGuard [] [SFor "j" None None 1 [SUser 1 []; SUser 2 []]]; SFor "j" None None 1 [SUser 2 []]]; SUser 3 []].
Definition filter35 : filter := {| f_iter := None; f_stmts := Some [2; 1]; f_kind := FExact |}.
Lemma no_leaf c p s : at_path c p s -> c <> [].
Proof. intros H -> . inversion H; subst; destruct i; discriminate. Qed.
Lemma nab_nil : no_ass_block [].
Proof. intros p s H. destruct (no_leaf _ _ _ H eq_refl). Qed.
Lemma nab_user n l : no_ass_block [SUser n l].
Proof. intros p s H. inversion H as [? i ? E|? i ? ? ? ? ? ? ? E Hb|? i ? ? ? ? E Hb|? i ? ? ? E Hb]; subst; destruct i as [|[|]]; cbn in E; try discriminate E. injection E as <-. split; discriminate. Qed.
Lemma nab_for' it lb ub st b : no_ass_block b -> no_ass_block [SFor it lb ub st b].
Proof.
  intros Hn p s H. inversion H as [? i ? E|? i ? ? ? ? ? ? ? E Hb|? i ? ? ? ? E Hb|? i ? ? ? E Hb]; subst; destruct i as [|[|]]; cbn in E; try discriminate E.
  - injection E as <-. split; discriminate.
  - injection E as <- <- <- <- <-. eapply Hn. exact Hb.
Qed.
Lemma nab_guard' qs b : no_ass_block b -> no_ass_block [SGuard qs b].
Proof.
  intros Hn p s H. inversion H as [? i ? E|? i ? ? ? ? ? ? ? E Hb|? i ? ? ? ? E Hb|? i ? ? ? E Hb]; subst; destruct i as [|[|]]; cbn in E; try discriminate E.
  - injection E as <-. split; discriminate.
  - injection E as <- <-. eapply Hn. exact Hb.
Qed.
Example C35_example :
  no_ass_block tree35 /\ clast_filter filter35 tree35 = ([[0; 0; 0]; [0]], [1; 2; 3]) /\
  clast_filter {| f_iter := Some "j"%string; f_stmts := Some [2; 5]; f_kind := FSubset |} tree35 = ([[0; 1]], [1; 2; 3]).
Proof.
  split; [|split; reflexivity].
  repeat first [apply nab_user | apply nab_nil | apply nab_for' | apply nab_guard' | apply nab_cons; split].
Qed.

(** For every tree: what is returned is in the tree, and nothing is returned twice. *)
Theorem C35_filter_sound :
  forall (f : filter) (c : list stmt) (loops : list path) (stmts : list nat),
  clast_filter f c = (loops, stmts) ->
  NoDup loops /\ NoDup stmts /\
  (forall p, In p loops -> exists it lb ub st body, at_path c p (SFor it lb ub st body)) /\
  (forall n, In n stmts -> contains c n).
Proof.
  intros f c loops stmts E. destruct (filter_sound f c) as (H1 & H2 & N1 & N2). rewrite E in *. repeat split; assumption.
Qed.
Print Assumptions C35_filter_sound.

(** The full statement fails: what follows an assignment is not visited, nor is the inside of a block.
    for i { j = 0; for k S1 }, any loop wanted: the loop on k and statement 1 are not found. *)
Theorem C35_after_assignment_refuted :
  exists (c : list stmt) (f : filter), (forall it b, wanted f it b) /\
    (exists p it lb ub st b, at_path c p (SFor it lb ub st b) /\ ~ In p (fst (clast_filter f c))) /\
    exists n, contains c n /\ ~ In n (snd (clast_filter f c)).
Proof.
  exists [SFor "i" None None 1 [SAss "j" None; SFor "k" None None 1 [SUser 1 []]]], {| f_iter := None; f_stmts := None; f_kind := FSubset |}.
  split; [split; exact I|]. split.
  - exists [0; 1], "k"%string, None, None, 1%Z, [SUser 1 []]. split; [eapply At_for; [reflexivity|apply At_here; reflexivity]|]. cbn. intros [H|[]]. discriminate.
  - exists 1. split; [exists [0; 1; 0], []; eapply At_for; [reflexivity|eapply At_for; [reflexivity|apply At_here; reflexivity]]|]. cbn. tauto.
Qed.
Print Assumptions C35_after_assignment_refuted.
Theorem C35_inside_block_refuted :
  exists (c : list stmt) (f : filter), (forall it b, wanted f it b) /\
    (exists p it lb ub st b, at_path c p (SFor it lb ub st b) /\ ~ In p (fst (clast_filter f c))) /\
    exists n, contains c n /\ ~ In n (snd (clast_filter f c)).
Proof.
  exists [SBlock [SFor "k" None None 1 [SUser 1 []]]], {| f_iter := None; f_stmts := None; f_kind := FSubset |}.
  split; [split; exact I|]. split.
  - exists [0; 0], "k"%string, None, None, 1%Z, [SUser 1 []]. split; [eapply At_block; [reflexivity|apply At_here; reflexivity]|]. cbn. tauto.
  - exists 1. split; [exists [0; 0; 0], []; eapply At_block; [reflexivity|eapply At_for; [reflexivity|apply At_here; reflexivity]]|]. cbn. tauto.
Qed.
Print Assumptions C35_inside_block_refuted.
