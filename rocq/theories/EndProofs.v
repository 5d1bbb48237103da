(** From the statements and their names to the printed file. *)
From Coq Require Import ZArith List Bool Arith String Ascii Permutation Lia.
From Verif Require Import LoopModel LoopSpec LoopCount ClastModel ClastSpec ClastMain PprintModel CReader PprintSpec ClastPrint PprintEnd ClastNames
  FileModel FileReader FileSpec FileLex EndSpec LoopKeys LoopFrom.
Import ListNotations.
Local Open Scope string_scope.
Local Open Scope Z_scope.

(** *** names *)
Lemma zs_length : forall n, String.length (String.concat "" (repeat "Z" n)) = n.
Proof. induction n as [|[|n] IH]; [reflexivity|reflexivity|]. cbn [repeat] in *. change (String.concat "" ("Z" :: "Z" :: repeat "Z" n)) with (String "Z" (String.concat "" ("Z" :: repeat "Z" n))). cbn [String.length]. now rewrite IH. Qed.
Lemma zs_cons : forall n, String.concat "" (repeat "Z" (S n)) = String "Z" (String.concat "" (repeat "Z" n)).
Proof. destruct n; reflexivity. Qed.
Lemma zs_chars : forall n, all_chars is_idchar (String.concat "" (repeat "Z" n)) = true.
Proof. induction n as [|n IH]; [reflexivity|]. rewrite zs_cons. cbn. exact IH. Qed.
Lemma fresh_ident : forall nm i, ident (fresh_name nm i) = true.
Proof.
  intros nm i. unfold fresh_name. replace (String.length (String.concat "" (all_names nm)) + i + 2)%nat with (S (S (String.length (String.concat "" (all_names nm)) + i))) by lia.
  rewrite !zs_cons. unfold ident. cbn [is_alpha all_chars]. rewrite zs_chars. reflexivity.
Qed.
Lemma append_length : forall a b, String.length (a ++ b) = (String.length a + String.length b)%nat.
Proof. induction a as [|c a IH]; intro b; [reflexivity|]. cbn. now rewrite IH. Qed.
Lemma concat_longer : forall l x, In x l -> (String.length x <= String.length (String.concat "" l))%nat.
Proof.
  induction l as [|y l IH]; intros x H; [destruct H|]. destruct H as [<-|H].
  - cbn. destruct l; [lia|]. rewrite append_length. cbn. lia.
  - specialize (IH x H). cbn. destruct l; [destruct H|]. rewrite append_length. cbn [append]. lia.
Qed.
Lemma fresh_new : forall nm i x, In x (all_names nm) -> fresh_name nm i <> x.
Proof. intros nm i x H E. apply concat_longer in H. rewrite <- E in H. unfold fresh_name in H. rewrite zs_length in H. lia. Qed.
Lemma fresh_inj : forall nm i j, fresh_name nm i = fresh_name nm j -> i = j.
Proof. intros nm i j E. apply (f_equal String.length) in E. unfold fresh_name in E. rewrite !zs_length in E. lia. Qed.

Section Level.
Variable nm : names.
Hypothesis nm_ident : forall x, In x (all_names nm) -> ident x = true.
Hypothesis nm_dup : NoDup (all_names nm).
Let its : list string := (nm_scat nm ++ nm_iter nm)%list.
Lemma level_cases : forall i, (i < List.length its)%nat /\ In (level_name nm (S i)) its \/ (List.length its <= i)%nat /\ level_name nm (S i) = fresh_name nm (S i).
Proof.
  intro i. unfold level_name. replace (S i - 1)%nat with i by lia. destruct (Nat.lt_ge_cases i (List.length its)).
  - left. split; [assumption|now apply nth_In].
  - right. split; [assumption|now apply nth_overflow].
Qed.
Lemma param_cases : forall j, (j < List.length (nm_par nm))%nat /\ In (param_name nm j) (nm_par nm) \/ (List.length (nm_par nm) <= j)%nat /\ param_name nm j = fresh_name nm j.
Proof.
  intro j. unfold param_name. destruct (Nat.lt_ge_cases j (List.length (nm_par nm))); [left; split; [assumption|now apply nth_In]|right; split; [assumption|now apply nth_overflow]].
Qed.
Lemma its_in : forall x, In x its -> In x (all_names nm).
Proof. intros x H. unfold its in H. unfold all_names. rewrite app_assoc. apply in_or_app. now left. Qed.
Lemma par_in : forall x, In x (nm_par nm) -> In x (all_names nm).
Proof. intros x H. unfold all_names. rewrite app_assoc. apply in_or_app. now right. Qed.
Lemma level_ident : forall i, ident (level_name nm (S i)) = true.
Proof. intro i. destruct (level_cases i) as [[_ H]|[_ ->]]; [apply nm_ident, its_in, H|apply fresh_ident]. Qed.
Lemma param_ident : forall j, ident (param_name nm j) = true.
Proof. intro i. destruct (param_cases i) as [[_ H]|[_ ->]]; [apply nm_ident, par_in, H|apply fresh_ident]. Qed.
Lemma nodup_app : forall (a b : list string), NoDup (a ++ b) -> NoDup a /\ NoDup b /\ forall x, In x a -> ~ In x b.
Proof.
  induction a as [|x a IH]; intros b H; [split; [constructor|split; [exact H|intros ? []]]|]. inversion H as [|y l H1 H2]; subst. destruct (IH b H2) as (A & B & C). split.
  - constructor; [|exact A]. intro I. apply H1, in_or_app. now left.
  - split; [exact B|]. intros z [<-|Hz]; [intro I; apply H1, in_or_app; now right|now apply C].
Qed.
Lemma its_nodup : NoDup its /\ forall x, In x its -> ~ In x (nm_par nm).
Proof. unfold all_names in nm_dup. rewrite app_assoc in nm_dup. destruct (nodup_app _ _ nm_dup) as (A & _ & C). split; assumption. Qed.
Lemma level_inj : forall i j, level_name nm (S i) = level_name nm (S j) -> i = j.
Proof.
  intros i j E. destruct (level_cases i) as [[Li Ii]|[Li Ei]], (level_cases j) as [[Lj Ij]|[Lj Ej]].
  - unfold level_name in E. replace (S i - 1)%nat with i in E by lia. replace (S j - 1)%nat with j in E by lia.
    rewrite (nth_indep _ _ "" Li), (nth_indep _ _ "" Lj) in E. exact (proj1 (NoDup_nth its "") (proj1 its_nodup) i j Li Lj E).
  - exfalso. rewrite Ej in E. symmetry in E. revert E. apply fresh_new, its_in, Ii.
  - exfalso. rewrite Ei in E. revert E. apply fresh_new, its_in, Ij.
  - rewrite Ei, Ej in E. apply fresh_inj in E. lia.
Qed.
Lemma level_par : forall i j, (j < List.length (nm_par nm))%nat -> level_name nm (S i) <> param_name nm j.
Proof.
  intros i j Hj E. destruct (param_cases j) as [[_ Ip]|[L _]]; [|lia]. destruct (level_cases i) as [[_ Ii]|[_ Ei]].
  - rewrite E in Ii. exact (proj2 its_nodup _ Ii Ip).
  - rewrite Ei in E. revert E. apply fresh_new, par_in, Ip.
Qed.
Lemma names_good : forall x, good (level_name nm) (param_name nm) (List.length (nm_par nm)) (List.length its) x -> In x (all_names nm).
Proof.
  intros x [(i & Hi & ->)|(j & Hj & ->)].
  - destruct i as [|i]; [lia|]. destruct (level_cases i) as [[_ I]|[L _]]; [now apply its_in|lia].
  - destruct (param_cases j) as [[_ I]|[L _]]; [now apply par_in|lia].
Qed.
Lemma params_set : forall zs i, NoDup (nm_par nm) -> List.length zs = List.length (nm_par nm) -> (i < List.length zs)%nat ->
  with_params (nm_par nm) zs (param_name nm i) = Some (nth i zs 0).
Proof.
  intros zs i ND E Hi. unfold param_name. rewrite (nth_indep _ _ "") by lia. generalize dependent i. revert zs E. induction (nm_par nm) as [|p ps IH]; intros [|z zs] E i Hi; cbn [List.length] in *; try lia.
  inversion ND as [|y l N1 N2]; subst. destruct i as [|i]; cbn [nth with_params].
  - unfold assign. now rewrite String.eqb_refl.
  - unfold assign. destruct (String.eqb_spec p (nth i ps "")) as [Ep|_]; [|apply (IH N2 zs); lia]. exfalso. apply N1. rewrite Ep. apply nth_In. lia.
Qed.
End Level.
Lemma label_ok : forall po stmt_name n, (p_callable po = true \/ forall m, stmt_name m = None) -> call_name_ok po stmt_name n = true.
Proof.
  intros po stmt_name n H. assert (E : stmt_label po stmt_name n = String "S" (nat_text n)) by (unfold stmt_label; destruct H as [-> | H]; [reflexivity|rewrite H; now destruct (p_callable po)]).
  unfold call_name_ok. rewrite E. unfold ident. cbn [is_alpha]. rewrite nat_chars. reflexivity.
Qed.

(** *** the statements made for the loops *)
Section Made.
Variables (sort_exprs : list expr -> list expr) (sort_eqns : list eqn -> list eqn) (reduce : list (option (eqtype * row)) -> list row -> nat -> list row).
Variables (P : Poly) (Se : Sem P) (rows_of : dom P -> list row) (pv : list Z) (co : copts) (nm : names).
Hypothesis S1 : forall l, Permutation l (sort_exprs l).
Hypothesis S2 : forall l, Permutation l (sort_eqns l).
Hypothesis RL : reduce_fits (List.length pv) reduce.
Hypothesis LP : List.length pv = List.length (nm_par nm).
Variables (ls res : list (loop P)) (ss : list stmt).
Let ns : nat := List.length (nm_scat nm).
Variable reserved : string -> Prop.
Hypothesis WN : well_named reserved nm (blocks_of P ns ls).
Hypothesis deep : Forall (fun l => l_blk P l <> None /\ (ns <= dim P (l_dom P l))%nat) ls.
Hypothesis FI : Forall (each_loop (from_input P ls)) res.
Hypothesis RD : Forall (ready0 P Se rows_of pv co) res.
Hypothesis NP : Forall (no_pairs0 P rows_of (List.length pv)) res.
Hypothesis CC : clast_create (level_name nm) (param_name nm) sort_exprs sort_eqns reduce P rows_of co ns (List.length pv) res = Some ss.
Definition in_blocks (d : nat) (b : block) : Prop := In ((d - ns)%nat, b_stmts b) (blocks_of P ns ls).
Lemma input_depth : forall l, In l ls -> exists b, l_blk P l = Some b /\ In ((dim P (l_dom P l) - ns)%nat, b_stmts b) (blocks_of P ns ls) /\ (dim P (l_dom P l) <= List.length (nm_scat nm ++ nm_iter nm))%nat.
Proof.
  intros l Hl. rewrite Forall_forall in deep. destruct (deep l Hl) as [NB Hd]. destruct (l_blk P l) as [b|] eqn:Eb; [|congruence]. exists b.
  assert (I : In ((dim P (l_dom P l) - ns)%nat, b_stmts b) (blocks_of P ns ls)).
  { apply in_flat_map. exists l. split; [exact Hl|]. rewrite Eb. now left. }
  split; [reflexivity|]. split; [exact I|]. apply (wn_depth _ _ _ WN) in I. rewrite app_length. unfold ns in *. lia.
Qed.
Lemma from_node : forall l, each_loop (from_input P ls) l -> each_loop (node_ok P (List.length (nm_scat nm ++ nm_iter nm)) in_blocks) l.
Proof.
  induction l as [d ot st b inner IH] using (loop_ind' P). intro H. inversion H as [l0 (l1 & I1 & H1) H2 E]; subst l0. cbn [l_inner l_blk l_dom] in *.
  destruct (input_depth l1 I1) as (b1 & Eb & Ib & Ld). constructor.
  - split; cbn [l_dom l_blk].
    + destruct b as [b|]; [destruct H1 as [_ H1]|]; lia.
    + intros b0 E0. subst b. destruct H1 as [H1 H3]. rewrite Eb in H1. injection H1 as <-. unfold in_blocks. rewrite H3. exact Ib.
  - cbn [l_inner]. rewrite Forall_forall in *. auto.
Qed.
Lemma made_facts : uses_names nm ss /\ calls_blocks (blocks_of P ns ls) ss.
Proof.
  destruct (create_good (level_name nm) (param_name nm) sort_exprs sort_eqns reduce P rows_of (List.length pv)) with (D := List.length (nm_scat nm ++ nm_iter nm)) (o := co) (ns := ns) (K := in_blocks) (ls := res) (ss := ss) as [G C].
  - exact S1.
  - exact S2.
  - apply level_ident, (wn_ident _ _ _ WN).
  - apply param_ident, (wn_ident _ _ _ WN).
  - exact RL.
  - rewrite Forall_forall in *. intros l Hl. eapply ready0_shaped; [now apply RD|now apply NP].
  - rewrite Forall_forall in FI |- *. intros l Hl. apply from_node. now apply FI.
  - exact CC.
  - split.
    + intros x Hx. apply names_good. rewrite <- LP. now apply G.
    + intros n d H. destruct (C (n, d) H) as (d0 & b & Kb & Hn & Hd). cbn [fst snd] in *. exists (b_stmts b). split; [|exact Hn]. rewrite Hd. exact Kb.
Qed.
End Made.

(** *** the loops of the generator come from the input *)
Lemma generated_from (P : Poly) (Se : Sem P) (L : Laws P Se) (kinds : list bool) (o : options) (fuel : nat) (ctx : dom P) (ls res : list (loop P)) :
  (o_stop o < 0)%Z -> o_strides o = false \/ StrideLaws P Se -> dim P ctx = 0%nat -> statement_loops P kinds ls ->
  cloog_program_generate P (run_lengths kinds) o fuel ctx ls = Some res -> Forall (each_loop (from_input P ls)) res.
Proof.
  intros Hs Ht Hc Hl E. unfold cloog_program_generate in E. set (o' := sanitize (List.length (run_lengths kinds)) o) in *.
  assert (Eo : o_stop o' = o_stop o /\ o_strides o' = o_strides o) by (unfold o', sanitize; destruct (o_override o); auto). clearbody o'. destruct Eo as [E1 E2].
  set (K := fun (d : nat) (b : block) => exists l0, In l0 ls /\ l_blk P l0 = Some b /\ d = dim P (l_dom P l0)).
  assert (HK : forall d b, K d b -> (cf kinds <= d)%nat).
  { intros d b (l0 & I0 & _ & ->). unfold statement_loops in Hl. rewrite Forall_forall in Hl. destruct (Hl l0 I0) as (d' & ot & b' & -> & Hd). exact Hd. }
  pose proof (generate_each P Se L kinds o' ltac:(lia) (fun H => match Ht with or_introl e => False_ind _ ltac:(rewrite E2, e in H; discriminate H) | or_intror e => e end) K HK (fun _ => True) (fun _ _ _ _ H => H) (fun _ _ _ _ => Logic.I) (fun _ _ _ _ _ => Logic.I) fuel ctx ls res Hc) as G.
  assert (HF : Forall (leafK P K (fun _ => True)) ls).
  { unfold statement_loops in Hl. rewrite Forall_forall in *. intros l Hi. destruct (Hl l Hi) as (d' & ot & b' & El & Hd). rewrite El. split; [reflexivity|]. split; [|intro; exact Logic.I]. exists b'. split; [reflexivity|].
    exists l. split; [exact Hi|]. rewrite El. split; reflexivity. }
  specialize (G HF E). clear - G. rewrite Forall_forall in *. intros l Hl. specialize (G l Hl). clear Hl.
  induction l as [d ot st blk inner IH] using loop_ind'. inversion G as [l0 [O1 _] OI E0]. subst l0. cbn [l_blk l_dom l_inner] in O1, OI. constructor.
  - unfold from_input. cbn [l_blk l_dom]. destruct blk as [b|].
    + destruct O1 as (l0 & I0 & B0 & D0). exists l0. now rewrite B0.
    + destruct O1 as (d0 & b0 & (l0 & I0 & _ & ->) & Hd). now exists l0.
  - cbn [l_inner]. rewrite Forall_forall in *. intros a Ha. now apply IH, OI.
Qed.
