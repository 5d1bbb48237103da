(** A decision procedure for the conditions under which the statements made by clast.c are right
    (used to check them for concrete loop structures). *)
From Coq Require Import ZArith List Bool Arith String Lia.
From Verif Require Import LoopModel LoopSpec LoopCount ClastModel ClastSpec ClastBounds ClastGuards ClastDivs.
Import ListNotations.
Local Open Scope Z_scope.
Local Arguments Nat.ltb : simpl never. Local Arguments Nat.leb : simpl never. Local Arguments Nat.eqb : simpl never. Local Arguments Nat.sub : simpl never.

Definition has_var (r : row) : bool := existsb (fun z => negb (z =? 0)) (r_co r).
Lemma has_var_ok r : has_var r = true -> exists i, involves r i = true.
Proof.
  unfold has_var. intros H. apply existsb_exists in H. destruct H as (z & Hz & Hn). apply In_nth with (d := 0) in Hz. destruct Hz as (i & _ & E). exists i. unfold involves, coef. rewrite E. exact Hn.
Qed.
Definition normalb (n : nat) (rows : list row) : bool :=
  forallb has_var rows &&
  forallb (fun p => negb (negb (r_eq (fst p)) && negb (r_eq (snd p)) && opposite (fst p) (snd p)) || (0 <=? r_k (fst p) + r_k (snd p))) (list_prod rows rows) &&
  match filter (fun r => r_eq r && involves r (n - 1)) rows with
  | [] => true
  | _ => (List.length (filter (fun s => involves s (n - 1)) rows) =? 1)%nat
  end.
Definition avoidsb (spread : list bool) (r : row) : bool :=
  forallb (fun i => negb (nth i spread false) || (coef r i =? 0)) (seq 0 (List.length spread)).
Lemma avoidsb_ok spread r : avoidsb spread r = true -> avoids spread r.
Proof.
  unfold avoidsb, avoids. rewrite forallb_forall. intros H i Hi. destruct (Nat.lt_ge_cases i (List.length spread)) as [G|G].
  - specialize (H i ltac:(apply in_seq; lia)). rewrite Hi in H. apply Z.eqb_eq. exact H.
  - rewrite nth_overflow in Hi by exact G. discriminate.
Qed.
Lemma filter_nil_false {A} (f : A -> bool) l : filter f l = [] -> Forall (fun a => f a = false) l.
Proof. induction l as [|a l IH]; cbn; [constructor|]. destruct (f a) eqn:E; [discriminate|]. intros H. constructor; auto. Qed.

Section Checks.
Variable P : Poly.
Variable Se : Sem P.
Variable rows_of : dom P -> list row.
Lemma normalb_ok d : normalb (dim P d) (rows_of d) = true -> rows_normal P rows_of d.
Proof.
  unfold normalb, rows_normal. rewrite !andb_true_iff. intros ((H1 & H2) & H3). split; [|split].
  - apply Forall_forall. intros r Hr. rewrite forallb_forall in H1. apply has_var_ok. apply H1. exact Hr.
  - intros u l Hu Hl Eu El Ho. rewrite forallb_forall in H2. specialize (H2 (u, l) ltac:(apply in_prod; assumption)). cbn [fst snd] in H2. rewrite Eu, El, Ho in H2. cbn in H2. apply Z.leb_le. exact H2.
  - intros pre r post E Hr Hv. rewrite E in H3. set (f := fun s => involves s (dim P d - 1)) in *.
    assert (Hf : filter (fun r => r_eq r && involves r (dim P d - 1)) (pre ++ r :: post) <> []).
    { intros F. apply filter_nil_false in F. rewrite Forall_forall in F. specialize (F r ltac:(apply in_or_app; right; left; reflexivity)). cbv beta in F. rewrite Hr, Hv in F. discriminate. }
    destruct (filter (fun r => r_eq r && involves r (dim P d - 1)) (pre ++ r :: post)); [contradiction|]. apply Nat.eqb_eq in H3. rewrite filter_app in H3. cbn [filter] in H3. unfold f at 2 in H3. rewrite Hv in H3. rewrite app_length in H3. cbn [List.length] in H3.
    rewrite Forall_app. split; apply filter_nil_false; apply length_zero_iff_nil; fold f; lia.
Qed.
Definition strideb (l : loop P) : bool :=
  match l_st P l with
  | None => true
  | Some (s, _, None) => (0 <? s) && negb (has_equation P rows_of (l_dom P l)) &&
      forallb (fun r => negb (is_lower_bound r (dim P (l_dom P l) - 1)) ||
                forallb (fun i => (i =? dim P (l_dom P l) - 1)%nat || (coef r i =? 0)) (seq 0 (List.length (r_co r)))) (rows_of (l_dom P l))
  | Some (_, _, Some _) => false
  end.
Lemma strideb_ok l : strideb l = true -> stride_usable P Se rows_of l.
Proof.
  unfold strideb, stride_usable. destruct (l_st P l) as [[[s off] [c|]]|]; [discriminate| |auto]. rewrite !andb_true_iff. intros ((H1 & H2) & H3). split; [apply Z.ltb_lt; exact H1|].
  apply negb_true_iff in H2. rewrite H2. apply Forall_forall. intros r Hr Hl i Hi. rewrite forallb_forall in H3. specialize (H3 r Hr). rewrite Hl in H3. cbn in H3. rewrite forallb_forall in H3.
  destruct (Nat.lt_ge_cases i (List.length (r_co r))) as [G|G]; [|unfold coef; apply nth_overflow; exact G]. specialize (H3 i ltac:(apply in_seq; lia)).
  destruct (Nat.eqb_spec i (dim P (l_dom P l) - 1)); [contradiction|]. apply Z.eqb_eq. exact H3.
Qed.
Definition boundedb (d : dom P) : bool :=
  has_equation P rows_of d ||
  (existsb (fun r => is_lower_bound r (dim P d - 1)) (rows_of d) && existsb (fun r => is_upper_bound r (dim P d - 1)) (rows_of d)).
Lemma boundedb_ok d : boundedb d = true -> bounded P rows_of d.
Proof.
  unfold boundedb, bounded. intros H E. rewrite E in H. cbn in H. apply andb_true_iff in H. destruct H as (A & B). split; apply Exists_exists; apply existsb_exists; assumption.
Qed.
Definition unitb (d : dom P) : bool :=
  match defining_equality (dim P d) (rows_of d) (dim P d) with Some r => Z.abs (coef r (dim P d - 1)) =? 1 | None => true end.
Lemma unitb_ok d : unitb d = true -> unit_equation P rows_of d.
Proof. unfold unitb, unit_equation. intros H r E. rewrite E in H. apply Z.eqb_eq. exact H. Qed.

End Checks.

(** Without existential dimensions the constraints describe the domain when they hold exactly at
    its points. *)
Lemma exact_describe P (Se : Sem P) rows_of pv d : rows_exact P Se rows_of pv d -> rows_describe P Se rows_of pv d.
Proof.
  intros (HL & HM). destruct (plain_same (dim P d) (List.length pv) (rows_of d) HL) as (E & _). unfold rows_describe. rewrite E. split.
  - rewrite Nat.add_0_r. exact HL.
  - intros x Hx. rewrite <- (HM x Hx). split.
    + intros (q & Hq & HF). destruct q; [exact HF|discriminate].
    + intros HF. exists []. split; [reflexivity|exact HF].
Qed.
Section Ready.
Variable P : Poly.
Variable Se : Sem P.
Variable rows_of : dom P -> list row.
Variable pv : list Z.
Variable o : copts.
(** for domains with existential dimensions: a point, values for these and for the parameters *)
Variable wit : dom P -> list Z * list Z * list Z.
Notation flat := (flat_rows P rows_of (List.length pv)).
Notation divs_of d := (n_divs (dim P d) (List.length pv) (rows_of d)).
Definition consistentb (sts : list (option (Z * Z))) (d : dom P) : bool :=
  (divs_of d =? 0)%nat ||
  (let '(w, q, pv') := wit d in
   (List.length w =? dim P d)%nat && (List.length q =? divs_of d)%nat && (List.length pv' =? List.length pv)%nat &&
   forallb (row_holdsb (w ++ q ++ pv')) (rows_of d) &&
   forallb (fun i => match nth i sts None with Some (s, off) => (nth i w 0 - off) mod s =? 0 | None => true end) (seq 0 (List.length sts))).
Lemma consistentb_ok sts d : consistentb sts d = true -> consistent P rows_of pv sts d.
Proof.
  unfold consistentb, consistent. intros H G. destruct (Nat.eqb_spec (divs_of d) 0) as [E|E]; [lia|]. cbn [orb] in H. destruct (wit d) as [[w q] pv']. rewrite !andb_true_iff in H.
  destruct H as ((((H1 & H2) & H3) & H4) & H5). apply Nat.eqb_eq in H1, H2, H3. exists w, q, pv'. split; [exact H1|]. split; [exact H2|]. split; [exact H3|]. split.
  - apply Forall_forall. intros r Hr. rewrite forallb_forall in H4. specialize (H4 r Hr). unfold row_holdsb, row_holds in *. destruct (r_eq r); [apply Z.eqb_eq|apply Z.leb_le]; exact H4.
  - intros i s off Hi. rewrite forallb_forall in H5. assert (L : (i < List.length sts)%nat) by (apply nth_error_Some; congruence). specialize (H5 i ltac:(apply in_seq; lia)).
    rewrite (nth_error_nth sts i None Hi) in H5. apply Z.eqb_eq. exact H5.
Qed.
Fixpoint readyb (l : loop P) (spread : list bool) (sts : list (option (Z * Z))) {struct l} : bool :=
  match l with
  | Loop _ d ot st b inner =>
    match b with
    | Some _ => match inner with [] => true | _ => false end && (dim P d =? List.length spread)%nat &&
        match st with None => true | _ => false end && consistentb sts d && forallb has_var (flat d) && forallb (avoidsb spread) (rows_of d)
    | None => (dim P d =? S (List.length spread))%nat && consistentb sts d && normalb (dim P d) (flat d) && forallb (avoidsb spread) (rows_of d) &&
        strideb P flat (Loop P d ot st b inner) && boundedb P flat d && (co_otl o || unitb P flat d) &&
        forallb (fun l' => readyb l' (spread ++ [is_spread P flat o d]) (sts ++ [stride_at P (Loop P d ot st b inner)])) inner
    end
  end.
Lemma readyb_ok l : forall spread sts, each_loop (fun l => rows_describe P Se rows_of pv (l_dom P l)) l -> readyb l spread sts = true -> ready P Se rows_of pv o spread sts l.
Proof.
  induction l as [d ot st b inner IH] using (loop_ind' P). intros spread sts He H. inversion He as [? He1 He2]; subst. cbn [l_dom l_inner] in He1, He2. cbn [readyb] in H. destruct b as [b|]; rewrite !andb_true_iff in H.
  - destruct H as (((((H1 & H2) & H3) & HC) & H4) & H5). apply consistentb_ok in HC. destruct inner; [|discriminate]. destruct st; [discriminate|]. apply Nat.eqb_eq in H2. rewrite forallb_forall in H4, H5.
    apply Ready_stmt with (b := b); try reflexivity; cbn [l_dom]; auto; apply Forall_forall; intros r Hr; [apply has_var_ok, H4; exact Hr|apply avoidsb_ok, H5; exact Hr].
  - destruct H as (((((((H1 & HC) & H2) & H3) & H4) & H5) & H6) & H7). apply consistentb_ok in HC. apply Nat.eqb_eq in H1. rewrite forallb_forall in H3, H7.
    apply Ready_loop; cbn [l_dom l_inner l_blk]; auto.
    + apply normalb_ok. exact H2.
    + apply Forall_forall; intros r Hr. apply avoidsb_ok, H3; exact Hr.
    + apply strideb_ok. exact H4.
    + apply boundedb_ok. exact H5.
    + intros E. rewrite E in H6. apply unitb_ok. exact H6.
    + apply Forall_forall. intros l' Hl'. rewrite Forall_forall in IH, He2. apply IH; [exact Hl'|apply He2; exact Hl'|apply H7; exact Hl'].
Qed.
Definition ready0b (l : loop P) : bool :=
  (dim P (l_dom P l) =? 0)%nat && match l_st P l with None => true | _ => false end &&
  match l_blk P l, l_inner P l with Some _, _ :: _ => false | _, _ => true end &&
  consistentb [] (l_dom P l) && forallb has_var (flat (l_dom P l)) && forallb (fun l' => readyb l' [] []) (l_inner P l).
Lemma ready0b_ok l : each_loop (fun l => rows_describe P Se rows_of pv (l_dom P l)) l -> ready0b l = true -> ready0 P Se rows_of pv o l.
Proof.
  intros He H. unfold ready0b in H. rewrite !andb_true_iff in H. destruct H as (((((H1 & H2) & H3) & HC) & H4) & H5). apply consistentb_ok in HC. inversion He as [? He1 He2]; subst. apply Nat.eqb_eq in H1. constructor; auto.
  - destruct (l_st P l); [discriminate|reflexivity].
  - intros Hb. destruct (l_blk P l); [|contradiction]. destruct (l_inner P l); [reflexivity|discriminate].
  - apply Forall_forall. intros r Hr. rewrite forallb_forall in H4. apply has_var_ok, H4. exact Hr.
  - apply Forall_forall. intros l' Hl'. rewrite forallb_forall in H5. rewrite Forall_forall in He2. apply readyb_ok; [apply He2|apply H5]; exact Hl'.
Qed.
End Ready.
Section Others.
Variable P : Poly.
Variable Se : Sem P.
(** loops that make no "at most once" promise *)
Lemma otl_none l : each_loop (fun l => l_otl P l = false) l -> forall x, otl_right P Se x l.
Proof.
  induction l as [d ot st b inner IH] using (loop_ind' P). intros He x. inversion He as [? He1 He2]; subst. cbn [l_otl l_inner] in He1, He2. constructor.
  - cbn [l_otl]. intros E. congruence.
  - intros v _. cbn [l_inner]. apply Forall_forall. intros l' Hl'. rewrite Forall_forall in IH, He2. apply IH; [exact Hl'|apply He2; exact Hl'].
  - intros _. cbn [l_inner]. apply Forall_forall. intros l' Hl'. rewrite Forall_forall in IH, He2. apply IH; [exact Hl'|apply He2; exact Hl'].
Qed.
Fixpoint eachb (q : loop P -> bool) (l : loop P) {struct l} : bool :=
  match l with Loop _ d ot st b inner => q (Loop P d ot st b inner) && forallb (eachb q) inner end.
Lemma eachb_ok q (Q : loop P -> Prop) l : (forall l, q l = true -> Q l) -> eachb q l = true -> each_loop Q l.
Proof.
  intros Hq. induction l as [d ot st b inner IH] using (loop_ind' P). cbn [eachb]. rewrite andb_true_iff, forallb_forall. intros (A & B). constructor; [apply Hq; exact A|]. cbn [l_inner].
  apply Forall_forall. intros l' Hl'. rewrite Forall_forall in IH. apply IH; [exact Hl'|apply B; exact Hl'].
Qed.
End Others.
