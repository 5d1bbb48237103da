(** From the statement domains to the executed calls: the loop generator and clast.c together. *)
From Coq Require Import ZArith List Bool Arith String Sorted Permutation Lia.
From Verif Require Import LoopModel LoopSpec LoopCount LoopBox LoopExamples ClastModel ClastSpec ClastMain ClastExamples ClastReady.
Import ListNotations.
Local Open Scope Z_scope.
Local Arguments Nat.ltb : simpl never. Local Arguments Nat.leb : simpl never. Local Arguments Nat.eqb : simpl never. Local Arguments Nat.sub : simpl never.

Definition inst_eq_dec (a b : block * list Z) : {a = b} + {a <> b}.
Proof. decide equality; [apply list_eq_dec, Z.eq_dec|apply block_eq_dec]. Defined.
Lemma lex_irrefl u : ~ lex_lt u u.
Proof. induction u as [|a u IH]; intros H; inversion H; subst; [lia|auto]. Qed.
Lemma lex_asym u v : lex_lt u v -> lex_lt v u -> False.
Proof. revert v. induction u as [|a u IH]; intros v H1 H2; inversion H1; subst; inversion H2; subst; try lia. eapply IH; eassumption. Qed.
Lemma sorted_pairs {A} (R : A -> A -> Prop) l : StronglySorted R l -> ForallOrdPairs R l.
Proof. induction 1; constructor; assumption. Qed.
Lemma fop_map_inv {A B} (f : A -> B) (R : B -> B -> Prop) l : ForallOrdPairs R (map f l) -> ForallOrdPairs (fun a b => R (f a) (f b)) l.
Proof. induction l as [|a l IH]; intros H; inversion H; subst; constructor; [|apply IH; assumption]. rewrite Forall_forall in *. intros b Hb. apply H2. apply in_map. exact Hb. Qed.
Lemma fop_map {A B} (f : A -> B) (R : B -> B -> Prop) l : ForallOrdPairs (fun a b => R (f a) (f b)) l -> ForallOrdPairs R (map f l).
Proof. induction 1 as [|a l H1 H2 IH]; cbn; constructor; [|exact IH]. apply Forall_forall. intros b Hb. apply in_map_iff in Hb. destruct Hb as (c & <- & Hc). rewrite Forall_forall in H1. apply H1. exact Hc. Qed.
Lemma fop_in {A} (R S : A -> A -> Prop) l : (forall a b, In a l -> In b l -> R a b -> S a b) -> ForallOrdPairs R l -> ForallOrdPairs S l.
Proof.
  intros H G. induction G as [|a l H1 H2 IH]; constructor.
  - rewrite Forall_forall in *. intros b Hb. apply H; [left; reflexivity|right; exact Hb|apply H1; exact Hb].
  - apply IH. intros x y Hx Hy. apply H; right; assumption.
Qed.

Definition trace (L : list (list Z * block * list Z)) : list (block * list Z) := map (fun e => (snd (fst e), snd e)) L.
Lemma calls_trace ns L : calls ns L = flat_map (fun e => map (fun num => (num, skipn ns (snd e))) (b_stmts (fst e))) (trace L).
Proof. unfold calls, trace. rewrite flat_map_concat_map, (flat_map_concat_map _ (map _ L)), map_map. reflexivity. Qed.
Lemma count_trace L b y : count_occ inst_eq_dec (trace L) (b, y) = List.length (filter (fun e => if inst_eq_dec (snd (fst e), snd e) (b, y) then true else false) L).
Proof. induction L as [|e L IH]; [reflexivity|]. cbn [trace map count_occ filter]. fold (trace L). destruct (inst_eq_dec (snd (fst e), snd e) (b, y)); cbn [List.length]; rewrite IH; reflexivity. Qed.
Lemma runs_count {P} (Se : Sem P) ls x L b y ps : runs Se ls x L -> NoDup ps -> (forall p, In p ps <-> Exec P Se ls x p b y) ->
  count_occ inst_eq_dec (trace L) (b, y) = List.length ps.
Proof.
  intros (H1 & H2) Hn Hp. rewrite count_trace. set (F := filter _ L). rewrite <- (map_length (fun e => fst (fst e)) F). apply Permutation_length. apply NoDup_Permutation; [| exact Hn|].
  - assert (Hd : NoDup (map (fun e : list Z * block * list Z => fst (fst e)) L)).
    { clear - H1. induction (map (fun e : list Z * block * list Z => fst (fst e)) L) as [|p l IH]; [constructor|]. inversion H1; subst. constructor; [|auto]. intros Hin. rewrite Forall_forall in H3. apply (lex_irrefl p). apply H3. exact Hin. }
    unfold F. clear - Hd. induction L as [|e L IH]; [constructor|]. cbn [map] in Hd. inversion Hd; subst. cbn [filter]. destruct (inst_eq_dec _ _); [|auto]. cbn [map]. constructor; [|auto].
    intros Hin. apply H1. apply in_map_iff in Hin. destruct Hin as (e' & E & Hin). apply filter_In in Hin. rewrite <- E. exact (in_map (fun e : list Z * block * list Z => fst (fst e)) L e' (proj1 Hin)).
  - intros p. rewrite Hp. unfold F. rewrite in_map_iff. split.
    + intros ([[p' b'] y'] & <- & Hin). apply filter_In in Hin. destruct Hin as (Hin & E). cbn [fst snd] in *. destruct (inst_eq_dec (b', y') (b, y)) as [Q|Q]; [|discriminate]. injection Q as -> ->. apply H2. exact Hin.
    + intros Ex. exists (p, b, y). split; [reflexivity|]. apply filter_In. split; [apply H2; exact Ex|]. cbn [fst snd]. destruct (inst_eq_dec (b, y) (b, y)); [reflexivity|contradiction].
Qed.
Lemma runs_order {P} (Se : Sem P) ls x L (R : block -> list Z -> block -> list Z -> Prop) : runs Se ls x L ->
  (forall p b y p' b' y', Exec P Se ls x p b y -> Exec P Se ls x p' b' y' -> R b y b' y' -> lex_lt p p') ->
  ForallOrdPairs (fun e e' => ~ R (fst e') (snd e') (fst e) (snd e)) (trace L).
Proof.
  intros (H1 & H2) HR. apply fop_map. cbn [fst snd]. apply sorted_pairs in H1. apply fop_map_inv in H1. eapply fop_in; [|exact H1]. intros [[p b] y] [[p' b'] y'] Hi Hi' Hlt HRR. cbn [fst snd] in *.
  apply H2 in Hi. apply H2 in Hi'. exact (lex_asym _ _ Hlt (HR _ _ _ _ _ _ Hi' Hi HRR)).
Qed.

(** ** boxes as constraints *)
Definition unit_row (n i : nat) (c : Z) : list Z := map (fun j => if (j =? i)%nat then c else 0) (seq 0 n).
Definition itv_rows (n i : nat) (v : itv) : list row :=
  match v with
  | (Some a, Some b) => if a =? b then [eq0 (unit_row n i 1) (- a)] else [ge (unit_row n i 1) (- a); ge (unit_row n i (-1)) b]
  | (Some a, None) => [ge (unit_row n i 1) (- a)]
  | (None, Some b) => [ge (unit_row n i (-1)) b]
  | (None, None) => []
  end.
Fixpoint box_rows (n i : nat) (p : box) : list row :=
  match p with [] => [] | v :: p' => itv_rows n i v ++ box_rows n (S i) p' end.
Definition rows_box (np : nat) (d : dom BoxPoly) : list row :=
  match bs d with [p] => box_rows (bd d + np) 0 p | _ => [] end.
Definition one_box (d : dom BoxPoly) : bool := match bs d with [p] => (List.length p =? bd d)%nat | _ => false end.
Lemma dot_unit c i : forall n s w, List.length w = n -> (s <= i)%nat -> dot (map (fun j => if (j =? i)%nat then c else 0) (seq s n)) w = c * nth (i - s) w 0.
Proof.
  induction n as [|n IH]; intros s w Hw Hs; destruct w as [|z w]; try discriminate.
  - cbn [seq map dot]. destruct (i - s)%nat; cbn; lia.
  - cbn [seq map dot]. cbn [List.length] in Hw. destruct (Nat.eqb_spec s i) as [E|E].
    + subst s. replace (i - i)%nat with 0%nat by lia. cbn [nth]. clear IH Hs.
      assert (Z0 : forall n s w, (i < s)%nat -> dot (map (fun j => if (j =? i)%nat then c else 0) (seq s n)) w = 0).
      { clear. induction n as [|n IH]; intros s w Hs; destruct w as [|z w]; try reflexivity. cbn [seq map dot]. destruct (Nat.eqb_spec s i); [lia|]. rewrite IH by lia. lia. }
      rewrite Z0 by lia. lia.
    + rewrite IH by lia. replace (i - s)%nat with (S (i - S s)) by lia. cbn [nth]. lia.
Qed.
Lemma unit_length n i c : List.length (unit_row n i c) = n.
Proof. unfold unit_row. rewrite map_length, seq_length. reflexivity. Qed.
Lemma itv_rows_ok n i v w : List.length w = n -> (Forall (row_holds w) (itv_rows n i v) <-> ini v (nth i w 0) = true).
Proof.
  intros Hw. assert (D : forall c, dot (unit_row n i c) w = c * nth i w 0) by (intros c; unfold unit_row; rewrite dot_unit by lia; f_equal; f_equal; lia).
  assert (G : forall c k, row_holds w (ge (unit_row n i c) k) <-> 0 <= c * nth i w 0 + k) by (intros; unfold row_holds, row_val, ge; cbn [r_eq r_co r_k]; rewrite D; reflexivity).
  assert (E : forall c k, row_holds w (eq0 (unit_row n i c) k) <-> c * nth i w 0 + k = 0) by (intros; unfold row_holds, row_val, eq0; cbn [r_eq r_co r_k]; rewrite D; reflexivity).
  unfold itv_rows, ini. destruct v as [[a|] [b|]]; cbn [fst snd ge_lo le_hi].
  - destruct (Z.eqb_spec a b) as [->|Hab].
    + rewrite Forall_cons_iff, E, andb_true_iff, !Z.leb_le. split; [intros (H & _); lia|intros H; split; [lia|constructor]].
    + rewrite !Forall_cons_iff, !G, andb_true_iff, !Z.leb_le. split; [intros (H & H' & _); lia|intros H; repeat split; try lia; constructor].
  - rewrite !Forall_cons_iff, !G, andb_true_r, !Z.leb_le. split; [intros (H & _); lia|intros H; repeat split; try lia; constructor].
  - rewrite !Forall_cons_iff, !G. cbn [andb]. rewrite !Z.leb_le. split; [intros (H & _); lia|intros H; repeat split; try lia; constructor].
  - split; [reflexivity|constructor].
Qed.
Lemma box_rows_ok w : forall p i, (i + List.length p <= List.length w)%nat ->
  (Forall (row_holds w) (box_rows (List.length w) i p) <-> inb p (firstn (List.length p) (skipn i w)) = true).
Proof.
  induction p as [|v p IH]; intros i Hi; [cbn; split; [reflexivity|constructor]|]. cbn [box_rows List.length] in *. rewrite Forall_app, itv_rows_ok, IH by lia.
  assert (E : skipn i w = nth i w 0 :: skipn (S i) w).
  { clear IH. revert i Hi. induction w as [|z w IHw]; intros i Hi; [cbn in Hi; lia|]. destruct i as [|i]; [reflexivity|]. cbn [skipn nth]. cbn [List.length] in Hi. rewrite IHw by lia. reflexivity. }
  rewrite E. cbn [firstn inb]. rewrite andb_true_iff. reflexivity.
Qed.
Lemma box_rows_len n : forall p i, Forall (fun r => List.length (r_co r) = n) (box_rows n i p).
Proof.
  induction p as [|v p IH]; intros i; [constructor|]. cbn [box_rows]. apply Forall_app. split; [|apply IH]. unfold itv_rows. destruct v as [[a|] [b|]]; [destruct (a =? b)| | |]; repeat constructor; apply unit_length.
Qed.
Lemma rows_box_exact pv d : one_box d = true -> rows_exact BoxPoly BoxSem (rows_box (List.length pv)) pv d.
Proof.
  unfold one_box, rows_box, rows_exact. cbn [dim BoxPoly]. destruct (bs d) as [|p [|q r]] eqn:E; try discriminate. intros Hp. apply Nat.eqb_eq in Hp. split; [apply box_rows_len|].
  intros x Hx. cbn [mem BoxSem]. unfold bmem. rewrite E, (proj2 (Nat.eqb_eq _ _) Hx). cbn [andb existsb]. rewrite orb_false_r. rewrite <- Hx at 1. rewrite <- app_length. rewrite box_rows_ok by (rewrite app_length; lia).
  cbn [skipn]. rewrite firstn_app, Hp, <- Hx, firstn_all, Nat.sub_diag. cbn [firstn]. rewrite app_nil_r. reflexivity.
Qed.
