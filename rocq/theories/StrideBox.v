(** A library with strides: the unions of boxes of LoopBox.v with the residue class of an iterator,
    where every union counts as convex; used to show that the hypotheses about strides can be met. *)
From Coq Require Import ZArith List Bool Lia.
From Verif Require Import LoopModel LoopSpec LoopBox.
From Verif Require StrideModel.
Import ListNotations.

(** isl_set_dim_residue_class_val on a union of boxes: (modulo, residue); (1, 0) when some box has
    more than one value *)
Definition point_of (i : itv) : option Z :=
  match i with (Some a, Some b) => if (a =? b)%Z then Some a else None | _ => None end.
Fixpoint points (ps : list box) (l : nat) : option (list Z) :=
  match ps with
  | [] => Some []
  | p :: r => match point_of (nth (l - 1) p full), points r l with Some v, Some vs => Some (v :: vs) | _, _ => None end
  end.
Definition residue_class (d : bdom) (l : nat) : Z * Z :=
  match points (good d) l with
  | Some (v :: vs) => let m := fold_left Z.gcd (map (fun w => w - v)%Z vs) 0%Z in (m, if (m =? 0)%Z then v else (v mod m)%Z)
  | _ => (1, 0)%Z
  end.

Definition norm (d : bdom) : bdom :=
  {| bd := bd d; bs := nodup (list_eq_dec (fun i j : itv => ltac:(repeat decide equality))) (good d) |}.
Definition StridePoly : Poly := {|
  dom := dom BoxPoly; sconstr := sconstr BoxPoly; lbc := lbc BoxPoly;
  dim := dim BoxPoly; isempty := isempty BoxPoly; isconvex := fun _ => true; single := fun _ => true;
  simplify_union := simplify_union BoxPoly; cut_first := fun d => Some (d, empty_like BoxPoly d); difference := fun a b => norm (difference BoxPoly a b);
  union := fun a b => norm (union BoxPoly a b); intersection := fun a b => norm (intersection BoxPoly a b); empty_like := empty_like BoxPoly;
  extend := extend BoxPoly; project := fun d n => norm (project BoxPoly d n); lazy_equal := fun _ _ => false;
  lazy_disjoint := lazy_disjoint BoxPoly; convex := fun d => d; simple_convex := simple_convex BoxPoly;
  is_bounded := is_bounded BoxPoly; bound_splitter := bound_splitter BoxPoly; compare_at := compare_at BoxPoly;
  follows_at := follows_at BoxPoly; lazy_isconstant := lazy_isconstant BoxPoly;
  can_stride := fun _ _ => true;
  list_stride := list_stride BoxPoly;
  domain_stride := fun d l => StrideModel.domain_stride (residue_class d l);
  stride_lower_bound := stride_lower_bound BoxPoly; add_stride_constraint := add_stride_constraint BoxPoly;
  is_otl := is_otl BoxPoly; can_unroll := can_unroll BoxPoly; fixed_offset := fixed_offset BoxPoly;
  gist := gist BoxPoly; never_integral := never_integral BoxPoly
|}.
Definition StrideSem : Sem StridePoly := {|
  mem := bmem : dom StridePoly -> _;
  sok := fun _ _ => true;
  lbv := fun (lb : lbc StridePoly) _ => lb;
  pdisj := fun d : dom StridePoly => forall x, length (filter (fun p => inb p x) (good d)) <= 1;
  polyh := fun _ => True
|}.

Lemma norm_mem d x : bmem (norm d) x = bmem d x.
Proof.
  rewrite (bmem_good d). unfold bmem, norm. cbn [bd bs]. apply eq_true_iff_eq. rewrite andb_true_iff, !existsb_exists. split.
  - intros (_ & p & Hp & Hx). apply nodup_In in Hp. eauto.
  - intros (p & Hp & Hx). split; [|exists p; split; [apply nodup_In; exact Hp|exact Hx]].
    assert (H : bmem d x = true) by (apply bmem_iff; eauto). unfold bmem in H. apply andb_true_iff in H as [H _]. exact H.
Qed.
Theorem stride_box_laws : Laws StridePoly StrideSem.
Proof.
  destruct box_laws; constructor; try assumption; cbn [StridePoly isconvex single cut_first convex lazy_equal]; try discriminate; try reflexivity; auto.
  - intros d f r H. injection H as <- <-. split; [reflexivity|]. apply L_empty_dim.
  - intros d f r x H. injection H as <- <-. change (bmem d x = bmem d x || mem BoxSem (empty_like BoxPoly d) x). rewrite L_empty, orb_false_r. reflexivity.
  - intros d f r _ H. injection H as <- <-. split; [|intros x _; apply L_empty]. intros x. cbn. unfold good. cbn. lia.
  - intros a b x H. etransitivity; [apply norm_mem|exact (L_diff a b x H)].
  - intros a b x H. etransitivity; [apply norm_mem|exact (L_union a b x H)].
  - intros a b x H. etransitivity; [apply norm_mem|exact (L_inter a b x H)].
  - intros d n x H Hx. etransitivity; [apply norm_mem|exact (L_project d n x H Hx)].
  - intros c d x H _ _ Hx. assert (E : bmem (intersection BoxPoly c d) x = bmem c x && bmem d x) by exact (L_inter c d x H).
    assert (Hx' : bmem (norm (intersection BoxPoly c d)) x = true) by exact Hx. rewrite norm_mem, E in Hx'. apply andb_prop in Hx'. apply Hx'.
  - intros d l n lb x Hl Hd _ H Hx. apply (L_unroll_range d l n lb x Hl Hd); [|exact H|exact Hx]. cbn in *. destruct (good d) as [|p [|q r]]; [discriminate|reflexivity|discriminate].
Qed.

Lemma gcd_fold l : forall g, (fold_left Z.gcd l g | g)%Z /\ forall v, In v l -> (fold_left Z.gcd l g | v)%Z.
Proof.
  induction l as [|a l IH]; intros g; cbn [fold_left].
  - split; [apply Z.divide_refl|intros v []].
  - destruct (IH (Z.gcd g a)) as [H1 H2]. split.
    + eapply Z.divide_trans; [exact H1|apply Z.gcd_divide_l].
    + intros v [<-|Hv]; [eapply Z.divide_trans; [exact H1|apply Z.gcd_divide_r]|apply H2, Hv].
Qed.
Lemma gcd_fold_nonneg l : forall g, (0 <= g)%Z -> (0 <= fold_left Z.gcd l g)%Z.
Proof. induction l as [|a l IH]; intros g Hg; cbn [fold_left]; [exact Hg|]. apply IH, Z.gcd_nonneg. Qed.

Lemma points_in ps l : forall vs, points ps l = Some vs -> forall p x, In p ps -> inb p x = true -> l - 1 < length x -> In (nth (l - 1) x 0%Z) vs.
Proof.
  induction ps as [|q ps IH]; intros vs H p x Hin Hx Hl; [destruct Hin|]. cbn [points] in H.
  destruct (point_of (nth (l - 1) q full)) as [v|] eqn:Ev; [|discriminate]. destruct (points ps l) as [vs'|]; [|discriminate]. injection H as <-.
  destruct Hin as [<-|Hin]; [|right; apply (IH vs' eq_refl p x); assumption]. left.
  assert (G : forall (p : box) x n, inb p x = true -> n < length x -> ini (nth n p full) (nth n x 0%Z) = true).
  { clear. induction p as [|i p IH]; intros [|v x] n H Hn; cbn in *; try discriminate; [lia|]. apply andb_true_iff in H as [H1 H2]. destruct n; [exact H1|]. apply IH; [exact H2|lia]. }
  pose proof (G _ _ _ Hx Hl) as E. unfold point_of in Ev. destruct (nth (l - 1) q full) as [[a|] [b|]]; try discriminate.
  destruct (Z.eqb_spec a b) as [->|]; [|discriminate]. injection Ev as <-. unfold ini, ge_lo, le_hi in E. cbn [fst snd] in E. apply andb_true_iff in E as [E1 E2]. apply Z.leb_le in E1, E2. lia.
Qed.

Lemma residue_ok d l x : 1 <= l -> l <= bd d -> bmem d x = true ->
  (0 <= fst (residue_class d l))%Z /\ (fst (residue_class d l) | nth (l - 1) x 0 - snd (residue_class d l))%Z.
Proof.
  intros H1 H2 H. unfold residue_class. destruct (points (good d) l) as [[|v vs]|] eqn:E; cbn [fst snd]; try (split; [lia|apply Z.divide_1_l]).
  unfold bmem in H. apply andb_true_iff in H as [Hl H]. apply existsb_exists in H as (p & Hp & Hx). apply Nat.eqb_eq in Hl.
  assert (Hg : In p (good d)).
  { unfold good. apply filter_In. split; [exact Hp|]. apply andb_true_iff. split.
    - apply Nat.eqb_eq. rewrite <- Hl. clear - Hx. revert x Hx. induction p as [|i p IH]; intros [|v x] H; cbn in *; try discriminate; [reflexivity|]. apply andb_true_iff in H as [_ H]. f_equal. apply IH, H.
    - apply negb_true_iff. clear - Hx. unfold bempty. revert x Hx. induction p as [|i p IH]; intros [|v x] H; cbn in *; try discriminate; [reflexivity|]. apply andb_true_iff in H as [H1 H].
      rewrite (IH x H), orb_false_r. unfold ini in H1. unfold iempty. destruct i as [[a|] [b|]]; cbn in *; try reflexivity. apply andb_true_iff in H1 as [H1 H3]. apply Z.leb_le in H1, H3. apply Z.ltb_ge. lia. }
  assert (Hin := points_in _ _ _ E p x Hg Hx ltac:(lia)).
  set (m := fold_left Z.gcd (map (fun w => (w - v)%Z) vs) 0%Z). assert (Hm : (0 <= m)%Z) by (apply gcd_fold_nonneg; lia).
  split; [exact Hm|].
  assert (D : (m | nth (l - 1) x 0 - v)%Z).
  { destruct Hin as [->|Hin]; [rewrite Z.sub_diag; apply Z.divide_0_r|]. apply (gcd_fold _ 0). apply in_map_iff. eexists; split; [reflexivity|exact Hin]. }
  destruct (Z.eqb_spec m 0) as [E0|E0]; [exact D|]. replace (nth (l - 1) x 0 - v mod m)%Z with ((nth (l - 1) x 0 - v) + (v / m) * m)%Z by (rewrite (Z.mod_eq v m E0); lia).
  apply Z.divide_add_r; [exact D|apply Z.divide_factor_r].
Qed.
Lemma domain_stride_pos rc : (0 <= fst rc)%Z -> (0 <= fst (StrideModel.domain_stride rc))%Z.
Proof. destruct rc as [m r]. intros H. exact H. Qed.
Lemma residue_nonneg d l : (0 <= fst (residue_class d l))%Z.
Proof. unfold residue_class. destruct (points (good d) l) as [[|v vs]|]; cbn [fst]; try lia. apply gcd_fold_nonneg. lia. Qed.

Theorem stride_box_strides : StrideLaws StridePoly StrideSem.
Proof.
  constructor.
  - intros. discriminate.
  - intros d l. apply domain_stride_pos, residue_nonneg.
  - intros d l x H1 H2 H. destruct (residue_ok d l x H1 H2 H) as [H3 H4]. cbn [StridePoly domain_stride].
    destruct (residue_class d l) as [m r]. cbn [StrideModel.domain_stride fst snd] in *. destruct (Z.eqb_spec r 0) as [->|Hr].
    + rewrite Z.add_0_r. rewrite Z.sub_0_r in H4. exact H4.
    + replace (nth (l - 1) x 0 + (m - r))%Z with ((nth (l - 1) x 0 - r) + 1 * m)%Z by lia. apply Z.divide_add_r; [exact H4|apply Z.divide_factor_r].
  - reflexivity.
  - intros d l st y H _. exact H.
  - intros d l st H. exact H.
  - reflexivity.
Qed.
