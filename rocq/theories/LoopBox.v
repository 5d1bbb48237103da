(** A concrete polyhedral library: finite unions of (possibly unbounded) boxes.  It is used
    to show that the hypotheses of the loop theorems can be met together, and to run the
    generator on examples.  It is not a model of isl. *)
From Coq Require Import ZArith List Bool Arith Lia Relations.
From Verif Require Import LoopModel LoopSpec.
Import ListNotations.
Local Open Scope nat_scope.

Definition itv := (option Z * option Z)%type.
Definition ge_lo (lo : option Z) (v : Z) := match lo with None => true | Some a => (a <=? v)%Z end.
Definition le_hi (hi : option Z) (v : Z) := match hi with None => true | Some b => (v <=? b)%Z end.
Definition ini (i : itv) (v : Z) : bool := ge_lo (fst i) v && le_hi (snd i) v.
Definition full : itv := (None, None).
Definition iempty (i : itv) : bool := match i with (Some a, Some b) => (b <? a)%Z | _ => false end.
Definition lo_max (a b : option Z) := match a, b with Some x, Some y => Some (Z.max x y) | Some x, None => Some x | None, y => y end.
Definition hi_min (a b : option Z) := match a, b with Some x, Some y => Some (Z.min x y) | Some x, None => Some x | None, y => y end.
Definition lo_min (a b : option Z) := match a, b with Some x, Some y => Some (Z.min x y) | _, _ => None end.
Definition hi_max (a b : option Z) := match a, b with Some x, Some y => Some (Z.max x y) | _, _ => None end.
Definition iinter (i j : itv) : itv := (lo_max (fst i) (fst j), hi_min (snd i) (snd j)).
Definition ihull (i j : itv) : itv := (lo_min (fst i) (fst j), hi_max (snd i) (snd j)).
(** the parts of [i] below and above [j] *)
Definition ibelow (i j : itv) : list itv := match fst j with None => [] | Some a => [(fst i, hi_min (snd i) (Some (a - 1)%Z))] end.
Definition iabove (i j : itv) : list itv := match snd j with None => [] | Some b => [(lo_max (fst i) (Some (b + 1)%Z), snd i)] end.
(** all of [i] before all of [j] *)
Definition ibefore (i j : itv) : bool := match snd i, fst j with Some b, Some a => (b <? a)%Z | _, _ => false end.
Definition ible (i j : itv) : bool := match snd i, fst j with Some b, Some a => (b <=? a)%Z | _, _ => false end.
Definition isub (i j : itv) : bool :=
  match fst j with None => true | Some a => match fst i with Some a' => (a <=? a')%Z | None => false end end &&
  match snd j with None => true | Some b => match snd i with Some b' => (b' <=? b)%Z | None => false end end.

Definition box := list itv.
Fixpoint inb (p : box) (x : list Z) : bool :=
  match p, x with
  | [], [] => true
  | i :: p', v :: x' => ini i v && inb p' x'
  | _, _ => false
  end.
Definition bempty (p : box) : bool := existsb iempty p.
Fixpoint zipb {A B C} (f : A -> B -> C) (l : list A) (m : list B) : list C :=
  match l, m with a :: l', b :: m' => f a b :: zipb f l' m' | _, _ => [] end.
Definition binter : box -> box -> box := zipb iinter.
Definition bhull : box -> box -> box := zipb ihull.
Fixpoint bcut (p q : box) : list box :=
  match p, q with
  | i :: p', j :: q' =>
      map (fun k => k :: p') (ibelow i j ++ iabove i j) ++ map (cons (iinter i j)) (bcut p' q')
  | _, _ => []
  end.
(** a box that does not meet [q] stays in one piece *)
Definition bdiff (p q : box) : list box := if bempty (binter p q) then [p] else bcut p q.

Record bdom := { bd : nat; bs : list box }.
Definition bok (d : bdom) := forall p, In p (bs d) -> length p = bd d.
Definition bmem (d : bdom) (x : list Z) : bool := (length x =? bd d) && existsb (fun p => inb p x) (bs d).
(** boxes of the right length that are not empty *)
Definition good (d : bdom) : list box := filter (fun p => (length p =? bd d) && negb (bempty p)) (bs d).
Definition diff1 (ps : list box) (q : box) : list box := flat_map (fun p => bdiff p q) ps.
Definition fixat (n : nat) (v : Z) (p : box) : box :=
  match nth_error p n with
  | None => p
  | Some i => firstn n p ++ iinter i (Some v, Some v) :: skipn (S n) p
  end.
Definition bcmp (p q : box) (l : nat) : Z :=
  if bempty (binter (firstn (l - 1) p) (firstn (l - 1) q)) then 0%Z
  else if ibefore (nth (l - 1) q full) (nth (l - 1) p full) then 1%Z
  else if ibefore (nth (l - 1) p full) (nth (l - 1) q full) then (-1)%Z else 0%Z.
Definition bfol (rel : itv -> itv -> bool) (a b : list box) (l : nat) : bool :=
  forallb (fun p => forallb (fun q => bempty (binter (firstn (l - 1) p) (firstn (l - 1) q)) || rel (nth (l - 1) p full) (nth (l - 1) q full)) b) a.
Fixpoint bgist (p c : box) : box :=
  match p, c with
  | i :: p', j :: c' => (if isub j i then full else i) :: bgist p' c'
  | _, _ => p
  end.
Definition hull (ps : list box) : list box := match ps with [] => [] | p :: r => [fold_left bhull r p] end.
Definition itv_eqb (i j : itv) : bool :=
  match fst i, fst j with Some a, Some b => (a =? b)%Z | None, None => true | _, _ => false end &&
  match snd i, snd j with Some a, Some b => (a =? b)%Z | None, None => true | _, _ => false end.
Fixpoint list_eqb {A} (f : A -> A -> bool) (l m : list A) : bool :=
  match l, m with [], [] => true | a :: l', b :: m' => f a b && list_eqb f l' m' | _, _ => false end.

Definition BoxPoly : Poly := {|
  dom := bdom; sconstr := unit; lbc := Z;
  dim := bd;
  isempty := fun d => match good d with [] => true | _ => false end;
  isconvex := fun d => length (good d) <=? 1;
  single := fun d => length (good d) <=? 1;
  simplify_union := fun d => {| bd := bd d; bs := good d |};
  cut_first := fun d => match good d with
                        | [] => None
                        | p :: r => Some ({| bd := bd d; bs := [p] |}, {| bd := bd d; bs := r |})
                        end;
  difference := fun a b => {| bd := bd a; bs := fold_left diff1 (good b) (good a) |};
  union := fun a b => {| bd := bd a; bs := bs a ++ bs b |};
  intersection := fun a b => {| bd := bd a; bs := flat_map (fun p => map (binter p) (good b)) (good a) |};
  empty_like := fun d => {| bd := bd d; bs := [] |};
  extend := fun d n => {| bd := n; bs := map (fun p => p ++ repeat full (n - bd d)) (good d) |};
  project := fun d n => {| bd := n; bs := map (firstn n) (good d) |};
  lazy_equal := fun a b => (bd a =? bd b) && list_eqb (list_eqb itv_eqb) (good a) (good b);
  lazy_disjoint := fun a b => forallb (fun p => forallb (fun q => bempty (binter p q)) (good b)) (good a);
  convex := fun d => {| bd := bd d; bs := hull (good d) |};
  simple_convex := fun d => {| bd := bd d; bs := hull (good d) |};
  is_bounded := fun d l => forallb (fun p => match nth (l - 1) p full with (Some _, Some _) => true | _ => false end) (good d);
  bound_splitter := fun d l => {| bd := bd d; bs := hull (good d) |};
  compare_at := fun a b l => match good a, good b with [p], [q] => bcmp p q l | _, _ => 0%Z end;
  follows_at := fun a b l => if bfol ibefore (good a) (good b) l then (-1)%Z
                             else if bfol ible (good a) (good b) l then 0%Z else 1%Z;
  lazy_isconstant := fun d l => match good d with
     | [p] => match nth l p full with (Some a, Some b) => if (a =? b)%Z then Some a else None | _ => None end
     | _ => None end;
  can_stride := fun _ _ => false;
  list_stride := fun _ _ => None;
  domain_stride := fun _ _ => (1%Z, 0%Z);
  stride_lower_bound := fun d _ _ => d;
  add_stride_constraint := fun d _ => d;
  is_otl := fun d l => match good d with
     | [p] => match nth (l - 1) p full with (Some a, Some b) => (a =? b)%Z | _ => false end
     | _ => false end;
  can_unroll := fun d l => match good d with
     | [p] => match nth (l - 1) p full with (Some a, Some b) => Some ((b - a + 1)%Z, a) | _ => None end
     | _ => None end;
  fixed_offset := fun d l lb i => {| bd := bd d; bs := if l - 1 <? bd d then map (fixat (l - 1) (lb + i)) (good d) else if (lb + i =? 0)%Z then good d else [] |};
  gist := fun d c => match good d, good c with
                     | [p], [q] => {| bd := bd d; bs := [bgist p q] |}
                     | _, _ => d end;
  never_integral := fun d => match good d with [] => true | _ => false end
|}.

Definition BoxSem : Sem BoxPoly := {|
  mem := bmem : dom BoxPoly -> _;
  sok := fun _ _ => true;
  lbv := fun (lb : lbc BoxPoly) _ => lb;
  pdisj := fun d => forall x, length (filter (fun p => inb p x) (good d)) <= 1;
  polyh := fun _ => True
|}.

(** ** intervals *)
Ltac itv := unfold ini, iinter, ihull, lo_max, hi_min, lo_min, hi_max, ge_lo, le_hi in *; cbn [fst snd] in *.
Ltac zb := repeat match goal with
  | |- context [(?a <=? ?b)%Z] => destruct (Z.leb_spec a b)
  | H : context [(?a <=? ?b)%Z] |- _ => destruct (Z.leb_spec a b)
  | H : context [(?a <? ?b)%Z] |- _ => destruct (Z.ltb_spec a b)
  end; try discriminate; try reflexivity; try lia.
Lemma iinter_in i j v : ini (iinter i j) v = ini i v && ini j v.
Proof. destruct i as [[a|] [b|]], j as [[c|] [d|]]; itv; zb. Qed.
Lemma ihull_in i j v : ini i v = true \/ ini j v = true -> ini (ihull i j) v = true.
Proof. destruct i as [[a|] [b|]], j as [[c|] [d|]]; itv; intros [H|H]; zb. Qed.
Lemma iempty_in i : iempty i = true -> forall v, ini i v = false.
Proof. destruct i as [[a|] [b|]]; cbn; try discriminate. intros H v. itv. zb. Qed.
Lemma iempty_ex i : iempty i = false -> exists v, ini i v = true.
Proof.
  destruct i as [[a|] [b|]]; cbn; intros H; itv.
  - exists a. zb.
  - exists a. zb.
  - exists b. zb.
  - exists 0%Z. reflexivity.
Qed.
Lemma ihull_min i j v : iempty i = false -> iempty j = false -> ini (ihull i j) v = true ->
  exists v1 v2, (v1 <= v <= v2)%Z /\ (ini i v1 = true \/ ini j v1 = true) /\ (ini i v2 = true \/ ini j v2 = true).
Proof.
  intros Hi Hj H. destruct (iempty_ex i Hi) as (wi & Wi). destruct (iempty_ex j Hj) as (wj & Wj).
  assert (A : exists v1, (v1 <= v)%Z /\ (ini i v1 = true \/ ini j v1 = true)).
  { destruct i as [[a|] hi], j as [[c|] hj]; itv.
    - destruct (Z.leb_spec a v).
      + exists (if (v <=? wi)%Z then a else wi). split; [destruct (Z.leb_spec v wi); lia|]. left. destruct hi; zb.
      + exists (Z.min v wj). split; [lia|]. right. destruct hj; zb.
    - exists (Z.min v wj). split; [lia|]. right. destruct hj; zb.
    - exists (Z.min v wi). split; [lia|]. left. destruct hi; zb.
    - exists (Z.min v wi). split; [lia|]. left. destruct hi; zb. }
  assert (B : exists v2, (v <= v2)%Z /\ (ini i v2 = true \/ ini j v2 = true)).
  { destruct i as [li [b|]], j as [lj [d|]]; itv.
    - destruct (Z.leb_spec v b).
      + exists (if (wi <=? v)%Z then b else wi). split; [destruct (Z.leb_spec wi v); lia|]. left. destruct li; zb.
      + exists (Z.max v wj). split; [lia|]. right. destruct lj, li; zb.
    - exists (Z.max v wj). split; [lia|]. right. destruct lj; zb.
    - exists (Z.max v wi). split; [lia|]. left. destruct li; zb.
    - exists (Z.max v wi). split; [lia|]. left. destruct li; zb. }
  destruct A as (v1 & A1 & A2). destruct B as (v2 & B1 & B2). exists v1, v2. auto.
Qed.
Lemma ini_convex i v1 v v2 : (v1 <= v <= v2)%Z -> ini i v1 = true -> ini i v2 = true -> ini i v = true.
Proof. destruct i as [[a|] [b|]]; itv; intros; zb. Qed.
Lemma ihull_ne i j : iempty i = false -> iempty (ihull i j) = false.
Proof.
  intros H. destruct (iempty (ihull i j)) eqn:E; [|reflexivity]. destruct (iempty_ex i H) as (v & Hv).
  pose proof (iempty_in _ E v) as Hf. rewrite ihull_in in Hf by auto. discriminate.
Qed.
Lemma ibefore_in i j v w : ibefore i j = true -> ini i v = true -> ini j w = true -> (v < w)%Z.
Proof. destruct i as [[a|] [b|]], j as [[c|] [d|]]; cbn; try discriminate; intros H; itv; intros; zb. Qed.
Lemma ible_in i j v w : ible i j = true -> ini i v = true -> ini j w = true -> (v <= w)%Z.
Proof. destruct i as [[a|] [b|]], j as [[c|] [d|]]; cbn; try discriminate; intros H; itv; intros; zb. Qed.
Lemma ibefore_total i j : iempty i = false -> iempty j = false -> iempty (iinter i j) = true -> ibefore i j = true \/ ibefore j i = true.
Proof.
  intros Hi Hj H. destruct i as [[a|] [b|]], j as [[c|] [d|]]; cbn in *; try discriminate; try (left; zb; fail); try (right; zb; fail).
  all: apply Z.ltb_ge in Hi || idtac; try apply Z.ltb_ge in Hj; apply Z.ltb_lt in H;
    repeat match goal with |- context [(?x <? ?y)%Z] => destruct (Z.ltb_spec x y) end; try (left; reflexivity); try (right; reflexivity); lia.
Qed.
Lemma isub_in i j v : isub i j = true -> ini i v = true -> ini j v = true.
Proof. destruct i as [[a|] [b|]], j as [[c|] [d|]]; unfold isub; itv; intros; zb. Qed.

(** ** boxes *)
Lemma inb_len p : forall x, inb p x = true -> length x = length p.
Proof. induction p as [|i p IH]; intros [|v x] H; cbn in *; try discriminate; [reflexivity|]. apply andb_prop in H as [_ H]. f_equal. auto. Qed.
Lemma bempty_in p : forall x, bempty p = true -> inb p x = false.
Proof.
  induction p as [|i p IH]; intros [|v x] H; cbn in *; try discriminate; [reflexivity|]. apply orb_prop in H as [H|H].
  - rewrite (iempty_in _ H). reflexivity.
  - rewrite (IH x H). apply andb_false_r.
Qed.
Lemma bempty_ex p : bempty p = false -> exists x, inb p x = true.
Proof.
  induction p as [|i p IH]; cbn; intros H; [exists []; reflexivity|]. apply orb_false_iff in H as [H1 H2].
  destruct (iempty_ex _ H1) as (v & Hv). destruct (IH H2) as (x & Hx). exists (v :: x). rewrite Hv, Hx. reflexivity.
Qed.
Lemma binter_in p : forall q x, length p = length q -> inb (binter p q) x = inb p x && inb q x.
Proof.
  induction p as [|i p IH]; intros [|j q] [|v x] H; cbn in *; try discriminate; try reflexivity. rewrite iinter_in.
  fold (binter p q). rewrite (IH q x) by lia. destruct (ini i v), (ini j v), (inb p x), (inb q x); reflexivity.
Qed.
Lemma binter_len p q : length p = length q -> length (binter p q) = length p.
Proof. revert q. induction p as [|i p IH]; intros [|j q] H; cbn in *; try discriminate; try reflexivity. f_equal. apply IH. lia. Qed.
Lemma bhull_len p q : length p = length q -> length (bhull p q) = length p.
Proof. revert q. induction p as [|i p IH]; intros [|j q] H; cbn in *; try discriminate; try reflexivity. f_equal. apply IH. lia. Qed.
Lemma bhull_in p : forall q x, length p = length q -> inb p x = true \/ inb q x = true -> inb (bhull p q) x = true.
Proof.
  induction p as [|i p IH]; intros [|j q] [|v x] H Hx; cbn in *; try discriminate; try (destruct Hx; discriminate); try reflexivity.
  rewrite ihull_in; [|destruct Hx as [Hx|Hx]; apply andb_prop in Hx; tauto]. apply IH; [lia|]. destruct Hx as [Hx|Hx]; apply andb_prop in Hx; tauto.
Qed.
Lemma bhull_ne p : forall q, bempty p = false -> bempty (bhull p q) = false.
Proof.
  induction p as [|i p IH]; intros [|j q] H; auto. unfold bempty, bhull in *. cbn [existsb zipb] in *. apply orb_false_iff in H as [H1 H2]. rewrite (ihull_ne _ _ H1). apply IH. exact H2.
Qed.
Lemma sub_head i p c cs : bempty (i :: p) = false -> (forall x, inb (i :: p) x = true -> inb (c :: cs) x = true) ->
  (forall v, ini i v = true -> ini c v = true) /\ (forall x, inb p x = true -> inb cs x = true).
Proof.
  cbn. intros H Hs. apply orb_false_iff in H as [H1 H2]. destruct (iempty_ex _ H1) as (v0 & V0). destruct (bempty_ex _ H2) as (x0 & X0). split.
  - intros v Hv. specialize (Hs (v :: x0)). cbn in Hs. rewrite Hv, X0 in Hs. specialize (Hs eq_refl). apply andb_prop in Hs. tauto.
  - intros x Hx. specialize (Hs (v0 :: x)). cbn in Hs. rewrite V0, Hx in Hs. specialize (Hs eq_refl). apply andb_prop in Hs. tauto.
Qed.
Lemma bhull_sub c : forall p q, bempty p = false -> bempty q = false ->
  (forall x, inb p x = true -> inb c x = true) -> (forall x, inb q x = true -> inb c x = true) ->
  forall x, inb (bhull p q) x = true -> inb c x = true.
Proof.
  induction c as [|i c IH]; intros p q Hp Hq Sp Sq x Hx.
  - destruct (bempty_ex _ Hp) as (y & Y). pose proof (Sp y Y) as Hy. destruct y; [|discriminate]. apply inb_len in Y. destruct p; [|discriminate].
    cbn in Hx. destruct x; [reflexivity|discriminate].
  - destruct (bempty_ex _ Hp) as (y & Y). pose proof (Sp y Y) as Hy. destruct y as [|y0 y]; [discriminate|]. apply inb_len in Y. destruct p as [|pi p]; [discriminate|].
    destruct (bempty_ex _ Hq) as (z & Zz). pose proof (Sq z Zz) as Hz. destruct z as [|z0 z]; [discriminate|]. apply inb_len in Zz. destruct q as [|qi q]; [discriminate|].
    destruct x as [|v x]; [discriminate|].
    destruct (sub_head _ _ _ _ Hp Sp) as [P1 P2]. destruct (sub_head _ _ _ _ Hq Sq) as [Q1 Q2].
    cbn in Hp, Hq, Hx. apply orb_false_iff in Hp as [Hp1 Hp2]. apply orb_false_iff in Hq as [Hq1 Hq2]. apply andb_prop in Hx as [Hx1 Hx2]. cbn.
    rewrite (IH p q Hp2 Hq2 P2 Q2 x Hx2), andb_true_r.
    destruct (ihull_min _ _ _ Hp1 Hq1 Hx1) as (v1 & v2 & Hv & V1 & V2). apply (ini_convex i v1 v v2 Hv).
    + destruct V1; auto.
    + destruct V2; auto.
Qed.
Lemma fold_hull_sub c : forall ps p, bempty p = false -> Forall (fun q => bempty q = false) ps ->
  (forall x, inb p x = true -> inb c x = true) -> Forall (fun q => forall x, inb q x = true -> inb c x = true) ps ->
  forall x, inb (fold_left bhull ps p) x = true -> inb c x = true.
Proof.
  induction ps as [|q ps IH]; intros p Hp HF Sp SF x Hx; cbn in Hx; [auto|]. inversion HF; subst. inversion SF; subst.
  apply (IH (bhull p q)); auto; [apply bhull_ne; exact Hp|]. apply bhull_sub; assumption.
Qed.
Lemma fold_hull_in : forall ps p n x, length p = n -> Forall (fun q => length q = n) ps ->
  inb p x = true \/ (exists q, In q ps /\ inb q x = true) -> inb (fold_left bhull ps p) x = true.
Proof.
  induction ps as [|q ps IH]; intros p n x Hp HF H; cbn.
  - destruct H as [H|(q & [] & _)]. exact H.
  - inversion HF; subst. apply (IH _ (length p)); [apply bhull_len; lia|assumption|].
    destruct H as [H|(q' & [<-|Hq'] & H)].
    + left. apply bhull_in; [lia|auto].
    + left. apply bhull_in; [lia|auto].
    + right. eauto.
Qed.
Lemma fold_hull_len : forall ps p n, length p = n -> Forall (fun q => length q = n) ps -> length (fold_left bhull ps p) = n.
Proof. induction ps as [|q ps IH]; intros p n Hp HF; cbn; [exact Hp|]. inversion HF; subst. apply IH; [apply bhull_len; lia|assumption]. Qed.

Lemma bcut_in p : forall q x, length p = length q ->
  existsb (fun r => inb r x) (bcut p q) = inb p x && negb (inb q x).
Proof.
  induction p as [|i p IH]; intros [|j q] x H; cbn [bcut]; try discriminate.
  - destruct x; reflexivity.
  - cbn in H. rewrite existsb_app. destruct x as [|v x].
    + cbn [inb andb]. apply orb_false_iff. split.
      * induction (ibelow i j ++ iabove i j); [reflexivity|exact IHl].
      * induction (bcut p q); [reflexivity|exact IHl].
    + change (inb (i :: p) (v :: x)) with (ini i v && inb p x). change (inb (j :: q) (v :: x)) with (ini j v && inb q x).
      assert (A : existsb (fun r => inb r (v :: x)) (map (fun k => k :: p) (ibelow i j ++ iabove i j)) = inb p x && (ini i v && negb (ini j v))).
      { unfold ibelow, iabove. destruct i as [[a|] [b|]], j as [[c|] [d|]]; cbn [fst snd map existsb inb app]; itv;
          destruct (inb p x); cbn [andb orb negb]; try rewrite !andb_false_r; try rewrite !andb_true_r; zb. }
      assert (B : existsb (fun r => inb r (v :: x)) (map (cons (iinter i j)) (bcut p q)) = ini (iinter i j) v && existsb (fun r => inb r x) (bcut p q)).
      { induction (bcut p q) as [|r rs IHr]; cbn; [symmetry; apply andb_false_r|]. rewrite IHr. destruct (ini (iinter i j) v), (inb r x); reflexivity. }
      etransitivity; [apply f_equal2; [exact A|exact B]|]. rewrite iinter_in, IH by lia. destruct (ini i v), (ini j v), (inb p x), (inb q x); reflexivity.
Qed.
Lemma bcut_len p : forall q, length p = length q -> Forall (fun r => length r = length p) (bcut p q).
Proof.
  induction p as [|i p IH]; intros [|j q] H; cbn; try discriminate; [constructor|]. apply Forall_app. split.
  - rewrite Forall_map, Forall_forall. intros k _. reflexivity.
  - rewrite Forall_map. eapply Forall_impl; [|apply IH; cbn in H; lia]. intros r Hr. cbn in *. lia.
Qed.

Lemma bdiff_in p q x : length p = length q -> existsb (fun r => inb r x) (bdiff p q) = inb p x && negb (inb q x).
Proof.
  intros H. unfold bdiff. destruct (bempty (binter p q)) eqn:E; [|apply bcut_in; exact H]. cbn [existsb]. rewrite orb_false_r.
  pose proof (bempty_in _ x E) as Hf. rewrite binter_in in Hf by exact H. destruct (inb p x), (inb q x); try reflexivity. discriminate.
Qed.
Lemma bdiff_len p q : length p = length q -> Forall (fun r => length r = length p) (bdiff p q).
Proof. intros H. unfold bdiff. destruct (bempty (binter p q)); [repeat constructor|apply bcut_len; exact H]. Qed.

Lemma good_in d p : In p (good d) <-> In p (bs d) /\ length p = bd d /\ bempty p = false.
Proof. unfold good. rewrite filter_In, andb_true_iff, Nat.eqb_eq, negb_true_iff. reflexivity. Qed.
Lemma bmem_iff d x : bmem d x = true <-> exists p, In p (good d) /\ inb p x = true.
Proof.
  unfold bmem. rewrite andb_true_iff, Nat.eqb_eq, existsb_exists. split.
  - intros [H (p & Hp & Hx)]. exists p. rewrite good_in. repeat split; auto; [apply inb_len in Hx; lia|].
    destruct (bempty p) eqn:E; [|reflexivity]. rewrite (bempty_in _ _ E) in Hx. discriminate.
  - intros (p & Hp & Hx). apply good_in in Hp as (H1 & H2 & _). split; [apply inb_len in Hx; lia|eauto].
Qed.
Lemma bool_iff (a b : bool) : (a = true <-> b = true) -> a = b.
Proof. destruct a, b; intuition congruence. Qed.
Lemma bmem_ext d d' x : bd d = bd d' -> (forall p, inb p x = true -> length p = bd d -> (In p (bs d) <-> In p (bs d'))) -> bmem d x = bmem d' x.
Proof.
  intros Hd H. apply bool_iff. rewrite !bmem_iff. split; intros (p & Hp & Hx); exists p; (split; [|exact Hx]); rewrite good_in in *; rewrite Hd in *; destruct Hp as (H1 & H2 & H3); (split; [apply H; auto|auto]).
Qed.
(** membership for explicitly given boxes of the right length *)
Lemma bmem_bs n l x : Forall (fun p => length p = n) l -> bmem {| bd := n; bs := l |} x = existsb (fun p => inb p x) l.
Proof.
  intros H. unfold bmem. cbn. destruct (Nat.eqb_spec (length x) n) as [E|E]; [reflexivity|].
  induction H as [|p l Hp Hl IH]; [reflexivity|]. cbn. destruct (inb p x) eqn:E2; [apply inb_len in E2; lia|exact IH].
Qed.
Lemma bmem_good d x : bmem d x = existsb (fun p => inb p x) (good d).
Proof. apply bool_iff. rewrite bmem_iff, existsb_exists. reflexivity. Qed.
Lemma good_len d : Forall (fun p => length p = bd d) (good d).
Proof. rewrite Forall_forall. intros p Hp. apply good_in in Hp. tauto. Qed.
Lemma good_good d : good {| bd := bd d; bs := good d |} = good d.
Proof.
  unfold good at 1. cbn. assert (H : forall p, In p (good d) -> (length p =? bd d) && negb (bempty p) = true).
  { intros p Hp. apply good_in in Hp as (_ & H1 & H2). rewrite H1, H2, Nat.eqb_refl. reflexivity. }
  induction (good d) as [|p l IH]; [reflexivity|]. cbn. rewrite (H p) by (left; reflexivity). f_equal. apply IH. intros; apply H; right; assumption.
Qed.
Lemma good_sub n l : Forall (fun p => length p = n /\ bempty p = false) l -> good {| bd := n; bs := l |} = l.
Proof. induction 1 as [|p l [H1 H2] H IH]; [reflexivity|]. unfold good in *. cbn in *. rewrite H1, H2, Nat.eqb_refl. cbn. f_equal. exact IH. Qed.
Lemma good_ne d : Forall (fun p => length p = bd d /\ bempty p = false) (good d).
Proof. rewrite Forall_forall. intros p Hp. apply good_in in Hp. tauto. Qed.

Lemma diff_fold n qs x : forall ps, Forall (fun p => length p = n) ps -> Forall (fun q => length q = n) qs ->
  existsb (fun p => inb p x) (fold_left diff1 qs ps) = existsb (fun p => inb p x) ps && negb (existsb (fun q => inb q x) qs)
  /\ Forall (fun p => length p = n) (fold_left diff1 qs ps).
Proof.
  induction qs as [|q qs IH]; intros ps Hp Hq; cbn; [rewrite andb_true_r; auto|]. inversion Hq; subst.
  assert (A : existsb (fun p => inb p x) (diff1 ps q) = existsb (fun p => inb p x) ps && negb (inb q x) /\ Forall (fun p => length p = length q) (diff1 ps q)).
  { clear IH Hq. induction Hp as [|p ps Hp1 Hp2 IHp]; cbn; [split; [reflexivity|constructor]|]. destruct IHp as [I1 I2]. unfold diff1 in *. rewrite existsb_app, I1, bdiff_in by exact Hp1. split.
    - destruct (inb p x), (inb q x), (existsb (fun p => inb p x) ps); reflexivity.
    - apply Forall_app. split; [|exact I2]. rewrite <- Hp1. apply bdiff_len. exact Hp1. }
  destruct A as [A1 A2]. destruct (IH (diff1 ps q) A2 ltac:(assumption)) as [B1 B2]. rewrite B1, A1. split; [|exact B2].
  destruct (existsb (fun p => inb p x) ps), (inb q x), (existsb (fun q => inb q x) qs); reflexivity.
Qed.

Lemma inb_app p q x : inb (p ++ q) x = inb p (firstn (length p) x) && inb q (skipn (length p) x).
Proof.
  revert x. induction p as [|i p IH]; intros x; cbn; [reflexivity|]. destruct x as [|v x]; [reflexivity|]. cbn. rewrite IH, andb_assoc. reflexivity.
Qed.
Lemma inb_full n x : inb (repeat full n) x = (length x =? n).
Proof. revert x. induction n as [|n IH]; intros [|v x]; cbn; try reflexivity. apply IH. Qed.
Lemma inb_firstn p : forall n x, inb p x = true -> inb (firstn n p) (firstn n x) = true.
Proof.
  induction p as [|i p IH]; intros [|n] [|v x] H; cbn in *; try discriminate; try reflexivity. apply andb_prop in H as [H1 H2]. rewrite H1. apply IH. exact H2.
Qed.
Lemma inb_nth p : forall n x, inb p x = true -> n < length p -> ini (nth n p full) (nth n x 0%Z) = true.
Proof.
  induction p as [|i p IH]; intros n [|v x] H Hn; cbn in *; try discriminate; try lia. apply andb_prop in H as [H1 H2]. destruct n; [exact H1|]. apply IH; [exact H2|lia].
Qed.
Lemma bempty_nth p : forall n, bempty p = false -> n < length p -> iempty (nth n p full) = false.
Proof. induction p as [|i p IH]; intros n H Hn; cbn in *; [lia|]. apply orb_false_iff in H as [H1 H2]. destruct n; [exact H1|]. apply IH; [exact H2|lia]. Qed.
Lemma bempty_firstn p : forall n, bempty p = false -> bempty (firstn n p) = false.
Proof. induction p as [|i p IH]; intros [|n] H; cbn in *; auto. apply orb_false_iff in H as [H1 H2]. rewrite H1. cbn. apply IH. exact H2. Qed.
Lemma itv_eqb_eq i j : itv_eqb i j = true -> i = j.
Proof.
  unfold itv_eqb. intros H. apply andb_prop in H as [H1 H2]. destruct i as [a b], j as [c d]; cbn in *. f_equal.
  - destruct a, c; try discriminate; [apply Z.eqb_eq in H1; congruence|reflexivity].
  - destruct b, d; try discriminate; [apply Z.eqb_eq in H2; congruence|reflexivity].
Qed.
Lemma list_eqb_eq {A} (f : A -> A -> bool) : (forall a b, f a b = true -> a = b) -> forall l m, list_eqb f l m = true -> l = m.
Proof. intros H. induction l as [|a l IH]; intros [|b m] E; cbn in *; try discriminate; [reflexivity|]. apply andb_prop in E as [E1 E2]. f_equal; auto. Qed.
Lemma hull_len n ps : Forall (fun p => length p = n) ps -> Forall (fun p => length p = n) (hull ps).
Proof. intros H. destruct H as [|p ps Hp HF]; cbn; [constructor|]. constructor; [|constructor]. apply fold_hull_len; assumption. Qed.
Lemma hull_in n ps x : Forall (fun p => length p = n) ps -> existsb (fun p => inb p x) ps = true -> existsb (fun p => inb p x) (hull ps) = true.
Proof.
  intros H Hx. apply existsb_exists in Hx as (q & Hq & Hx). destruct H as [|p ps Hp HF]; [destruct Hq|]. cbn. rewrite orb_false_r. apply (fold_hull_in ps p n); auto.
  destruct Hq as [<-|Hq]; eauto.
Qed.
Lemma hull_one ps : length (hull ps) <= 1.
Proof. destruct ps; cbn; lia. Qed.
Lemma filter_le {A} (f : A -> bool) l : length (filter f l) <= length l.
Proof. induction l as [|a l IH]; cbn; [lia|]. destruct (f a); cbn; lia. Qed.
Lemma fixat_in n v p : forall x, length x = length p -> n < length p -> inb (fixat n v p) x = inb p x && (nth n x 0 =? v)%Z.
Proof.
  revert n. induction p as [|i p IH]; intros n x Hx Hn; cbn in Hn; [lia|]. destruct x as [|w x]; [discriminate|]. cbn in Hx. destruct n as [|n].
  - cbn. rewrite iinter_in. unfold ini at 2. cbn. destruct (Z.eqb_spec w v) as [->|Hne]; [rewrite Z.leb_refl; destruct (ini i v), (inb p x); reflexivity|].
    destruct (Z.leb_spec v w), (Z.leb_spec w v); try lia; cbn; rewrite ?andb_false_r; reflexivity.
  - unfold fixat. cbn [nth_error]. specialize (IH n x ltac:(lia) ltac:(lia)). unfold fixat in IH.
    destruct (nth_error p n) eqn:E; [|apply nth_error_None in E; lia]. change (firstn (S n) (i :: p)) with (i :: firstn n p). change (skipn (S (S n)) (i :: p)) with (skipn (S n) p). cbn [app inb nth]. rewrite IH, andb_assoc. reflexivity.
Qed.
Lemma fixat_len n v p : n < length p -> length (fixat n v p) = length p.
Proof.
  intros H. unfold fixat. destruct (nth_error p n) eqn:E; [|reflexivity]. rewrite app_length. cbn [length]. rewrite firstn_length, skipn_length. lia.
Qed.
Lemma fixat_none n v p : length p <= n -> fixat n v p = p.
Proof. intros H. unfold fixat. apply nth_error_None in H. rewrite H. reflexivity. Qed.
Lemma bgist_in p : forall c x, inb c x = true -> inb (bgist p c) x = inb p x.
Proof.
  induction p as [|i p IH]; intros [|j c] [|v x] H; cbn in *; try discriminate; try reflexivity. apply andb_prop in H as [H1 H2].
  rewrite (IH c x H2). f_equal. destruct (isub j i) eqn:E; [|reflexivity]. rewrite (isub_in _ _ _ E H1). reflexivity.
Qed.
Lemma bgist_len p c : length (bgist p c) = length p.
Proof. revert c. induction p as [|i p IH]; intros [|j c]; cbn; try reflexivity. f_equal. apply IH. Qed.
Lemma good_sub_length n l : length (good {| bd := n; bs := l |}) <= length l.
Proof. apply filter_le. Qed.

Lemma box_inter a b x : bd a = bd b -> bmem {| bd := bd a; bs := flat_map (fun p => map (binter p) (good b)) (good a) |} x = bmem a x && bmem b x.
Proof.
  intros H. pose proof (good_len a) as Ha. pose proof (good_len b) as Hb. rewrite <- H in Hb.
    assert (HL : Forall (fun p => length p = bd a) (flat_map (fun p => map (binter p) (good b)) (good a))).
    { rewrite Forall_forall in *. intros r Hr. apply in_flat_map in Hr as (p & Hp & Hr). apply in_map_iff in Hr as (q & <- & Hq). rewrite binter_len; [auto|]. rewrite Ha, Hb; auto. }
    rewrite bmem_bs by exact HL. rewrite !bmem_good. apply bool_iff. rewrite andb_true_iff, !existsb_exists. rewrite Forall_forall in Ha, Hb. split.
    + intros (r & Hr & Hx). apply in_flat_map in Hr as (p & Hp & Hr). apply in_map_iff in Hr as (q & <- & Hq). rewrite binter_in in Hx by (rewrite Ha, Hb; auto). apply andb_prop in Hx as [X1 X2]. split; [exists p; auto|exists q; auto].
    + intros [(p & Hp & X1) (q & Hq & X2)]. exists (binter p q). split; [apply in_flat_map; exists p; split; [exact Hp|]; apply in_map; exact Hq|].
      rewrite binter_in by (rewrite Ha, Hb; auto). rewrite X1, X2. reflexivity.
Qed.

Theorem box_laws : Laws BoxPoly BoxSem.
Proof.
  constructor; cbn [BoxPoly BoxSem dim mem isempty isconvex simplify_union cut_first difference union intersection empty_like extend project
    lazy_equal lazy_disjoint convex simple_convex bound_splitter gist never_integral can_unroll fixed_offset lbv pdisj polyh dom bd].
  - intros d x H. unfold bmem in H. apply andb_prop in H as [H _]. apply Nat.eqb_eq. exact H.
  - intros d x H. rewrite bmem_good. destruct (good d); [reflexivity|discriminate].
  - reflexivity.
  - intros d x. rewrite !bmem_good, good_good. reflexivity.
  - intros d f r H. destruct (good d); [discriminate|]. injection H as <- <-. auto.
  - intros d f r H. destruct (good d) as [|p l]; [discriminate|]. injection H as <- <-. apply Nat.leb_le. apply good_sub_length.
  - intros d f r x H. rewrite bmem_good. pose proof (good_len d) as HF. destruct (good d) as [|p l]; [discriminate|]. injection H as <- <-. inversion HF; subst.
    rewrite !bmem_bs by (repeat constructor; auto). cbn. rewrite orb_false_r. reflexivity.
  - intros d f r Hd H. pose proof (good_ne d) as HF. destruct (good d) as [|p l]; [discriminate|]. injection H as <- <-. inversion HF as [|? ? Hp HF']; subst. split.
    + intros x. specialize (Hd x). cbn in Hd. rewrite good_sub by exact HF'. destruct (inb p x); cbn in Hd; lia.
    + intros x Hx. specialize (Hd x). rewrite bmem_bs in Hx by (repeat constructor; apply Hp). cbn in Hx. rewrite orb_false_r in Hx. cbn in Hd. rewrite Hx in Hd. cbn in Hd.
      rewrite bmem_bs by (eapply Forall_impl; [|exact HF']; cbn; intros r Hr; apply Hr). destruct (existsb (fun q => inb q x) l) eqn:E; [|reflexivity]. apply existsb_exists in E as (q & Hq & Hx').
      assert (In q (filter (fun p => inb p x) l)) by (apply filter_In; auto). destruct (filter (fun p => inb p x) l); [contradiction|cbn in Hd; lia].
  - intros d f r _ _. split; exact Logic.I.
  - reflexivity.
  - intros a b x H. pose proof (good_len a) as Ha. pose proof (good_len b) as Hb. rewrite <- H in Hb.
    destruct (diff_fold _ (good b) x (good a) Ha Hb) as [D1 D2]. rewrite bmem_bs by exact D2. rewrite D1, <- !bmem_good. reflexivity.
  - reflexivity.
  - intros a b x H. unfold bmem. cbn. rewrite existsb_app, <- H. destruct (length x =? bd a); reflexivity.
  - reflexivity.
  - exact box_inter.
  - reflexivity.
  - intros d x. unfold bmem. cbn. apply andb_false_r.
  - reflexivity.
  - intros d n x Hn Hx. pose proof (good_len d) as HF. assert (HL : Forall (fun p => length p = n) (map (fun p => p ++ repeat full (n - bd d)) (good d))).
    { rewrite Forall_map. eapply Forall_impl; [|exact HF]. cbn. intros p Hp. rewrite app_length, repeat_length. lia. }
    rewrite bmem_bs by exact HL. rewrite bmem_good. clear HL. induction HF as [|p l Hp HF IH]; [reflexivity|]. cbn. rewrite IH, inb_app, inb_full, Hp. f_equal.
    rewrite skipn_length, Hx, Nat.eqb_refl, andb_true_r. reflexivity.
  - reflexivity.
  - intros d n x Hn Hx. apply bmem_iff in Hx as (p & Hp & Hx). pose proof (good_len d) as HF. rewrite Forall_forall in HF.
    assert (HL : Forall (fun p => length p = n) (map (firstn n) (good d))). { rewrite Forall_map, Forall_forall. intros q Hq. rewrite firstn_length, HF by exact Hq. lia. }
    rewrite bmem_bs by exact HL. apply existsb_exists. exists (firstn n p). split; [apply in_map; exact Hp|apply inb_firstn; exact Hx].
  - intros a b H. apply andb_prop in H as [H1 H2]. apply Nat.eqb_eq in H1. apply list_eqb_eq in H2; [|intros; apply (list_eqb_eq itv_eqb itv_eqb_eq); assumption].
    split; [exact H1|]. intros x. rewrite !bmem_good, H2. reflexivity.
  - intros a b x H Hx. destruct (bmem b x) eqn:E; [|reflexivity]. exfalso. apply bmem_iff in Hx as (p & Hp & X1). apply bmem_iff in E as (q & Hq & X2).
    rewrite forallb_forall in H. specialize (H p Hp). rewrite forallb_forall in H. specialize (H q Hq).
    pose proof (bempty_in _ x H) as Hf. rewrite binter_in in Hf by (apply inb_len in X1, X2; lia). rewrite X1, X2 in Hf. discriminate.
  - reflexivity.
  - intros d x Hx. rewrite bmem_bs by (apply hull_len, good_len). rewrite bmem_good in Hx. eapply hull_in; [apply good_len|exact Hx].
  - intros d. apply Nat.leb_le. eapply Nat.le_trans; [apply good_sub_length|apply hull_one].
  - intros c d0 x Hcd Hc _ Hx. set (d := {| bd := bd c; bs := flat_map (fun p => map (binter p) (good d0)) (good c) |}) in Hx.
    assert (Hs : forall y, bmem d y = true -> bmem c y = true).
    { intros y Hy. pose proof (box_inter c d0 y Hcd) as Hi. fold d in Hi. rewrite Hi in Hy. apply andb_prop in Hy. tauto. }
    assert (Hbd : bd d = bd c) by reflexivity. clearbody d. rewrite <- Hbd in Hx. rewrite bmem_bs in Hx by (apply hull_len, good_len). pose proof (good_ne d) as HF.
    assert (Hs' : forall p, In p (good d) -> forall y, inb p y = true -> bmem c y = true) by (intros p Hp y Hy; apply Hs, bmem_iff; eauto).
    destruct (good d) as [|p l] eqn:Ed; [discriminate|]. cbn in Hx. rewrite orb_false_r in Hx. apply Nat.leb_le in Hc.
    destruct (good c) as [|q [|q' l']] eqn:Eq; [| |cbn in Hc; lia].
    + exfalso. inversion HF as [|? ? [_ Hp] _]; subst. destruct (bempty_ex _ Hp) as (y & Y). specialize (Hs' p (or_introl eq_refl) y Y). rewrite bmem_good, Eq in Hs'. discriminate.
    + assert (Hq : forall y, bmem c y = inb q y) by (intros y; rewrite bmem_good, Eq; cbn; apply orb_false_r). rewrite Hq.
      inversion HF as [|? ? [_ Hp] HF']; subst. apply (fold_hull_sub q l p); auto.
      * eapply Forall_impl; [|exact HF']. cbn. intros r Hr. apply Hr.
      * intros y Hy. rewrite <- Hq. apply (Hs' p); [left; reflexivity|exact Hy].
      * rewrite Forall_forall. intros r Hr y Hy. rewrite <- Hq. apply (Hs' r); [right; exact Hr|exact Hy].
  - reflexivity.
  - intros d x Hx. rewrite bmem_bs by (apply hull_len, good_len). rewrite bmem_good in Hx. eapply hull_in; [apply good_len|exact Hx].
  - intros d. apply Nat.leb_le. eapply Nat.le_trans; [apply good_sub_length|apply hull_one].
  - reflexivity.
  - intros d l x Hx. rewrite bmem_bs by (apply hull_len, good_len). rewrite bmem_good in Hx. eapply hull_in; [apply good_len|exact Hx].
  - intros d l x. eapply Nat.le_trans; [apply filter_le|]. eapply Nat.le_trans; [apply good_sub_length|apply hull_one].
  - intros d l. exact Logic.I.
  - intros d c H. destruct (good d) as [|p [|p' l]]; [reflexivity| |reflexivity]. destruct (good c) as [|q [|q' l']]; reflexivity.
  - intros d c x H Hx. apply bmem_iff in Hx as (q0 & Hq0 & Hx). destruct (good d) as [|p [|p' l]] eqn:Ed; [reflexivity| |reflexivity].
    destruct (good c) as [|q [|q' l']] eqn:Ec; [reflexivity| |reflexivity]. destruct Hq0 as [<-|[]].
    pose proof (good_len d) as HF. rewrite Ed in HF. inversion HF; subst.
    rewrite bmem_bs by (repeat constructor; rewrite bgist_len; assumption). rewrite bmem_good, Ed. cbn. rewrite bgist_in by exact Hx. reflexivity.
  - intros d x H. rewrite bmem_good. destruct (good d); [reflexivity|discriminate].
  - intros d l n lb x Hl _ _ H Hx. apply bmem_iff in Hx as (p & Hp & Hx). pose proof (good_len d) as HF. destruct (good d) as [|p0 [|p' l']] eqn:Ed; try discriminate.
    destruct Hp as [<-|[]]. destruct (Nat.lt_ge_cases (l - 1) (length p0)) as [Hlt|Hge].
    + pose proof (inb_nth p0 (l - 1) x Hx Hlt) as Hi. destruct (nth (l - 1) p0 full) as [[a|] [b|]]; try discriminate. injection H as <- <-. cbn in *. unfold ini in Hi. cbn in Hi. apply andb_prop in Hi as [I1 I2].
      apply Z.leb_le in I1, I2. lia.
    + rewrite nth_overflow in H by exact Hge. discriminate.
  - reflexivity.
  - intros d l n0 lb i x Hl _ _. pose proof (good_len d) as HF. cbn [dom lbc] in *. destruct (Nat.ltb_spec (l - 1) (bd d)) as [Hlt|Hge].
    + assert (HL : Forall (fun p => length p = bd d) (map (fixat (l - 1) (lb + i)) (good d))).
      { rewrite Forall_map. eapply Forall_impl; [|exact HF]. cbn. intros p Hp. rewrite fixat_len; lia. }
      rewrite bmem_bs by exact HL. rewrite bmem_good. clear HL. induction HF as [|p ps Hp HF IH]; [reflexivity|]. cbn [map existsb]. rewrite IH.
      destruct (Nat.eq_dec (length x) (length p)) as [E|E].
      * rewrite fixat_in by lia. destruct (inb p x), (existsb (fun p => inb p x) ps), (nth (l - 1) x 0 =? lb + i)%Z; reflexivity.
      * assert (E1 : inb (fixat (l - 1) (lb + i) p) x = false) by (destruct (inb _ x) eqn:E1; [apply inb_len in E1; rewrite fixat_len in E1; lia|reflexivity]).
        assert (E2 : inb p x = false) by (destruct (inb p x) eqn:E2; [apply inb_len in E2; lia|reflexivity]). rewrite E1, E2. reflexivity.
    + rewrite (bmem_good d). destruct (Nat.eq_dec (length x) (bd d)) as [E|E].
      * rewrite (nth_overflow x) by lia. rewrite (Z.eqb_sym 0). destruct (Z.eqb_spec (lb + i) 0); [rewrite bmem_bs by exact HF; rewrite andb_true_r; reflexivity|].
        rewrite bmem_bs by constructor. rewrite andb_false_r. reflexivity.
      * assert (E2 : existsb (fun p => inb p x) (good d) = false).
        { destruct (existsb _ _) eqn:E2; [|reflexivity]. apply existsb_exists in E2 as (p & Hp & Hx). rewrite Forall_forall in HF. apply HF in Hp. apply inb_len in Hx. lia. }
        rewrite E2. destruct (lb + i =? 0)%Z; [rewrite bmem_bs by exact HF; exact E2|rewrite bmem_bs by constructor; reflexivity].
Qed.

Lemma box_simple_hull_tight : simple_hull_tight BoxPoly BoxSem.
Proof. exact (L_convex_in _ _ box_laws). Qed.

Lemma bempty_inter_agree p q l x y : l - 1 < length p -> l - 1 < length q -> inb p x = true -> inb q y = true -> agree (l - 1) x y ->
  bempty (binter (firstn (l - 1) p) (firstn (l - 1) q)) = false.
Proof.
  intros Hp Hq Hx Hy Ha. destruct (bempty _) eqn:E; [|reflexivity]. exfalso. pose proof (bempty_in _ (firstn (l - 1) x) E) as Hf.
  rewrite binter_in in Hf by (rewrite !firstn_length; lia). rewrite (inb_firstn _ _ _ Hx) in Hf. unfold agree in Ha. rewrite Ha, (inb_firstn _ _ _ Hy) in Hf. discriminate.
Qed.
Lemma bfol_in rel a b l x y : 1 <= l -> l <= bd a -> l <= bd b -> bfol rel (good a) (good b) l = true ->
  bmem a x = true -> bmem b y = true -> agree (l - 1) x y ->
  exists i j, rel i j = true /\ ini i (nth (l - 1) x 0%Z) = true /\ ini j (nth (l - 1) y 0%Z) = true.
Proof.
  intros Hl Ha Hb H Hx Hy Hag. apply bmem_iff in Hx as (p & Hp & Hx). apply bmem_iff in Hy as (q & Hq & Hy). unfold bfol in H.
  rewrite forallb_forall in H. specialize (H p Hp). rewrite forallb_forall in H. specialize (H q Hq).
  apply good_in in Hp as (_ & Lp & _). apply good_in in Hq as (_ & Lq & _).
  rewrite (bempty_inter_agree p q l x y) in H by (auto; lia). cbn in H. eexists _, _. split; [exact H|]. split; apply inb_nth; auto; lia.
Qed.
Lemma snoc_split {A} (l : list A) n d : length l = S n -> l = firstn n l ++ [nth n l d].
Proof.
  intros H. rewrite <- (firstn_skipn n l) at 1. f_equal. assert (E : length (skipn n l) = 1) by (rewrite skipn_length; lia).
  destruct (skipn n l) as [|a [|b r]] eqn:Es; try discriminate. f_equal. rewrite <- (firstn_skipn n l), Es, app_nth2; rewrite firstn_length; [|lia]. replace (n - Nat.min n (length l)) with 0 by lia. reflexivity.
Qed.
Lemma bempty_app p q : bempty (p ++ q) = bempty p || bempty q.
Proof. apply existsb_app. Qed.
Lemma zipb_app {A B C} (f : A -> B -> C) l m l' m' : length l = length m -> zipb f (l ++ l') (m ++ m') = zipb f l m ++ zipb f l' m'.
Proof. revert m. induction l as [|a l IH]; intros [|b m] H; cbn in *; try discriminate; [reflexivity|]. f_equal. apply IH. lia. Qed.

(** a comparison that is not zero compares the last intervals *)
Definition above (a b : bdom) (l : nat) : Prop :=
  exists i j, ibefore j i = true /\ iempty i = false /\ iempty j = false /\
    (exists p, good a = [p] /\ nth (l - 1) p full = i) /\ (exists q, good b = [q] /\ nth (l - 1) q full = j).
Lemma compare_above a b l : 1 <= l -> bd a = l -> bd b = l ->
  ((compare_at BoxPoly a b l > 0)%Z -> above a b l) /\ ((compare_at BoxPoly a b l < 0)%Z -> above b a l).
Proof.
  intros Hl Ha Hb. cbn [BoxPoly compare_at]. pose proof (good_ne a) as Fa. pose proof (good_ne b) as Fb.
  destruct (good a) as [|p [|? ?]] eqn:Ea; [split; intros; lia| |split; intros; lia]. destruct (good b) as [|q [|? ?]] eqn:Eb; [split; intros; lia| |split; intros; lia].
  apply Forall_inv in Fa as [La Na]. apply Forall_inv in Fb as [Lb Nb]. unfold bcmp.
  destruct (bempty (binter _ _)); [split; intros; lia|]. destruct (ibefore (nth (l - 1) q full) (nth (l - 1) p full)) eqn:E1.
  - split; [|intros; lia]. intros _. exists (nth (l - 1) p full), (nth (l - 1) q full). split; [exact E1|]. split; [apply bempty_nth; auto; lia|]. split; [apply bempty_nth; auto; lia|]. eauto 10.
  - destruct (ibefore (nth (l - 1) p full) (nth (l - 1) q full)) eqn:E2; [|split; intros; lia]. split; [intros; lia|]. intros _.
    exists (nth (l - 1) q full), (nth (l - 1) p full). split; [exact E2|]. split; [apply bempty_nth; auto; lia|]. split; [apply bempty_nth; auto; lia|]. eauto 10.
Qed.

Lemma flat_map_one {A B} (f : A -> list B) l n : length l <= n -> (forall a, length (f a) <= 1) -> length (flat_map f l) <= n.
Proof. revert n. induction l as [|a l IH]; intros n Hn H; cbn in *; [lia|]. rewrite app_length. specialize (IH (length l) (le_n _) H). specialize (H a). lia. Qed.

Theorem box_order_laws : OrderLaws BoxPoly BoxSem.
Proof.
  constructor; cbn [BoxPoly BoxSem dim mem dom isconvex intersection fixed_offset].
  - intros a b l x y Hl Ha Hb H Hx Hy Hag. cbn [BoxPoly follows_at] in H. destruct (bfol ibefore (good a) (good b) l) eqn:E.
    + destruct (bfol_in ibefore a b l x y Hl Ha Hb E Hx Hy Hag) as (i & j & R & I & J). pose proof (ibefore_in _ _ _ _ R I J). lia.
    + destruct (bfol ible (good a) (good b) l) eqn:E2; [|lia]. destruct (bfol_in ible a b l x y Hl Ha Hb E2 Hx Hy Hag) as (i & j & R & I & J). exact (ible_in _ _ _ _ R I J).
  - intros a b l x y Hl Ha Hb H Hx Hy Hag. cbn [BoxPoly follows_at] in H. destruct (bfol ibefore (good a) (good b) l) eqn:E.
    + destruct (bfol_in ibefore a b l x y Hl Ha Hb E Hx Hy Hag) as (i & j & R & I & J). exact (ibefore_in _ _ _ _ R I J).
    + destruct (bfol ible (good a) (good b) l); lia.
  - intros a b l x y Hl Ha Hb Ca Cb Hd Hx Hy Hag. cbn [BoxPoly compare_at]. apply Nat.leb_le in Ca, Cb. unfold disjoint_sets in Hd. cbn [mem BoxSem] in Hd.
    assert (Hd' : forall z p q, In p (good a) -> In q (good b) -> inb p z = true -> inb q z = true -> False).
    { intros z p q Hp Hq Z1 Z2. apply (Hd z); apply bmem_iff; eauto. }
    apply bmem_iff in Hx as (p & Hp & Hx). apply bmem_iff in Hy as (q & Hq & Hy).
    pose proof (proj1 (good_in _ _) Hp) as (_ & Lp & Np). pose proof (proj1 (good_in _ _) Hq) as (_ & Lq & Nq).
    destruct (good a) as [|p0 [|? ?]] eqn:Ea; [destruct Hp| |cbn in Ca; lia]. destruct Hp as [<-|[]].
    destruct (good b) as [|q0 [|? ?]] eqn:Eb; [destruct Hq| |cbn in Cb; lia]. destruct Hq as [<-|[]].
    unfold bcmp. pose proof (bempty_inter_agree p0 q0 l x y ltac:(lia) ltac:(lia) Hx Hy Hag) as Hpre. rewrite Hpre.
    pose proof (inb_nth p0 (l - 1) x Hx ltac:(lia)) as Ix. pose proof (inb_nth q0 (l - 1) y Hy ltac:(lia)) as Iy.
    destruct (ibefore_total (nth (l - 1) p0 full) (nth (l - 1) q0 full)) as [R|R].
    + apply bempty_nth; auto; lia.
    + apply bempty_nth; auto; lia.
    + destruct (iempty (iinter (nth (l - 1) p0 full) (nth (l - 1) q0 full))) eqn:E; [reflexivity|]. exfalso.
      assert (Hne : bempty (binter p0 q0) = false).
      { rewrite (snoc_split p0 (l - 1) full) by lia. rewrite (snoc_split q0 (l - 1) full) by lia. unfold binter. rewrite zipb_app by (rewrite !firstn_length; lia).
        rewrite bempty_app. unfold binter in Hpre. rewrite Hpre. unfold bempty. cbn [zipb existsb]. rewrite E. reflexivity. }
      destruct (bempty_ex _ Hne) as (z & Hz). rewrite binter_in in Hz by lia. apply andb_prop in Hz as [Z1 Z2]. apply (Hd' z p0 q0); auto; left; reflexivity.
    + destruct (ibefore (nth (l - 1) q0 full) (nth (l - 1) p0 full)) eqn:E1.
      * left. split; [lia|]. pose proof (ibefore_in _ _ _ _ E1 Iy Ix). lia.
      * rewrite R. right. split; [lia|]. exact (ibefore_in _ _ _ _ R Ix Iy).
    + rewrite R. left. split; [lia|]. pose proof (ibefore_in _ _ _ _ R Iy Ix). lia.
  - intros ds l Hl HF _ a H.
    assert (G : forall i j, clos_trans nat (fun i j => exists di dj, nth_error ds i = Some di /\ nth_error ds j = Some dj /\
       ((j < i /\ (compare_at BoxPoly di dj l > 0)%Z) \/ (i < j /\ (compare_at BoxPoly dj di l < 0)%Z))) i j ->
       exists di dj pi pj, nth_error ds i = Some di /\ nth_error ds j = Some dj /\ good di = [pi] /\ good dj = [pj] /\
         iempty (nth (l - 1) pi full) = false /\ iempty (nth (l - 1) pj full) = false /\
         (forall v w, ini (nth (l - 1) pi full) v = true -> ini (nth (l - 1) pj full) w = true -> (w < v)%Z)).
    { induction 1 as [i j (di & dj & Ei & Ej & Hc)|i j k _ IH1 _ IH2].
      - rewrite Forall_forall in HF. destruct (HF di (nth_error_In _ _ Ei)) as [Di _]. destruct (HF dj (nth_error_In _ _ Ej)) as [Dj _].
        assert (Hab : above di dj l).
        { destruct Hc as [[_ Hc]|[_ Hc]]; [apply (compare_above di dj l Hl Di Dj)|apply (compare_above dj di l Hl Dj Di)]; exact Hc. }
        destruct Hab as (ii & jj & Hb & N1 & N2 & (p & Gp & <-) & (q & Gq & <-)). exists di, dj, p, q. repeat split; auto.
        intros v w Hv Hw. exact (ibefore_in _ _ _ _ Hb Hw Hv).
      - destruct IH1 as (di & dj & pi & pj & A1 & A2 & A3 & A4 & A5 & A6 & A7). destruct IH2 as (dj' & dk & pj' & pk & B1 & B2 & B3 & B4 & B5 & B6 & B7).
        rewrite A2 in B1. injection B1 as <-. rewrite A4 in B3. injection B3 as <-. exists di, dk, pi, pk. repeat split; auto.
        intros v w Hv Hw. destruct (iempty_ex _ A6) as (u & Hu). specialize (A7 v u Hv Hu). specialize (B7 u w Hu Hw). lia. }
    destruct (G a a H) as (di & dj & pi & pj & A1 & A2 & A3 & A4 & A5 & A6 & A7). rewrite A1 in A2. injection A2 as <-. rewrite A3 in A4. injection A4 as <-.
    destruct (iempty_ex _ A5) as (v & Hv). specialize (A7 v v Hv Hv). lia.
  - intros a b Ha Hb. apply Nat.leb_le in Ha, Hb. apply Nat.leb_le. eapply Nat.le_trans; [apply good_sub_length|]. cbn [bs].
    apply flat_map_one; [exact Ha|]. intros p. rewrite map_length. exact Hb.
  - intros d l lb i H. apply Nat.leb_le in H. apply Nat.leb_le. eapply Nat.le_trans; [apply good_sub_length|]. destruct (l - 1 <? bd d); [rewrite map_length; exact H|].
    destruct (lb + i =? 0)%Z; [exact H|cbn; lia].
Qed.
