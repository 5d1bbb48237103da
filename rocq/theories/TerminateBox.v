(** The laws of [TerminateSpec] hold for unions of boxes. *)
From Coq Require Import ZArith List Bool Arith Lia Relations.
From Verif Require Import LoopModel LoopSpec LoopBox TerminateSpec.
Import ListNotations.
Local Open Scope nat_scope.

Definition hits (ps : list box) (x : list Z) : nat := length (filter (fun p => inb p x) ps).
Lemma hits_app ps qs x : hits (ps ++ qs) x = hits ps x + hits qs x.
Proof. unfold hits. rewrite filter_app, app_length. reflexivity. Qed.
Lemma hits_cons i p v x : hits (map (cons i) p) (v :: x) = if ini i v then hits p x else 0.
Proof. unfold hits. induction p as [|a p IH]; cbn [map filter inb]; [destruct (ini i v); reflexivity|]. destruct (ini i v); cbn [andb] in *; [destruct (inb a x); cbn [length]; rewrite IH|]; auto. Qed.
Lemma hits_ex ps x : existsb (fun p => inb p x) ps = false -> hits ps x = 0.
Proof. unfold hits. induction ps as [|p ps IH]; cbn; [reflexivity|]. destruct (inb p x); cbn; [discriminate|exact IH]. Qed.
Lemma hits_nil1 p ks : hits (map (fun k => k :: p) ks) [] = 0.
Proof. apply hits_ex. induction ks as [|k ks IH]; [reflexivity|exact IH]. Qed.
Lemma hits_nil2 k ps : hits (map (cons k) ps) [] = 0.
Proof. apply hits_ex. induction ps as [|p ps IH]; [reflexivity|exact IH]. Qed.
Lemma hits_le1 ps x : (forall p q i j, nth_error ps i = Some p -> nth_error ps j = Some q -> inb p x = true -> inb q x = true -> i = j) -> hits ps x <= 1.
Proof.
  unfold hits. induction ps as [|p ps IH]; intros H; cbn; [lia|].
  assert (H' : length (filter (fun p => inb p x) ps) <= 1) by (apply IH; intros a b i j Ha Hb X1 X2; specialize (H a b (S i) (S j) Ha Hb X1 X2); lia).
  destruct (inb p x) eqn:E; [|exact H']. cbn. destruct (filter (fun p => inb p x) ps) as [|q r] eqn:Ef; [cbn; lia|]. exfalso.
  assert (Hq : In q (filter (fun p => inb p x) ps)) by (rewrite Ef; left; reflexivity). apply filter_In in Hq as [Hq Hx]. apply In_nth_error in Hq as [j Hj].
  specialize (H p q 0 (S j) eq_refl Hj E Hx). lia.
Qed.

Lemma bcut_hits p : forall q x, length p = length q -> bempty (binter p q) = false -> hits (bcut p q) x <= Nat.b2n (inb p x).
Proof.
  induction p as [|i p IH]; intros [|j q] x H He; try discriminate; [cbn; lia|]. cbn [bcut]. rewrite hits_app. destruct x as [|v x].
  { cbn [inb Nat.b2n]. rewrite hits_nil1, hits_nil2. lia. }
  cbn in He. apply orb_false_iff in He as [He1 He2]. specialize (IH q x ltac:(cbn in H; lia) He2). rewrite hits_cons. cbn [inb].
  assert (A : hits (map (fun k => k :: p) (ibelow i j ++ iabove i j)) (v :: x) <= if inb p x then Nat.b2n (ini i v && negb (ini j v)) else 0).
  { unfold hits. rewrite map_app, filter_app, app_length. unfold ibelow, iabove.
    destruct i as [[a|] [b|]], j as [[c|] [d|]]; cbn [fst snd map filter inb app length iempty iinter lo_max hi_min] in *;
      unfold ini, ge_lo, le_hi, lo_max, hi_min; cbn [fst snd];
      destruct (inb p x); rewrite ?andb_false_r, ?andb_true_r; cbn [length Nat.b2n];
      repeat match goal with
      | |- context [(?u <=? ?w)%Z] => destruct (Z.leb_spec u w)
      | H : (?u <? ?w)%Z = false |- _ => apply Z.ltb_ge in H
      end; cbn [andb negb length Nat.b2n]; try lia. }
  rewrite iinter_in. destruct (ini i v), (ini j v), (inb p x); cbn [andb negb Nat.b2n] in *; lia.
Qed.
Lemma bdiff_hits p q x : length p = length q -> hits (bdiff p q) x <= Nat.b2n (inb p x).
Proof.
  intros H. unfold bdiff. destruct (bempty (binter p q)) eqn:E; [|apply bcut_hits; assumption]. unfold hits. cbn. destruct (inb p x); cbn; lia.
Qed.
Lemma diff_hits n qs x : forall ps, Forall (fun p => length p = n) ps -> Forall (fun q => length q = n) qs -> hits (fold_left diff1 qs ps) x <= hits ps x.
Proof.
  induction qs as [|q qs IH]; intros ps Hp Hq; cbn [fold_left]; [lia|]. inversion Hq as [|? ? Hq1 Hq2]; subst.
  assert (A : hits (diff1 ps q) x <= hits ps x /\ Forall (fun p => length p = length q) (diff1 ps q)).
  { clear IH Hq. unfold diff1. induction Hp as [|p ps Hp1 Hp2 [I1 I2]]; [split; [apply le_n|constructor]|]. cbn [flat_map]. rewrite hits_app. split.
    - pose proof (bdiff_hits p q x Hp1). change (p :: ps) with ([p] ++ ps). rewrite hits_app. unfold hits at 3. cbn [filter]. destruct (inb p x); cbn [length Nat.b2n] in *; lia.
    - apply Forall_app. split; [|exact I2]. rewrite <- Hp1. apply bdiff_len. exact Hp1. }
  destruct A as [A1 A2]. specialize (IH (diff1 ps q) A2 Hq2). lia.
Qed.
Lemma good_hits n ps x : hits (good {| bd := n; bs := ps |}) x <= hits ps x.
Proof. unfold hits, good. cbn [bs bd]. induction ps as [|p ps IH]; [apply le_n|]. cbn [filter]. destruct ((length p =? n) && negb (bempty p)); cbn [filter]; destruct (inb p x); cbn [length]; lia. Qed.
Lemma one_hit d x : length (good d) <= 1 -> hits (good d) x <= 1.
Proof. intros H. unfold hits. eapply Nat.le_trans; [apply filter_le|exact H]. Qed.

Lemma diff_apart_one n p : length p = n -> forall qs, Forall (fun q => length q = n /\ bempty (binter p q) = true) qs -> fold_left diff1 qs [p] = [p].
Proof.
  intros Hn qs H. induction H as [|q qs [H1 H2] _ IH]; [reflexivity|]. cbn [fold_left]. unfold diff1 at 2. cbn [flat_map]. unfold bdiff. rewrite H2. cbn [app]. exact IH.
Qed.
Lemma diff_none qs : fold_left diff1 qs [] = [].
Proof. induction qs as [|q qs IH]; [reflexivity|exact IH]. Qed.

Theorem box_total_laws : TotalLaws BoxPoly unit (fun _ => BoxSem) (fun d => length (good d)).
Proof.
  constructor; cbn [BoxPoly BoxSem dim mem isempty isconvex single simplify_union cut_first difference pdisj dom]; unfold parts_apart, apart.
  - intros d H. exists tt. destruct (good d) as [|p r] eqn:E; [discriminate|]. assert (Hp : In p (good d)) by (rewrite E; left; reflexivity).
    destruct (bempty_ex p) as [x Hx]; [apply (proj1 (good_in d p) Hp)|]. exists x. apply bmem_iff. eauto.
  - intros d H. destruct (good d); [|discriminate]. destruct H as [H|H]; discriminate.
  - intros d H. rewrite good_good. destruct (good d); [discriminate|]. discriminate.
  - intros d f r H. pose proof (good_ne d) as HF. destruct (good d) as [|p l]; [discriminate|]. injection H as <- <-. inversion HF; subst. rewrite good_sub by assumption. cbn. lia.
  - intros d H v x. cbn [pdisj BoxSem]. rewrite good_good. apply (H v x).
  - intros a b Hd Ha v x. apply Nat.leb_le in Ha. pose proof (good_len a) as Fa. pose proof (good_len b) as Fb. rewrite <- Hd in Fb. cbn [pdisj BoxSem].
    eapply Nat.le_trans; [apply good_hits|]. eapply Nat.le_trans; [apply (diff_hits (bd a)); assumption|]. apply one_hit; exact Ha.
  - intros a b Hd Ha Hab. apply Nat.leb_le in Ha. apply Nat.leb_le. eapply Nat.le_trans; [apply good_sub_length|].
    pose proof (good_ne a) as Fa. pose proof (good_ne b) as Fb. rewrite <- Hd in Fb. destruct (good a) as [|p [|? ?]] eqn:Ea; [rewrite diff_none; cbn; lia| |cbn in Ha; lia].
    inversion Fa as [|? ? [Hp1 Hp2] _]; subst. rewrite (diff_apart_one (bd a) p Hp1); [cbn; lia|]. rewrite Forall_forall in *. intros q Hq. destruct (Fb q Hq) as [Hq1 Hq2].
    split; [exact Hq1|]. destruct (bempty (binter p q)) eqn:E; [reflexivity|]. exfalso. destruct (bempty_ex _ E) as [x Hx]. rewrite binter_in in Hx by lia.
    apply andb_prop in Hx as [X1 X2]. apply (Hab tt x); apply bmem_iff; [exists p; rewrite Ea; split; [left; reflexivity|exact X1]|eauto].
  - intros d H _. exact H.
  - intros d f r H. destruct (good d) as [|p l]; [discriminate|]. injection H as <- <-. apply Nat.leb_le. apply good_sub_length.
  - intros ds l Hl HF HP a. apply (OL_acyclic _ _ box_order_laws ds l Hl HF).
    induction HP as [|x r Hx _ IH]; [constructor|]. constructor; [|apply IH; inversion HF; assumption]. eapply Forall_impl; [|exact Hx]. intros b Hb. apply (Hb tt).
Qed.
