(** A small library for which the laws of ReduceSpec.v hold: a dimension that is projected out becomes a
    quantified variable; a single equality is dropped when adding an equality of the context makes all its
    coefficients multiples of that of the quantified variable. *)
From Coq Require Import ZArith List Bool Arith String Lia.
From Verif Require Import StrideModel UnrollModel UnrollSpec LoopModel ClastModel ClastSpec BackendCode PropertiesBackendCode ReduceModel ReduceSpec.
Import ListNotations.
Local Arguments Nat.ltb : simpl never. Local Arguments Nat.leb : simpl never. Local Arguments Nat.eqb : simpl never. Local Arguments Nat.sub : simpl never.
Local Open Scope Z_scope.
Local Notation length := List.length.

Definition free_con (k : nat) (c : con) : con :=
  {| c_eq := c_eq c; c_iter := replace k 0 (c_iter c); c_par := c_par c; c_div := nth k (c_iter c) 0 :: c_div c; c_const := c_const c |}.
Definition tie_con (k : nat) (c : con) : con :=
  {| c_eq := c_eq c; c_iter := replace k (nth k (c_iter c) 0 + nth 0 (c_div c) 0) (c_iter c); c_par := c_par c; c_div := []; c_const := c_const c |}.
Definition divides (d : Z) (p : Z * Z) : bool := (fst p - snd p) mod d =? 0.
Definition absorbs (c q : con) : bool :=
  let d := nth 0 (c_div c) 0 in
  c_eq q && forallb (Z.eqb 0) (c_div q) && negb (d =? 0) &&
  forallb (divides d) (List.combine (c_iter c) (c_iter q)) && forallb (divides d) (List.combine (c_par c) (c_par q)) && divides d (c_const c, c_const q).
Definition drop1 (b c : bset) : bset :=
  match cons_of b with
  | [e] => if (n_div b =? 1)%nat && c_eq e && existsb (absorbs e) (cons_of c) then {| n_div := 0; cons_of := [] |} else b
  | _ => b
  end.
Definition SmallGist : Gist := {|
  freed := fun b k => {| n_div := S (n_div b); cons_of := map (free_con k) (cons_of b) |};
  gist := drop1;
  tied := fun b k => {| n_div := 0; cons_of := map (tie_con k) (cons_of b) |}
|}.

Lemma replace_S k v z l : replace (S k) v (z :: l) = z :: replace k v l. Proof. reflexivity. Qed.
Lemma prod_replace k v : forall l x, length l = length x -> (k < length l)%nat -> prod (replace k v l) x = prod l x + (v - nth k l 0) * nth k x 0.
Proof.
  induction k as [|k IH]; intros [|z l] [|y x] H H'; cbn [length] in *; try lia.
  - cbn [replace firstn skipn app prod nth]. unfold replace. cbn [firstn skipn app prod]. lia.
  - rewrite replace_S. cbn [prod nth]. rewrite IH by lia. lia.
Qed.
Lemma prod_replace' k v : forall l x, length l = length x -> (k < length l)%nat -> prod l (replace k v x) = prod l x + nth k l 0 * (v - nth k x 0).
Proof.
  induction k as [|k IH]; intros [|z l] [|y x] H H'; cbn [length] in *; try lia.
  - unfold replace. cbn [firstn skipn app prod nth]. lia.
  - rewrite replace_S. cbn [prod nth]. rewrite IH by lia. lia.
Qed.
Lemma replace_length k v l : (k < length l)%nat -> length (replace k v l) = length l.
Proof. intros H. unfold replace. rewrite app_length. cbn [length]. rewrite firstn_length, skipn_length. lia. Qed.
Lemma nth_replace k v l : (k < length l)%nat -> nth k (replace k v l) 0 = v.
Proof. intros H. unfold replace. rewrite app_nth2; rewrite firstn_length; [|lia]. replace (k - Nat.min k (length l))%nat with 0%nat by lia. reflexivity. Qed.
Lemma divides_prod d l : forall m x, length l = length m -> forallb (divides d) (List.combine l m) = true -> d <> 0 -> exists s, prod l x - prod m x = d * s.
Proof.
  induction l as [|a l IH]; intros [|b m] x H F Hd; cbn [length] in H; try lia; [exists 0; destruct x; cbn [prod]; lia|].
  cbn [List.combine forallb] in F. apply andb_true_iff in F as [F1 F2]. destruct x as [|v x]; [exists 0; cbn [prod]; lia|].
  destruct (IH m x ltac:(lia) F2 Hd) as (s & E). unfold divides in F1. cbn [fst snd] in F1. apply Z.eqb_eq in F1. apply Z.mod_divide in F1; [|exact Hd]. destruct F1 as (t & T).
  exists (t * v + s). cbn [prod]. replace (a * v + prod l x - (b * v + prod m x)) with ((a - b) * v + (prod l x - prod m x)) by lia. rewrite T, E. lia.
Qed.
Lemma zeros_prod l x : forallb (Z.eqb 0) l = true -> prod l x = 0.
Proof. revert x. induction l as [|z l IH]; intros [|v x] H; cbn [prod forallb] in *; try reflexivity. apply andb_true_iff in H as [H1 H2]. apply Z.eqb_eq in H1. rewrite IH by exact H2. lia. Qed.

Lemma drop1_points n np b c x p : formed n np b -> formed n np c -> inside c x p -> (inside (drop1 b c) x p <-> inside b x p).
Proof.
  intros Fb Fc (e & He & Hc). unfold drop1. destruct (cons_of b) as [|k [|]] eqn:Eb; try reflexivity.
  destruct ((n_div b =? 1)%nat && c_eq k && existsb (absorbs k) (cons_of c)) eqn:A; [|reflexivity]. rewrite !andb_true_iff in A. destruct A as ((A1 & A2) & A3). apply Nat.eqb_eq in A1.
  split; [intros _|intros _; exists []; split; [reflexivity|constructor]].
  apply existsb_exists in A3. destruct A3 as (q & Hq & A). unfold absorbs in A. rewrite !andb_true_iff in A. destruct A as (((((B1 & B2) & B3) & B4) & B5) & B6).
  apply negb_true_iff in B3. apply Z.eqb_neq in B3. set (d := nth 0 (c_div k) 0) in *.
  unfold formed in Fb, Fc. rewrite Eb, Forall_cons_iff in Fb. destruct Fb as [(L1 & L2 & L3) _]. rewrite Forall_forall in Fc, Hc. destruct (Fc q Hq) as (M1 & M2 & _). specialize (Hc q Hq).
  unfold holds, value in Hc. rewrite B1, (zeros_prod _ _ B2) in Hc.
  destruct (divides_prod d (c_iter k) (c_iter q) x ltac:(congruence) B4 B3) as (s1 & E1). destruct (divides_prod d (c_par k) (c_par q) p ltac:(congruence) B5 B3) as (s2 & E2).
  unfold divides in B6. cbn [fst snd] in B6. apply Z.eqb_eq in B6. apply Z.mod_divide in B6; [|exact B3]. destruct B6 as (s3 & E3).
  exists [- (s1 + s2 + s3)]. split; [cbn; congruence|]. rewrite Eb. constructor; [|constructor]. unfold holds, value. rewrite A2. rewrite A1 in L3. destruct (c_div k) as [|d0 [|]] eqn:Ed; cbn [length] in L3; try lia. cbn [prod]. cbn [nth] in d. subst d. nia.
Qed.
Lemma small_ok np : GistOk np SmallGist.
Proof.
  constructor; cbn [SmallGist freed gist tied].
  - intros n k b F Hk. unfold formed in F. rewrite Forall_forall in F. split; [|split].
    + apply Forall_map, Forall_forall. intros c Hc. destruct (F c Hc) as (A & B & C). cbn [free_con c_iter c_par c_div length n_div]. rewrite replace_length by lia. auto.
    + apply Forall_map, Forall_forall. intros c Hc. destruct (F c Hc) as (A & _). cbn [free_con c_iter]. apply nth_replace. lia.
    + intros x p Hx Hp.
      assert (V : forall c v e, In c (cons_of b) -> value (free_con k c) x p (v :: e) = value c (replace k v x) p e).
      { intros c v e Hc. destruct (F c Hc) as (A & B & C). unfold value, free_con. cbn [c_iter c_par c_div c_const prod]. rewrite prod_replace by lia. rewrite prod_replace' by lia. lia. }
      unfold inside. cbn [n_div cons_of]. split.
      * intros ([|v e] & E & H); [discriminate|]. exists v, e. split; [injection E; auto|]. rewrite Forall_map in H. rewrite Forall_forall in *. intros c Hc. specialize (H c Hc). unfold holds in *. rewrite V in H by exact Hc. exact H.
      * intros (v & e & E & H). exists (v :: e). split; [cbn; congruence|]. apply Forall_map. rewrite Forall_forall in *. intros c Hc. specialize (H c Hc). unfold holds in *. rewrite V by exact Hc. exact H.
  - intros n k b c Fb Fc. split; [|split].
    + unfold drop1. destruct (cons_of b) as [|e [|]]; try exact Fb. destruct (_ && _ && _); [constructor|exact Fb].
    + intros Hb _. unfold drop1. destruct (cons_of b) as [|e [|]]; try exact Hb. destruct (_ && _ && _); [constructor|exact Hb].
    + intros x p Hx Hp Hc. eapply drop1_points; eassumption.
  - intros n k b F Hd Hk. unfold formed in F. rewrite Forall_forall in F. split; [reflexivity|]. split.
    + apply Forall_map, Forall_forall. intros c Hc. destruct (F c Hc) as (A & B & C). cbn [tie_con c_iter c_par c_div length n_div]. rewrite replace_length by lia. auto.
    + intros x p Hx Hp.
      assert (V : forall c, In c (cons_of b) -> value (tie_con k c) x p [] = value c x p [nth k x 0]).
      { intros c Hc. destruct (F c Hc) as (A & B & C). rewrite Hd in C. unfold value, tie_con. cbn [c_iter c_par c_div c_const]. rewrite prod_replace by lia. destruct (c_div c) as [|d [|]]; cbn [length] in C; try lia. cbn [prod nth]. lia. }
      unfold inside. cbn [n_div cons_of]. split.
      * intros ([|] & E & H); [|discriminate]. rewrite Forall_map in H. rewrite Forall_forall in *. intros c Hc. specialize (H c Hc). unfold holds in *. rewrite V in H by exact Hc. exact H.
      * intros H. exists []. split; [reflexivity|]. apply Forall_map. rewrite Forall_forall in *. intros c Hc. specialize (H c Hc). unfold holds in *. rewrite V by exact Hc. exact H.
Qed.
(** its reductions return the constraints given, or none *)
Lemma coefs_id n l : length l = n -> coefs n l = l.
Proof. revert l. induction n as [|n IH]; intros [|z l] H; cbn [length] in H; try lia; cbn [coefs]; [reflexivity|]. rewrite IH by lia. reflexivity. Qed.
Lemma replace_twice k v w l : (k < length l)%nat -> replace k v (replace k w l) = replace k v l.
Proof. revert l. induction k as [|k IH]; intros [|z l] H; cbn [length] in H; try lia; [reflexivity|]. rewrite !replace_S, IH by lia. reflexivity. Qed.
Lemma replace_same k l : (k < length l)%nat -> replace k (nth k l 0) l = l.
Proof. revert l. induction k as [|k IH]; intros [|z l] H; cbn [length] in H; try lia; [reflexivity|]. rewrite replace_S. cbn [nth]. rewrite IH by lia. reflexivity. Qed.
Lemma small_returns np eqs rows n : Forall (fun r => length (r_co r) = S n + np)%nat rows ->
  reduce_isl SmallGist np eqs rows (S n) = rows \/ reduce_isl SmallGist np eqs rows (S n) = [].
Proof.
  intros Hl. unfold reduce_isl. replace (S n - 1)%nat with n by lia. destruct (used_equalities np (firstn n eqs) 1 (S n)) as [|q l]; [left; reflexivity|]. cbn [SmallGist freed gist tied].
  set (b := {| n_div := S _; cons_of := map (free_con n) _ |}).
  assert (D : drop1 b {| n_div := 0; cons_of := q :: l |} = b \/ drop1 b {| n_div := 0; cons_of := q :: l |} = {| n_div := 0; cons_of := [] |}).
  { unfold drop1. destruct (cons_of b) as [|e [|]]; auto. destruct (_ && _ && _); auto. }
  destruct D as [-> | ->]; [left|right; reflexivity]. cbn [n_div b]. change (1 <? 1)%nat with false. cbv iota.
  unfold rows_back. cbn [cons_of b]. rewrite !map_map. rewrite <- map_id. apply map_ext_in. intros r Hr. rewrite Forall_forall in Hl. specialize (Hl r Hr).
  unfold con_back, tie_con, free_con, row_con. cbn [c_eq c_iter c_par c_div c_const nth app].
  assert (L1 : length (firstn (S n) (r_co r)) = S n) by (rewrite firstn_length; lia).
  rewrite (coefs_id (S n)) by exact L1. rewrite (coefs_id np) by (rewrite skipn_length; lia).
  rewrite nth_replace by lia. rewrite Z.add_0_l, replace_twice, replace_same by lia. rewrite firstn_skipn. destruct r; reflexivity.
Qed.
Lemma small_form np : keeps_form np (reduce_isl SmallGist np).
Proof.
  intros eqs rows n. cbv zeta. intros Hg Hl. destruct (small_returns np eqs rows n Hl) as [-> | ->].
  - split; [auto|]. right. auto.
  - split; [constructor|left; reflexivity].
Qed.
