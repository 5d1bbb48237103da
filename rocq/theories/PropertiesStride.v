(** Properties C26 (stride construction) and C12 (the stride found for a loop, and the alignment of
    its lower bound), plus an input for which option -strides finds a stride. *)
From Coq Require Import ZArith List Bool Lia Arith.
From Verif Require Import LoopModel LoopSpec LoopBox LoopExamples PropertiesLoop StrideBox.
From Verif Require StrideModel StrideProofs.
Import ListNotations.
Local Open Scope Z_scope.

(** ** C26 *)
(** The extended gcd always terminates and gives Bezout coefficients and the greatest common divisor. *)
Theorem C26_extended_gcd :
  forall a b : Z, exists x y g, StrideModel.euclid a b = Some (x, y, g) /\ a * x + b * y = g /\
    0 <= g /\ Z.divide g a /\ Z.divide g b /\ forall d, Z.divide d a -> Z.divide d b -> Z.divide d g.
Proof.
  intros a b. destruct (StrideProofs.euclid_ok a b) as (x & y & H & E). exists x, y, (Z.gcd a b).
  split; [exact H|]. split; [exact E|]. split; [apply Z.gcd_nonneg|]. split; [apply Z.gcd_divide_l|]. split; [apply Z.gcd_divide_r|].
  intros d. apply Z.gcd_greatest.
Qed.
Print Assumptions C26_extended_gcd.
Example C26_extended_gcd_example :
  StrideModel.euclid (-12) 18 = Some (1, 1, 6) /\ StrideModel.euclid 0 (-7) = Some (0, -1, 7) /\ StrideModel.euclid 35 (-64) = Some (11, 6, 1).
Proof. repeat split. Qed.

(** [x] with entry [i] set to [w] *)
Definition put (x : list Z) (i : nat) (w : Z) : list Z := firstn i x ++ w :: skipn (S i) x.
(** the constraint holds for the iterators [x], the parameters [p] and the divs [e] *)
Definition satisfied (c : StrideModel.con) (x p e : list Z) : Prop :=
  StrideModel.dot (StrideModel.c_iter c) x + StrideModel.dot (StrideModel.c_par c) p +
  StrideModel.dot (StrideModel.c_div c) e + StrideModel.c_const c = 0.
(** the value [w] of the iterator at [level] satisfies the equality *)
Definition allows (c : StrideModel.con) (level : nat) (x p : list Z) (w : Z) : Prop :=
  exists e, List.length e = List.length (StrideModel.c_div c) /\ satisfied c (put x (level - 1) w) p e.

Lemma set0_put i : forall a x w, (i < List.length x)%nat -> StrideModel.dot (StrideModel.set0 i a) (put x i w) = StrideModel.dot (StrideModel.set0 i a) x.
Proof.
  unfold put, StrideModel.dot. induction i as [|i IH]; intros [|b a] [|v x] w H; cbn in *; try lia.
  rewrite IH by lia. reflexivity.
Qed.
Lemma nth_put i x w : (i < List.length x)%nat -> nth i (put x i w) 0 = w.
Proof. intros H. unfold put. rewrite app_nth2; rewrite firstn_length_le by lia; [rewrite Nat.sub_diag; reflexivity|lia]. Qed.
Lemma allows_iff c level x p w : (1 <= level <= List.length x)%nat ->
  allows c level x p w <-> Z.divide (fold_left Z.gcd (StrideModel.c_div c) 0)
    (nth (level - 1) (StrideModel.c_iter c) 0 * w + (StrideModel.dot (StrideModel.c_par c) p + StrideModel.dot (StrideModel.set0 (level - 1) (StrideModel.c_iter c)) x + StrideModel.c_const c)).
Proof.
  intros H. rewrite <- StrideProofs.divs_solve. unfold allows, satisfied.
  assert (E : StrideModel.dot (StrideModel.c_iter c) (put x (level - 1) w) = StrideModel.dot (StrideModel.set0 (level - 1) (StrideModel.c_iter c)) x + nth (level - 1) (StrideModel.c_iter c) 0 * w).
  { rewrite (StrideProofs.dot_set0 (level - 1)), set0_put, nth_put by lia. reflexivity. }
  rewrite E. split; intros (e & He & Hs); exists e; (split; [exact He|]); lia.
Qed.

(** The stride found in the equalities of a hull: when the coefficient of the iterator has no common
    factor with the stride, and the outer iterators and parameters leave the iterator at least one
    value, its values are exactly the residue class of the offset modulo the stride. *)
Theorem C26_stride_is_residue_class_partial :
  forall (level : nat) (hull : list StrideModel.con) (c : StrideModel.con) (s t : Z),
  StrideModel.list_stride level hull = Some (c, (s, t)) ->
  In c hull /\ StrideModel.c_eq c = true /\ 1 < s /\
  forall (x p : list Z), (1 <= level <= List.length x)%nat ->
  Z.gcd (nth (level - 1) (StrideModel.c_iter c) 0) s = 1 ->
  (exists v, allows c level x p v) ->
  forall w, allows c level x p w <-> (w - StrideModel.stride_offset c level t x p) mod s = 0.
Proof.
  intros level hull c s t H. unfold StrideModel.list_stride in H. apply StrideProofs.list_stride_spec in H as [H|(H1 & H2 & H3 & H4)]; [discriminate|].
  split; [exact H1|]. split; [exact H2|]. destruct (StrideProofs.construct_ok c level s t H3 H4) as (Hs & _). split; [exact Hs|].
  intros x p Hl Hg [v Hv] w. rewrite allows_iff in * by exact Hl. rewrite StrideProofs.offset_value.
  rewrite (StrideProofs.residue c level s t x p H3 H4 Hg v Hv w). symmetry. apply Z.mod_divide. lia.
Qed.
Print Assumptions C26_stride_is_residue_class_partial.
(** 2 i - j + 6 e + 9 f = 0 with j = 5: i = 1 mod 3, the offset is -j = -5 = 1 mod 3 *)
Definition con26 : StrideModel.con :=
  {| StrideModel.c_eq := true; StrideModel.c_iter := [-1; 2]; StrideModel.c_par := []; StrideModel.c_div := [6; 9]; StrideModel.c_const := 0 |}.
Example C26_residue_example :
  StrideModel.list_stride 2 [con26] = Some (con26, (3, 1)) /\ Z.gcd 2 3 = 1 /\
  StrideModel.stride_offset con26 2 1 [5; 0] [] = -5 /\ allows con26 2 [5; 0] [] 4.
Proof. repeat split. exists [1; -1]. split; reflexivity. Qed.

(** Without the condition on common factors the claim is false: for 2 i - j + 8 e = 0 the stride 4 and
    the factor -1 are found, which stands for i = j modulo 4; with j = 2 the equality asks for
    i = 1 modulo 4, and no value allowed by the equality is in the class found. *)
Theorem C26_stride_offset_refuted :
  exists (c : StrideModel.con) (s t : Z) (x : list Z),
  StrideModel.list_stride 2 [c] = Some (c, (s, t)) /\
  (exists w, allows c 2 x [] w) /\
  forall w, allows c 2 x [] w -> (w - StrideModel.stride_offset c 2 t x []) mod s <> 0.
Proof.
  exists {| StrideModel.c_eq := true; StrideModel.c_iter := [-1; 2]; StrideModel.c_par := []; StrideModel.c_div := [8]; StrideModel.c_const := 0 |}, 4, (-1), [2; 0].
  split; [reflexivity|]. split; [exists 1, [0]; split; reflexivity|].
  intros w Hw. apply allows_iff in Hw; [|cbn; lia]. destruct Hw as [k Hk].
  change (2 * w + -2 = k * 8) in Hk. change ((w - 2) mod 4 <> 0). intros H. apply Z.mod_divide in H; [|lia]. destruct H as [q H]. lia.
Qed.
Print Assumptions C26_stride_offset_refuted.

(** The offset of cloog_domain_stride: if the values are [r] modulo [m] then value plus offset is a multiple
    of [m], and conversely. *)
Theorem C26_domain_stride_offset :
  forall m r v s o, StrideModel.domain_stride (m, r) = (s, o) -> s = m /\ (Z.divide m (v - r) <-> Z.divide m (v + o)).
Proof.
  intros m r v s o H. unfold StrideModel.domain_stride in H. destruct (Z.eqb_spec r 0) as [->|Hr]; injection H as <- <-; (split; [reflexivity|]).
  - rewrite Z.sub_0_r, Z.add_0_r. reflexivity.
  - split; intros [k Hk]; [exists (k + 1)|exists (k - 1)]; lia.
Qed.
Print Assumptions C26_domain_stride_offset.
Example C26_domain_stride_example : StrideModel.domain_stride (5, 2) = (5, 3) /\ (-8 - 2) mod 5 = 0 /\ (-8 + 3) mod 5 = 0.
Proof. repeat split. Qed.

(** ** C12 *)
(** The bound computed for a lower bound a i + f >= 0, a stride s and an offset d: among the values in
    the class of d, those that are at least the new bound are those that satisfy the lower bound, and the
    new bound is in the class: the loop starts with the first value of the class. *)
Theorem C12_lower_bound_alignment :
  forall a f s d : Z, 0 < a -> 0 < s ->
  (forall v, (v - d) mod s = 0 -> (StrideModel.stride_lower a f s d <= v <-> a * v + f >= 0)) /\
  (StrideModel.stride_lower a f s d - d) mod s = 0 /\
  StrideModel.stride_lower_bound a f s d = StrideModel.stride_lower a f s d.
Proof.
  intros a f s d Ha Hs. destruct (StrideProofs.lower_ok a f s d Ha Hs) as [H1 H2]. split; [|split].
  - intros v Hv. rewrite (H1 v); [split; lia|]. apply Z.mod_divide; [lia|exact Hv].
  - apply Z.mod_divide; [lia|exact H2].
  - unfold StrideModel.stride_lower, StrideModel.stride_lower_bound. lia.
Qed.
Print Assumptions C12_lower_bound_alignment.
(** 2 i + 7 >= 0, so i >= -3; i = 4 modulo 5 : -1 *)
Example C12_alignment_example : StrideModel.stride_lower 2 7 5 4 = -1 /\ (-1 - 4) mod 5 = 0 /\ (-6 - 4) mod 5 = 0 /\ 2 * -6 + 7 < 0.
Proof. repeat split. Qed.

(** The stride given to a loop is a stride of every inner domain: each of its points has its
    iterator in the class, whatever the library, as long as the strides and offsets it reports for
    single sets are true (StrideLaws). *)
Lemma scan_divides (P : Poly) (Se : Sem P) (SL : StrideLaws P Se) (level : nat) (ls : list (loop P)) :
  (1 <= level)%nat -> Forall (fun l => (level <= dim P (l_dom P l))%nat) ls ->
  forall fs s ref off, (fs = false -> 0 <= s /\ (s <> 1 -> off = ref)) ->
  let '(fs', s', ref', off') := fold_left (stride_scan1 P level) ls (fs, s, ref, off) in
  (fs' = false -> 0 <= s' /\ (s' <> 1 -> off' = ref')) /\ (ls <> [] \/ fs = false -> fs' = false) /\
  (fs = false -> forall v, Z.divide s (v + ref) -> Z.divide s' (v + ref')) /\
  forall l x, In l ls -> mem Se (l_dom P l) x = true -> Z.divide s' (nth (level - 1) x 0 + ref').
Proof.
  intros Hl. induction ls as [|l ls IH]; intros Hd fs s ref off Hi; cbn [fold_left].
  - split; [exact Hi|]. split; [intros [H|H]; [contradiction|exact H]|]. split; [auto|intros l x []].
  - inversion Hd as [|? ? Hd1 Hd2]; subst.
    pose proof (SL_dom_pos _ _ SL (l_dom P l) level) as Hpos.
    pose proof (fun x => SL_dom _ _ SL (l_dom P l) level x Hl Hd1) as Hdom.
    assert (Step : exists s1 ref1 off1, stride_scan1 P level (fs, s, ref, off) l = (false, s1, ref1, off1) /\
      (0 <= s1 /\ (s1 <> 1 -> off1 = ref1)) /\ (fs = false -> forall v, Z.divide s (v + ref) -> Z.divide s1 (v + ref1)) /\
      forall x, mem Se (l_dom P l) x = true -> Z.divide s1 (nth (level - 1) x 0 + ref1)).
    { unfold stride_scan1. destruct (domain_stride P (l_dom P l) level) as [pot o1]. cbn [fst snd] in *. destruct fs.
      - cbn [orb]. rewrite andb_false_r. do 3 eexists. split; [reflexivity|]. split; [split; [exact Hpos|reflexivity]|]. split; [discriminate|exact Hdom].
      - destruct (Hi eq_refl) as [Hi1 Hi2]. cbn [orb]. destruct (Z.eqb_spec s 1) as [->|Hs]; cbn [negb].
        { do 3 eexists. split; [reflexivity|]. split; [split; [lia|intros C; contradiction]|]. split; [auto|intros; apply Z.divide_1_l]. }
        destruct (Z.eqb_spec pot 1) as [->|Hpot]; cbn [negb andb].
        { do 3 eexists. split; [reflexivity|]. split; [split; [lia|intros C; contradiction]|]. split; intros; apply Z.divide_1_l. }
        set (g := Z.gcd pot s). assert (Hg := Z.gcd_nonneg pot s). fold g in Hg.
        assert (Hgp : Z.divide g pot) by apply Z.gcd_divide_l. assert (Hgs : Z.divide g s) by apply Z.gcd_divide_r.
        assert (Hm : forall a, exists q, (if g =? 0 then a else a mod g) = a + g * q).
        { intros a. destruct (Z.eqb_spec g 0) as [E|E]; [exists 0; lia|]. exists (- (a / g)). rewrite Z.mod_eq by exact E. lia. }
        destruct (Hm o1) as (q1 & E1). destruct (Hm ref) as (q2 & E2). rewrite E1, E2. do 3 eexists. split; [reflexivity|].
        destruct (Z.eqb_spec (o1 + g * q1) (ref + g * q2)) as [E|E].
        + split; [split; [exact Hg|intros _; exact E]|]. split.
          * intros _ v Hv. rewrite Z.add_assoc. apply Z.divide_add_r; [eapply Z.divide_trans; eassumption|apply Z.divide_factor_l].
          * intros x Hx. rewrite <- E, Z.add_assoc. apply Z.divide_add_r; [eapply Z.divide_trans; [exact Hgp|apply Hdom, Hx]|apply Z.divide_factor_l].
        + split; [split; [lia|intros C; contradiction]|]. split; intros; apply Z.divide_1_l. }
    destruct Step as (s1 & ref1 & off1 & E & J1 & J2 & J3). rewrite E. specialize (IH Hd2 false s1 ref1 off1 (fun _ => J1)).
    destruct (fold_left (stride_scan1 P level) ls (false, s1, ref1, off1)) as [[[fs' s'] ref'] off'].
    destruct IH as (K1 & K2 & K3 & K4). split; [exact K1|]. split; [intros _; apply K2; right; reflexivity|].
    split; [intros Hf v Hv; apply K3; [reflexivity|apply J2; assumption]|].
    intros l' x [<-|Hin] Hx; [apply K3; [reflexivity|apply J3, Hx]|eapply K4; eassumption].
Qed.

Theorem C12_stride_common_to_inner_domains :
  forall (P : Poly) (Se : Sem P), Laws P Se -> StrideLaws P Se ->
  forall (level : nat) (l : loop P), (1 <= level)%nat -> l_st P l = None ->
  Forall (fun n => (level <= dim P (l_dom P n))%nat) (l_inner P l) ->
  forall n x, In n (l_inner P l) -> mem Se (l_dom P n) x = true ->
  st_ok P Se (l_st P (loop_stride P level l)) (firstn level x) = true.
Proof.
  intros P Se L SL level l Hl Hn Hd n x Hin Hx. unfold loop_stride.
  destruct (can_stride P (l_dom P l) level); cbn [negb]; [|rewrite Hn; reflexivity].
  destruct (list_stride P (rev (map (l_dom P) (l_inner P l))) level) as [[[s o] c]|] eqn:Els.
  - cbn [l_st st_ok]. apply (SL_list _ _ SL _ _ _ _ _ (l_dom P n) x Hl Els); [apply in_rev; rewrite rev_involutive; apply in_map; exact Hin| |exact Hx].
    rewrite Forall_forall in Hd. apply Hd, Hin.
  - pose proof (scan_divides P Se SL level (l_inner P l) Hl Hd true 1 0 0 ltac:(discriminate)) as H.
    destruct (fold_left (stride_scan1 P level) (l_inner P l) (true, 1, 0, 0)) as [[[fs s] ref] off]. destruct H as (H1 & H2 & _ & H3).
    assert (Hf : fs = false) by (apply H2; left; intros E; rewrite E in Hin; destruct Hin). destruct (H1 Hf) as [P1 P2].
    destruct (Z.eqb_spec s 0) as [->|E0]; [rewrite Z.eqb_refl, Hn; reflexivity|]. destruct (Z.eqb_spec s 1) as [->|E1]; [rewrite Hn; reflexivity|].
    cbn [l_st st_ok]. apply Z.eqb_eq. apply Z.mod_divide; [exact E0|]. rewrite (P2 E1).
    assert (Hlen : List.length x = dim P (l_dom P n)) by (apply (L_len _ _ L), Hx). rewrite Forall_forall in Hd. specialize (Hd n Hin).
    replace (last (firstn level x) 0) with (nth (level - 1) x 0).
    2: { symmetry. destruct level as [|k]; [lia|]. replace (S k - 1)%nat with k by lia. clear - Hd Hlen. assert (Hk : (k < List.length x)%nat) by lia. clear Hd Hlen. revert k Hk.
         induction x as [|v x IH]; intros [|k] Hk; cbn [List.length] in Hk; try lia; [reflexivity|]. cbn [nth]. rewrite <- (IH k) by lia. cbn [firstn]. destruct x as [|v' x]; [cbn in Hk; lia|]. reflexivity. }
    specialize (H3 n x Hin Hx). destruct (Z.eqb_spec ref 0) as [->|Er]; [rewrite Z.sub_0_r; rewrite Z.add_0_r in H3; exact H3|].
    destruct H3 as [k Hk]. exists (k - 1). lia.
Qed.
Print Assumptions C12_stride_common_to_inner_domains.
(** two inner domains with i in {1, 7} and i in {4, 13}: stride 3, offset 1 *)
Definition sinner (d : dom BoxPoly) (p : nat) : loop StridePoly := @Loop StridePoly d false None (Some (blk p [])) [].
Definition loop12 : loop StridePoly :=
  @Loop StridePoly (B 1 [[(0, 20)]]) false None None [sinner (B 1 [[(1, 1)]; [(7, 7)]]) 0; sinner (B 2 [[(4, 4); (0, 9)]; [(13, 13); (0, 3)]]) 1].
Example C12_common_stride_example :
  Laws StridePoly StrideSem /\ StrideLaws StridePoly StrideSem /\
  Forall (fun n => (1 <= dim StridePoly (l_dom StridePoly n))%nat) (l_inner StridePoly loop12) /\
  l_st StridePoly (loop_stride StridePoly 1 loop12) = Some (3, 1, None).
Proof. split; [exact stride_box_laws|]. split; [exact stride_box_strides|]. split; [repeat constructor|vm_compute; reflexivity]. Qed.

(** ** C01 with -strides: the hypotheses of C01_instances_exactly_once_strides_partial are met, generation
    finds a stride and the instances run *)
Definition opts_s : options :=
  {| o_l := -1; o_f := -1; o_stop := -1; o_strides := true; o_sh := false; o_otl := true; o_backtrack := false;
     o_first_unroll := -1; o_fs := None; o_ls := None; o_nosimplify := false; o_override := false |}.
Definition input_s : list (loop StridePoly) := [sinner (B 2 [[(1, 1);(0, 2)]; [(4, 4);(0, 2)]]) 0].
Example C01_strides_example :
  Laws StridePoly StrideSem /\ plain_options StridePoly StrideSem opts_s /\ strides_ok StridePoly StrideSem opts_s /\
  statement_loops StridePoly [false; false] input_s /\ depth_order StridePoly [false; false] input_s /\
  exists res, cloog_program_generate StridePoly (run_lengths [false; false]) opts_s 60 ctx0 input_s = Some res /\
    (exists l, In l (flat_map (l_inner StridePoly) res) /\ l_st StridePoly l = Some (3, 1, None)) /\
    exists p, Exec StridePoly StrideSem res [] p (blk 0 []) [4; 2].
Proof.
  split; [exact stride_box_laws|]. split; [split; [reflexivity|split; [discriminate|discriminate]]|].
  split; [intros _; split; [exact stride_box_strides|reflexivity]|].
  split; [repeat (constructor; [eexists _, _, _; split; [reflexivity|cbn; lia]|]); constructor|].
  split; [dord|].
  run_result. split; [eexists; split; [left; reflexivity|reflexivity]|].
  exists [Z.of_nat 0; Z.of_nat 0; 4; Z.of_nat 0; 2; Z.of_nat 0]. run_exec.
Qed.
