(** Proofs about DivModel.v *)
From Coq Require Import ZArith List Bool Arith String Lia.
From Verif Require Import ClastModel ClastSpec ClastBounds PprintModel CReader PprintSpec DivModel DivSpec.
Import ListNotations.
Local Open Scope Z_scope.

(** the div that is printed *)
Definition red (den c : Z) : Z := if c =? 0 then 0 else reduced c den.
Definition red_div (d : div) : div :=
  {| dv_den := dv_den d; dv_iter := map (red (dv_den d)) (dv_iter d); dv_div := map (red (dv_den d)) (dv_div d);
     dv_par := map (red (dv_den d)) (dv_par d); dv_const := red (dv_den d) (dv_const d) |}.

Lemma reduced_eq c den : Z.gcd c den * reduced c den = c.
Proof.
  unfold reduced. destruct (Z.eq_dec c 0) as [->|C]; [destruct (Z.gcd 0 den); reflexivity || (cbn; lia)|].
  assert (G : Z.gcd c den <> 0). { intro E. apply Z.gcd_eq_0 in E. lia. }
  destruct (Z.gcd_divide_l c den) as [t T].
  assert (R : Z.quot c (Z.gcd c den) = t). { rewrite T at 1. apply Z.quot_mul. exact G. }
  rewrite R. lia.
Qed.
Lemma gcd_pos c den : c <> 0 -> 1 <= Z.gcd c den.
Proof. intro C. pose proof (Z.gcd_nonneg c den). assert (Z.gcd c den <> 0); [|lia]. intro E. apply Z.gcd_eq_0 in E. lia. Qed.
Lemma reduced_nz c den : c <> 0 -> reduced c den <> 0.
Proof. intros C E. pose proof (reduced_eq c den). rewrite E in H. lia. Qed.
Lemma num_si_ok c den : c <> 0 -> - 2 ^ 63 <= c < 2 ^ 63 -> num_si c den = Some (reduced c den).
Proof.
  intros C R. unfold num_si. pose proof (reduced_eq c den). pose proof (gcd_pos c den C).
  assert (- 2 ^ 63 <= reduced c den < 2 ^ 63) as [A B] by nia.
  apply Z.leb_le in A. apply Z.ltb_lt in B. rewrite A, B. reflexivity.
Qed.

Lemma terms_right rho den xs : forall cs var i, List.length cs = List.length xs -> Forall (fun c => - 2 ^ 63 <= c < 2 ^ 63) cs ->
  (forall k c v, nth_error cs k = Some c -> c <> 0 -> nth_error xs k = Some v -> exists e, var (i + k)%nat = Some e /\ eval rho e = Some v /\ is_group e = false /\ forall lv, printable lv e = true) ->
  exists l zs, div_terms den var i cs = Some l /\ vals rho l = Some zs /\ zsum zs = lin (map (red den) cs) xs /\
    Forall (fun t => is_term t = true /\ nonzero_term t = true /\ printable LvMul t = true /\ printable LvAdd t = true) l /\ (Exists (fun c => c <> 0) cs -> l <> []).
Proof.
  induction xs as [|x xs IH]; intros [|c cs] var i L R H; try discriminate.
  - exists [], []. repeat split; try constructor. intro E. inversion E.
  - injection L as L. inversion R as [|? ? R1 R2]; subst. cbn [div_terms map lin].
    destruct (IH cs var (S i) L R2) as (l & zs & A & B & C & D & E).
    { intros k c' v K1 K2 K3. replace (S i + k)%nat with (i + S k)%nat by lia. exact (H (S k) c' v K1 K2 K3). }
    unfold red at 1. destruct (Z.eqb_spec c 0) as [->|N].
    + exists l, zs. repeat split; try assumption. intro X. inversion X; subst; [congruence|auto].
    + destruct (H 0%nat c x eq_refl N eq_refl) as (e & V & W & G & P). rewrite Nat.add_0_r in V. rewrite V, (num_si_ok _ _ N R1), A.
      exists (ETerm (reduced c den) (Some e) :: l), (reduced c den * x :: zs). split; [reflexivity|].
      split; [cbn [vals eval]; rewrite W, B; reflexivity|]. split; [cbn [zsum fold_right]; fold (zsum zs); rewrite C; reflexivity|]. split; [|intros _; discriminate].
      constructor; [|exact D]. split; [reflexivity|]. split.
      * cbn. pose proof (reduced_nz c den N). destruct (Z.eqb_spec (reduced c den) 0); [contradiction|reflexivity].
      * cbn [printable]. rewrite G. destruct (reduced c den =? 1); cbn [above_prim andb]; split; apply P.
Qed.

Lemma printable_sum l : l <> [] -> Forall (fun t => is_term t = true /\ nonzero_term t = true /\ printable LvMul t = true /\ printable LvAdd t = true) l -> printable LvAdd (ERed RSum l) = true.
Proof.
  intros N F. destruct l as [|x xs]; [contradiction|]. inversion F as [|? ? (A & B & C & D) F']; subst. cbn [printable]. rewrite A.
  assert (X : forallb (fun t => nonzero_term t && printable LvMul t) xs = true).
  { apply forallb_forall. intros t T. rewrite Forall_forall in F'. destruct (F' t T) as (_ & B' & C' & _). rewrite B', C'. reflexivity. }
  rewrite X. destruct xs; [rewrite D|cbn [is_sum]; rewrite C]; reflexivity.
Qed.

Lemma floor_unique q d z : 0 < d -> q * d <= z < (q + 1) * d -> z / d = q.
Proof. intros D H. symmetry. apply (Z.div_unique z d q (z - d * q)); [left; lia|lia]. Qed.

Section Right.
Variables (iter_name par_name : nat -> string) (n : nat) (divs : list div) (rho : env) (x p q : list Z).
Hypothesis Iid : forall i, ident (iter_name (S i)) = true.
Hypothesis Pid : forall i, ident (par_name i) = true.
Hypothesis Hok : divs_ok (List.length x) (List.length p) divs.
Hypothesis Hrho : holds_values iter_name par_name rho x p.
Hypothesis Hq : div_values (map red_div divs) x p q.

Lemma div_expr_right : forall fuel k, (k < fuel)%nat -> (k < List.length divs)%nat ->
  exists e, div_expr iter_name par_name divs fuel k = Some e /\ eval rho e = Some (nth k q 0) /\ is_group e = false /\ forall lv, printable lv e = true.
Proof.
  induction fuel as [|f IH]; intros k K L; [lia|]. cbn [div_expr].
  destruct (nth_error divs k) as [d|] eqn:E; [|apply nth_error_None in E; lia].
  destruct (Hok k d E) as (D0 & L1 & L2 & L3 & Z0 & EX & RG). destruct (Z.eqb_spec (dv_den d) 0); [lia|].
  unfold coefs in EX, RG. apply Forall_app in RG. destruct RG as (G1 & RG). apply Forall_app in RG. destruct RG as (G2 & RG). apply Forall_app in RG. destruct RG as (G3 & G4).
  apply Forall_inv in G4.
  destruct Hq as (LQ & HQ). rewrite map_length in LQ.
  destruct (terms_right rho (dv_den d) x (dv_iter d) (fun i => Some (EName (iter_name (S i)))) 0 L1 G1) as (la & za & A1 & A2 & A3 & A4 & A5).
  { intros j c v _ _ V. exists (EName (iter_name (S j))). split; [reflexivity|]. split; [exact (proj1 Hrho j v V)|]. split; [reflexivity|]. intro lv. apply Iid. }
  destruct (terms_right rho (dv_den d) q (dv_div d) (div_expr iter_name par_name divs f) 0 ltac:(congruence) G2) as (lb & zb & B1 & B2 & B3 & B4 & B5).
  { intros j c v C N V. assert (J : (j < k)%nat). { destruct (Nat.lt_ge_cases j k) as [J|J]; [exact J|]. specialize (Z0 j J). rewrite (nth_error_nth _ _ _ C) in Z0. contradiction. }
    destruct (IH j ltac:(lia) ltac:(lia)) as (e & E1 & E2 & E3 & E4). exists e. cbn [Nat.add]. split; [exact E1|]. split; [|auto]. rewrite E2. f_equal. apply nth_error_nth. exact V. }
  destruct (terms_right rho (dv_den d) p (dv_par d) (fun i => Some (EName (par_name i))) 0 L3 G3) as (lc & zc & C1 & C2 & C3 & C4 & C5).
  { intros j c v _ _ V. exists (EName (par_name j)). split; [reflexivity|]. split; [exact (proj2 Hrho j v V)|]. split; [reflexivity|]. intro lv. apply Pid. }
  rewrite A1, B1, C1.
  assert (K0 : exists lk zk, (if dv_const d =? 0 then Some [] else option_map (fun v => [ETerm v None]) (num_si (dv_const d) (dv_den d))) = Some lk /\
            vals rho lk = Some zk /\ zsum zk = red (dv_den d) (dv_const d) /\
            Forall (fun t => is_term t = true /\ nonzero_term t = true /\ printable LvMul t = true /\ printable LvAdd t = true) lk /\ (dv_const d <> 0 -> lk <> [])).
  { unfold red. destruct (Z.eqb_spec (dv_const d) 0) as [C0|C0].
    - exists [], []. repeat split; try constructor. intro; contradiction.
    - rewrite (num_si_ok _ _ C0 G4). exists [ETerm (reduced (dv_const d) (dv_den d)) None], [reduced (dv_const d) (dv_den d)].
      split; [reflexivity|]. split; [reflexivity|]. split; [cbn; lia|]. split; [|intros _; discriminate]. constructor; [|constructor]. pose proof (reduced_nz _ (dv_den d) C0).
      split; [reflexivity|]. split; [cbn; destruct (Z.eqb_spec (reduced (dv_const d) (dv_den d)) 0); [contradiction|reflexivity]|]. cbn. rewrite orb_true_r. split; reflexivity. }
  destruct K0 as (lk & zk & K1 & K2 & K3 & K4 & K5). rewrite K1. eexists. split; [reflexivity|].
  assert (NE : la ++ lb ++ lc ++ lk <> []).
  { intro X. apply app_eq_nil in X. destruct X as (X1 & X). apply app_eq_nil in X. destruct X as (X2 & X). apply app_eq_nil in X. destruct X as (X3 & X4).
    apply Exists_app in EX. destruct EX as [EX|EX]; [exact (A5 EX X1)|]. apply Exists_app in EX. destruct EX as [EX|EX]; [exact (B5 EX X2)|].
    apply Exists_app in EX. destruct EX as [EX|EX]; [exact (C5 EX X3)|]. inversion EX as [? ? Y|? ? Y]; [|inversion Y]. subst. exact (K5 Y eq_refl). }
  split; [|split; [reflexivity|]].
  - cbn [eval]. change (match eval rho (ERed RSum (la ++ lb ++ lc ++ lk)) with Some z => Some (bin_val BFdiv z (dv_den d)) | None => None end = Some (nth k q 0)).
    rewrite (eval_sum rho _ (za ++ zb ++ zc ++ zk)); [|rewrite !vals_app, A2, B2, C2, K2; reflexivity|exact NE].
    cbn [bin_val]. f_equal. rewrite !zsum_app, A3, B3, C3, K3. apply floor_unique; [exact D0|].
    specialize (HQ k (red_div d) (map_nth_error red_div k divs E)). unfold numer in HQ. cbn in HQ. lia.
  - intro lv. cbn [printable]. apply Z.ltb_lt in D0. rewrite D0. cbn [andb].
    assert (PS : printable LvAdd (ERed RSum (la ++ lb ++ lc ++ lk)) = true). { apply printable_sum; [exact NE|]. apply Forall_app; split; [exact A4|]. apply Forall_app; split; [exact B4|]. apply Forall_app; split; assumption. }
    exact PS.
Qed.
End Right.

Lemma red_lowest d : lowest d -> red_div d = d.
Proof.
  unfold lowest, coefs. intro H. apply Forall_app in H. destruct H as (H1 & H). apply Forall_app in H. destruct H as (H2 & H). apply Forall_app in H. destruct H as (H3 & H4). apply Forall_inv in H4.
  assert (R : forall c, (c <> 0 -> Z.gcd c (dv_den d) = 1) -> red (dv_den d) c = c).
  { intros c G. unfold red. destruct (Z.eqb_spec c 0); [lia|]. pose proof (reduced_eq c (dv_den d)). rewrite (G n) in H. lia. }
  assert (M : forall l, Forall (fun c => c <> 0 -> Z.gcd c (dv_den d) = 1) l -> map (red (dv_den d)) l = l).
  { induction 1; [reflexivity|]. cbn [map]. rewrite IHForall, R by assumption. reflexivity. }
  unfold red_div. rewrite !M, R by assumption. destruct d; reflexivity.
Qed.
Lemma reds_lowest divs : Forall lowest divs -> map red_div divs = divs.
Proof. induction 1; [reflexivity|]. cbn [map]. rewrite IHForall, red_lowest by assumption. reflexivity. Qed.

(** values that show a common factor: all 0 but one *)
Definition unit_at (len i : nat) (m : Z) : list Z := map (fun j => if (j =? i)%nat then m else 0) (seq 0 len).
Lemma lin_zero : forall cs l, Forall (fun z => z = 0) l -> lin cs l = 0.
Proof. induction cs as [|c cs IH]; intros [|z l] H; try reflexivity. inversion H; subst. cbn [lin]. rewrite IH by assumption. lia. Qed.
Lemma lin_unit : forall cs i m, lin cs (unit_at (List.length cs) i m) = nth i cs 0 * m.
Proof.
  intros cs. assert (G : forall cs i m s, lin cs (map (fun j => if (j =? s + i)%nat then m else 0) (seq s (List.length cs))) = nth i cs 0 * m).
  { clear cs. induction cs as [|c cs IH]; intros i m s; [destruct i; reflexivity|]. cbn [List.length seq map lin]. destruct i as [|i].
    - rewrite Nat.add_0_r, Nat.eqb_refl. rewrite lin_zero; [cbn; lia|]. apply Forall_forall. intros z Z. apply in_map_iff in Z. destruct Z as (j & <- & J). apply in_seq in J. destruct (Nat.eqb_spec j s); [lia|reflexivity].
    - destruct (Nat.eqb_spec s (s + S i)); [lia|]. replace (s + S i)%nat with (S s + i)%nat by lia. rewrite IH. cbn [nth]. lia. }
  intros i m. apply (G cs i m 0%nat).
Qed.
Lemma far_floors a b d : 0 < d -> d <= Z.abs (a - b) -> a / d <> b / d.
Proof. intros D H E. pose proof (Z.div_mod a d ltac:(lia)). pose proof (Z.div_mod b d ltac:(lia)). pose proof (Z.mod_pos_bound a d D). pose proof (Z.mod_pos_bound b d D). rewrite E in H0. lia. Qed.
