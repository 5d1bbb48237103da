(** Property C53: domains and scatterings made from matrices and from bounds. *)
From Coq Require Import ZArith List Bool Lia Arith.
From Verif Require Import ImportModel ImportSpec.
Import ListNotations.
Local Open Scope nat_scope.
Local Arguments Nat.ltb : simpl never.
Local Arguments Nat.sub : simpl never.

Lemma omap_nth {A} (row : list A) : forall n a, a + n <= length row ->
  omap (fun j => nth_error row (a + j)) (seq 0 n) = Some (firstn n (skipn a row)).
Proof.
  intros n. assert (G : forall n a s, a + s + n <= length row -> omap (fun j => nth_error row (a + j)) (seq s n) = Some (firstn n (skipn (a + s) row))).
  { clear n. induction n as [|n IH]; intros a s H; cbn [seq omap firstn]; [reflexivity|].
    destruct (nth_error row (a + s)) as [v|] eqn:E; [|apply nth_error_None in E; lia]. cbn [obind]. rewrite IH by lia. cbn [obind].
    f_equal. apply nth_error_split in E as (l1 & l2 & -> & E). replace (a + S s) with (S (a + s)) by lia. rewrite <- E.
    rewrite !skipn_app, skipn_all2 by lia. rewrite (skipn_all2 (n := length l1)) by lia.
    replace (length l1 - length l1) with 0 by lia. replace (S (length l1) - length l1) with 1 by lia. reflexivity. }
  intros a H. rewrite G by lia. rewrite Nat.add_0_r. reflexivity.
Qed.
Lemma omap_all {A B} (f : A -> option B) (g : A -> B) l : (forall a, In a l -> f a = Some (g a)) -> omap f l = Some (map g l).
Proof.
  induction l as [|a l IH]; intros H; cbn; [reflexivity|]. rewrite (H a) by (left; reflexivity). cbn [obind]. rewrite IH by (intros; apply H; right; assumption). reflexivity.
Qed.
Lemma dotp_app a x : forall b y, length a = length x -> dotp (a ++ b) (x ++ y) = (dotp a x + dotp b y)%Z.
Proof. revert x. induction a as [|v a IH]; intros [|w x] b y H; try discriminate; cbn; [lia|]. rewrite IH by (injection H; auto). lia. Qed.
Lemma dotp_nil a : dotp a [] = 0%Z.
Proof. destruct a; reflexivity. Qed.
Lemma dotp_zero n x : dotp (repeat 0%Z n) x = 0%Z.
Proof. revert x. induction n as [|n IH]; intros [|v x]; cbn; try reflexivity. rewrite IH. lia. Qed.

Lemma skipn_skipn' {A} a : forall b (l : list A), skipn a (skipn b l) = skipn (a + b) l.
Proof. induction b as [|b IH]; intros l; [rewrite Nat.add_0_r; reflexivity|]. destruct l; [rewrite !skipn_nil; reflexivity|]. replace (a + S b) with (S (a + b)) by lia. cbn [skipn]. apply IH. Qed.
(** the constraint read from a row of the right length *)
Lemma read_row sp row : length row = 2 + s_out sp + s_par sp ->
  exists flag vs ps k, row = flag :: vs ++ ps ++ [k] /\ length vs = s_out sp /\ length ps = s_par sp /\
  constraint_read_from_matrix sp row =
    Some {| k_eq := (flag =? 0)%Z; k_in := repeat 0%Z (s_in sp); k_out := vs; k_par := ps; k_const := k |}.
Proof.
  intros H. destruct row as [|flag r]; [discriminate|]. cbn [length] in H.
  exists flag, (firstn (s_out sp) r), (firstn (s_par sp) (skipn (s_out sp) r)), (nth (s_out sp + s_par sp) r 0%Z).
  assert (Ek : nth_error r (s_out sp + s_par sp) = Some (nth (s_out sp + s_par sp) r 0%Z)) by (apply nth_error_nth'; lia).
  split; [|split; [rewrite firstn_length; lia|split; [rewrite firstn_length, skipn_length; lia|]]].
  - f_equal. rewrite <- (firstn_skipn (s_out sp) r) at 1. f_equal.
    rewrite <- (firstn_skipn (s_par sp) (skipn (s_out sp) r)) at 1. f_equal.
    apply nth_error_split in Ek as (l1 & l2 & E & El). destruct l2; [|rewrite E, app_length in H; cbn in H; lia].
    rewrite skipn_skipn'. replace (s_par sp + s_out sp) with (length l1) by lia. rewrite E at 1.
    rewrite skipn_app, skipn_all, Nat.sub_diag. reflexivity.
  - unfold constraint_read_from_matrix. cbn [nth_error obind].
    rewrite (omap_nth (flag :: r) (s_out sp) 1) by (cbn; lia). cbn [obind skipn].
    rewrite (omap_nth (flag :: r) (s_par sp) (1 + s_out sp)) by (cbn; lia). cbn [obind].
    change (1 + s_out sp + s_par sp) with (S (s_out sp + s_par sp)). cbn [nth_error]. rewrite Ek. reflexivity.
Qed.

(** ** C53 *)
(** A domain made from a matrix has exactly the points that satisfy every row, the columns
    being the dimensions, then the parameters. *)
Theorem C53_domain_from_matrix :
  forall (m : matrix) (nb_par : nat), proper m -> 2 + nb_par <= NbColumns m ->
  exists d, domain_from_matrix m nb_par = Some d /\
    b_space d = {| s_par := nb_par; s_in := 0; s_out := NbColumns m - 2 - nb_par |} /\
    forall x p, length x = NbColumns m - 2 - nb_par -> length p = nb_par ->
      (contains d x p <-> matrix_holds m (x ++ p)).
Proof.
  intros m np [Hn Hr] Hc. set (sp := {| s_par := np; s_in := 0; s_out := NbColumns m - 2 - np |}).
  assert (G : forall rows, Forall (fun row => length row = NbColumns m) rows ->
     exists cs, omap (constraint_read_from_matrix sp) rows = Some cs /\ forall x p, length x = NbColumns m - 2 - np -> length p = np ->
       (Forall (fun c => constr_holds c [] x p) cs <-> Forall (fun row => row_holds row (x ++ p)) rows)).
  { induction rows as [|row rows IH]; intros HF; [exists []; split; [reflexivity|intros; split; constructor]|].
    inversion HF as [|? ? H1 H2]; subst. destruct (IH H2) as (cs & E & Hcs).
    destruct (read_row sp row) as (flag & vs & ps & k & -> & Lv & Lp & Er); [cbn; lia|].
    eexists. split; [cbn [omap]; rewrite Er; cbn [obind]; rewrite E; reflexivity|].
    intros x p Hx Hp. rewrite !Forall_cons_iff, (Hcs x p Hx Hp).
    assert (Ev : dotp (vs ++ ps ++ [k]) ((x ++ p) ++ [1%Z]) = (dotp [] [] + dotp vs x + dotp ps p + k)%Z).
    { rewrite <- app_assoc, !dotp_app by (cbn in *; lia). cbn. lia. }
    assert (Ec : row_holds (flag :: vs ++ ps ++ [k]) (x ++ p) <-> constr_holds {| k_eq := (flag =? 0)%Z; k_in := repeat 0%Z (s_in sp); k_out := vs; k_par := ps; k_const := k |} [] x p).
    { unfold row_holds. rewrite Ev. unfold constr_holds. cbn [k_eq k_in k_out k_par k_const sp s_in repeat]. destruct (flag =? 0)%Z; reflexivity. }
    rewrite Ec. reflexivity. }
  destruct (G _ Hr) as (cs & E & Hcs).
  assert (Eo : omap (fun i => obind (nth_error (mat_p m) i) (constraint_read_from_matrix sp)) (seq 0 (NbRows m)) = Some cs).
  { rewrite <- Hn, <- E. clear. assert (G : forall rows pre, omap (fun i => obind (nth_error (pre ++ rows) i) (constraint_read_from_matrix sp)) (seq (length pre) (length rows))
       = omap (constraint_read_from_matrix sp) rows).
    { induction rows as [|r rows IH]; intros pre; [reflexivity|]. cbn [length seq omap].
      rewrite nth_error_app2, Nat.sub_diag by lia. cbn [nth_error obind]. specialize (IH (pre ++ [r])). rewrite <- app_assoc, app_length in IH. cbn [length app] in IH.
      replace (length pre + 1) with (S (length pre)) in IH by lia. rewrite IH. reflexivity. }
    apply (G (mat_p m) []). }
  exists {| b_space := sp; b_constrs := cs |}. split; [|split; [reflexivity|intros x p Hx Hp; apply Hcs; assumption]].
  unfold domain_from_matrix, basic_set_read_from_matrix. destruct (Nat.ltb_spec (NbColumns m) (2 + np)); [lia|].
  unfold read_rows. fold sp. change (fun i => obind (nth_error (mat_p m) i) (fun row => constraint_read_from_matrix sp row)) with (fun i => obind (nth_error (mat_p m) i) (constraint_read_from_matrix sp)). rewrite Eo. reflexivity.
Qed.
Print Assumptions C53_domain_from_matrix.
(** i >= 0, -i + n - 1 >= 0, i = j with one parameter n *)
Definition mat53 : matrix := {| NbRows := 3; NbColumns := 5; mat_p := [[1; 1; 0; 0; 0]; [1; -1; 0; 1; -1]; [0; 1; -1; 0; 0]]%Z |}.
Example C53_domain_example : proper mat53 /\ 2 + 1 <= NbColumns mat53 /\
  matrix_holds mat53 ([3; 3] ++ [4])%Z /\ ~ matrix_holds mat53 ([4; 4] ++ [4])%Z /\ ~ matrix_holds mat53 ([2; 1] ++ [4])%Z.
Proof.
  split; [split; [reflexivity|repeat constructor]|]. split; [cbn; lia|].
  split; [repeat constructor; cbn; lia|]. split; intros H; unfold matrix_holds, mat53 in H; cbn [mat_p] in H; rewrite !Forall_cons_iff in H; destruct H as (K1 & K2 & K3 & _); cbn in K1, K2, K3; lia.
Qed.

(** Bounds. *)
Definition bound_rows (n : nat) (lower upper : list Z) (i : nat) : list constr :=
  [{| k_eq := false; k_in := []; k_out := unit_vec 1 i n; k_par := []; k_const := - nth i lower 0%Z |};
   {| k_eq := false; k_in := []; k_out := unit_vec (-1) i n; k_par := []; k_const := nth i upper 0%Z |}].
Lemma dot_unit k i : forall x, i < length x -> dotp (unit_vec k i (length x)) x = (k * nth i x 0)%Z.
Proof.
  assert (G : forall x s, s <= i -> i < s + length x -> dotp (map (fun j => if j =? i then k else 0%Z) (seq s (length x))) x = (k * nth (i - s) x 0)%Z).
  { induction x as [|v x IH]; intros s H1 H2; cbn [length] in H2; [lia|]. cbn [length seq map dotp].
    destruct (Nat.eqb_spec s i) as [->|E].
    - rewrite Nat.sub_diag. cbn [nth]. assert (Z : forall y t, i < t -> dotp (map (fun j => if j =? i then k else 0%Z) (seq t (length y))) y = 0%Z).
      { induction y as [|w y IHy]; intros t Ht; cbn [length seq map dotp]; [reflexivity|]. destruct (Nat.eqb_spec t i); [lia|]. rewrite IHy by lia. lia. }
      rewrite Z by lia. lia.
    - rewrite IH by lia. destruct (i - s) as [|q] eqn:Eq; [lia|]. cbn [nth]. replace (i - S s) with q by lia. lia. }
  intros x H. unfold unit_vec. rewrite G by lia. rewrite Nat.sub_0_r. reflexivity.
Qed.
Lemma bound_rows_ok n lower upper x p : length x = n -> forall is, (forall i, In i is -> i < n) ->
  (Forall (fun c => constr_holds c [] x p) (flat_map (bound_rows n lower upper) is) <->
   forall i, In i is -> (nth i lower 0 <= nth i x 0 <= nth i upper 0)%Z).
Proof.
  intros Hx. induction is as [|i is IH]; intros Hi; cbn [flat_map]; [split; [intros _ i []|constructor]|].
  rewrite Forall_app, IH by (intros; apply Hi; right; assumption). unfold bound_rows. rewrite !Forall_cons_iff.
  assert (E : forall k, dotp (unit_vec k i n) x = (k * nth i x 0)%Z) by (intros k; rewrite <- Hx; apply dot_unit; rewrite Hx; apply Hi; left; reflexivity).
  unfold constr_holds. cbn [k_eq k_in k_out k_par k_const dotp]. rewrite !E. split.
  - intros [(H1 & H2 & _) H3] j [<-|Hj]; [lia|apply H3; exact Hj].
  - intros H. split; [|intros j Hj; apply H; right; exact Hj]. specialize (H i (or_introl eq_refl)). split; [lia|]. split; [lia|constructor].
Qed.
Lemma bounds_fold n lower upper : forall is b, s_out (b_space b) = n -> s_par (b_space b) = 0 ->
  fold_left (fun d i => upper_bound_val (lower_bound_val d i (nth i lower 0%Z)) i (nth i upper 0%Z)) is b
  = {| b_space := b_space b; b_constrs := b_constrs b ++ flat_map (bound_rows n lower upper) is |}.
Proof.
  induction is as [|i is IH]; intros b H1 H2; cbn [fold_left flat_map]; [rewrite app_nil_r; destruct b; reflexivity|].
  rewrite IH by assumption. cbn [b_space b_constrs upper_bound_val lower_bound_val add_constr]. rewrite H1, H2. cbn [repeat].
  rewrite <- !app_assoc. reflexivity.
Qed.

(** cloog_domain_from_bounds: exactly the points between the bounds *)
Theorem C53_from_bounds :
  forall lower upper : list Z, length lower = length upper ->
  exists d, domain_from_bounds lower upper = Some d /\
    b_space d = {| s_par := 0; s_in := 0; s_out := length lower |} /\
    forall x, length x = length lower -> (contains d x [] <-> between lower upper x).
Proof.
  intros lower upper Hl. unfold domain_from_bounds. rewrite Hl, Nat.eqb_refl. cbn [negb].
  destruct (Nat.eqb_spec (length upper) 0) as [E|E].
  - exists (universe 0). split; [reflexivity|]. rewrite E. split; [reflexivity|]. intros x Hx. split; [|constructor].
    intros _. split; [congruence|intros i Hi; lia].
  - exists {| b_space := b_space (universe (length upper)); b_constrs := flat_map (bound_rows (length upper) lower upper) (seq 0 (length upper)) |}.
    split; [|split; [reflexivity|]].
    + rewrite <- (app_nil_l (flat_map _ _)).
      change (@nil constr) with (b_constrs (universe (length upper))).
      rewrite <- (bounds_fold (length upper) lower upper (seq 0 (length upper)) (universe (length upper)) eq_refl eq_refl).
      generalize (universe (length upper)). assert (H : forall i, In i (seq 0 (length upper)) -> i < length upper) by (intros i Hi; apply in_seq in Hi; lia).
      revert H. generalize (seq 0 (length upper)). induction l as [|i l IH]; intros H b; [reflexivity|]. cbn [fold_left].
      pose proof (H i (or_introl eq_refl)) as Hi. cbn [obind]. rewrite (nth_error_nth' lower 0%Z) by lia. cbn [obind]. rewrite (nth_error_nth' upper 0%Z) by lia. cbn [obind].
      apply IH. intros j Hj. apply H. right. exact Hj.
    + intros x Hx. unfold contains, related. cbn [b_constrs]. rewrite bound_rows_ok by (try exact Hx; intros i Hi; apply in_seq in Hi; lia).
      unfold between. split.
      * intros H. split; [congruence|]. intros i Hi. apply H. apply in_seq. lia.
      * intros [_ H] i Hi. apply in_seq in Hi. apply H. lia.
Qed.
Print Assumptions C53_from_bounds.
Example C53_bounds_example : between [0; -1]%Z [5; 2]%Z [5; -1]%Z /\ ~ between [0; -1]%Z [5; 2]%Z [6; 0]%Z.
Proof.
  split; [split; [reflexivity|intros [|[|i]] Hi; cbn in *; lia]|]. intros [_ H]. specialize (H 0 ltac:(cbn; lia)). cbn in H. lia.
Qed.

(** cloog_domain_cube: exactly the points with every coordinate between the two values *)
Theorem C53_cube :
  forall (dim : nat) (min max : Z),
  b_space (domain_cube dim min max) = {| s_par := 0; s_in := 0; s_out := dim |} /\
  forall x, length x = dim -> (contains (domain_cube dim min max) x [] <-> Forall (fun v => (min <= v <= max)%Z) x).
Proof.
  intros dim min max. unfold domain_cube. destruct (Nat.eqb_spec dim 0) as [->|E].
  - split; [reflexivity|]. intros [|v x] Hx; [|discriminate]. split; constructor.
  - set (lo := repeat min dim). set (up := repeat max dim).
    assert (N : forall v i, i < dim -> nth i (repeat v dim) 0%Z = v).
    { intros v i Hi. assert (Hi' : i < length (repeat v dim)) by (rewrite repeat_length; exact Hi). pose proof (nth_In (repeat v dim) 0%Z Hi') as H. apply repeat_spec in H. exact H. }
    assert (G : fold_left (fun cube i => upper_bound_val (lower_bound_val cube i min) i max) (seq 0 dim) (universe dim)
      = {| b_space := b_space (universe dim); b_constrs := b_constrs (universe dim) ++ flat_map (bound_rows dim lo up) (seq 0 dim) |}).
    { rewrite <- (bounds_fold dim lo up (seq 0 dim) (universe dim) eq_refl eq_refl). generalize (universe dim).
      assert (H : forall i, In i (seq 0 dim) -> i < dim) by (intros i Hi; apply in_seq in Hi; lia). revert H. generalize (seq 0 dim).
      induction l as [|i l IH]; intros H b; [reflexivity|]. cbn [fold_left]. unfold lo, up. rewrite !N by (apply H; left; reflexivity).
      apply IH. intros j Hj. apply H. right. exact Hj. }
    rewrite G. split; [reflexivity|]. intros x Hx. unfold contains, related. cbn [b_constrs app universe].
    rewrite bound_rows_ok by (try exact Hx; intros i Hi; apply in_seq in Hi; lia). split.
    + intros H. apply Forall_nth. intros i d Hi. rewrite (nth_indep x d 0%Z) by exact Hi.
      specialize (H i ltac:(apply in_seq; lia)). unfold lo, up in H. rewrite !N in H by lia. exact H.
    + intros H i Hi. apply in_seq in Hi. unfold lo, up. rewrite !N by lia. rewrite Forall_nth in H. apply H. lia.
Qed.
Print Assumptions C53_cube.
Example C53_cube_example : contains (domain_cube 2 (-1) 3) [3; -1]%Z [] /\ ~ contains (domain_cube 2 (-1) 3) [3; 4]%Z [].
Proof.
  destruct (C53_cube 2 (-1) 3) as [_ H]. split; rewrite H by reflexivity; [repeat constructor; lia|].
  intros HF. inversion HF as [|? ? _ H2]. inversion H2 as [|? ? H3 _]. lia.
Qed.

(** A scattering made from a matrix should relate a point of the domain with the dates that satisfy
    the rows: columns are the scattering dimensions, the dimensions, the parameters. *)
Definition scattering_right (m : matrix) (nb_scat nb_par : nat) (s : basic) : Prop :=
  forall x t p, length t = nb_scat -> length p = nb_par -> length x + nb_scat + nb_par + 2 = NbColumns m ->
    (related s x t p <-> matrix_holds m (t ++ x ++ p)).

(** Without scattering dimensions it does. *)
Theorem C53_scattering_partial :
  forall (m : matrix) (nb_par : nat), proper m -> 2 + nb_par <= NbColumns m ->
  exists s, scattering_from_matrix m 0 nb_par = Some s /\ scattering_right m 0 nb_par s.
Proof.
  intros m np Hm Hc. destruct (C53_domain_from_matrix m np Hm Hc) as (d & E & Hs & Hd).
  exists (reverse d). split.
  - unfold scattering_from_matrix, basic_map_read_from_matrix. unfold domain_from_matrix, basic_set_read_from_matrix in E.
    rewrite !Nat.add_0_r. change (1 + 1 + np) with (2 + np). destruct (NbColumns m <? 2 + np); [discriminate|]. rewrite Nat.sub_0_r, E. reflexivity.
  - intros x [|t ts] p Ht Hp Hx; [|discriminate]. cbn [app]. rewrite <- (Hd x p) by lia.
    unfold contains, related, reverse. cbn [b_constrs]. rewrite Forall_map.
    assert (K : Forall (fun c => k_in c = []) (b_constrs d)).
    { clear - E. unfold domain_from_matrix, basic_set_read_from_matrix in E. destruct (NbColumns m <? 2 + np); [discriminate|]. unfold read_rows in E.
      destruct (omap _ _) as [cs|] eqn:Eo; [|discriminate]. cbn [obind] in E. injection E as <-. cbn [b_constrs].
      revert cs Eo. generalize (seq 0 (NbRows m)). induction l as [|i l IH]; intros cs Eo; cbn [omap] in Eo; [injection Eo as <-; constructor|].
      destruct (obind (nth_error (mat_p m) i) _) as [c|] eqn:Ec; [|discriminate]. cbn [obind] in Eo. destruct (omap _ l) as [r|]; [|discriminate].
      cbn [obind] in Eo. injection Eo as <-. constructor; [|apply IH; reflexivity].
      destruct (nth_error (mat_p m) i) as [row|]; [|discriminate]. cbn [obind] in Ec. unfold constraint_read_from_matrix in Ec.
      destruct (nth_error row 0); [|discriminate]. cbn [obind s_out s_par] in Ec. destruct (omap _ _); [|discriminate]. cbn [obind] in Ec.
      destruct (omap _ _); [|discriminate]. cbn [obind] in Ec. destruct (nth_error row _); [|discriminate]. injection Ec as <-. reflexivity. }
    split; intros H; (eapply Forall_impl; [|apply Forall_and; [exact H|exact K]]); intros c [H1 H2]; unfold constr_holds in *; cbn [k_eq k_in k_out k_par k_const] in *;
      rewrite H2 in *; cbn [dotp] in *; replace (dotp (k_out c) x + 0 + dotp (k_par c) p + k_const c)%Z with (0 + dotp (k_out c) x + dotp (k_par c) p + k_const c)%Z in * by lia; exact H1.
Qed.
Print Assumptions C53_scattering_partial.

(** With scattering dimensions it never does anything with them: whatever the matrix, a point that is
    related to one date is related to every date. *)
Theorem C53_scattering_unconstrained :
  forall (m : matrix) (nb_scat nb_par : nat) (s : basic), scattering_from_matrix m nb_scat nb_par = Some s ->
  forall x t t' p, related s x t p -> related s x t' p.
Proof.
  intros m ns np s E x t t' p H. unfold scattering_from_matrix, basic_map_read_from_matrix in E. destruct (NbColumns m <? 2 + np + ns); [discriminate|].
  unfold read_rows in E. destruct (omap _ _) as [cs|] eqn:Eo; [|discriminate]. cbn [obind] in E. injection E as <-.
  unfold related, reverse in *. cbn [b_constrs] in *. rewrite Forall_map in *.
  assert (K : Forall (fun c => k_in c = repeat 0%Z ns) cs).
  { clear - Eo. revert cs Eo. generalize (seq 0 (NbRows m)). induction l as [|i l IH]; intros cs Eo; cbn [omap] in Eo; [injection Eo as <-; constructor|].
    destruct (obind (nth_error (mat_p m) i) _) as [c|] eqn:Ec; [|discriminate]. cbn [obind] in Eo. destruct (omap _ l) as [r|]; [|discriminate].
    cbn [obind] in Eo. injection Eo as <-. constructor; [|apply IH; reflexivity].
    destruct (nth_error (mat_p m) i) as [row|]; [|discriminate]. cbn [obind] in Ec. unfold constraint_read_from_matrix in Ec.
    destruct (nth_error row 0); [|discriminate]. cbn [obind s_out s_par] in Ec. destruct (omap _ _); [|discriminate]. cbn [obind] in Ec.
    destruct (omap _ _); [|discriminate]. cbn [obind] in Ec. destruct (nth_error row _); [|discriminate]. injection Ec as <-. reflexivity. }
  eapply Forall_impl; [|apply Forall_and; [exact H|exact K]]. intros c [H1 H2]. unfold constr_holds in *. cbn [k_eq k_in k_out k_par k_const] in *.
  rewrite H2, dotp_zero in *. exact H1.
Qed.
Print Assumptions C53_scattering_unconstrained.

(** So the scattering c1 = i, the matrix row (0, 1, -1, 0), does not come out right: point 1 is related
    to every date and no other point to any. *)
Theorem C53_scattering_refuted :
  exists (m : matrix) (nb_scat nb_par : nat) (s : basic), proper m /\ 2 + nb_scat + nb_par <= NbColumns m /\
    scattering_from_matrix m nb_scat nb_par = Some s /\ ~ scattering_right m nb_scat nb_par s /\
    (forall t, related s [1%Z] [t] []) /\ (forall i t, i <> 1%Z -> ~ related s [i] [t] []).
Proof.
  set (m := {| NbRows := 1; NbColumns := 4; mat_p := [[0; 1; -1; 0]]%Z |}).
  exists m, 1, 0. eexists. split; [split; [reflexivity|repeat constructor]|]. split; [cbn; lia|]. split; [reflexivity|].
  split; [|split].
  - intros H. specialize (H [2%Z] [2%Z] [] eq_refl eq_refl eq_refl). destruct H as [_ H].
    assert (R : matrix_holds m ([2%Z] ++ [2%Z] ++ [])) by (repeat constructor). apply H in R. inversion R as [|? ? R1 _]. cbn in R1. discriminate.
  - intros t. constructor; [|constructor]. cbn. reflexivity.
  - intros i t Hi R. inversion R as [|? ? R1 _]. assert (R2 : (1 * i + 0 + (0 * t + 0) + 0 + -1 = 0)%Z) by exact R1. lia.
Qed.
Print Assumptions C53_scattering_refuted.
