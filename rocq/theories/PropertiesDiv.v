(** Properties of the expressions for existentially quantified dimensions (C40). *)
From Coq Require Import ZArith List Bool Arith String Lia.
From Verif Require Import ClastModel ClastSpec PprintModel CReader PprintSpec PprintExpr PprintStmt PprintEnd PropertiesPprint ClastExamples DivModel DivSpec DivProofs.
Import ListNotations.
Local Open Scope string_scope.
Local Open Scope Z_scope.

(** The expression made for a dimension that stands for floor(e/d), nested ones included, evaluates to the value
    of that dimension, and so does the text printed for it, read as C.  Missing from the full statement: it is
    asked that no coefficient has a factor in common with its denominator. *)
Theorem C40_value_partial :
  forall (iter_name par_name : nat -> string) (divs : list div) (x p q : list Z) (rho : env) (k : nat),
  (forall i, ident (iter_name (S i)) = true) -> (forall i, ident (par_name i) = true) ->
  divs_ok (List.length x) (List.length p) divs -> Forall lowest divs -> div_values divs x p q ->
  holds_values iter_name par_name rho x p -> (k < List.length divs)%nat ->
  exists e text c, constraint_variable_expr iter_name par_name (List.length x) divs (List.length x + k + 1) = Some e /\
    eval rho e = Some (nth k q 0) /\
    pprint_expr LangC e = Some text /\ (forall c', reads_expr text c' <-> c' = c) /\ value program_macros rho c = Some (nth k q 0).
Proof.
  intros iter_name par_name divs x p q rho k I1 I2 OK LO Q R K. unfold constraint_variable_expr.
  replace (List.length x + k + 1 - 1)%nat with (List.length x + k)%nat by lia.
  destruct (Nat.ltb_spec (List.length x + k) (List.length x)); [lia|]. destruct (Nat.ltb_spec (List.length x + k) (List.length x + List.length divs)); [|lia].
  replace (List.length x + k - List.length x)%nat with k by lia.
  assert (Q' : div_values (map red_div divs) x p q) by (rewrite reds_lowest; assumption).
  destruct (div_expr_right iter_name par_name divs rho x p q I1 I2 OK R Q' (List.length divs) k K K) as (e & E1 & E2 & _ & E4).
  destruct (expr_text e (E4 LvAdd)) as (text & c & T1 & T2 & T3). exists e, text, c. split; [exact E1|]. split; [exact E2|]. split; [exact T1|]. split; [exact T2|]. exact (T3 rho _ E2).
Qed.
Print Assumptions C40_value_partial.
(** floor((i + N)/2), and floor((3 i - 2 e + 1)/5) with e the first of them, at i = 4, N = 3: 3 and 1 *)
Definition d40 : list div :=
  [{| dv_den := 2; dv_iter := [1]; dv_div := [0; 0]; dv_par := [1]; dv_const := 0 |};
   {| dv_den := 5; dv_iter := [3]; dv_div := [-2; 0]; dv_par := [0]; dv_const := 1 |}].
Example C40_example :
  divs_ok 1 1 d40 /\ Forall lowest d40 /\ div_values d40 [4] [3] [3; 1] /\
  exists e, constraint_variable_expr iname pname 1 d40 3 = Some e /\ pprint_expr LangC e = Some "floord(3*i_-2*floord(i_+p,2)+1,5)".
Proof.
  split.
  { intros [|[|k]] d H; cbn in H; [| |destruct k; discriminate]; injection H as <-; repeat split; try (cbn; lia).
    - intros [|[|j]] J; try reflexivity; destruct j; reflexivity.
    - constructor. cbn. lia.
    - repeat constructor; cbn; lia.
    - intros [|[|j]] J; try reflexivity; [lia|destruct j; reflexivity].
    - constructor. cbn. lia.
    - repeat constructor; cbn; lia. }
  split. { repeat constructor; intro; try reflexivity; try lia; exfalso; apply H; reflexivity. }
  split. { split; [reflexivity|]. intros [|[|k]] d H; cbn in H; [| |destruct k; discriminate]; injection H as <-; vm_compute; split; (discriminate || reflexivity). }
  eexists. split; reflexivity.
Qed.

(** The condition cannot be left out: whenever an iterator's coefficient has a factor in common with the
    denominator, the expression is wrong for some values of the variables, whatever the rest of it. *)
Theorem C40_common_factor_refuted :
  forall (iter_name par_name : nat -> string) (d : div) (n np i : nat),
  (forall i, ident (iter_name (S i)) = true) -> (forall i, ident (par_name i) = true) ->
  div_ok n 1 np 0 d -> (i < n)%nat -> nth i (dv_iter d) 0 <> 0 -> 1 < Z.gcd (nth i (dv_iter d) 0) (dv_den d) ->
  exists x p v, List.length x = n /\ List.length p = np /\ div_values [d] x p [v] /\
  forall rho, holds_values iter_name par_name rho x p ->
  exists e z, constraint_variable_expr iter_name par_name n [d] (n + 1) = Some e /\ eval rho e = Some z /\ z <> v.
Proof.
  intros iter_name par_name d n np i I1 I2 OK I C G. pose proof OK as (D0 & L1 & L2 & L3 & Z0 & EX & RG).
  set (c := nth i (dv_iter d) 0) in *. set (M := dv_den d + Z.abs (dv_const d - red (dv_den d) (dv_const d))).
  exists (unit_at n i M), (repeat 0 np), ((c * M + dv_const d) / dv_den d).
  assert (LX : List.length (unit_at n i M) = n) by (unfold unit_at; rewrite map_length, seq_length; reflexivity).
  assert (DV : dv_div d = [0]). { destruct (dv_div d) as [|z [|]] eqn:E; try discriminate L2. pose proof (Z0 0%nat (le_n _)) as Z1. cbn in Z1. congruence. }
  assert (PZ : forall cs, lin cs (repeat 0 np) = 0). { intro cs. apply lin_zero. apply Forall_forall. intros z Z. apply repeat_spec in Z. exact Z. }
  assert (V1 : forall v, numer d (unit_at n i M) [v] (repeat 0 np) = c * M + dv_const d).
  { intro v. unfold numer. rewrite DV, PZ. rewrite <- L1. rewrite lin_unit. fold c. cbn [lin]. lia. }
  assert (V2 : forall v, numer (red_div d) (unit_at n i M) [v] (repeat 0 np) = red (dv_den d) c * M + red (dv_den d) (dv_const d)).
  { intro v. unfold numer. cbn [red_div dv_iter dv_div dv_par dv_const]. rewrite DV, PZ. replace n with (List.length (map (red (dv_den d)) (dv_iter d))) by (rewrite map_length; exact L1).
    rewrite lin_unit. rewrite (nth_indep _ 0 (red (dv_den d) 0)) by (rewrite map_length, L1; exact I). rewrite map_nth. fold c. cbn [map lin]. change (red (dv_den d) 0) with 0. lia. }
  assert (FL : forall a, a / dv_den d * dv_den d <= a < (a / dv_den d + 1) * dv_den d).
  { intro a. pose proof (Z.div_mod a (dv_den d) ltac:(lia)). pose proof (Z.mod_pos_bound a (dv_den d) D0). lia. }
  split; [exact LX|]. split; [apply repeat_length|]. split.
  { split; [reflexivity|]. intros [|k] d' E; [|destruct k; discriminate]. injection E as <-. rewrite V1. apply FL. }
  intros rho R. unfold constraint_variable_expr. destruct (Nat.ltb_spec (n + 1 - 1) n); [lia|]. cbn [List.length]. destruct (Nat.ltb_spec (n + 1 - 1) (n + 1)); [|lia].
  replace (n + 1 - 1 - n)%nat with 0%nat by lia. set (z := (red (dv_den d) c * M + red (dv_den d) (dv_const d)) / dv_den d).
  destruct (div_expr_right iter_name par_name [d] rho (unit_at n i M) (repeat 0 np) [z] I1 I2) with (fuel := 1%nat) (k := 0%nat) as (e & E1 & E2 & _); try (cbn; lia).
  - intros [|k] d' E; [|destruct k; discriminate]. injection E as <-. rewrite LX, repeat_length. exact OK.
  - exact R.
  - split; [reflexivity|]. intros [|k] d' E; [|destruct k; discriminate]. injection E as <-. rewrite V2. apply FL.
  - exists e, z. split; [exact E1|]. split; [exact E2|]. unfold z. apply far_floors; [exact D0|].
    assert (RC : red (dv_den d) c * Z.gcd c (dv_den d) = c). { unfold red. destruct (Z.eqb_spec c 0); [contradiction|]. rewrite Z.mul_comm. apply reduced_eq. }
    assert (N1 : red (dv_den d) c - c <> 0) by nia. assert (B : M <= Z.abs ((red (dv_den d) c - c) * M)) by (rewrite Z.abs_mul; nia).
    replace (red (dv_den d) c * M + red (dv_den d) (dv_const d) - (c * M + dv_const d)) with ((red (dv_den d) c - c) * M + (red (dv_den d) (dv_const d) - dv_const d)) by ring.
    unfold M in *. lia.
Qed.
Print Assumptions C40_common_factor_refuted.
(** floor((2 i + 1)/4) is printed as floord(i+1,4) *)
Definition d40' : div := {| dv_den := 4; dv_iter := [2]; dv_div := [0]; dv_par := []; dv_const := 1 |}.
Example C40_common_factor_example :
  div_ok 1 1 0 0 d40' /\ 1 < Z.gcd (nth 0 (dv_iter d40') 0) (dv_den d40') /\
  exists e, constraint_variable_expr iname pname 1 [d40'] 2 = Some e /\ pprint_expr LangC e = Some "floord(i_+1,4)".
Proof.
  split. { repeat split; try (cbn; lia). - intros [|[|j]] _; reflexivity. - constructor. cbn. lia. - repeat constructor; cbn; lia. }
  split; [reflexivity|]. eexists. split; reflexivity.
Qed.
