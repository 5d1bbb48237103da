(** clast.c as a whole: the statements run the calls the loop structure asks for, in its order. *)
From Coq Require Import ZArith List Bool Arith String Sorted Permutation Lia.
From Verif Require Import LoopModel LoopSpec LoopCount ClastModel ClastSpec ClastBounds ClastGuards ClastModulo ClastHeader ClastDivs.
Import ListNotations.
Local Open Scope Z_scope.
Local Arguments Nat.ltb : simpl never. Local Arguments Nat.leb : simpl never. Local Arguments Nat.eqb : simpl never. Local Arguments Nat.sub : simpl never.
Local Arguments Z.mul : simpl never. Local Arguments Z.add : simpl never. Local Arguments Z.modulo : simpl never.

Section Main.
Variable iter_name : nat -> string.
Variable par_name : nat -> string.
Variable sort_exprs : list expr -> list expr.
Variable sort_eqns : list eqn -> list eqn.
Variable reduce : list (option (eqtype * row)) -> list row -> nat -> list row.
Variable P : Poly.
Variable Se : Sem P.
Variable rows_of : dom P -> list row.
Variable pv : list Z.
Variable o : copts.
Variable ns : nat.
Hypothesis sort_exprs_perm : forall l, Permutation l (sort_exprs l).
Hypothesis sort_eqns_perm : forall l, Permutation l (sort_eqns l).
Hypothesis iter_inj : forall i j, iter_name (S i) = iter_name (S j) -> i = j.
Hypothesis iter_par : forall i j, (j < List.length pv)%nat -> iter_name (S i) <> par_name j.
Hypothesis reduce_ok : reduce_right pv reduce.
Notation np := (List.length pv).
Notation env_ok := (env_ok iter_name par_name pv).
Notation keeps := (keeps iter_name par_name pv).
Notation info_ok := (info_ok pv).
Notation insert_loop := (insert_loop iter_name par_name sort_exprs sort_eqns reduce P rows_of).
Notation insert_loops := (insert_loops iter_name par_name sort_exprs sort_eqns reduce P rows_of).
Notation clast_equal := (clast_equal iter_name par_name).
Notation insert_guards := (insert_guards iter_name par_name sort_exprs sort_eqns).
Notation flat := (flat_rows P rows_of np).
Notation flat_sem := (flat_sem P Se rows_of pv).
Notation divs_of d := (n_divs (dim P d) np (rows_of d)).

(** *** arguments of a call *)
Lemma args_ok rho x spread nfo rest_eqs : env_ok rho x spread -> info_ok nfo x spread ->
  forall k s, (s + k <= List.length x)%nat ->
  eval_all rho (map (fun i => match nth i (i_eqs nfo ++ rest_eqs) None with
                | Some (_, r) => bound_from_constraint iter_name par_name (i + 1) r (i + 1)
                | None => Some (ETerm 1 (Some (EName (iter_name (i + 1)))))
                end) (seq s k)) = Some (map (fun i => nth i x 0) (seq s k)).
Proof.
  intros He (I1 & I2 & I3 & I4 & I5 & I6). induction k as [|k IH]; intros s Hs; [reflexivity|]. cbn [seq map eval_all]. rewrite IH by lia.
  rewrite app_nth1 by lia. replace (s + 1)%nat with (S s) by lia. destruct (nth s (i_eqs nfo) None) as [[t r]|] eqn:En.
  - assert (Hn : nth_error (i_eqs nfo) s = Some (Some (t, r))). { rewrite (nth_error_nth' _ None) by lia. rewrite En. reflexivity. }
    destruct (I4 s t r Hn) as (A & B & C & D & E). set (x' := firstn s x). assert (Hl : List.length x' = s) by (apply firstn_length_le; lia).
    assert (Hx : firstn (S s) x = x' ++ [nth s x 0]).
    { unfold x'. revert Hs. clear. revert s. induction x as [|z x IH]; intros s Hs; [cbn in Hs; lia|]. destruct s as [|s]; [reflexivity|]. cbn [firstn nth app]. f_equal. apply IH. cbn in Hs. lia. }
    rewrite Hx, <- app_assoc in D. cbn [app] in D.
    assert (He' : env_ok rho x' (firstn s spread)).
    { destruct He as (H1 & H2). split; [exact H1|]. intros i Hi Hsp. rewrite Hl in Hi.
      assert (Fn : forall (A : Type) (l : list A) d, nth i (firstn s l) d = nth i l d). { clear - Hi. intros A l d. revert i s Hi. induction l as [|a l IH]; intros [|i] [|s] Hi; cbn; try reflexivity; try lia. apply IH. lia. }
      unfold x'. rewrite Fn in *. apply H2; [lia|exact Hsp]. }
    assert (Kn := loop_known iter_name par_name pv rho x' (firstn s spread) r (nth s x 0) He'). rewrite Hl in Kn. specialize (Kn B E).
    destruct (bound_eval iter_name par_name rho (S s) r s (x' ++ nth s x 0 :: pv) C Kn) as (e & Be & Bv). rewrite Be. cbn [eval_opt]. rewrite Bv.
    rewrite (bound_equal r s _ A C D). rewrite <- Hl at 1. rewrite nth_mid. reflexivity.
  - cbn [eval_opt eval]. destruct He as (H1 & H2). rewrite (H2 s); [|lia|].
    + replace (1 * nth s x 0) with (nth s x 0) by lia. reflexivity.
    + destruct (nth s spread false) eqn:Es; [|reflexivity]. destruct (I5 s Es) as (t & r & Hn). rewrite (nth_error_nth _ _ None Hn) in En. discriminate.
Qed.
Lemma skipn_nth (x : list Z) : forall s, map (fun i => nth i x 0) (seq s (List.length x - s)) = skipn s x.
Proof.
  induction x as [|z x IH]; intros s; [destruct s; reflexivity|]. destruct s as [|s].
  - cbn [List.length skipn]. rewrite Nat.sub_0_r. cbn [seq map]. rewrite <- seq_shift, map_map. cbn [nth]. f_equal. specialize (IH 0%nat). rewrite Nat.sub_0_r in IH. exact IH.
  - cbn [List.length skipn]. rewrite Nat.sub_succ, <- seq_shift, map_map. apply IH.
Qed.
Lemma block_ok rho x spread nfo e sts b : env_ok rho x spread -> info_ok nfo x spread ->
  exec (insert_block iter_name par_name ns {| i_eqs := i_eqs nfo ++ e; i_strides := sts |} (Some b) (S (List.length x))) rho
  = Some (rho, map (fun num => (num, skipn ns x)) (b_stmts b)).
Proof.
  intros He Hi. unfold insert_block. cbn [i_eqs]. assert (E : eval_all rho (clast_equal ns (i_eqs nfo ++ e) (S (List.length x))) = Some (skipn ns x)).
  { unfold ClastModel.clast_equal. rewrite Nat.sub_succ, Nat.sub_0_r. destruct (Nat.le_gt_cases ns (List.length x)) as [G|G].
    - rewrite (args_ok rho x spread nfo e He Hi) by lia. f_equal. apply skipn_nth.
    - replace (List.length x - ns)%nat with 0%nat by lia. cbn. f_equal. symmetry. apply skipn_all2. lia. }
  induction (b_stmts b) as [|num l IH]; [reflexivity|]. cbn [map exec]. rewrite exec1_list, E, IH. reflexivity.
Qed.

(** *** lists of executions *)
Definition runs1 (l : loop P) (x : list Z) (L : list (list Z * block * list Z)) : Prop :=
  StronglySorted lex_lt (map (fun e => fst (fst e)) L) /\ forall p b y, In (p, b, y) L <-> Exec1 P Se l x p b y.
Definition prefix (z : Z) (e : list Z * block * list Z) : list Z * block * list Z := (z :: fst (fst e), snd (fst e), snd e).
Lemma sorted_app {A} (R : A -> A -> Prop) a b : StronglySorted R a -> StronglySorted R b -> (forall u v, In u a -> In v b -> R u v) -> StronglySorted R (a ++ b).
Proof.
  intros Ha Hb H. induction a as [|u a IH]; [exact Hb|]. inversion Ha as [|? ? H1 H2]; subst. cbn. constructor.
  - apply IH; [exact H1|]. intros v w Hv Hw. apply H; [right; exact Hv|exact Hw].
  - apply Forall_app. split; [exact H2|]. apply Forall_forall. intros v Hv. apply H; [left; reflexivity|exact Hv].
Qed.
Lemma prefix_sorted z L : StronglySorted lex_lt (map (fun e => fst (fst e)) L) -> StronglySorted lex_lt (map (fun e => fst (fst e)) (map (prefix z) L)).
Proof.
  intros H. rewrite map_map. induction L as [|e L IH]; [constructor|]. cbn [map] in *. inversion H as [|? ? H1 H2]; subst. constructor; [apply IH; exact H1|].
  rewrite Forall_map in *. rewrite Forall_forall in *. intros e' He'. cbn. apply lex_next. apply H2. exact He'.
Qed.
Lemma flat_prefix_sorted (Lf : Z -> list (list Z * block * list Z)) vs : StronglySorted Z.lt vs ->
  (forall v, In v vs -> StronglySorted lex_lt (map (fun e => fst (fst e)) (Lf v))) ->
  StronglySorted lex_lt (map (fun e => fst (fst e)) (flat_map (fun v => map (prefix v) (Lf v)) vs)).
Proof.
  intros Hs H. induction vs as [|v vs IH]; [constructor|]. inversion Hs as [|? ? H1 H2]; subst. cbn [flat_map]. rewrite map_app. apply sorted_app.
  - apply prefix_sorted. apply H. left. reflexivity.
  - apply IH; [exact H1|]. intros u Hu. apply H. right. exact Hu.
  - intros p q Hp Hq. apply in_map_iff in Hp. destruct Hp as (e & <- & He). apply in_map_iff in He. destruct He as (e0 & <- & _).
    apply in_map_iff in Hq. destruct Hq as (e' & <- & He'). apply in_flat_map in He'. destruct He' as (u & Hu & He'). apply in_map_iff in He'. destruct He' as (e1 & <- & _).
    cbn. apply lex_here. rewrite Forall_forall in H2. apply H2. exact Hu.
Qed.
Lemma in_prefix z p b y L : In (p, b, y) (map (prefix z) L) <-> exists q, p = z :: q /\ In (q, b, y) L.
Proof.
  rewrite in_map_iff. split.
  - intros ([[q b'] y'] & E & H). unfold prefix in E. cbn in E. injection E as <- <- <-. exists q. auto.
  - intros (q & -> & H). exists (q, b, y). auto.
Qed.
Lemma calls_app a b : calls ns (a ++ b) = calls ns a ++ calls ns b.
Proof. unfold calls. apply flat_map_app. Qed.
Lemma calls_prefix z L : calls ns (map (prefix z) L) = calls ns L.
Proof. unfold calls. rewrite flat_map_concat_map, flat_map_concat_map, map_map. reflexivity. Qed.
Lemma choose (Q : Z -> list (list Z * block * list Z) -> Prop) vs : (forall v, In v vs -> exists L, Q v L) -> exists f, forall v, In v vs -> Q v (f v).
Proof.
  induction vs as [|v vs IH]; intros H; [exists (fun _ => []); intros ? []|]. destruct IH as (f & Hf); [intros u Hu; apply H; right; exact Hu|].
  destruct (H v (or_introl eq_refl)) as (L & HL). exists (fun u => if Z.eqb u v then L else f u). intros u [<-|Hu]; [rewrite Z.eqb_refl; exact HL|].
  destruct (Z.eqb_spec u v) as [->|]; [exact HL|apply Hf; exact Hu].
Qed.

(** a list of loops, given each of them *)
Definition good (x : list Z) (spread : list bool) (l : loop P) (ss : list stmt) : Prop :=
  exists L, runs1 l x L /\ forall rho, env_ok rho x spread -> exists rho', exec ss rho = Some (rho', calls ns L) /\ keeps (List.length x) rho rho'.
Lemma list_good x spread nfo level : forall ls ss, insert_loops o ns np nfo level ls = Some ss ->
  (forall l ss', In l ls -> insert_loop o ns np nfo level l = Some ss' -> good x spread l ss') ->
  forall k, exists L, StronglySorted lex_lt (map (fun e => fst (fst e)) L) /\
    (forall p b y, In (p, b, y) L <-> exists i l q, nth_error ls i = Some l /\ p = Z.of_nat (k + i) :: q /\ Exec1 P Se l x q b y) /\
    forall rho, env_ok rho x spread -> exists rho', exec ss rho = Some (rho', calls ns L) /\ keeps (List.length x) rho rho'.
Proof.
  induction ls as [|l ls IH]; intros ss Hins HG k.
  - cbn in Hins. injection Hins as <-. exists []. split; [constructor|]. split.
    + intros p b y. split; [intros []|]. intros (i & l & q & H & _). destruct i; discriminate.
    + intros rho Hr. exists rho. split; [reflexivity|apply keeps_refl].
  - cbn [ClastModel.insert_loops] in Hins. destruct (insert_loop o ns np nfo level l) as [s1|] eqn:E1; [|discriminate]. destruct (insert_loops o ns np nfo level ls) as [s2|] eqn:E2; [|discriminate]. injection Hins as <-.
    destruct (HG l s1 (or_introl eq_refl) E1) as (L1 & (S1 & R1) & X1). destruct (IH s2 eq_refl (fun l0 s0 H => HG l0 s0 (or_intror H)) (S k)) as (L2 & S2 & R2 & X2).
    exists (map (prefix (Z.of_nat k)) L1 ++ L2). split; [|split].
    + rewrite map_app. apply sorted_app; [apply prefix_sorted; exact S1|exact S2|]. intros p q Hp Hq. apply in_map_iff in Hp. destruct Hp as (e & <- & He). apply in_map_iff in He. destruct He as (e0 & <- & _).
      apply in_map_iff in Hq. destruct Hq as ([[q' b'] y'] & <- & He'). apply R2 in He'. destruct He' as (i & l' & q0 & _ & -> & _). cbn. apply lex_here. lia.
    + intros p b y. rewrite in_app_iff, in_prefix, R2. split.
      * intros [(q & -> & H)|(i & l' & q & H1 & -> & H2)]; [exists 0%nat, l, q|exists (S i), l', q]; cbn [nth_error].
        -- rewrite Nat.add_0_r. apply R1 in H. auto.
        -- replace (k + S i)%nat with (S k + i)%nat by lia. auto.
      * intros ([|i] & l' & q & H1 & -> & H2); cbn [nth_error] in H1.
        -- injection H1 as <-. left. exists q. rewrite Nat.add_0_r. split; [reflexivity|]. apply R1. exact H2.
        -- right. exists i, l', q. replace (S k + i)%nat with (k + S i)%nat by lia. auto.
    + intros rho Hr. destruct (X1 rho Hr) as (rho1 & Y1 & K1). destruct (X2 rho1) as (rho2 & Y2 & K2); [eapply env_keeps; [exact Hr|exact K1]|].
      exists rho2. rewrite exec_app, Y1, Y2, calls_app, calls_prefix. split; [reflexivity|]. eapply keeps_trans; eassumption.
Qed.
Lemma list_runs x ls L : (forall p b y, In (p, b, y) L <-> exists i l q, nth_error ls i = Some l /\ p = Z.of_nat (0 + i) :: q /\ Exec1 P Se l x q b y) ->
  forall p b y, In (p, b, y) L <-> Exec P Se ls x p b y.
Proof.
  intros H p b y. rewrite H. split.
  - intros (i & l & q & H1 & -> & H2). econstructor; eauto.
  - intros E. inversion E as [? i l ? q ? ? H1 H2]; subst. exists i, l, q. auto.
Qed.
Lemma insert_loop_eq nfo level l : insert_loop o ns np nfo level l =
  match const_stride P l with
  | None => None
  | Some st =>
      let nfo1 := if (level =? 0)%nat then nfo else {| i_eqs := i_eqs nfo; i_strides := i_strides nfo ++ [st] |} in
      match insert_guards (dim P (l_dom P l)) np nfo1 (rows_of (l_dom P l)) level with
      | None => None
      | Some guard =>
      match insert_header iter_name par_name sort_exprs reduce P flat o np nfo1 level l st with
      | None => None
      | Some None => Some (plug guard [])
      | Some (Some (fs, e, equality)) =>
          let nfo2 := if (level =? 0)%nat then nfo1 else {| i_eqs := i_eqs nfo1 ++ [e]; i_strides := i_strides nfo1 |} in
          match insert_loops o ns np nfo2 (S level) (l_inner P l) with
          | None => None
          | Some body => Some (plug (guard ++ fs) (insert_block iter_name par_name ns nfo2 (l_blk P l) (if equality then S level else level) ++ body))
          end
      end
      end
  end.
Proof.
  destruct l as [d ot sst b inner]. cbn [ClastModel.insert_loop l_dom l_blk l_inner]. destruct (const_stride P (Loop P d ot sst b inner)) as [st|]; [|reflexivity].
  cbv zeta. destruct (ClastModel.insert_guards _ _ _ _ _ _ _ _ _) as [guard|]; [|reflexivity]. destruct (insert_header _ _ _ _ _ _ _ _ _ _ _ _) as [[[[fs e] eq]|]|]; [|reflexivity|reflexivity].
  match goal with |- match ?f inner with _ => _ end = match insert_loops _ _ _ ?nf _ _ with _ => _ end => replace (f inner) with (insert_loops o ns np nf (S level) inner); [reflexivity|] end.
  induction inner as [|l ls IH]; [reflexivity|]. cbn [ClastModel.insert_loops]. rewrite IH. reflexivity.
Qed.

(** *** guards *)
Lemma divs_known rho x t spread nd r : env_ok rho x spread -> List.length (r_co r) = (List.length (x ++ t) + nd + np)%nat -> avoids spread r ->
  (forall j, (List.length x <= j < List.length (x ++ t))%nat -> coef r j = 0) ->
  forall j, coef r j <> 0 -> ~ (List.length (x ++ t) <= j < List.length (x ++ t) + nd)%nat ->
  eval rho (variable_expr iter_name par_name (List.length (x ++ t) + nd) (S j)) = Some (nth j ((x ++ t) ++ repeat 0 nd ++ pv) 0).
Proof.
  intros [A B] Hl Hav Ht j Hc Hj. pose proof (involves_lt r j) as L. unfold involves in L. destruct (Z.eqb_spec (coef r j) 0); [contradiction|]. specialize (L eq_refl).
  unfold variable_expr. cbn [eval]. destruct (Nat.leb_spec (S j) (List.length (x ++ t) + nd)) as [G|G].
  - assert (Hx : (j < List.length x)%nat) by (destruct (Nat.lt_ge_cases j (List.length x)); [assumption|exfalso; apply Hc; apply Ht; lia]).
    rewrite app_nth1 by (rewrite app_length; lia). rewrite app_nth1 by exact Hx. apply B; [exact Hx|]. destruct (nth j spread false) eqn:E; [exfalso; apply Hc; apply Hav; exact E|reflexivity].
  - rewrite app_nth2 by lia. rewrite app_nth2 by (rewrite repeat_length; lia). rewrite repeat_length. rewrite A by lia. do 2 f_equal. lia.
Qed.
Lemma strides_all_ok n nd nfo (y w : list Z) : List.length y = n ->
  (forall j s off, nth_error (i_strides nfo) j = Some (Some (s, off)) -> (j < n)%nat /\ 0 < s /\ (nth j y 0 - off) mod s = 0) -> strides_all n nd nfo y w.
Proof.
  intros Hy H i s off Hin. apply (In_nth_error) in Hin. destruct Hin as (k & Hk).
  assert (Hk2 : nth_error (seq 1 (n + nd)) k = Some i /\ nth_error (i_strides nfo) k = Some (Some (s, off))).
  { clear - Hk. revert k Hk. generalize (n + nd)%nat as m. intros m. generalize 1%nat as f. generalize (i_strides nfo) as l2. induction m as [|m IH]; intros l2 f k Hk; [cbn in Hk; destruct k; discriminate|].
    destruct l2 as [|b l2]; [cbn in Hk; destruct k; discriminate|]. cbn [seq firstn List.combine] in Hk. destruct k as [|k]; cbn [nth_error seq] in *; [injection Hk as -> ->; auto|apply IH; exact Hk]. }
  destruct Hk2 as (Hk1 & Hk2). destruct (H k s off Hk2) as (A & B & C). assert (Hkn : (k < n + nd)%nat) by lia.
  apply nth_error_nth with (d := 0%nat) in Hk1. rewrite seq_nth in Hk1 by exact Hkn. subst i. replace (1 + k - 1)%nat with k by lia. rewrite app_nth1 by lia. auto.
Qed.
Lemma flat_exact d : rows_describe P Se rows_of pv d -> rows_exact P flat_sem flat pv d.
Proof.
  intros (Hl & _). split.
  - apply Forall_forall. intros s Hs. apply plain_in in Hs. destruct Hs as (r & A & B & ->). rewrite Forall_forall in Hl. specialize (Hl r A). unfold without_divs. cbn [r_co]. rewrite app_length, firstn_length, skipn_length, Hl. lia.
  - intros x _. cbn [mem ClastSpec.flat_sem]. rewrite forallb_forall, Forall_forall. split; intros H r Hr; specialize (H r Hr); unfold row_holds, row_holdsb in *; destruct (r_eq r); try (apply Z.eqb_eq; exact H); apply Z.leb_le; exact H.
Qed.
Lemma describe_mem d x : rows_describe P Se rows_of pv d -> List.length x = dim P d ->
  (mem Se d x = true <-> remainders (dim P d) (divs_of d) (rows_of d) x pv /\ mem flat_sem d x = true).
Proof.
  intros H Hx. destruct (flat_exact d H) as (_ & HF). destruct H as (Hl & Hm). rewrite <- (Hm x Hx), <- (HF x Hx). apply (describe_split (dim P d) np (rows_of d) x pv Hx Hl).
Qed.
Lemma stmt_guard x spread nfo1 sts level d guard : dim P d = List.length x -> List.length spread = List.length x -> (level = 0%nat \/ level = S (List.length x)) ->
  (forall j s off, nth_error (i_strides nfo1) j = Some (Some (s, off)) -> (j < List.length x)%nat /\ 0 < s /\ (nth j x 0 - off) mod s = 0) ->
  (forall j e, nth_error (i_strides nfo1) j = Some (Some e) -> nth_error sts j = Some (Some e)) ->
  rows_describe P Se rows_of pv d -> consistent P rows_of pv sts d -> rows_variable P flat d -> Forall (avoids spread) (rows_of d) ->
  insert_guards (dim P d) np nfo1 (rows_of d) level = Some guard -> forall rho, env_ok rho x spread -> opens guard rho (mem Se d x).
Proof.
  intros Hd Hsp Hlev Hs1 Hs2 Hex Hcons Hvar Hav Hg rho Hrho. assert (Hex' := Hex). destruct Hex' as (Hl & _).
  assert (Hown : forall r, own (dim P d) level r = false). { intros r. unfold own. rewrite Hd. destruct Hlev as [-> | ->]; [reflexivity|]. destruct (Nat.leb_spec (S (List.length x)) (List.length x)); [lia|]. rewrite andb_false_r. reflexivity. }
  destruct (guards_ok iter_name par_name sort_exprs sort_eqns sort_exprs_perm sort_eqns_perm rho (dim P d) np nfo1 level (rows_of d) x pv guard (eq_sym Hd) Hg Hl Hvar) as (b & O & HB).
  - intros r Hr _ j Hc Hj. rewrite Forall_forall in Hl, Hav. specialize (Hl r Hr). specialize (Hav r Hr).
    pose proof (divs_known rho x [] spread (divs_of d) r Hrho) as K. rewrite app_nil_r, <- Hd in K. apply K; [exact Hl|exact Hav|intros; lia|exact Hc|exact Hj].
  - intros Hnd. split; [apply strides_all_ok; [lia|intros j s off Hj; destruct (Hs1 j s off Hj) as (A & B); split; [lia|exact B]]|].
    destruct (Hcons ltac:(lia)) as (w & q & pv' & W1 & W2 & W3 & W4 & W5). exists w, q, pv'. split; [exact W1|]. split; [exact W2|]. split.
    + apply strides_all_ok; [exact W1|]. intros j s off Hj. destruct (Hs1 j s off Hj) as (A & B & _). split; [lia|]. split; [exact B|]. apply (W5 j s off). apply Hs2. exact Hj.
    + rewrite Forall_forall in *. intros r Hr _. apply W4. exact Hr.
  - assert (HM : b = true <-> mem Se d x = true).
    { rewrite HB, (describe_mem d x Hex (eq_sym Hd)). destruct (flat_exact d Hex) as (_ & HF). rewrite <- (HF x (eq_sym Hd)). unfold flat_rows. rewrite !Forall_forall.
      split; intros (A & B); (split; [exact A|]); intros r Hr; [apply B; [exact Hr|apply Hown]|intros _; apply B; exact Hr]. }
    replace (mem Se d x) with b; [exact O|]. destruct b, (mem Se d x); try reflexivity; [symmetry; apply HM; reflexivity|apply HM; reflexivity].
Qed.
Definition rem_at (d : dom P) (x : list Z) : Prop := remainders (dim P d) (divs_of d) (rows_of d) (x ++ [0]) pv.
Lemma rem_any d x v v' : (forall r, In r (rows_of d) -> has_div (dim P d) (divs_of d) r = true -> coef r (List.length x) = 0) ->
  remainders (dim P d) (divs_of d) (rows_of d) (x ++ [v]) pv -> remainders (dim P d) (divs_of d) (rows_of d) (x ++ [v']) pv.
Proof.
  intros H (q & Hq & HR). exists q. split; [exact Hq|]. intros r Hr Hd. specialize (HR r Hr Hd). rewrite <- app_assoc in *. cbn [app] in *.
  revert HR. apply row_holds_ext. intros i Hi. apply nth_other. intros ->. apply Hi. apply H; assumption.
Qed.
Lemma loop_guard x spread nfo st sts d guard : dim P d = S (List.length x) -> List.length spread = List.length x ->
  info_ok nfo x spread -> i_strides nfo = sts -> (forall s off, st = Some (s, off) -> 0 < s) ->
  rows_describe P Se rows_of pv d -> consistent P rows_of pv sts d -> rows_variable P flat d -> Forall (avoids spread) (rows_of d) ->
  insert_guards (dim P d) np {| i_eqs := i_eqs nfo; i_strides := i_strides nfo ++ [st] |} (rows_of d) (S (List.length x)) = Some guard ->
  (forall v, remainders (dim P d) (divs_of d) (rows_of d) (x ++ [v]) pv <-> rem_at d x) /\
  forall rho, env_ok rho x spread -> exists b, opens guard rho b /\ (b = true <-> rem_at d x /\ guard_true pv x (flat d)).
Proof.
  intros Hd Hsp Hi Hsts Hst0 Hex Hcons Hvar Hav Hg. assert (Hex' := Hex). destruct Hex' as (Hl & _). destruct Hi as (_ & I2 & _ & _ & _ & I6).
  assert (Hown : forall r, own (dim P d) (S (List.length x)) r = involves r (List.length x)) by (intros r; rewrite Hd; apply own_loop).
  assert (Hfree : forall r, In r (rows_of d) -> has_div (dim P d) (divs_of d) r = true -> coef r (List.length x) = 0).
  { intros r Hr Hh. apply involves_not. rewrite <- Hown. apply (guards_own iter_name par_name sort_exprs sort_eqns (dim P d) np _ _ _ _ Hg r Hr Hh). }
  split; [intros v; split; apply rem_any; exact Hfree|]. intros rho Hrho.
  set (v0 := match st with Some (_, off) => off | None => 0 end).
  assert (Hs1 : forall j s off, nth_error (i_strides nfo ++ [st]) j = Some (Some (s, off)) -> (j < S (List.length x))%nat /\ 0 < s /\ forall w : list Z, List.length w = List.length x ->
      (forall j s off, nth_error (i_strides nfo) j = Some (Some (s, off)) -> (nth j w 0 - off) mod s = 0) -> (nth j (w ++ [v0]) 0 - off) mod s = 0).
  { intros j s off Hj. destruct (Nat.lt_ge_cases j (List.length (i_strides nfo))) as [G|G].
    - rewrite nth_error_app1 in Hj by exact G. destruct (I6 j s off Hj) as (A & _). split; [lia|]. split; [exact A|]. intros w Hw HW. rewrite app_nth1 by lia. apply (HW j s off Hj).
    - rewrite nth_error_app2 in Hj by exact G. destruct (j - List.length (i_strides nfo))%nat eqn:Ej; [|destruct n; discriminate]. cbn in Hj. injection Hj as ->. assert (j = List.length x) as -> by lia.
      split; [lia|]. split; [apply (Hst0 s off eq_refl)|]. intros w Hw _. rewrite <- Hw, app_nth2, Nat.sub_diag by lia. cbn [nth]. unfold v0. rewrite Z.sub_diag. apply Z.mod_0_l. specialize (Hst0 s off eq_refl). lia. }
  assert (Hy : List.length (x ++ [v0]) = dim P d) by (rewrite app_length; cbn; lia).
  destruct (guards_ok iter_name par_name sort_exprs sort_eqns sort_exprs_perm sort_eqns_perm rho (dim P d) np {| i_eqs := i_eqs nfo; i_strides := i_strides nfo ++ [st] |} (S (List.length x)) (rows_of d) (x ++ [v0]) pv guard Hy Hg Hl Hvar) as (b & O & HB).
  - intros r Hr Ho j Hc Hj. rewrite Forall_forall in Hl, Hav. specialize (Hl r Hr). specialize (Hav r Hr). rewrite Hown in Ho.
    pose proof (divs_known rho x [v0] spread (divs_of d) r Hrho) as K. rewrite Hy in K. apply K; [exact Hl|exact Hav| |exact Hc|exact Hj].
    intros i Hi. replace i with (List.length x) by lia. apply involves_not. exact Ho.
  - intros Hnd. split.
    + apply strides_all_ok; [exact Hy|]. intros j s off Hj. cbn [i_strides] in Hj. destruct (Hs1 j s off Hj) as (A & B & C). split; [lia|]. split; [exact B|]. apply C; [reflexivity|]. intros j' s' off' Hj'. apply (I6 j' s' off' Hj').
    + destruct (Hcons ltac:(lia)) as (w & q & pv' & W1 & W2 & W3 & W4 & W5). rewrite Hd in W1.
      assert (Ew : exists w0 wv, w = w0 ++ [wv] /\ List.length w0 = List.length x).
      { destruct (exists_last (l := w)) as (w0 & wv & ->); [intros ->; discriminate|]. exists w0, wv. split; [reflexivity|]. rewrite app_length in W1. cbn in W1. lia. }
      destruct Ew as (w0 & wv & -> & Hw0). exists (w0 ++ [v0]), q, pv'. split; [rewrite app_length, Hw0, Hd; cbn; lia|]. split; [exact W2|]. split.
      * apply strides_all_ok; [rewrite app_length, Hw0, Hd; cbn; lia|]. intros j s off Hj. cbn [i_strides] in Hj. destruct (Hs1 j s off Hj) as (A & B & C). split; [lia|]. split; [exact B|]. apply C; [exact Hw0|].
        intros j' s' off' Hj'. specialize (W5 j' s' off'). rewrite <- Hsts in W5. specialize (W5 Hj'). rewrite app_nth1 in W5; [exact W5|]. rewrite Hw0, <- I2. apply nth_error_Some. congruence.
      * rewrite Forall_forall in *. intros r Hr Ho. rewrite Hown in Ho. specialize (W4 r Hr). rewrite <- app_assoc in *. cbn [app] in *. revert W4. apply row_holds_ext. intros i Hi. apply nth_other. intros ->. apply Hi. rewrite Hw0. apply involves_not. exact Ho.
  - exists b. split; [exact O|]. rewrite HB. unfold rem_at, guard_true. split; intros (A & B); (split; [revert A; apply rem_any; exact Hfree|]).
    + unfold flat_rows. rewrite Forall_forall in *. intros r Hr Ho. rewrite own_loop in Ho. specialize (B r Hr). rewrite Hown in B. specialize (B Ho). rewrite <- app_assoc in B. cbn [app] in B. apply (not_own_any pv x v0 0 r Ho). exact B.
    + unfold flat_rows in B. rewrite Forall_forall in *. intros r Hr Ho. rewrite Hown in Ho. specialize (B r Hr). rewrite own_loop in B. specialize (B Ho). rewrite <- app_assoc. cbn [app]. apply (not_own_any pv x v0 0 r Ho). exact B.
Qed.

(** ** one loop *)
Theorem loop_good l : forall spread sts x nfo ss, ready P Se rows_of pv o spread sts l -> i_strides nfo = sts -> List.length spread = List.length x -> otl_right P Se x l ->
  (exists rho, env_ok rho x spread) -> info_ok nfo x spread -> insert_loop o ns np nfo (S (List.length x)) l = Some ss -> good x spread l ss.
Proof.
  induction l as [d ot sst blk inner IH] using loop_ind'. intros spread sts x nfo ss Hr Hsts Hlen Hotl (rho0 & He0) Hi Hins. set (l := Loop P d ot sst blk inner) in *.
  rewrite insert_loop_eq in Hins. destruct (const_stride P l) as [st|] eqn:Ecs; [|discriminate]. cbv zeta in Hins. destruct (Nat.eqb_spec (S (List.length x)) 0) as [Ez|_]; [lia|].
  cbn [l_blk l_inner i_eqs i_strides] in Hins. change (l_dom P l) with d in Hins. change (l_inner P l) with inner in Hins. change (l_blk P l) with blk in Hins. set (n := List.length x) in *.
  destruct (insert_guards (dim P d) np {| i_eqs := i_eqs nfo; i_strides := i_strides nfo ++ [st] |} (rows_of d) (S n)) as [guard|] eqn:Eg; [|discriminate].
  inversion Hr as [sp sts' l' b Hb Hin Hd Hst Hex Hcons Hvar Hav Esp Ests El|sp sts' l' Hb Hd Hex Hcons Hnorm Hav Hst Hbd Hun Hinner Esp Ests El]; subst sp sts' l'; cbn [l l_dom l_blk l_inner l_st] in *.
  - (* a statement *)
    subst blk inner. rewrite Hlen in Hd. fold n in Hd.
    assert (Eh : insert_header iter_name par_name sort_exprs reduce P flat o np {| i_eqs := i_eqs nfo; i_strides := i_strides nfo ++ [st] |} (S n) l st = Some (Some ([], None, false))).
    { unfold insert_header. unfold l. cbn [l_dom]. rewrite Hd. destruct (Nat.leb_spec (S n) n); [lia|]. rewrite andb_false_r. reflexivity. }
    rewrite Eh in Hins. cbn [ClastModel.insert_loops] in Hins. injection Hins as <-. rewrite !app_nil_r.
    assert (Est : st = None) by (unfold const_stride in Ecs; cbn [l_st l] in Ecs; rewrite Hst in Ecs; injection Ecs as <-; reflexivity).
    assert (Hop : forall rho, env_ok rho x spread -> opens guard rho (mem Se d x)).
    { apply (stmt_guard x spread {| i_eqs := i_eqs nfo; i_strides := i_strides nfo ++ [st] |} sts (S n) d guard Hd Hlen); auto.
      - intros j s off Hj. cbn [i_strides] in Hj. destruct Hi as (_ & I2 & _ & _ & _ & I6). destruct (Nat.lt_ge_cases j (List.length (i_strides nfo))) as [G|G].
        + rewrite nth_error_app1 in Hj by exact G. split; [unfold n in *; lia|]. apply (I6 j s off Hj).
        + rewrite nth_error_app2 in Hj by exact G. rewrite Est in Hj. destruct (j - List.length (i_strides nfo))%nat as [|[|?]]; discriminate.
      - intros j e Hj. cbn [i_strides] in Hj. destruct (Nat.lt_ge_cases j (List.length (i_strides nfo))) as [G|G]; [rewrite nth_error_app1 in Hj by exact G; rewrite <- Hsts; exact Hj|].
        rewrite nth_error_app2 in Hj by exact G. rewrite Est in Hj. destruct (j - List.length (i_strides nfo))%nat as [|[|?]]; discriminate. }
    assert (Hrun : forall p b' y, Exec1 P Se l x p b' y <-> p = [] /\ b' = b /\ y = x /\ mem Se d x = true).
    { intros p b' y. split.
      - intros E. inversion E as [? ? ? B D (M & S0)|? ? ? ? ? B|? ? ? ? ? ? B]; subst; cbn in B; [injection B as <-; cbn in M; auto|discriminate|discriminate].
      - intros (-> & -> & -> & M). apply Exec_block; [reflexivity|exact Hd|]. split; [exact M|]. cbn. rewrite Hst. reflexivity. }
    exists (if mem Se d x then [([], b, x)] else []). split.
    + split; [destruct (mem Se d x); repeat constructor|]. intros p b' y. rewrite Hrun. destruct (mem Se d x); cbn [In]; split.
      * intros [E|[]]. injection E as <- <- <-. auto.
      * intros (-> & -> & -> & _). auto.
      * intros [].
      * intros (_ & _ & _ & E). discriminate.
    + intros rho Hrho. exists rho. split; [|apply keeps_refl]. rewrite (Hop rho Hrho). destruct (mem Se d x); [|reflexivity]. 
      change (exec (insert_block iter_name par_name ns {| i_eqs := i_eqs nfo ++ [None]; i_strides := i_strides nfo ++ [st] |} (Some b) (S n)) rho = Some (rho, calls ns [([], b, x)])).
      unfold n. rewrite (block_ok rho x spread nfo [None] _ b Hrho Hi). unfold calls. cbn [flat_map fst snd]. rewrite app_nil_r. reflexivity.
  - (* a loop *)
    subst blk. rewrite Hlen in Hd. fold n in Hd.
    assert (Hs0 : forall s off, st = Some (s, off) -> 0 < s).
    { intros s off ->. unfold const_stride in Ecs. unfold stride_usable in Hst. cbn [l_st l] in Ecs, Hst. destruct sst as [[[s' off'] [c|]]|]; try discriminate. injection Ecs as -> ->. apply Hst. }
    destruct (loop_guard x spread nfo st sts d guard Hd Hlen Hi Hsts Hs0 Hex Hcons (proj1 Hnorm) Hav Eg) as (Hrem & Hguard).
    pose proof (flat_exact d Hex) as Hex2.
    assert (Hent : rem_at d x -> forall v, enters P Se l (x ++ [v]) <-> enters P flat_sem l (x ++ [v])).
    { intros HR v. unfold enters. cbn [l_dom l l_st]. rewrite (describe_mem d (x ++ [v]) Hex) by (rewrite app_length; cbn; unfold n in Hd; lia). rewrite Hrem. unfold st_ok. cbn [sok ClastSpec.flat_sem]. tauto. }
    inversion Hotl as [? ? Ho1 Ho2 _]; subst. cbn [l_otl l_inner l] in Ho1, Ho2. fold l in Ho1, Ho2.
    assert (Hdec : exists g : bool, (g = true <-> rem_at d x /\ guard_true pv x (flat d)) /\ forall rho, env_ok rho x spread -> opens guard rho g).
    { destruct (Hguard rho0 He0) as (g & _ & Hg). exists g. split; [exact Hg|]. intros rho Hrho. destruct (Hguard rho Hrho) as (g' & O & Hg'). replace g with g'; [exact O|].
      destruct g, g'; try reflexivity; [apply Hg'; apply Hg; reflexivity|symmetry; apply Hg; apply Hg'; reflexivity]. }
    assert (Hempty : ~ (rem_at d x /\ guard_true pv x (flat d)) -> forall v, ~ enters P Se l (x ++ [v])).
    { intros G v (M & _). apply G. cbn [l_dom l] in M. apply (describe_mem d (x ++ [v]) Hex) in M; [|rewrite app_length; cbn; unfold n in Hd; lia]. destruct M as (M1 & M). split; [apply Hrem in M1; exact M1|].
      apply Forall_forall. intros r Hr0 Ho. destruct Hex2 as (_ & Hm). rewrite <- Hm in M by (rewrite app_length; cbn; unfold n in Hd; lia). rewrite <- app_assoc in M. cbn [app] in M.
      rewrite Forall_forall in M. apply (not_own_any pv x v 0 r); [rewrite own_loop in Ho; exact Ho|apply M; exact Hr0]. }
    assert (Hrun : forall p b y, Exec1 P Se l x p b y <-> exists v q, p = v :: q /\ enters P Se l (x ++ [v]) /\ Exec P Se inner (x ++ [v]) q b y).
    { intros p b y. split.
      - intros E. inversion E as [? ? ? B D M|? ? ? ? ? B D M Ei|? ? v q ? ? B D M Ei]; subst; cbn in B, D; [discriminate|unfold n in Hd; lia|]. exists v, q. auto.
      - intros (v & q & -> & M & Ei). apply Exec_iter; [reflexivity|cbn; unfold n in Hd; lia|exact M|exact Ei]. }
    destruct (insert_header iter_name par_name sort_exprs reduce P flat o np {| i_eqs := i_eqs nfo; i_strides := i_strides nfo ++ [st] |} (S n) l st) as [res|] eqn:Eh; [|discriminate].
    assert (Havf : Forall (avoids spread) (flat d)).
    { apply Forall_forall. intros r0 Hr0. apply plain_in in Hr0. destruct Hr0 as (r & A & B & ->). rewrite Forall_forall in Hav. intros i Hi0. assert (Hi1 : (i < List.length spread)%nat) by (destruct (Nat.lt_ge_cases i (List.length spread)); [assumption|rewrite nth_overflow in Hi0 by assumption; discriminate]).
      destruct Hex as (Hl & _). rewrite Forall_forall in Hl. specialize (Hl r A). rewrite without_coef by lia. destruct (Nat.ltb_spec i (dim P d)); [apply (Hav r A i Hi0)|unfold n in *; lia]. }
    assert (HH : rem_at d x /\ guard_true pv x (flat d) -> header_right iter_name par_name P flat_sem flat pv o x spread nfo st l res).
    { intros (HR & G). apply (header_ok iter_name par_name sort_exprs reduce P flat_sem flat pv o sort_exprs_perm iter_inj iter_par reduce_ok x spread nfo st l res rho0); try assumption.
      intros Eo v v' A B. apply Hent in A; [|exact HR]. apply Hent in B; [|exact HR]. apply (Ho1 Eo v v' A B). }
    destruct Hdec as (g & Hg & Hx).
    destruct res as [[[fs e] equality]|].
    + destruct (insert_loops o ns np {| i_eqs := i_eqs nfo ++ [e]; i_strides := i_strides nfo ++ [st] |} (S (S n)) inner) as [body|] eqn:Ebody; [|discriminate]. injection Hins as <-.
      cbn [insert_block app]. destruct g.
      * destruct (HH (proj1 Hg eq_refl)) as (vs & V1 & V2' & V3 & V4).
        assert (V2 : forall v, In v vs <-> enters P Se l (x ++ [v])) by (intros v; rewrite V2'; symmetry; apply Hent; apply (proj1 Hg eq_refl)).
        set (sp := is_spread P flat o d) in *. cbn [l_dom l] in V3, V4.
        assert (Hbody : forall v, In v vs -> exists L, (StronglySorted lex_lt (map (fun e => fst (fst e)) L) /\ forall p b y, In (p, b, y) L <-> Exec P Se inner (x ++ [v]) p b y) /\
            forall rho, env_ok rho (x ++ [v]) (spread ++ [sp]) -> exists rho', exec body rho = Some (rho', calls ns L) /\ keeps (S n) rho rho').
        { intros v Hv. assert (Hlx : List.length (x ++ [v]) = S n) by (rewrite app_length; cbn; unfold n; lia).
          destruct (list_good (x ++ [v]) (spread ++ [sp]) {| i_eqs := i_eqs nfo ++ [e]; i_strides := i_strides nfo ++ [st] |} (S (S n)) inner body Ebody) with (k := 0%nat) as (L & L1 & L2 & L3).
          - intros l' ss' Hl' Hins'. rewrite Forall_forall in IH, Hinner. eapply (IH l' Hl' (spread ++ [sp]) _ (x ++ [v]) {| i_eqs := i_eqs nfo ++ [e]; i_strides := i_strides nfo ++ [st] |}); [apply Hinner; exact Hl'|cbn [i_strides]; unfold stride_at; fold l; rewrite Ecs; reflexivity|rewrite !app_length; cbn; lia| | |apply V3; exact Hv|rewrite Hlx; exact Hins'].
            + pose proof (Ho2 v (proj1 (V2 v) Hv)) as F. rewrite Forall_forall in F. apply F. exact Hl'.
            + exists (assign rho0 (iter_name (S n)) v). apply env_snoc; [|unfold n in Hlen; exact Hlen|intros _; apply assign_same]. eapply env_keeps; [exact He0|]. apply keeps_assign; [exact iter_inj|exact iter_par|unfold n; lia].
          - exists L. split; [split; [exact L1|apply list_runs; exact L2]|]. rewrite <- Hlx. exact L3. }
        apply choose in Hbody. destruct Hbody as (Lf & HLf). exists (flat_map (fun v => map (prefix v) (Lf v)) vs). split; [split|].
        -- apply flat_prefix_sorted; [exact V1|]. intros v Hv. apply (HLf v Hv).
        -- intros p b y. rewrite Hrun, in_flat_map. split.
           ++ intros (v & Hv & Hp). apply in_prefix in Hp. destruct Hp as (q & -> & Hq). exists v, q. split; [reflexivity|]. split; [apply V2; exact Hv|]. apply (HLf v Hv). exact Hq.
           ++ intros (v & q & -> & Hv & Hq). apply V2 in Hv. exists v. split; [exact Hv|]. apply in_prefix. exists q. split; [reflexivity|]. apply (HLf v Hv). exact Hq.
        -- intros rho Hrho. rewrite plug_app, (Hx rho Hrho (plug fs body)).
           destruct (V4 rho body (fun v => calls ns (Lf v)) Hrho) as (rho' & X1 & X2).
           { intros v rho1 Hv H1. apply (HLf v Hv). exact H1. }
           exists rho'. split; [|exact X2]. rewrite X1. do 2 f_equal. clear. induction vs as [|v vs IHv]; [reflexivity|]. cbn [flat_map]. rewrite calls_app, calls_prefix, IHv. reflexivity.
      * assert (G : ~ (rem_at d x /\ guard_true pv x (flat d))) by (intros G; apply Hg in G; discriminate). exists []. split; [split; [constructor|]|].
        -- intros p b y. rewrite Hrun. split; [intros []|]. intros (v & q & _ & M & _). exact (Hempty G v M).
        -- intros rho Hrho. exists rho. split; [|apply keeps_refl]. rewrite plug_app, (Hx rho Hrho (plug fs body)). reflexivity.
    + injection Hins as <-. exists []. split; [split; [constructor|]|].
      * intros p b y. rewrite Hrun. split; [intros []|]. intros (v & q & _ & M & _). destruct g.
        -- destruct (HH (proj1 Hg eq_refl)) as (vs & _ & V2 & V3). subst vs. apply Hent in M; [|apply (proj1 Hg eq_refl)]. apply V2 in M. destruct M.
        -- apply (Hempty ltac:(intros G; apply Hg in G; discriminate) v M).
      * intros rho Hrho. exists rho. split; [|apply keeps_refl]. rewrite (Hx rho Hrho []). destruct g; reflexivity.
Qed.

(** ** the whole program *)
Theorem create_ok ls ss rho : clast_create iter_name par_name sort_exprs sort_eqns reduce P rows_of o ns np ls = Some ss ->
  Forall (ready0 P Se rows_of pv o) ls -> Forall (otl_right P Se []) ls -> (forall i, (i < np)%nat -> rho (par_name i) = Some (nth i pv 0)) ->
  exists L rho', runs Se ls [] L /\ exec ss rho = Some (rho', calls ns L).
Proof.
  intros Hc Hr Ho Hp. unfold clast_create in Hc. set (nfo0 := {| i_eqs := []; i_strides := [] |}) in *.
  assert (He : env_ok rho [] []) by (split; [exact Hp|intros i Hi; cbn in Hi; lia]).
  assert (Hi : info_ok nfo0 [] []). { repeat split; cbn; try reflexivity; try (intros; destruct i; discriminate). }
  destruct (list_good [] [] nfo0 0%nat ls ss Hc) with (k := 0%nat) as (L & L1 & L2 & L3).
  - intros l ss' Hl Hins. rewrite Forall_forall in Hr, Ho. specialize (Hr l Hl). specialize (Ho l Hl). rewrite insert_loop_eq in Hins.
    inversion Hr as [? Hd Hst Hblk Hex Hcons Hvar Hinner]; subst. inversion Ho as [? ? _ _ Ho3]; subst. destruct (const_stride P l) as [st|] eqn:Ecs; [|discriminate]. cbv zeta in Hins. rewrite Nat.eqb_refl in Hins.
    destruct (insert_guards (dim P (l_dom P l)) np nfo0 (rows_of (l_dom P l)) 0) as [guard|] eqn:Eg; [|discriminate].
    unfold insert_header in Hins. rewrite Nat.eqb_refl in Hins. cbn [negb andb] in Hins. destruct (insert_loops o ns np nfo0 1 (l_inner P l)) as [body|] eqn:Eb; [|discriminate]. injection Hins as <-. rewrite app_nil_r.
    set (d := l_dom P l) in *.
    assert (Hent : enters P Se l [] <-> mem Se d [] = true) by (unfold enters; fold d; rewrite Hst; cbn; tauto).
    assert (Hb0 : forall rho, exec (insert_block iter_name par_name ns nfo0 (l_blk P l) 0) rho = Some (rho, match l_blk P l with Some b => map (fun num => (num, skipn ns [])) (b_stmts b) | None => [] end)).
    { intros rho1. unfold insert_block. destruct (l_blk P l) as [b|]; [|reflexivity]. induction (b_stmts b) as [|num nums IHn]; [reflexivity|]. cbn [map exec]. rewrite exec1_list. change (eval_all rho1 (clast_equal ns (i_eqs nfo0) 0)) with (Some (@nil Z)). cbv iota. rewrite IHn, skipn_nil. reflexivity. }
    assert (Hdec : forall rho, env_ok rho [] [] -> opens guard rho (mem Se d [])).
    { apply (stmt_guard [] [] nfo0 [] 0%nat d guard Hd eq_refl (or_introl eq_refl)); auto.
      - intros j s off Hj. destruct j; discriminate.
      - apply Forall_forall. intros r _ i Hi0. destruct i; discriminate. }
    destruct (mem Se d []) eqn:Em.
    + assert (Ho4 : Forall (otl_right P Se []) (l_inner P l)) by (apply Ho3; apply Hent; reflexivity).
      destruct (list_good [] [] nfo0 1%nat (l_inner P l) body Eb) with (k := 0%nat) as (Li & A1 & A2 & A3).
      { intros l' s' Hl' Hins'. rewrite Forall_forall in Hinner, Ho4. eapply (loop_good l' [] [] [] nfo0 s'); [apply Hinner; exact Hl'|reflexivity|reflexivity|apply Ho4; exact Hl'|exists rho; exact He|exact Hi|exact Hins']. }
      assert (A4 := list_runs [] (l_inner P l) Li A2). destruct (l_blk P l) as [b|] eqn:Ebl.
      * specialize (Hblk ltac:(discriminate)). rewrite Hblk in *. assert (Li = []) as ->.
        { destruct Li as [|[[p1 b1] y1] Li]; [reflexivity|]. exfalso. pose proof (proj1 (A4 p1 b1 y1) (or_introl eq_refl)) as N. inversion N as [? i ? ? ? ? ? N1 N2]; subst. destruct i; discriminate. }
        exists [([], b, [])]. split; [split|].
        -- repeat constructor.
        -- intros p b' y. cbn [In]. split.
           ++ intros [E|[]]. injection E as <- <- <-. apply Exec_block; [exact Ebl|exact Hd|apply Hent; reflexivity].
           ++ intros E. inversion E as [? ? ? B D M|? ? ? ? ? B|? ? ? ? ? ? B]; subst; rewrite Ebl in B; [injection B as <-; auto|discriminate|discriminate].
        -- intros rho1 Hrho. destruct (A3 rho1 Hrho) as (rho2 & X & K). exists rho2. split; [|exact K]. rewrite (Hdec rho1 Hrho). rewrite exec_app, Hb0, X. unfold calls. cbn [flat_map fst snd]. rewrite !app_nil_r. reflexivity.
      * exists Li. split; [split; [exact A1|]|].
        -- intros p b y. rewrite A4. split.
           ++ intros E. apply Exec_test; [exact Ebl|fold d; rewrite Hd; cbn; lia|apply Hent; reflexivity|exact E].
           ++ intros E. inversion E as [? ? ? B D M|? ? ? ? ? B D M Ei|? ? ? ? ? ? B D M Ei]; subst; [congruence|exact Ei|fold d in D; rewrite Hd in D; discriminate].
        -- intros rho1 Hrho. destruct (A3 rho1 Hrho) as (rho2 & X & K). exists rho2. split; [|exact K]. rewrite (Hdec rho1 Hrho). rewrite exec_app, Hb0, X. reflexivity.
    + exists []. split; [split; [constructor|]|].
      * intros p b y. split; [intros []|]. intros E. assert (enters P Se l []) as M; [|apply Hent in M; discriminate].
        inversion E as [? ? ? B D M|? ? ? ? ? B D M Ei|? ? ? ? ? ? B D M Ei]; subst; [exact M|exact M|fold d in D; rewrite Hd in D; discriminate].
      * intros rho1 Hrho. exists rho1. split; [|apply keeps_refl]. rewrite (Hdec rho1 Hrho). reflexivity.
  - exists L. destruct (L3 rho He) as (rho' & X & _). exists rho'. split; [|exact X]. split; [exact L1|]. apply list_runs. exact L2.
Qed.
End Main.
