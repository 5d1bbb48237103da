(** Simplification of the generated loops against their context. *)
From Coq Require Import ZArith List Bool Arith Lia Permutation.
From Verif Require Import SortModel LoopModel LoopSpec LoopLists LoopCount LoopKeys LoopOrder.
Import ListNotations.
Local Notation "'do' x <- a ; b" := (obind a (fun x => b)) (at level 200, x name, a at level 100, b at level 200).
Local Arguments Nat.ltb : simpl never.
Local Arguments Nat.leb : simpl never.
Local Arguments Nat.eqb : simpl never.

Section Simplify.
Variable P : Poly.
Variable Se : Sem P.
Hypothesis L : Laws P Se.
Variable O : Prop.
Variable R : block -> list Z -> block -> list Z -> Prop.
Hypothesis Rirr : forall b x, ~ R b x b x.
Notation dom := (dom P).
Notation loop := (loop P).
Notation dim := (dim P).
Notation mem := (mem Se).
Notation Loop := (@Loop P).
Notation cnt := (cnt P Se).
Notation cnts := (cnts P Se).
Notation inn := (inn P Se).
Notation andp := (andp P Se).
Notation pairok := (pairok P Se O R).
Notation ok1 := (ok1 P Se O R (isconvex P)).
Notation okl := (okl P Se O R (isconvex P)).
Notation ok1' := (LoopOrder.ok1 P Se O R (fun _ => true)).
Notation okl' := (LoopOrder.okl P Se O R (fun _ => true)).

Lemma cnts0 b x : cnts [] b x = 0.
Proof. reflexivity. Qed.
Lemma cntsS l b x : cnts [l] b x = cnt l b x.
Proof. rewrite cnts_cons, cnts0. lia. Qed.

Lemma simplify_go fuel inter : forall inner,
  (fix go (ls : list loop) : option (list loop) :=
     match ls with
     | [] => Some []
     | a :: r => do x <- simplify1 P fuel inter a; do y <- go r; Some (x ++ y)
     end) inner = simplify P fuel inter inner.
Proof.
  induction inner as [|a r IH]; [reflexivity|]. rewrite IH. unfold simplify, oconcat. cbn [omap].
  destruct (simplify1 P fuel inter a) as [x|]; [|reflexivity]. cbn. destruct (omap (simplify1 P fuel inter) r); reflexivity.
Qed.

Definition part (fuel : nat) (ctx : dom) (blk : option block) (inner : list loop) (p : dom * bool * option (stride P)) : option (list loop) :=
  let '(x, otl', st') := p in
  let ext := extend P ctx (dim x) in
  let inter := intersection P x ext in
  let simp := gist P x ext in
  if never_integral P simp then Some []
  else do ins <- simplify P fuel inter inner;
       match ins, blk with
       | [], None => Some []
       | _, _ => Some [Loop simp otl' st' blk ins]
       end.

Lemma simplify1_eq fuel ctx d otl st blk inner :
  simplify1 P fuel ctx (Loop d otl st blk inner) =
  (let d1 := if isconvex P d then d else simplify_union P d in
   do parts <- (if isconvex P d1 then Some [(d1, otl, st)]
                else do ds <- pieces P fuel d1; Some (map (fun x => (x, false, None)) ds));
   oconcat (part fuel ctx blk inner) parts).
Proof.
  cbn [simplify1]. destruct (if isconvex P (if isconvex P d then d else simplify_union P d) then _ else _) as [parts|]; [|reflexivity]. cbn [obind].
  unfold oconcat. f_equal. induction parts as [|[[x o'] st'] parts IH]; [reflexivity|]. cbn [omap]. rewrite IH. unfold part at 2. rewrite simplify_go. reflexivity.
Qed.

Definition SimpOk (l : loop) : Prop := forall n A fuel ctx rs,
  ok1 l n A -> dim ctx <= dim (l_dom P l) -> simplify1 P fuel ctx l = Some rs ->
  (forall b x, inn ctx None x = true -> cnts rs b x = cnt l b x) /\ okl' n (andp A ctx None) rs.

Lemma simplify_list ls : Forall SimpOk ls -> forall n A fuel ctx rs,
  okl n A ls -> Forall (fun l => dim ctx <= dim (l_dom P l)) ls -> simplify P fuel ctx ls = Some rs ->
  (forall b x, inn ctx None x = true -> cnts rs b x = cnts ls b x) /\ okl' n (andp A ctx None) rs.
Proof.
  intros HF n A fuel ctx. induction ls as [|l ls IH]; intros rs [Ho1 Ho2] Hd H.
  - injection H as <-. split; [reflexivity|apply okl_nil].
  - apply oconcat_cons in H as (r1 & r2 & E1 & E2 & ->). inversion HF as [|? ? HF1 HF2]; subst. inversion Ho1 as [|? ? Ho11 Ho12]; subst.
    inversion Ho2 as [|? ? Ho21 Ho22]; subst. inversion Hd as [|? ? Hd1 Hd2]; subst.
    destruct (HF1 n A fuel ctx r1 Ho11 Hd1 E1) as [G1 G2]. destruct (IH HF2 r2 (conj Ho12 Ho22) Hd2 E2) as [K1 K2]. split.
    + intros b x Hx. rewrite cnts_app, cnts_cons, G1, K1 by exact Hx. reflexivity.
    + apply okl_app; [exact G2|exact K2|]. intros HO b x b' x' C1 C2 [A1 I1] [A2 I2] Hag. rewrite G1 in C1 by exact I1. rewrite K1 in C2 by exact I2.
      apply cnts_pos in C2 as (l' & Hl' & C2). rewrite Forall_forall in Ho21. apply (Ho21 l' Hl' HO b x b' x'); assumption.
Qed.

Lemma ok1_dims l n A : ok1 l n A -> n <= dim (l_dom P l).
Proof. destruct l as [d o st [b|] inner]; [cbn; lia|]. rewrite ok1_node. cbn. intros [_ [[H _]|[H _]]]; lia. Qed.

Lemma firstn_min {T} n m (x : list T) : n <= m -> firstn n (firstn m x) = firstn n x.
Proof. intros H. rewrite firstn_firstn. f_equal. lia. Qed.

Lemma cnt_len l b y : 0 < cnt l b y -> dim (l_dom P l) <= length y.
Proof.
  destruct l as [d o st blk inner]. cbn [l_dom]. intros H.
  assert (Hi : inn d st y = true) by (destruct (inn d st y) eqn:E; [reflexivity|]; cbn [LoopSpec.cnt] in H; rewrite E in H; cbn in H; lia).
  apply inn_mem in Hi. apply (L_len _ _ L) in Hi. rewrite firstn_length in Hi. lia.
Qed.

Lemma part_spec d otl st blk inner : Forall SimpOk inner -> forall n A fuel ctx rs,
  ok1 (Loop d otl st blk inner) n A -> dim ctx <= dim d -> part fuel ctx blk inner (d, otl, st) = Some rs ->
  (forall b x, inn ctx None x = true -> cnts rs b x = cnt (Loop d otl st blk inner) b x) /\ okl' n (andp A ctx None) rs.
Proof.
  intros HF n A fuel ctx rs Ho Hd H. cbn [part] in H.
  set (ext := extend P ctx (dim d)) in *. set (simp := gist P d ext) in *. set (inter := intersection P d ext) in *.
  assert (De : dim ext = dim d) by (apply (L_extend_dim _ _ L); exact Hd).
  assert (Ds : dim simp = dim d) by (apply (L_gist_dim _ _ L); auto).
  assert (Di : dim inter = dim d) by (apply (L_inter_dim _ _ L); auto).
  assert (Me : forall y, inn ctx None y = true -> dim d <= length y -> mem ext (firstn (dim d) y) = true).
  { intros y Hy Hl. unfold ext. rewrite (L_extend _ _ L); [|exact Hd|rewrite firstn_length; lia]. rewrite inn_none in Hy. rewrite firstn_min by exact Hd. exact Hy. }
  assert (Hs : forall st y, inn ctx None y = true -> inn simp st y = inn d st y).
  { intros st' y Hy. unfold LoopSpec.inn. rewrite Ds. destruct (Nat.lt_ge_cases (length y) (dim d)) as [Hl|Hl].
    - assert (E : forall e, dim e = dim d -> mem e (firstn (dim d) y) = false).
      { intros e He. destruct (mem e (firstn (dim d) y)) eqn:E; [|reflexivity]. apply (L_len _ _ L) in E. rewrite firstn_length in E. lia. }
      rewrite !E by auto. reflexivity.
    - f_equal. apply (L_gist _ _ L); auto. }
  assert (Hi : forall y st, inn ctx None y = true -> inn d st y = true -> inn inter None y = true).
  { intros y st' Hy Hd'. rewrite inn_none, Di. apply inn_mem in Hd'. unfold inter. rewrite (L_inter _ _ L) by auto. rewrite Hd'. apply Me; auto.
    apply (L_len _ _ L) in Hd'. rewrite firstn_length in Hd'. lia. }
  destruct (never_integral P simp) eqn:En.
  { injection H as <-. split; [|apply okl_nil]. intros b y Hy. rewrite cnts0.
    assert (E : inn d st y = false). { rewrite <- (Hs st y Hy). unfold LoopSpec.inn. rewrite (L_never _ _ L _ _ En). reflexivity. }
    cbn [LoopSpec.cnt]. rewrite E. reflexivity. }
  apply obind_some in H as (ins & Ei & H). destruct blk as [b0|].
  - destruct Ho as (H1 & -> & ->). cbn in Ei. injection Ei as <-. injection H as <-. split.
    + intros b y Hy. rewrite cntsS. cbn [LoopSpec.cnt]. rewrite (Hs None y Hy), Ds. reflexivity.
    + split; [|constructor; [constructor|constructor]]. constructor; [|constructor]. cbn [LoopOrder.ok1]. split; [lia|auto].
  - apply ok1_node in Ho as [_ Ho].
    assert (Hm : exists m, dim d = m /\ okl m (andp A d st) inner /\ (m = n \/ (m = S n /\ valok P Se O R n (andp A d st) inner))).
    { destruct Ho as [[Ho1 Ho2]|(Ho1 & Ho2 & Ho3)]; [exists n|exists (S n)]; auto. }
    destruct Hm as (m & Hm & Hok & Hv).
    assert (Hdi : Forall (fun l => dim inter <= dim (l_dom P l)) inner).
    { destruct Hok as [Hok _]. eapply Forall_impl; [|exact Hok]. cbn. intros l Hl. rewrite Di, Hm. eapply ok1_dims; eauto. }
    destruct (simplify_list inner HF m (andp A d st) fuel inter ins Hok Hdi Ei) as [K1 K2].
    assert (G : forall y, andp (andp A ctx None) simp st y -> andp (andp A d st) inter None y).
    { intros y [[Ha Hc] Hsi]. rewrite Hs in Hsi by exact Hc. split; [split; assumption|]. eapply Hi; eauto. }
    assert (Hcnt : forall b y, inn ctx None y = true -> cnt (Loop simp otl st None ins) b y = cnt (Loop d otl st None inner) b y).
    { intros b y Hy. rewrite !cnt_node, Hs by exact Hy. destruct (inn d st y) eqn:E; [|reflexivity]. rewrite K1; [reflexivity|]. eapply Hi; eauto. }
    assert (Hres : ok1' (Loop simp otl st None ins) n (andp A ctx None)).
    { apply ok1_node. split; [left; reflexivity|]. rewrite Ds, Hm. destruct Hv as [->|[-> Hv]].
      - left. split; [reflexivity|]. eapply okl_mono; [|exact K2]. intros b y _. apply G.
      - right. split; [reflexivity|]. split; [|eapply okl_mono; [|exact K2]; intros b y _; apply G].
        intros HO b y b' y' C1 C2 A1 A2 Hag Hlt. apply G in A1, A2. destruct A1 as [A1 I1]. destruct A2 as [A2 I2].
        rewrite K1 in C1 by exact I1. rewrite K1 in C2 by exact I2. apply (Hv HO b y b' y'); assumption. }
    destruct ins as [|i ins].
    + injection H as <-. split; [|apply okl_nil]. intros b y Hy. rewrite <- Hcnt by exact Hy. rewrite cnt_node, !cnts0. lia.
    + injection H as <-. split; [|split; [constructor; [exact Hres|constructor]|constructor; [constructor|constructor]]].
      intros b y Hy. rewrite <- Hcnt by exact Hy. rewrite cntsS. reflexivity.
Qed.

Lemma parts_list blk inner : Forall SimpOk inner -> forall n A fuel ctx parts rs,
  Forall (fun p => ok1 (Loop (fst (fst p)) (snd (fst p)) (snd p) blk inner) n A /\ dim ctx <= dim (fst (fst p))) parts ->
  ForallOrdPairs (fun p q => pairok n A (Loop (fst (fst p)) (snd (fst p)) (snd p) blk inner) (Loop (fst (fst q)) (snd (fst q)) (snd q) blk inner)) parts ->
  oconcat (part fuel ctx blk inner) parts = Some rs ->
  (forall b x, inn ctx None x = true -> cnts rs b x = sumn (fun p => cnt (Loop (fst (fst p)) (snd (fst p)) (snd p) blk inner) b x) parts)
  /\ okl' n (andp A ctx None) rs.
Proof.
  intros HF n A fuel ctx. induction parts as [|[[x o'] st'] parts IH]; intros rs H1 H2 H.
  - injection H as <-. split; [reflexivity|apply okl_nil].
  - apply oconcat_cons in H as (r1 & r2 & E1 & E2 & ->). inversion H1 as [|? ? [H11 H11'] H12]; subst. inversion H2 as [|? ? H21 H22]; subst. cbn [fst snd] in *.
    destruct (part_spec _ _ _ _ _ HF n A fuel ctx r1 H11 H11' E1) as [G1 G2]. destruct (IH r2 H12 H22 E2) as [K1 K2]. split.
    + intros b y Hy. rewrite cnts_app, sumn_cons, G1, K1 by exact Hy. reflexivity.
    + apply okl_app; [exact G2|exact K2|]. intros HO b y b' y' C1 C2 [A1 I1] [A2 I2] Hag. rewrite G1 in C1 by exact I1. rewrite K1 in C2 by exact I2.
      apply sumn_pos in C2 as (q & Hq & C2). rewrite Forall_forall in H21. apply (H21 q Hq HO b y b' y'); assumption.
Qed.

Lemma dom_change d1 d2 o1 o2 st blk inner n A :
  dim d1 = dim d2 -> (forall x, mem d2 x = true -> mem d1 x = true) -> (blk = None -> isconvex P d2 = true) ->
  ok1 (Loop d1 o1 st blk inner) n A -> ok1 (Loop d2 o2 st blk inner) n A.
Proof.
  intros Hd Hm Hc H. destruct blk as [b|].
  - destruct H as (H1 & H2 & H3). cbn [LoopOrder.ok1]. split; [lia|auto].
  - apply ok1_node in H as [_ H]. apply ok1_node. split; [left; auto|].
    assert (G : forall x, andp A d2 st x -> andp A d1 st x).
    { intros x [H1 H2]. split; [exact H1|]. unfold LoopSpec.inn in *. rewrite Hd. apply andb_prop in H2 as [H2 H3]. rewrite H3, (Hm _ H2). reflexivity. }
    rewrite <- Hd. destruct H as [[H1 H2]|(H1 & H2 & H3)]; [left|right]; (split; [exact H1|]).
    + eapply okl_mono; [|exact H2]. auto.
    + split; [eapply valok_mono; [|exact H2]; auto|eapply okl_mono; [|exact H3]; auto].
Qed.

Theorem simplify1_spec l : SimpOk l.
Proof.
  induction l as [d otl st blk inner IH] using loop_ind'. intros n A fuel ctx rs Ho Hd H. cbn [l_dom] in Hd. rewrite simplify1_eq in H. cbv zeta in H.
  set (d1 := if isconvex P d then d else simplify_union P d) in *.
  assert (D1 : dim d1 = dim d) by (unfold d1; destruct (isconvex P d); [reflexivity|apply (L_su_dim _ _ L)]).
  assert (M1 : forall x, mem d1 x = mem d x) by (intros x; unfold d1; destruct (isconvex P d); [reflexivity|apply (L_su _ _ L)]).
  assert (C1 : forall b x, cnt (Loop d1 otl st blk inner) b x = cnt (Loop d otl st blk inner) b x).
  { intros b x. cbn [LoopSpec.cnt]. unfold LoopSpec.inn. rewrite D1, M1. reflexivity. }
  apply obind_some in H as (parts & Ep & H). destruct (isconvex P d1) eqn:Ec.
  - injection Ep as <-. destruct (parts_list blk inner IH n A fuel ctx [(d1, otl, st)] rs) as [G1 G2]; auto.
    + constructor; [|constructor]. cbn [fst snd]. rewrite D1. split; [|exact Hd]. eapply dom_change; [symmetry; exact D1| |auto|exact Ho]. intros x. rewrite M1. auto.
    + constructor; constructor.
    + split; [|exact G2]. intros b x Hx. rewrite G1 by exact Hx. rewrite sumn_cons. cbn [fst snd]. rewrite C1. cbn. lia.
  - apply obind_some in Ep as (ds & Ed & Ep). injection Ep as <-.
    assert (Hnc : isconvex P d = false) by (destruct (isconvex P d) eqn:E; [|reflexivity]; unfold d1 in Ec; congruence).
    destruct (pieces_spec P Se L fuel) as [Hp _]. destruct (Hp _ _ Ed) as [HF Hy]. rewrite Forall_forall in HF.
    assert (Hst : st = None). { destruct blk as [b|]; [apply Ho|]. apply ok1_node in Ho as [[Ho|Ho] _]; [congruence|apply Ho]. }
    subst st.
    assert (Hin : forall x y, In x ds -> mem x y = true -> mem d y = true).
    { intros x y Hx Hxy. rewrite <- M1. specialize (Hy y). pose proof (sumn_le (fun d => Nat.b2n (mem d y)) ds x Hx) as Hle. cbn in Hle. rewrite Hxy in Hle. cbn in Hle.
      unfold dcov in Hy. destruct (mem d1 y); [reflexivity|]. cbn in Hy. lia. }
    assert (Hcd : forall x b y, In x ds -> 0 < cnt (Loop x false None blk inner) b y -> 0 < cnt (Loop d otl None blk inner) b y /\ mem x (firstn (dim d) y) = true /\ mem d (firstn (dim d) y) = true).
    { intros x b y Hx Hc. destruct (HF x Hx) as [Hdx _]. rewrite D1 in Hdx. cbn [LoopSpec.cnt] in *. rewrite inn_none in *. rewrite Hdx in Hc.
      destruct (mem x (firstn (dim d) y)) eqn:E; [|cbn in Hc; lia]. rewrite (Hin x _ Hx E). auto. }
    destruct (parts_list blk inner IH n A fuel ctx (map (fun x => (x, false, None)) ds) rs) as [G1 G2]; auto.
    + rewrite Forall_map, Forall_forall. cbn [fst snd]. intros x Hx. destruct (HF x Hx) as [Hdx Hcx]. split; [|lia].
      eapply dom_change with (d1 := d) (o1 := otl); [lia| |auto|exact Ho]. intros y. apply Hin; exact Hx.
    + apply FOP_map. cbn [fst snd]. apply FOP_nth. intros i j a c Hij Ha Hc HO b y b' y' E1 E2 A1 A2 Hag HR.
      pose proof (nth_error_In _ _ Ha) as Hia. pose proof (nth_error_In _ _ Hc) as Hic.
      destruct (Hcd a b y Hia E1) as (F1 & F2 & F3). destruct (Hcd c b' y' Hic E2) as (F1' & F2' & F3').
      destruct blk as [b0|].
      * destruct Ho as (H1 & _ & _). cbn [LoopSpec.cnt] in F1, F1'.
        destruct (inn d None y); [|cbn in F1; lia]. destruct (inn d None y'); [|cbn in F1'; lia].
        destruct (block_eq_dec b0 b) as [<-|]; [|cbn in F1; lia]. destruct (block_eq_dec b0 b') as [<-|]; [|cbn in F1'; lia].
        destruct (Nat.eqb_spec (length y) (dim d)) as [Ly|]; [|cbn in F1; lia]. destruct (Nat.eqb_spec (length y') (dim d)) as [Ly'|]; [|cbn in F1'; lia].
        unfold agree in Hag. rewrite <- H1 in Hag. rewrite <- Ly in Hag at 1. rewrite <- Ly' in Hag. rewrite !firstn_all in Hag. subst y'. exact (Rirr _ _ HR).
      * apply ok1_node in Ho as [[Ho|[_ Ho]] _]; [congruence|]. rewrite cnt_node in F1, F1'.
        assert (I1 : inn d None y = true) by (rewrite inn_none; exact F3). assert (I2 : inn d None y' = true) by (rewrite inn_none; exact F3').
        rewrite I1 in F1. rewrite I2 in F1'. cbn in F1, F1'.
        refine (Ho HO b y b' y' _ _ _ _ Hag HR); try lia; split; assumption.
    + split; [|exact G2]. intros b x Hx. rewrite G1 by exact Hx. rewrite sumn_map. cbn [fst snd]. cbn [LoopSpec.cnt].
      specialize (Hy (firstn (dim d) x)). rewrite M1 in Hy. rewrite inn_none.
      set (k := if mem d (firstn (dim d) x) then _ else _).
      assert (E : forall ds', (forall a, In a ds' -> dim a = dim d) -> forall z,
         sumn (fun x0 => Nat.b2n (inn x0 None x) * z) ds' = dcov P Se ds' (firstn (dim d) x) * z).
      { induction ds' as [|a ds' IHd]; intros Ha z; [reflexivity|]. rewrite sumn_cons, dcov_cons, IHd by (intros; apply Ha; right; assumption).
        rewrite inn_none, (Ha a) by (left; reflexivity). lia. }
      destruct blk as [b0|].
      * unfold k. transitivity (sumn (fun x0 => Nat.b2n (inn x0 None x) * (if block_eq_dec b0 b then Nat.b2n (length x =? dim d) else 0)) ds).
        -- apply sumn_ext. intros a Ha. destruct (HF a Ha) as [Da _]. rewrite Da, D1. destruct (inn a None x); cbn [Nat.b2n]; [destruct (block_eq_dec b0 b); destruct (length x =? dim d); cbn; lia|lia].
        -- rewrite E by (intros a Ha; destruct (HF a Ha); lia). rewrite Hy. destruct (mem d (firstn (dim d) x)); cbn [Nat.b2n]; destruct (block_eq_dec b0 b); destruct (length x =? dim d); cbn; lia.
      * unfold k. transitivity (sumn (fun x0 => Nat.b2n (inn x0 None x) * cnts inner b x) ds).
        -- apply sumn_ext. intros a Ha. destruct (inn a None x); cbn [Nat.b2n]; unfold LoopSpec.cnts, sumn; lia.
        -- rewrite E by (intros a Ha; destruct (HF a Ha); lia). rewrite Hy. destruct (mem d (firstn (dim d) x)); cbn [Nat.b2n]; unfold LoopSpec.cnts, sumn; lia.
Qed.

Theorem simplify_spec n A fuel ctx ls rs : okl n A ls -> dim ctx <= n -> simplify P fuel ctx ls = Some rs ->
  (forall b x, inn ctx None x = true -> cnts rs b x = cnts ls b x) /\ okl' n (andp A ctx None) rs.
Proof.
  intros Ho Hd H. apply (simplify_list ls) with (fuel := fuel); auto.
  - rewrite Forall_forall. intros l _. apply simplify1_spec.
  - destruct Ho as [Ho _]. eapply Forall_impl; [|exact Ho]. cbn. intros l Hl. apply ok1_dims in Hl. lia.
Qed.
End Simplify.
