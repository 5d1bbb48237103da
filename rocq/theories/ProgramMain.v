(** The front end and the generator together: which statement runs when. *)
From Coq Require Import ZArith List Bool Arith Lia Sorting.Sorted.
From Verif Require Import LoopModel LoopSpec LoopKeys ProgramModel ProgramSpec ProgramScalars ProgramBlock ProgramLoopBlock.
Import ListNotations.
Local Open Scope nat_scope.
Local Arguments Nat.ltb : simpl never.
Local Arguments Nat.leb : simpl never.
Local Arguments Nat.eqb : simpl never.
Local Arguments Nat.sub : simpl never.

(** * Positions in concatenated lists *)
Definition off {A B} (f : A -> list B) (xs : list A) (a : nat) : nat := length (flat_map f (firstn a xs)).
Lemma off_0 : forall {A B} (f : A -> list B) xs, off f xs 0 = 0. Proof. reflexivity. Qed.
Lemma off_S : forall {A B} (f : A -> list B) x xs a, off f (x :: xs) (Datatypes.S a) = length (f x) + off f xs a.
Proof. intros. unfold off. cbn. rewrite app_length. reflexivity. Qed.
Lemma flat_map_at : forall {A B} (f : A -> list B) xs a x j y, nth_error xs a = Some x -> nth_error (f x) j = Some y ->
  nth_error (flat_map f xs) (off f xs a + j) = Some y.
Proof.
  intros A B f. induction xs as [|z xs IH]; intros [|a] x j y Ha Hj; try discriminate; cbn [nth_error flat_map] in *.
  - injection Ha as ->. rewrite off_0. cbn. rewrite nth_error_app1; [exact Hj|]. apply nth_error_Some. congruence.
  - rewrite off_S. rewrite nth_error_app2 by lia. replace (length (f z) + off f xs a + j - length (f z)) with (off f xs a + j) by lia. eauto.
Qed.
Lemma flat_map_find : forall {A B} (f : A -> list B) xs n y, nth_error (flat_map f xs) n = Some y ->
  exists a x j, nth_error xs a = Some x /\ nth_error (f x) j = Some y /\ n = off f xs a + j.
Proof.
  intros A B f. induction xs as [|z xs IH]; intros n y H; cbn [flat_map] in H.
  - destruct n; discriminate.
  - destruct (Nat.lt_ge_cases n (length (f z))) as [Hl|Hl].
    + rewrite nth_error_app1 in H by lia. exists 0, z, n. rewrite off_0. auto.
    + rewrite nth_error_app2 in H by lia. destruct (IH _ _ H) as (a & x & j & H1 & H2 & H3).
      exists (Datatypes.S a), x, j. rewrite off_S. split; [exact H1|]. split; [exact H2|]. lia.
Qed.
Lemma off_mono : forall {A B} (f : A -> list B) xs a a' x, nth_error xs a = Some x -> a < a' ->
  off f xs a + length (f x) <= off f xs a'.
Proof.
  intros A B f. induction xs as [|z xs IH]; intros [|a] [|a'] x Ha Hl; try discriminate; try lia; cbn [nth_error] in *.
  - injection Ha as ->. rewrite off_S, off_0. lia.
  - rewrite !off_S. specialize (IH a a' x Ha ltac:(lia)). lia.
Qed.
Lemma off_lt : forall {A B} (f : A -> list B) xs a x j a' x' j', nth_error xs a = Some x -> nth_error xs a' = Some x' ->
  j < length (f x) -> j' < length (f x') -> (off f xs a + j < off f xs a' + j' <-> a < a' \/ (a = a' /\ j < j')).
Proof.
  intros A B f xs a x j a' x' j' Ha Ha' Hj Hj'. split.
  - intros H. destruct (Nat.lt_trichotomy a a') as [|[->|Hgt]]; [left; assumption|right; split; [reflexivity|lia]|].
    pose proof (off_mono f xs a' a x' Ha' Hgt). lia.
  - intros [H|[-> H]]; [|lia]. pose proof (off_mono f xs a a' x Ha H). lia.
Qed.
Lemma nodup_at : forall {A B} (f : A -> list B) xs a x j a' x' j' y, NoDup (flat_map f xs) ->
  nth_error xs a = Some x -> nth_error xs a' = Some x' -> nth_error (f x) j = Some y -> nth_error (f x') j' = Some y ->
  a = a' /\ j = j'.
Proof.
  intros A B f xs a x j a' x' j' y Hn Ha Ha' Hj Hj'.
  pose proof (flat_map_at f xs a x j y Ha Hj) as H1. pose proof (flat_map_at f xs a' x' j' y Ha' Hj') as H2.
  assert (E : off f xs a + j = off f xs a' + j').
  { eapply NoDup_nth_error; [exact Hn|apply nth_error_Some; congruence|congruence]. }
  assert (Lj : j < length (f x)) by (apply nth_error_Some; congruence).
  assert (Lj' : j' < length (f x')) by (apply nth_error_Some; congruence).
  destruct (Nat.lt_trichotomy a a') as [H|[->|H]].
  - pose proof (off_mono f xs a a' x Ha H). lia.
  - split; [reflexivity|lia].
  - pose proof (off_mono f xs a' a x' Ha' H). lia.
Qed.
Lemma flat_map_flat_map : forall {A B D} (f : A -> list B) (g : B -> list D) xs,
  flat_map g (flat_map f xs) = flat_map (fun x => flat_map g (f x)) xs.
Proof. induction xs as [|x xs IH]; cbn; [reflexivity|]. rewrite flat_map_app, IH. reflexivity. Qed.
Lemma flat_map_map : forall {A B D} (f : A -> B) (g : B -> list D) xs, flat_map g (map f xs) = flat_map (fun x => g (f x)) xs.
Proof. induction xs as [|x xs IH]; cbn; [reflexivity|]. now rewrite IH. Qed.
Lemma map_flat_map : forall {A B D} (f : A -> list B) (g : B -> D) xs, map g (flat_map f xs) = flat_map (fun x => map g (f x)) xs.
Proof. induction xs as [|x xs IH]; cbn; [reflexivity|]. rewrite map_app, IH. reflexivity. Qed.
Lemma fop_nth : forall {A} (R : A -> A -> Prop) xs,
  ForallOrdPairs R xs <-> forall a a' x x', a < a' -> nth_error xs a = Some x -> nth_error xs a' = Some x' -> R x x'.
Proof.
  intros A R xs. split.
  - induction 1 as [|z xs H1 H2 IH]; intros [|a] [|a'] x x' Hl Ha Ha'; try discriminate; try lia; cbn in *.
    + injection Ha as ->. rewrite Forall_forall in H1. apply H1. eapply nth_error_In; eauto.
    + eapply (IH a a'); eauto. lia.
  - induction xs as [|z xs IH]; intros H; [constructor|]. constructor.
    + apply Forall_forall. intros y Hy. apply In_nth_error in Hy. destruct Hy as [n Hn]. apply (H 0 (Datatypes.S n)); [lia|reflexivity|exact Hn].
    + apply IH. intros a a' x x' Hl Ha Ha'. apply (H (Datatypes.S a) (Datatypes.S a')); [lia|exact Ha|exact Ha'].
Qed.

Section S.
Variable P : Poly.
Variable S : Sem P.
Variable C : Scat P.
Variable rel : ScatSem C.
Hypothesis L : Laws P S.
Hypothesis CL : ScatLaws P S C rel.
Notation gblock := (gblock P C). Notation item := (item P C).

Lemma number_at : forall (input : list (dom P * smap C)) k n,
  nth_error (number P C k input) n = option_map (fun x => (Datatypes.S (k + n), fst x, snd x)) (nth_error input n).
Proof.
  induction input as [|[d s] r IH]; intros k [|n]; cbn; try reflexivity.
  - rewrite Nat.add_0_r. reflexivity.
  - rewrite IH. replace (k + Datatypes.S n) with (Datatypes.S k + n) by lia. reflexivity.
Qed.

Definition singletons (G : list (ploop P * list (ploop P))) : Prop := forall g, In g G -> snd g = [].
Lemma single_groups : forall sd ls, exists G, ls = map (whole P) G /\ ls = flat P G /\ groups_ok P sd [] G /\ singletons G.
Proof.
  intros sd ls. exists (map (fun l => (l, [])) ls).
  assert (Hs : singletons (map (fun l => (l, [])) ls)).
  { intros g Hg. apply in_map_iff in Hg. destruct Hg as (l & <- & _). reflexivity. }
  split; [rewrite map_map; symmetry; apply map_id|]. split; [|split; [|exact Hs]].
  - unfold flat. rewrite flat_map_map. cbn. induction ls; cbn; [reflexivity|]. f_equal. apply IHls. intros g Hg. apply Hs. right. exact Hg.
  - intros G1 g G2 E Hne. exfalso. apply Hne. apply Hs. rewrite E. apply in_or_app. right. left. reflexivity.
Qed.

Lemma scatter_scals : forall n ls ss out, scatter_rest P C n ls ss = Some out -> map (pl_scal P) out = map (pl_scal P) ls.
Proof.
  induction ls as [|l ls IH]; intros [|s ss] out H; cbn in H; try (injection H as <-; reflexivity).
  destruct (s_dim C s =? n); [|discriminate]. destruct (scatter_rest P C n ls ss) eqn:E; [|discriminate].
  injection H as <-. cbn. f_equal. eauto.
Qed.
Lemma program_scatter_scals : forall ls ss out, program_scatter P C ls ss = Some out -> map (pl_scal P) out = map (pl_scal P) ls.
Proof.
  intros ls [|s ss] out H; cbn in H; [injection H as <-; reflexivity|].
  destruct ls; [discriminate|]. eapply scatter_scals; eauto.
Qed.
Lemma loop_block_none : forall sd ls, ls <> [] -> Forall (fun l => pl_scal P l = None) ls -> loop_block P sd ls = Some ls.
Proof.
  intros sd [|l [|l' r]] Hne H; [congruence|reflexivity|]. unfold loop_block. inversion H as [|? ? Hl _]; subst.
  cbn [increasing]. rewrite Hl. reflexivity.
Qed.

(** What cloog_program_alloc returns. *)
Record shape (ao : alloc_options) (input : list (dom P * smap C)) (sd : list nat) (ls : list (ploop P))
    (Bs : list gblock) (kinds : list bool) (G : list (ploop P * list (ploop P))) : Prop := {
  sh_inv : Forall (ginv P S C rel) Bs;
  sh_mem : members P C Bs = number P C 0 input;
  sh_iso : iso_all P S C rel Bs [];
  sh_sd : sd = run_lengths kinds;
  sh_kinds : kinds = (if a_noscalars ao then repeat false (length kinds) else scalar_dims P C (length kinds) (map (g_map P C) Bs));
  sh_dates : same_dates_all P S C rel kinds (map (gloop P C) Bs) (map (g_map P C) Bs) (flat P G);
  sh_ls : ls = map (whole P) G;
  sh_ok : groups_ok P sd [] G;
  sh_sorted : singletons G \/ StronglySorted (lle P) (flat P G);
  sh_single : a_noblocks ao = true \/ a_noscalars ao = true -> singletons G
}.

Lemma alloc_shape : forall ao input sd ls, dated S rel input -> input <> [] ->
  program_alloc P C ao (all_scattered input) = Some (sd, ls) ->
  exists Bs kinds G, shape ao input sd ls Bs kinds G.
Proof.
  intros ao input sd ls Hd Hne H. unfold program_alloc in H.
  assert (E1 : map fst (all_scattered input) = map fst input) by (unfold all_scattered; rewrite map_map; reflexivity).
  assert (E2 : flat_map (fun x : dom P * option (smap C) => match snd x with Some s => [s] | None => [] end) (all_scattered input) = map snd input).
  { unfold all_scattered. rewrite flat_map_map. cbn. clear. induction input as [|x r IH]; cbn; [reflexivity|]. now rewrite IH. }
  rewrite E1, E2, number_loops, <- (number_maps P C input 0) in H. set (items := number P C 0 input) in *.
  assert (Hdt : Forall (dated1 P S C rel) items).
  { apply Forall_forall. intros x Hx. apply number_nth in Hx. destruct Hx as (j & d & s & Hj & ->).
    apply (Hd d s). eapply nth_error_In; eauto. }
  destruct (map (i_map P C) items) as [|s0 r0] eqn:Es.
  { exfalso. destruct input as [|[] ?]; [congruence|discriminate]. }
  rewrite <- Es in H.
  destruct (if a_noblocks ao then Some (map (iloop P C) items, map (i_map P C) items)
            else program_block P C (map (iloop P C) items) (map (i_map P C) items)) as [[ls1 ss1]|] eqn:Eb; [|discriminate].
  destruct (block_result P S C rel L CL _ _ _ _ Hdt Eb) as (Bs & -> & -> & Hg & Hm & Hi).
  assert (Hhd : match map (g_map P C) Bs with s :: _ => s_dim C s | [] => 0 end = s_dim C s0 /\ map (g_map P C) Bs <> []).
  { destruct Bs as [|B Bs']; [exfalso; rewrite <- Hm in Es; discriminate|]. cbn. split; [|discriminate].
    inversion Hg as [|? ? HB _]; subst. destruct (gi_head _ _ _ _ _ HB) as (x & ms & Ex & _ & Ed).
    rewrite Ed. unfold members in Hm. cbn in Hm. rewrite Ex in Hm. cbn in Hm. rewrite <- Hm in Es. cbn in Es. injection Es as -> _. reflexivity. }
  destruct Hhd as [Hhd Hne'].
  match type of H with (match ?X with _ => _ end) = _ => destruct X as [[[sd' ls2] ss2]|] eqn:Ee; [|discriminate] end.
  destruct (program_scatter P C ls2 ss2) as [ls3|] eqn:Ep; [|discriminate].
  assert (Hnone : Forall (fun l => pl_scal P l = None) (map (gloop P C) Bs)).
  { apply Forall_forall. intros l Hl. apply in_map_iff in Hl. destruct Hl as (B & <- & _). reflexivity. }
  destruct (extract_scatter P S C rel CL (a_noscalars ao) (s_dim C s0) (map (gloop P C) Bs) (map (g_map P C) Bs) sd' ls2 ss2 ls3)
    as (kinds & -> & Hk & Hsd); auto.
  { rewrite !map_length. reflexivity. }
  assert (Hlen : length kinds = s_dim C s0).
  { rewrite Hk. destruct (a_noscalars ao); [apply repeat_length|apply scalar_dims_length]. }
  match type of H with (match ?X with _ => _ end) = _ => destruct X as [ls4|] eqn:El; [|discriminate] end.
  injection H as <- <-.
  assert (Hcase : exists G, ls4 = map (whole P) G /\ ls3 = flat P G /\ groups_ok P (run_lengths kinds) [] G /\
    (singletons G \/ StronglySorted (lle P) (flat P G)) /\ (a_noblocks ao = true \/ a_noscalars ao = true -> singletons G)).
  { destruct (a_noblocks ao) eqn:Enb.
    - injection El as <-. destruct (single_groups (run_lengths kinds) ls3) as (G & Q1 & Q2 & Q3 & Q4). exists G. auto 10.
    - destruct (a_noscalars ao) eqn:Ens.
      + injection Ee as _ <- <-.
        assert (Hn3 : Forall (fun l => pl_scal P l = None) ls3).
        { pose proof (program_scatter_scals _ _ _ Ep) as Q. rewrite Forall_forall in Hnone |- *. intros l Hl.
          apply (in_map (pl_scal P)) in Hl. rewrite Q in Hl. apply in_map_iff in Hl. destruct Hl as (l' & <- & Hl'). auto. }
        assert (Hn0 : ls3 <> []). { intros ->. inversion Hsd as [Q|]. destruct Bs; [|discriminate]. apply Hne'. reflexivity. }
        rewrite (loop_block_none _ _ Hn0 Hn3) in El. injection El as <-.
        destruct (single_groups (run_lengths kinds) ls3) as (G & Q1 & Q2 & Q3 & Q4). exists G. auto 10.
      + destruct (loop_block_groups P false _ _ _ El) as (G & Q1 & Q2 & Q3 & Q4). exists G. rewrite Q2 in Q4.
        split; [exact Q1|]. split; [exact Q2|]. split; [exact Q3|]. split; [exact Q4|]. intros [|]; discriminate. }
  destruct Hcase as (G & Q1 & Q2 & Q3 & Q4 & Q5). exists Bs, kinds, G.
  constructor; auto.
  - rewrite Hlen. exact Hk.
  - rewrite <- Q2. exact Hsd.
Qed.

Lemma same_dates_nth : forall kinds Bs ls, same_dates_all P S C rel kinds (map (gloop P C) Bs) (map (g_map P C) Bs) ls ->
  length Bs = length ls /\ forall n B l, nth_error Bs n = Some B -> nth_error ls n = Some l -> same_dates P S C rel kinds (gloop P C B) (g_map P C B) l.
Proof.
  induction Bs as [|B Bs IH]; intros ls H; cbn in H; inversion H; subst.
  - split; [reflexivity|]. intros [|]; discriminate.
  - destruct (IH _ ltac:(eassumption)) as [Q1 Q2]. split; [cbn; lia|]. intros [|n] B0 l0 E1 E2; cbn in *.
    + injection E1 as <-. injection E2 as <-. assumption.
    + eauto.
Qed.

Section Shape.
Variable ao : alloc_options.
Variable input : list (dom P * smap C).
Variable sd : list nat.
Variable ls : list (ploop P).
Variable Bs : list gblock.
Variable kinds : list bool.
Variable G : list (ploop P * list (ploop P)).
Hypothesis H : shape ao input sd ls Bs kinds G.
Notation ns := (nonscalar kinds).
Notation grp := (fun g : ploop P * list (ploop P) => fst g :: snd g).

Lemma stmts_whole : forall g, pl_stmts P (whole P g) = flat_map (pl_stmts P) (fst g :: snd g).
Proof. intros [b t]. unfold whole. cbn. apply whole_dom. Qed.
Lemma stmts_members : map (pl_stmts P) (flat P G) = map (pl_stmts P) (map (gloop P C) Bs).
Proof.
  assert (Q : forall a b c, same_dates_all P S C rel kinds a b c -> map (pl_stmts P) c = map (pl_stmts P) a).
  { intros a b c HS. induction HS as [|l s l' a' b' c' H1 H2 IH]; cbn; [reflexivity|]. destruct H1 as [-> _]. now rewrite IH. }
  eapply Q. apply (sh_dates _ _ _ _ _ _ _ H).
Qed.
Lemma all_stmts : flat_map (pl_stmts P) ls = seq 1 (length input).
Proof.
  rewrite (sh_ls _ _ _ _ _ _ _ H), flat_map_map.
  transitivity (flat_map (pl_stmts P) (flat P G)).
  { unfold flat. rewrite flat_map_flat_map. apply flat_map_ext. intros g. apply stmts_whole. }
  rewrite !flat_map_concat_map, stmts_members, <- flat_map_concat_map, flat_map_map. cbn.
  rewrite <- (number_nums P C input 0), <- (sh_mem _ _ _ _ _ _ _ H). unfold members. rewrite map_flat_map.
  apply flat_map_ext. intros B. rewrite map_map. reflexivity.
Qed.

(** Where statement [k] is: in group [a], loop [j] of it, member [c] of its block. *)
Record placed (k : nat) (d : dom P) (s : smap C) (a : nat) (g : ploop P * list (ploop P)) (j : nat) (l : ploop P) (B : gblock) (c : nat) (z : Z) : Prop := {
  pc_g : nth_error G a = Some g;
  pc_l : nth_error (grp g) j = Some l;
  pc_B : nth_error Bs (off grp G a + j) = Some B;
  pc_same : same_dates P S C rel kinds (gloop P C B) (g_map P C B) l;
  pc_m : nth_error (g_mem P C B) c = Some (Datatypes.S k, d, s, z);
  pc_k : k = off (fun B => map fst (g_mem P C B)) Bs (off grp G a + j) + c
}.
Lemma flat_find : forall n B, nth_error Bs n = Some B -> exists a g j l, nth_error G a = Some g /\ nth_error (grp g) j = Some l /\
  n = off grp G a + j /\ same_dates P S C rel kinds (gloop P C B) (g_map P C B) l.
Proof.
  intros n B Hn. destruct (same_dates_nth _ _ _ (sh_dates _ _ _ _ _ _ _ H)) as [Q1 Q2].
  destruct (nth_error (flat P G) n) as [l|] eqn:El.
  - pose proof El as El'. apply flat_map_find in El'. destruct El' as (a & g & j & E1 & E2 & E3). exists a, g, j, l.
    split; [exact E1|]. split; [exact E2|]. split; [exact E3|]. eapply Q2; eauto.
  - exfalso. apply nth_error_None in El. assert (n < length Bs) by (apply nth_error_Some; congruence). lia.
Qed.
Lemma find_placed : forall k d s, nth_error input k = Some (d, s) -> exists a g j l B c z, placed k d s a g j l B c z.
Proof.
  intros k d s Hk. assert (Hn : nth_error (members P C Bs) k = Some (Datatypes.S k, d, s)).
  { rewrite (sh_mem _ _ _ _ _ _ _ H), number_at, Hk. reflexivity. }
  apply flat_map_find in Hn. destruct Hn as (n & B & c & E1 & E2 & E3).
  destruct (nth_error (g_mem P C B) c) as [[[[k' d'] s'] z]|] eqn:Ec; [|rewrite nth_error_map, Ec in E2; discriminate].
  rewrite nth_error_map, Ec in E2. cbn in E2. injection E2 as -> -> ->.
  destruct (flat_find _ _ E1) as (a & g & j & l & F1 & F2 & -> & F4).
  exists a, g, j, l, B, c, z. constructor; assumption.
Qed.
Definition pos (g : ploop P * list (ploop P)) (j c : nat) : nat := off (pl_stmts P) (grp g) j + c.
Lemma placed_stmt : forall k d s a g j l B c z, placed k d s a g j l B c z ->
  nth_error ls a = Some (whole P g) /\ nth_error (pl_stmts P (whole P g)) (pos g j c) = Some (Datatypes.S k).
Proof.
  intros k d s a g j l B c z [Q1 Q2 Q3 Q4 Q5 _]. split.
  - rewrite (sh_ls _ _ _ _ _ _ _ H), nth_error_map, Q1. reflexivity.
  - rewrite stmts_whole. eapply flat_map_at; [exact Q2|]. destruct Q4 as [-> _]. cbn. rewrite nth_error_map, Q5. reflexivity.
Qed.
Lemma placed_unique : forall k d s a g j l B c z a' w n, placed k d s a g j l B c z ->
  nth_error ls a' = Some w -> nth_error (pl_stmts P w) n = Some (Datatypes.S k) -> a' = a /\ w = whole P g /\ n = pos g j c.
Proof.
  intros k d s a g j l B c z a' w n Hp Ha Hn. destruct (placed_stmt _ _ _ _ _ _ _ _ _ _ Hp) as [Q1 Q2].
  destruct (nodup_at (pl_stmts P) ls a' w n a (whole P g) (pos g j c) (Datatypes.S k)) as [-> ->]; auto.
  - rewrite all_stmts. apply seq_NoDup.
  - split; [reflexivity|]. split; [congruence|reflexivity].
Qed.
Lemma whole_mem : forall g x, In x (grp g) -> In g G -> (forall p, mem S (pl_dom P (whole P g)) p = mem S (pl_dom P x) p) /\ dim P (pl_dom P (whole P g)) = dim P (pl_dom P x).
Proof.
  intros g x Hx Hg. unfold whole. destruct (whole_dom P (snd g) (fst g)) as [-> _].
  destruct Hx as [<-|Hx]; [auto|]. apply in_split in Hg. destruct Hg as (G1 & G2 & E).
  destruct (sh_ok _ _ _ _ _ _ _ H G1 g G2 E) as [Q _]; [intros E'; rewrite E' in Hx; destruct Hx|].
  destruct (Q x Hx) as [_ Q2]. destruct (L_lazy_equal P S L _ _ Q2). auto.
Qed.

(** the members of a block and the dates *)
Lemma placed_member : forall k d s a g j l B c z, placed k d s a g j l B c z -> member_ok P S C rel B (Datatypes.S k, d, s, z).
Proof.
  intros k d s a g j l B c z [Q1 Q2 Q3 Q4 Q5 _]. pose proof (sh_inv _ _ _ _ _ _ _ H) as Hi. rewrite Forall_forall in Hi.
  pose proof (gi_mem _ _ _ _ _ (Hi B (nth_error_In _ _ Q3))) as Hm. rewrite Forall_forall in Hm. apply Hm. eapply nth_error_In; eauto.
Qed.
Lemma placed_mem : forall k d s a g j l B c z, placed k d s a g j l B c z -> forall u i, length u = ns ->
  mem S (pl_dom P (whole P g)) (u ++ i) = rel (g_map P C B) (date kinds (scals P l) u) i && mem S (g_dom P C B) i.
Proof.
  intros k d s a g j l B c z [Q1 Q2 Q3 Q4 Q5 _] u i Hu.
  destruct (whole_mem g l (nth_error_In _ _ Q2) (nth_error_In _ _ Q1)) as [-> _].
  destruct Q4 as (_ & _ & _ & _ & Q & _). apply Q. exact Hu.
Qed.
(** one value of the scanned dimensions for each iteration *)
Lemma placed_some : forall k d s a g j l B c z, placed k d s a g j l B c z -> forall i, mem S d i = true ->
  exists u, length u = ns /\ mem S (pl_dom P (whole P g)) (u ++ i) = true.
Proof.
  intros k d s a g j l B c z Hp i Hi. pose proof (placed_member _ _ _ _ _ _ _ _ _ _ Hp) as (_ & [D1 D2] & M3 & _). cbn in *.
  destruct (D1 i Hi) as [t Ht]. destruct (M3 i t) as (t0 & [A1 A2] & _); [split; assumption|].
  pose proof (pc_same _ _ _ _ _ _ _ _ _ _ Hp) as (_ & _ & _ & _ & _ & Q). destruct (Q t0 i A2) as (u & Hu & ->).
  exists u. split; [exact Hu|]. rewrite (placed_mem _ _ _ _ _ _ _ _ _ _ Hp) by exact Hu. cbn in *. rewrite A1, A2. reflexivity.
Qed.
Lemma placed_at : forall k d s a g j l B c z, placed k d s a g j l B c z -> forall u i, length u = ns ->
  mem S (pl_dom P (whole P g)) (u ++ i) = true ->
  at_ P S C rel (g_dom P C B) (g_map P C B) (date kinds (scals P l) u) i /\
  mem S d i = true /\ rel s (bump z (date kinds (scals P l) u)) i = true.
Proof.
  intros k d s a g j l B c z Hp u i Hu Hm. rewrite (placed_mem _ _ _ _ _ _ _ _ _ _ Hp) in Hm by exact Hu.
  apply andb_true_iff in Hm. destruct Hm as [Q1 Q2]. pose proof (placed_member _ _ _ _ _ _ _ _ _ _ Hp) as (_ & _ & _ & M4).
  split; [split; assumption|]. apply (M4 i). split; assumption.
Qed.
Lemma placed_one : forall k d s a g j l B c z, placed k d s a g j l B c z -> forall u u' i, length u = ns -> length u' = ns ->
  mem S (pl_dom P (whole P g)) (u ++ i) = true -> mem S (pl_dom P (whole P g)) (u' ++ i) = true -> u = u'.
Proof.
  intros k d s a g j l B c z Hp u u' i Hu Hu' Hm Hm'.
  destruct (placed_at _ _ _ _ _ _ _ _ _ _ Hp u i Hu Hm) as (_ & A1 & A2).
  destruct (placed_at _ _ _ _ _ _ _ _ _ _ Hp u' i Hu' Hm') as (_ & B1 & B2).
  pose proof (placed_member _ _ _ _ _ _ _ _ _ _ Hp) as (_ & [_ D2] & _ & _). cbn in D2.
  pose proof (D2 _ _ _ A1 A2 B2) as E. apply bump_inj in E. eapply date_inj; eauto.
Qed.

(** * What the generator is given *)
Lemma shape_statement_loops : statement_loops P kinds (map (to_loop P) ls).
Proof.
  unfold statement_loops. apply Forall_forall. intros x Hx. apply in_map_iff in Hx. destruct Hx as (w & <- & Hw).
  unfold to_loop. eexists _, _, _. split; [reflexivity|].
  rewrite (sh_ls _ _ _ _ _ _ _ H) in Hw. apply in_map_iff in Hw. destruct Hw as (g & <- & Hg).
  assert (Hf : In (fst g) (flat P G)) by (apply in_flat_map; exists g; split; [exact Hg|left; reflexivity]).
  destruct (whole_mem g (fst g) (or_introl eq_refl) Hg) as [_ ->].
  apply In_nth_error in Hf. destruct Hf as [n Hn].
  destruct (same_dates_nth _ _ _ (sh_dates _ _ _ _ _ _ _ H)) as [Q1 Q2].
  destruct (nth_error Bs n) as [B|] eqn:EB.
  - destruct (Q2 n B (fst g) EB Hn) as (_ & _ & -> & _). lia.
  - apply nth_error_None in EB. assert (n < length (flat P G)) by (apply nth_error_Some; congruence). lia.
Qed.
Lemma shape_depth_order : flat_last input -> depth_order P kinds (map (to_loop P) ls).
Proof.
  intros Hf _. apply fop_nth. intros a a' x x' Hlt Ha Ha' _. unfold flat_last in Hf. rewrite fop_nth in Hf.
  rewrite (sh_ls _ _ _ _ _ _ _ H), map_map, nth_error_map in Ha, Ha'.
  destruct (nth_error G a) as [g|] eqn:Eg; [|discriminate]. destruct (nth_error G a') as [g'|] eqn:Eg'; [|discriminate].
  cbn in Ha, Ha'. injection Ha as <-. injection Ha' as <-. cbn.
  destruct (same_dates_nth _ _ _ (sh_dates _ _ _ _ _ _ _ H)) as [Q1 Q2].
  assert (Hfirst : forall b h, nth_error G b = Some h -> exists d s n B, nth_error Bs (off grp G b) = Some B /\
     dim P (pl_dom P (whole P h)) = ns + dim P d /\ nth_error input n = Some (d, s) /\ n = off (fun B => map fst (g_mem P C B)) Bs (off grp G b) /\ 0 < length (g_mem P C B)).
  { intros b h Hb. pose proof (flat_map_at grp G b h 0 (fst h) Hb eq_refl) as Hl. rewrite Nat.add_0_r in Hl.
    destruct (nth_error Bs (off grp G b)) as [B|] eqn:EB.
    2:{ apply nth_error_None in EB. assert (off grp G b < length (flat P G)) by (apply nth_error_Some; unfold flat; congruence). lia. }
    pose proof (sh_inv _ _ _ _ _ _ _ H) as Hi. rewrite Forall_forall in Hi.
    destruct (gi_head _ _ _ _ _ (Hi B (nth_error_In _ _ EB))) as ([[n d] s] & ms & Em & Ed & _). cbn in Ed.
    assert (Hn : nth_error (members P C Bs) (off (fun B => map fst (g_mem P C B)) Bs (off grp G b) + 0) = Some (n, d, s)).
    { eapply (flat_map_at (fun B => map fst (g_mem P C B))); [exact EB|]. rewrite Em. reflexivity. }
    rewrite Nat.add_0_r, (sh_mem _ _ _ _ _ _ _ H), number_at in Hn.
    destruct (nth_error input (off (fun B => map fst (g_mem P C B)) Bs (off grp G b))) as [[d' s']|] eqn:Ei; [|discriminate].
    cbn in Hn. injection Hn as _ -> ->. exists d, s, (off (fun B => map fst (g_mem P C B)) Bs (off grp G b)), B.
    split; [reflexivity|]. split; [|split; [exact Ei|split; [reflexivity|rewrite Em; cbn; lia]]].
    destruct (whole_mem h (fst h) (or_introl eq_refl) (nth_error_In _ _ Hb)) as [_ ->].
    destruct (Q2 _ B (fst h) EB Hl) as (_ & _ & -> & _). cbn. rewrite Ed. reflexivity. }
  destruct (Hfirst a g Eg) as (d & s & n & B & F1 & F2 & F3 & F4 & F5).
  destruct (Hfirst a' g' Eg') as (d' & s' & n' & B' & F1' & F2' & F3' & F4' & F5').
  rewrite F2, F2'. intros Hd. assert (Hnn : n < n').
  { rewrite F4, F4'. assert (Ho : off grp G a < off grp G a').
    { pose proof (off_mono grp G a a' g Eg Hlt) as Q. cbn in Q. lia. }
    pose proof (off_mono (fun B => map fst (g_mem P C B)) Bs _ _ B F1 Ho) as Q. cbn beta in Q. rewrite map_length in Q. lia. }
  specialize (Hf n n' _ _ Hnn F3 F3'). cbn in Hf. lia.
Qed.
Lemma shape_scanned : scanned sd = ns.
Proof. rewrite (sh_sd _ _ _ _ _ _ _ H). apply scanned_runs. Qed.

(** * Execution *)
Variable res : list (loop P).
Hypothesis Hcount : forall b y, exists ps, NoDup ps /\ length ps = input_count S (map (to_loop P) ls) b y /\
    forall p, In p ps <-> Exec P S res [] p b y.

Definition blk_of (w : ploop P) : block := {| b_pos := hd 0 (pl_stmts P w); b_stmts := pl_stmts P w; b_scal := scals P w |}.
Lemma has_inst : forall b y w, has_instance S b y (to_loop P w) = true <-> b = blk_of w /\ mem S (pl_dom P w) y = true.
Proof.
  intros b y w. unfold has_instance, to_loop. cbn [l_blk l_dom]. fold (blk_of w).
  destruct (block_eq_dec (blk_of w) b) as [<-|Hn]; cbn [andb].
  - split; [intros E; split; [reflexivity|exact E]|intros [_ E]; exact E].
  - split; [discriminate|]. intros [-> _]. congruence.
Qed.
Lemma exec_in : forall q b y, Exec P S res [] q b y -> exists a w, nth_error ls a = Some w /\ b = blk_of w /\ mem S (pl_dom P w) y = true.
Proof.
  intros q b y HE. destruct (Hcount b y) as (ps & _ & Hl & Hi). apply Hi in HE.
  assert (Hp : 0 < length (filter (has_instance S b y) (map (to_loop P) ls))) by (unfold input_count in Hl; rewrite <- Hl; destruct ps; [destruct HE|cbn; lia]).
  destruct (filter (has_instance S b y) (map (to_loop P) ls)) as [|x r] eqn:E; [cbn in Hp; lia|].
  assert (Hx : In x (filter (has_instance S b y) (map (to_loop P) ls))) by (rewrite E; left; reflexivity).
  apply filter_In in Hx. destruct Hx as [Hx Hh]. apply in_map_iff in Hx. destruct Hx as (w & <- & Hw).
  apply In_nth_error in Hw. destruct Hw as [a Ha]. apply has_inst in Hh. exists a, w. tauto.
Qed.
Lemma count_one : forall k d s a g j l B c z, placed k d s a g j l B c z -> forall y, mem S (pl_dom P (whole P g)) y = true ->
  input_count S (map (to_loop P) ls) (blk_of (whole P g)) y = 1.
Proof.
  intros k d s a g j l B c z Hp y Hy. unfold input_count.
  destruct (placed_stmt _ _ _ _ _ _ _ _ _ _ Hp) as [Q1 Q2].
  assert (Hu : forall a' w, nth_error ls a' = Some w -> has_instance S (blk_of (whole P g)) y (to_loop P w) = true -> a' = a).
  { intros a' w Ha Hh. apply has_inst in Hh. destruct Hh as [Eb _].
    assert (Es : pl_stmts P w = pl_stmts P (whole P g)) by (apply (f_equal b_stmts) in Eb; symmetry; exact Eb).
    rewrite <- Es in Q2. destruct (placed_unique _ _ _ _ _ _ _ _ _ _ _ _ _ Hp Ha Q2). assumption. }
  assert (Hw : has_instance S (blk_of (whole P g)) y (to_loop P (whole P g)) = true) by (apply has_inst; auto).
  set (h := has_instance S (blk_of (whole P g)) y) in *. clearbody h.
  clear - Q1 Hu Hw. revert a Q1 Hu. induction ls as [|w r IH]; intros [|a] Q1 Hu; try discriminate; cbn in *.
  - injection Q1 as ->. rewrite Hw. cbn. f_equal.
    destruct (filter h (map (to_loop P) r)) as [|x q] eqn:E; [reflexivity|]. exfalso.
    assert (Hx : In x (filter h (map (to_loop P) r))) by (rewrite E; left; reflexivity).
    apply filter_In in Hx. destruct Hx as [Hx Hh]. apply in_map_iff in Hx. destruct Hx as (w & <- & Hin).
    apply In_nth_error in Hin. destruct Hin as [n Hn]. specialize (Hu (Datatypes.S n) w Hn Hh). discriminate.
  - destruct (h (to_loop P w)) eqn:E; [exfalso; specialize (Hu 0 w eq_refl E); discriminate|].
    apply (IH a); auto. intros a' w' Ha Hh. specialize (Hu (Datatypes.S a') w' Ha Hh). congruence.
Qed.
Lemma exec_one : forall k d s a g j l B c z, placed k d s a g j l B c z -> forall y, mem S (pl_dom P (whole P g)) y = true ->
  exists q, Exec P S res [] q (blk_of (whole P g)) y /\ forall q', Exec P S res [] q' (blk_of (whole P g)) y -> q' = q.
Proof.
  intros k d s a g j l B c z Hp y Hy. destruct (Hcount (blk_of (whole P g)) y) as (ps & Hn & Hl & Hi).
  rewrite (count_one _ _ _ _ _ _ _ _ _ _ Hp y Hy) in Hl. destruct ps as [|q [|]]; try discriminate.
  exists q. split; [apply Hi; left; reflexivity|]. intros q' Hq. apply Hi in Hq. destruct Hq as [|[]]; congruence.
Qed.

(** When a statement runs. *)
Lemma runs_placed : forall p k i, Runs S res (scanned sd) p k i ->
  exists d s, nth_error input k = Some (d, s) /\
  forall a g j l B c z, placed k d s a g j l B c z ->
  exists q u, p = q ++ [Z.of_nat (pos g j c)] /\ length u = ns /\ mem S (pl_dom P (whole P g)) (u ++ i) = true /\
    Exec P S res [] q (blk_of (whole P g)) (u ++ i).
Proof.
  intros p k i (q & b & y & n & HE & Hn & -> & ->). rewrite shape_scanned.
  destruct (exec_in _ _ _ HE) as (a' & w & Ha & -> & Hm). cbn in Hn.
  assert (Hk : k < length input).
  { assert (Hin : In (Datatypes.S k) (flat_map (pl_stmts P) ls)).
    { apply in_flat_map. exists w. split; [eapply nth_error_In; eauto|eapply nth_error_In; eauto]. }
    rewrite all_stmts in Hin. apply in_seq in Hin. lia. }
  destruct (nth_error input k) as [[d s]|] eqn:Ek; [|apply nth_error_None in Ek; lia].
  exists d, s. split; [reflexivity|]. intros a g j l B c z Hp.
  destruct (placed_unique _ _ _ _ _ _ _ _ _ _ _ _ _ Hp Ha Hn) as (-> & -> & ->).
  assert (Hlen : ns <= length y).
  { rewrite (L_len P S L _ _ Hm). pose proof shape_statement_loops as Q. unfold statement_loops in Q. rewrite Forall_forall in Q.
    destruct (Q (to_loop P (whole P g))) as (d0 & ot & b0 & E & Hle); [apply in_map; eapply nth_error_In; eauto|].
    unfold to_loop in E. injection E as -> _ _. exact Hle. }
  exists q, (firstn ns y). rewrite firstn_skipn. split; [reflexivity|]. split; [apply firstn_length_le; exact Hlen|]. auto.
Qed.

Theorem runs_once :
  (forall p k i, Runs S res (scanned sd) p k i -> exists d s, nth_error input k = Some (d, s) /\ mem S d i = true) /\
  (forall k d s i, nth_error input k = Some (d, s) -> mem S d i = true ->
     exists p, Runs S res (scanned sd) p k i /\ forall p', Runs S res (scanned sd) p' k i -> p' = p).
Proof.
  split.
  - intros p k i HR. destruct (runs_placed _ _ _ HR) as (d & s & Hk & Q). exists d, s. split; [exact Hk|].
    destruct (find_placed _ _ _ Hk) as (a & g & j & l & B & c & z & Hp).
    destruct (Q _ _ _ _ _ _ _ Hp) as (q & u & _ & Hu & Hm & _). apply (placed_at _ _ _ _ _ _ _ _ _ _ Hp u i Hu Hm).
  - intros k d s i Hk Hi. destruct (find_placed _ _ _ Hk) as (a & g & j & l & B & c & z & Hp).
    destruct (placed_some _ _ _ _ _ _ _ _ _ _ Hp i Hi) as (u & Hu & Hm).
    destruct (exec_one _ _ _ _ _ _ _ _ _ _ Hp _ Hm) as (q & Hq & Hq1).
    exists (q ++ [Z.of_nat (pos g j c)]). split.
    + exists q, (blk_of (whole P g)), (u ++ i), (pos g j c). split; [exact Hq|].
      split; [apply (placed_stmt _ _ _ _ _ _ _ _ _ _ Hp)|]. split; [|reflexivity].
      rewrite shape_scanned, skipn_app, <- Hu, Nat.sub_diag, (skipn_all2 u) by lia. reflexivity.
    + intros p' HR. destruct (runs_placed _ _ _ HR) as (d' & s' & Hk' & Q). rewrite Hk in Hk'. injection Hk' as <- <-.
      destruct (Q _ _ _ _ _ _ _ Hp) as (q' & u' & -> & Hu' & Hm' & HE').
      assert (u' = u) by (eapply placed_one; eauto). subst u'. rewrite (Hq1 _ HE'). reflexivity.
Qed.

(** The conditions under which cloog_loop_block keeps the order: see C34_... *)
Definition keeps_order : Prop :=
  singletons G \/
  ((forall l, In l (flat P G) -> no_constant P ns (pl_dom P l)) /\
   (forall l u i i', In l (flat P G) -> length u = ns -> mem S (pl_dom P l) (u ++ i) = true -> mem S (pl_dom P l) (u ++ i') = true -> i = i')).

Lemma lex_snoc : forall p p' n n', lex_lt p p' -> lex_lt (p ++ [n]) (p' ++ [n']).
Proof. intros p p' n n' HL. induction HL; cbn; constructor; assumption. Qed.
Lemma lex_last : forall p n n', (n < n')%Z -> lex_lt (p ++ [n]) (p ++ [n']).
Proof. induction p as [|x p IH]; intros n n' Hl; cbn; [apply lex_here; exact Hl|apply lex_next; auto]. Qed.

Theorem runs_order : keeps_order ->
  (forall p b y p' b' y', Exec P S res [] p b y -> Exec P S res [] p' b' y' ->
     lex_lt (date kinds (b_scal b) (firstn ns y)) (date kinds (b_scal b') (firstn ns y')) -> lex_lt p p') ->
  forall p k i d s t p' k' i' d' s' t',
  nth_error input k = Some (d, s) -> nth_error input k' = Some (d', s') ->
  Runs S res (scanned sd) p k i -> Runs S res (scanned sd) p' k' i' ->
  rel s t i = true -> rel s' t' i' = true -> lex_lt t t' -> lex_lt p p'.
Proof.
  intros Hko Hord p k i d s t p' k' i' d' s' t' Hk Hk' HR HR' Ht Ht' Hlt.
  destruct (runs_placed _ _ _ HR) as (d0 & s0 & Hk0 & Q). rewrite Hk in Hk0. injection Hk0 as <- <-.
  destruct (runs_placed _ _ _ HR') as (d0 & s0 & Hk0 & Q'). rewrite Hk' in Hk0. injection Hk0 as <- <-.
  destruct (find_placed _ _ _ Hk) as (a & g & j & l & B & c & z & Hp).
  destruct (find_placed _ _ _ Hk') as (a' & g' & j' & l' & B' & c' & z' & Hp').
  destruct (Q _ _ _ _ _ _ _ Hp) as (q & u & -> & Hu & Hm & HE). clear Q.
  destruct (Q' _ _ _ _ _ _ _ Hp') as (q' & u' & -> & Hu' & Hm' & HE'). clear Q'.
  destruct (placed_at _ _ _ _ _ _ _ _ _ _ Hp u i Hu Hm) as (A0 & A1 & A2).
  destruct (placed_at _ _ _ _ _ _ _ _ _ _ Hp' u' i' Hu' Hm') as (A0' & A1' & A2').
  assert (Hpos : forall p0 m, p0 < m -> lex_lt (q ++ [Z.of_nat p0]) (q ++ [Z.of_nat m])) by (intros; apply lex_last; lia).
  (* the dates of the groups *)
  assert (Hg : forall g0 u0 i0, length u0 = ns -> date kinds (b_scal (blk_of (whole P g0))) (firstn ns (u0 ++ i0)) = date kinds (scals P (fst g0)) u0).
  { intros g0 u0 i0 Hl. cbn. rewrite firstn_app, <- Hl, Nat.sub_diag, firstn_all, app_nil_r.
    unfold scals. unfold whole. destruct (whole_dom P (snd g0) (fst g0)) as (_ & -> & _). reflexivity. }
  pose proof Hp as [P1 P2 P3 P4 P5 _]. pose proof Hp' as [P1' P2' P3' P4' P5' _].
  assert (Hsame : a = a' -> u = u' -> i = i' -> j < j' \/ (j = j' /\ c < c') -> lex_lt (q ++ [Z.of_nat (pos g j c)]) (q' ++ [Z.of_nat (pos g' j' c')])).
  { intros <- <- <- Hjc. rewrite P1 in P1'. injection P1' as <-.
    destruct (exec_one _ _ _ _ _ _ _ _ _ _ Hp _ Hm) as (q0 & _ & Hq1). rewrite (Hq1 _ HE), (Hq1 _ HE').
    apply lex_last. apply Nat2Z.inj_lt. unfold pos. eapply (off_lt (pl_stmts P) (grp g)); [exact P2|exact P2'| | |exact Hjc].
    - destruct P4 as [-> _]. cbn. rewrite map_length. apply nth_error_Some. congruence.
    - destruct P4' as [-> _]. cbn. rewrite map_length. apply nth_error_Some. congruence. }
  destruct (block_order P S C rel CL Bs (sh_inv _ _ _ _ _ _ _ H) (sh_iso _ _ _ _ _ _ _ H)
     (off grp G a + j) (off grp G a' + j') B B' c c' _ _ t t' (date kinds (scals P l) u) (date kinds (scals P l') u') i i'
     P3 P3' P5 P5') as [Hlt0|(Ea & Ei & Et & Hc)]; auto.
  - split; assumption.
  - split; assumption.
  - destruct P4 as (_ & _ & _ & -> & _). destruct P4' as (_ & _ & _ & -> & _). reflexivity.
  - (* dates of the blocks *)
    destruct (loop_block_order P S L kinds G) with (a := a) (a' := a') (g := g) (g' := g') (j := j) (j' := j') (l := l) (l' := l') (u := u) (u' := u') (i := i) (i' := i')
      as [Hlt1|(E1 & E2 & E3 & E4)]; auto.
    + rewrite <- (sh_sd _ _ _ _ _ _ _ H). apply (sh_ok _ _ _ _ _ _ _ H).
    + apply (sh_sorted _ _ _ _ _ _ _ H).
    + apply Forall_forall. intros x Hx. apply In_nth_error in Hx. destruct Hx as [n Hn].
      destruct (same_dates_nth _ _ _ (sh_dates _ _ _ _ _ _ _ H)) as [Q1 Q2].
      destruct (nth_error Bs n) as [B0|] eqn:EB.
      * destruct (Q2 n B0 x EB Hn) as (_ & Hx & _). exact Hx.
      * apply nth_error_None in EB. assert (n < length (flat P G)) by (apply nth_error_Some; congruence). lia.
    + destruct (whole_mem g l (nth_error_In _ _ P2) (nth_error_In _ _ P1)) as [<- _]. exact Hm.
    + destruct (whole_mem g' l' (nth_error_In _ _ P2') (nth_error_In _ _ P1')) as [<- _]. exact Hm'.
    + apply lex_snoc. eapply Hord; [exact HE|exact HE'|]. rewrite !Hg by assumption. exact Hlt1.
  - (* one block *)
    assert (L1 : j < length (grp g)) by (apply nth_error_Some; congruence).
    assert (L2 : j' < length (grp g')) by (apply nth_error_Some; congruence).
    assert (Ea2 : a = a' /\ j = j').
    { destruct (Nat.lt_trichotomy a a') as [Hl|[->|Hl]].
      - pose proof (off_mono grp G a a' g P1 Hl). cbn in *. lia.
      - split; [reflexivity|lia].
      - pose proof (off_mono grp G a' a g' P1' Hl). cbn in *. lia. }
    destruct Ea2 as [<- <-]. apply Hsame; auto.
    rewrite P1 in P1'. injection P1' as <-. rewrite P2 in P2'. injection P2' as <-. eapply date_inj; eauto.
Qed.
End Shape.

(** * When cloog_loop_block keeps the order, in terms of the input *)
Lemma nonscalar_at : forall kinds k, k < nonscalar kinds -> exists n, nth_error kinds n = Some false /\
  forall sc u, nth n (date kinds sc u) 0%Z = nth k u 0%Z.
Proof.
  unfold nonscalar. induction kinds as [|[] ks IH]; intros k Hk; cbn in *; [lia| |].
  - destruct (IH k Hk) as (n & E & Q). exists (Datatypes.S n). split; [exact E|]. intros sc u. cbn. apply Q.
  - destruct k as [|k].
    + exists 0. split; [reflexivity|]. intros sc [|x u]; reflexivity.
    + destruct (IH k ltac:(lia)) as (n & E & Q). exists (Datatypes.S n). split; [exact E|]. intros sc [|x u]; cbn; rewrite Q; [|reflexivity].
      destruct k; reflexivity.
Qed.

Lemma keeps_order_input : forall ao input sd ls Bs kinds G, shape ao input sd ls Bs kinds G ->
  one_at_a_time S rel input -> moving S rel input -> keeps_order kinds G.
Proof.
  intros ao input sd ls Bs kinds G H H1 H2. unfold keeps_order.
  destruct (a_noscalars ao) eqn:Ens; [left; apply (sh_single _ _ _ _ _ _ _ H); auto|]. right.
  assert (HB : forall l, In l (flat P G) -> exists B d s, In B Bs /\ same_dates P S C rel kinds (gloop P C B) (g_map P C B) l /\
     In (d, s) input /\ g_dom P C B = d /\ g_map P C B = s).
  { intros l Hl. apply In_nth_error in Hl. destruct Hl as [n Hn].
    destruct (same_dates_nth _ _ _ (sh_dates _ _ _ _ _ _ _ H)) as [Q1 Q2].
    destruct (nth_error Bs n) as [B|] eqn:EB.
    2:{ apply nth_error_None in EB. assert (n < length (flat P G)) by (apply nth_error_Some; congruence). lia. }
    pose proof (sh_inv _ _ _ _ _ _ _ H) as Hi. rewrite Forall_forall in Hi. pose proof (nth_error_In _ _ EB) as HinB.
    destruct (gi_head _ _ _ _ _ (Hi B HinB)) as ([[m d] s] & ms & Em & Ed & Es). cbn in Ed, Es.
    exists B, d, s. split; [exact HinB|]. split; [eapply Q2; eauto|]. split; [|auto].
    assert (Hm : In (m, d, s) (members P C Bs)).
    { apply in_flat_map. exists B. split; [exact HinB|]. rewrite Em. left. reflexivity. }
    rewrite (sh_mem _ _ _ _ _ _ _ H) in Hm. apply number_nth in Hm. destruct Hm as (j & d' & s' & Hj & E). injection E as -> -> ->.
    eapply nth_error_In; eauto. }
  split.
  - intros l Hl k Hk. destruct (lazy_isconstant P (pl_dom P l) k) as [v|] eqn:Ev; [exfalso|reflexivity].
    destruct (HB l Hl) as (B & d & s & HinB & Hsd & Hin & Ed & Es).
    destruct (nonscalar_at kinds k Hk) as (n & En & Hn).
    assert (Hnl : n < length kinds) by (apply nth_error_Some; congruence).
    destruct Hsd as (_ & _ & _ & Hdim & Hmem & Hex).
    destruct (H2 d s Hin n) as [Hall|(i & i' & t & t' & M & M' & R & R' & Hne)].
    + rewrite <- Es, Hdim. exact Hnl.
    + pose proof (sh_kinds _ _ _ _ _ _ _ H) as Hk'. rewrite Ens in Hk'. unfold scalar_dims in Hk'.
      rewrite Hk', nth_error_map in En. destruct (nth_error (seq 0 (length kinds)) n) as [n'|] eqn:Eq; [|discriminate].
      assert (n' = n). { assert (Q : nth_error (seq 0 (length kinds)) n = Some n). { rewrite (nth_error_nth' _ 0) by (rewrite seq_length; exact Hnl). rewrite seq_nth by exact Hnl. reflexivity. } congruence. }
      subst n'. cbn in En. injection En as En.
      assert (Ht : forallb (fun s0 => is_some (s_scalar C s0 n)) (map (g_map P C) Bs) = true).
      { apply forallb_forall. intros s0 Hs0. apply in_map_iff in Hs0. destruct Hs0 as (B0 & <- & HB0).
        pose proof (sh_inv _ _ _ _ _ _ _ H) as Hi. rewrite Forall_forall in Hi.
        destruct (gi_head _ _ _ _ _ (Hi B0 HB0)) as ([[m0 d0] s0] & ms & Em & _ & ->). cbn.
        assert (Hm : In (m0, d0, s0) (members P C Bs)).
        { apply in_flat_map. exists B0. split; [exact HB0|]. rewrite Em. left. reflexivity. }
        rewrite (sh_mem _ _ _ _ _ _ _ H) in Hm. apply number_nth in Hm. destruct Hm as (j & d' & s' & Hj & E). injection E as -> -> ->.
        specialize (Hall (d', s') (nth_error_In _ _ Hj)). cbn in Hall. unfold i_map. cbn. destruct (s_scalar C s' n); [reflexivity|congruence]. }
      congruence.
    + apply Hne. rewrite <- Es in R, R'. rewrite <- Ed in M, M'.
      destruct (Hex t i R) as (u & Hu & ->). destruct (Hex t' i' R') as (u' & Hu' & ->).
      rewrite !Hn. cbn in Hmem.
      assert (Q : nth k (u ++ i) 0%Z = v) by (eapply (SC_isconstant _ _ _ _ CL); [exact Ev|]; rewrite Hmem by exact Hu; rewrite R, M; reflexivity).
      assert (Q' : nth k (u' ++ i') 0%Z = v) by (eapply (SC_isconstant _ _ _ _ CL); [exact Ev|]; rewrite Hmem by exact Hu'; rewrite R', M'; reflexivity).
      rewrite app_nth1 in Q by lia. rewrite app_nth1 in Q' by lia. congruence.
  - intros l u i i' Hl Hu M M'. destruct (HB l Hl) as (B & d & s & HinB & Hsd & Hin & Ed & Es).
    destruct Hsd as (_ & _ & _ & Hdim & Hmem & Hex). rewrite Hmem in M, M' by exact Hu. cbn in M, M'.
    apply andb_true_iff in M, M'. destruct M as [M1 M2], M' as [M1' M2']. rewrite Ed in *. rewrite Es in *.
    eapply (H1 d s Hin); eauto.
Qed.
End S.
