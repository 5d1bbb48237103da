(** Proofs about names and union domains. *)
From Coq Require Import ZArith List Bool Arith String Ascii DecimalString DecimalNat Lia.
From Verif Require Import PprintModel CReader PprintSpec NamesModel NamesSpec.
Import ListNotations.
Local Arguments Nat.ltb : simpl never.
Local Arguments Nat.leb : simpl never.
Local Arguments Nat.eqb : simpl never.
Local Arguments Nat.sub : simpl never.
Local Arguments Nat.modulo : simpl never.

(** ** generated names *)
Lemma to_uint_nonnil n : Nat.to_uint n <> Decimal.Nil.
Proof.
  intros E. pose proof (Unsigned.of_to n) as H. rewrite E in H. cbn in H. subst n. discriminate E.
Qed.
Lemma dec_inj a b : dec a = dec b -> a = b.
Proof.
  unfold dec. intros E. apply Unsigned.to_uint_inj.
  pose proof (NilZero.usu _ (to_uint_nonnil a)) as Ha. pose proof (NilZero.usu _ (to_uint_nonnil b)) as Hb.
  rewrite E in Ha. congruence.
Qed.
Lemma dec_first n : exists c s, dec n = String c s.
Proof. unfold dec. destruct (Nat.to_uint n); cbn; eauto. Qed.
Lemma dec_digits n : all_chars is_digit (dec n) = true.
Proof.
  unfold dec. assert (H : forall u, all_chars is_digit (NilEmpty.string_of_uint u) = true) by (induction u; cbn; auto).
  destruct (Nat.to_uint n) as [|u|u|u|u|u|u|u|u|u|u]; cbn [NilZero.string_of_uint]; [reflexivity|..]; apply (H (_ u)).
Qed.
Lemma append_inj p a b : append p a = append p b -> a = b.
Proof. induction p; cbn; [auto|]. intros E. injection E. auto. Qed.

Definition code_string (c : nat) : string := if c =? 0 then EmptyString else String (ascii_of_nat c) EmptyString.
Lemma char_code k : char_string k = code_string (k mod 256).
Proof. reflexivity. Qed.
Lemma code_inj a b : a < 256 -> b < 256 -> code_string a = code_string b -> a = b.
Proof.
  unfold code_string. intros Ha Hb. destruct (Nat.eqb_spec a 0), (Nat.eqb_spec b 0); try discriminate; [lia|].
  intros E. injection E as E. rewrite <- (nat_ascii_embedding a Ha), <- (nat_ascii_embedding b Hb). congruence.
Qed.
Lemma char_mod a b : char_string a = char_string b -> a mod 256 = b mod 256.
Proof. rewrite !char_code. apply code_inj; apply Nat.mod_upper_bound; lia. Qed.

Lemma in_items nb f s : In s (generate_items nb None f) <-> exists i, i < nb /\ s = char_string (f + i).
Proof.
  unfold generate_items. rewrite in_map_iff. split.
  - intros (i & <- & Hi). apply in_seq in Hi. exists i. split; [lia|reflexivity].
  - intros (i & Hi & ->). exists i. split; [reflexivity|]. apply in_seq. lia.
Qed.
Lemma in_items_p nb p f s : In s (generate_items nb (Some p) f) <-> exists i, i < nb /\ s = append p (dec (1 + i)).
Proof.
  unfold generate_items. rewrite in_map_iff. split.
  - intros (i & <- & Hi). apply in_seq in Hi. exists i. split; [lia|reflexivity].
  - intros (i & Hi & ->). exists i. split; [reflexivity|]. apply in_seq. lia.
Qed.
Lemma map_nodup {A B} (f : A -> B) l : (forall x y, In x l -> In y l -> f x = f y -> x = y) -> NoDup l -> NoDup (map f l).
Proof.
  induction l as [|a l IH]; intros Hf Hn; cbn; [constructor|]. inversion Hn; subst. constructor.
  - rewrite in_map_iff. intros (y & E & Hy). assert (a = y) by (apply Hf; cbn; auto). subst. contradiction.
  - apply IH; [|assumption]. intros x y Hx Hy. apply Hf; cbn; auto.
Qed.
Lemma items_nodup nb f : nb <= 256 -> NoDup (generate_items nb None f).
Proof.
  intros H. apply map_nodup; [|apply seq_NoDup]. intros x y Hx Hy E. apply in_seq in Hx, Hy. apply char_mod in E.
  pose proof (Nat.div_mod (f + x) 256 ltac:(lia)). pose proof (Nat.div_mod (f + y) 256 ltac:(lia)). nia.
Qed.
Lemma items_p_nodup nb p f : NoDup (generate_items nb (Some p) f).
Proof.
  apply map_nodup; [|apply seq_NoDup]. intros x y Hx Hy E. apply append_inj, dec_inj in E. lia.
Qed.
Lemma char_not_c a i : char_string a <> append "c" (dec (1 + i)).
Proof.
  destruct (dec_first (1 + i)) as (c & s & ->). unfold char_string. destruct (_ =? 0); cbn; discriminate.
Qed.
Lemma nodup_app {A} (l1 l2 : list A) : NoDup l1 -> NoDup l2 -> (forall x, In x l1 -> In x l2 -> False) -> NoDup (l1 ++ l2).
Proof.
  induction l1 as [|a l1 IH]; intros H1 H2 Hd; cbn; [assumption|]. inversion H1; subst. constructor.
  - rewrite in_app_iff. intros [H|H]; [contradiction|]. eapply Hd; [left; reflexivity|exact H].
  - apply IH; [assumption|assumption|]. intros x Hx. apply Hd. right. exact Hx.
Qed.
Lemma generated_distinct ns ni np f : ni <= 228 -> np <= 28 ->
  NoDup (generate_items ns (Some "c"%string) f ++ generate_items ni None FIRST_ITERATOR ++ generate_items np None FIRST_PARAMETER).
Proof.
  intros Hi Hp. apply nodup_app; [apply items_p_nodup| |].
  - apply nodup_app; [apply items_nodup; lia|apply items_nodup; lia|].
    intros x H1 H2. apply in_items in H1 as (i & Hi' & ->). apply in_items in H2 as (j & Hj & E). apply char_mod in E.
    unfold FIRST_ITERATOR, FIRST_PARAMETER in E.
    pose proof (Nat.div_mod (105 + i) 256 ltac:(lia)). pose proof (Nat.div_mod (77 + j) 256 ltac:(lia)). nia.
  - intros x H1 H2. apply in_items_p in H1 as (i & _ & ->). apply in_app_iff in H2 as [H2|H2]; apply in_items in H2 as (j & _ & E); symmetry in E; exact (char_not_c _ _ E).
Qed.
Lemma alphas_idchars s : all_chars is_digit s = true -> all_chars is_idchar s = true.
Proof. induction s as [|c s IH]; cbn; [auto|]. intros H. apply andb_prop in H as [H1 H2]. rewrite (IH H2). unfold is_idchar. rewrite H1, orb_true_r. reflexivity. Qed.
Lemma c_ident i : ident (append "c" (dec (1 + i))) = true.
Proof.
  pose proof (dec_digits (1 + i)) as Hd. destruct (dec_first (1 + i)) as (c & s & E). rewrite E in *. unfold ident.
  apply andb_true_intro. split.
  - cbn [append]. apply andb_true_intro. split; [reflexivity|]. apply alphas_idchars. exact Hd.
  - cbn [all_chars] in Hd. apply andb_prop in Hd as [Hc _]. unfold is_keyword, keywords.
    cbn [append existsb String.eqb Ascii.eqb Bool.eqb].
    destruct c as [[] [] [] [] [] [] [] []]; cbn in Hc; try discriminate Hc; reflexivity.
Qed.
Lemma par_ident i : i < 14 -> ident (char_string (FIRST_PARAMETER + i)) = true.
Proof. intros H. do 14 (destruct i as [|i]; [reflexivity|]). lia. Qed.
Lemma iter_ident i : i < 18 -> ident (char_string (FIRST_ITERATOR + i)) = true.
Proof. intros H. do 18 (destruct i as [|i]; [reflexivity|]). lia. Qed.

(** ** scalarisation *)
Lemma split_total flags src : List.length flags <= List.length src -> exists scat scal, scalar_split flags src = Some (scat, scal).
Proof.
  revert src. induction flags as [|b flags IH]; intros src H; cbn; [eauto|]. destruct src as [|s src]; cbn in H; [lia|].
  destruct (IH src ltac:(lia)) as (scat & scal & ->). destruct b; eauto.
Qed.
Lemma split_plain flags src scat scal : scalar_split flags src = Some (scat, scal) ->
  List.length scat = plain_before flags (List.length flags) /\ List.length scal = scalar_before flags (List.length flags) /\
  forall j, (nth_error flags j = Some false -> nth_error scat (plain_before flags j) = nth_error src j) /\
            (nth_error flags j = Some true -> nth_error scal (scalar_before flags j) = nth_error src j).
Proof.
  revert src scat scal. induction flags as [|b flags IH]; intros src scat scal E; cbn in E.
  - injection E as <- <-. split; [reflexivity|]. split; [reflexivity|]. intros j. destruct j; split; discriminate.
  - destruct src as [|s src]; [discriminate|]. destruct (scalar_split flags src) as [[a c]|] eqn:Es; [|discriminate].
    destruct (IH _ _ _ Es) as (L1 & L2 & Hj).
    destruct b; injection E as <- <-; cbn [List.length plain_before scalar_before]; (split; [cbn; lia|]; split; [cbn; lia|]);
      intros [|j]; cbn [nth_error plain_before scalar_before plus]; (split; intros H; try discriminate; try reflexivity);
      apply (Hj j); assumption.
Qed.
Lemma count_scalar flags : count flags = scalar_before flags (List.length flags).
Proof. induction flags as [|[] flags IH]; cbn; [reflexivity|f_equal; exact IH|exact IH]. Qed.
Lemma plain_scalar flags j : j <= List.length flags -> plain_before flags j + scalar_before flags j = j.
Proof.
  revert j. induction flags as [|b flags IH]; intros j H; cbn in H.
  - assert (j = 0) by lia. subst. reflexivity.
  - destruct j; [reflexivity|]. cbn [plain_before scalar_before]. specialize (IH j ltac:(lia)). destruct b; lia.
Qed.
Lemma plain_mono flags j : j < List.length flags -> nth_error flags j = Some false -> plain_before flags j < plain_before flags (List.length flags).
Proof.
  revert j. induction flags as [|b flags IH]; intros j H E; cbn in H; [lia|]. destruct j; cbn in E.
  - injection E as ->. cbn. lia.
  - cbn [plain_before List.length]. specialize (IH j ltac:(lia) E). destruct b; lia.
Qed.
Lemma no_scalar_plain flags j : scalar_before flags (List.length flags) = 0 -> j <= List.length flags -> plain_before flags j = j.
Proof.
  revert j. induction flags as [|b flags IH]; intros j H Hj; cbn in Hj; cbn [scalar_before List.length] in H.
  - assert (j = 0) by lia. subst. reflexivity.
  - destruct b; [lia|]. destruct j; [reflexivity|]. cbn. f_equal. apply IH; [exact H|lia].
Qed.
Lemma scalarize_full n kinds : n_nb_scat n = List.length kinds -> List.length (n_scattering n) = List.length kinds ->
  exists n', scalarize n (List.length kinds) (Some kinds) = Some n' /\
    n_nb_scat n' = plain_before kinds (List.length kinds) /\
    List.length (n_scattering n') = n_nb_scat n' /\
    n_iterators n' = n_iterators n /\ n_parameters n' = n_parameters n /\
    (forall j, nth_error kinds j = Some false -> nth_error (n_scattering n') (plain_before kinds j) = nth_error (n_scattering n) j) /\
    (In true kinds -> List.length (n_scalars n') = scalar_before kinds (List.length kinds) /\ forall j, nth_error kinds j = Some true -> nth_error (n_scalars n') (scalar_before kinds j) = nth_error (n_scattering n) j).
Proof.
  intros H1 H2. unfold scalarize. destruct (List.length kinds) as [|m] eqn:El.
  - destruct kinds; [|discriminate]. exists n. split; [reflexivity|]. cbn. repeat split; try assumption; try congruence; try (intros j; destruct j; discriminate); try contradiction.
  - rewrite <- El in *. clear m El. destruct (Nat.ltb_spec (List.length kinds) (List.length kinds)); [lia|]. rewrite firstn_all, count_scalar.
    pose proof (plain_scalar kinds (List.length kinds) (le_n _)) as Hps.
    destruct (Nat.eqb_spec (scalar_before kinds (List.length kinds)) 0) as [E0|E0].
    + exists n. split; [reflexivity|]. split; [lia|]. split; [lia|]. split; [reflexivity|]. split; [reflexivity|]. split.
      * intros j Hj. rewrite no_scalar_plain; [reflexivity|exact E0|]. assert (nth_error kinds j <> None) by congruence. apply nth_error_Some in H0. lia.
      * intros Ht. exfalso. apply In_nth_error in Ht as (j & Hj). assert (nth_error kinds j <> None) as Hl by congruence. apply nth_error_Some in Hl.
        clear - E0 Hj. revert j Hj. induction kinds as [|b k IH]; intros j Hj; [destruct j; discriminate|]. cbn in E0. destruct b; [lia|]. destruct j; [discriminate|]. eapply IH; [exact E0|exact Hj].
    + destruct (Nat.ltb_spec (n_nb_scat n) (scalar_before kinds (List.length kinds))); [lia|].
      destruct (split_total kinds (n_scattering n) ltac:(lia)) as (scat & scal & Es). rewrite Es.
      destruct (split_plain _ _ _ _ Es) as (L1 & L2 & Hj).
      destruct (Nat.ltb_spec (n_nb_scat n - scalar_before kinds (List.length kinds)) (List.length scat)); [lia|].
      eexists. split; [reflexivity|]. cbn. split; [lia|]. split; [lia|]. split; [reflexivity|]. split; [reflexivity|]. split; [intros j; apply Hj|]. intros _. split; [exact L2|]. intros j; apply Hj.
Qed.

(** ** union domains *)
Section UDP.
Context {D : Type}.
Implicit Type h : list (call D).
Implicit Type ud : udom D.

Lemma run_app ud h1 h2 : run ud (h1 ++ h2) = match run ud h1 with Some u => run u h2 | None => None end.
Proof. revert ud. induction h1 as [|c h1 IH]; intros ud; cbn; [reflexivity|]. destruct (step ud c); [apply IH|reflexivity]. Qed.
Lemma added_app h1 h2 : added (h1 ++ h2) = added h1 ++ added h2.
Proof. induction h1 as [|[d|t i s] h1 IH]; cbn; [reflexivity|f_equal; exact IH|exact IH]. Qed.

Definition maxs (l : list nat) : nat := fold_right Nat.max 0 l.
Lemma maxs_app a b : maxs (a ++ b) = Nat.max (maxs a) (maxs b).
Proof. induction a as [|x a IH]; cbn; [reflexivity|]. unfold maxs in *. rewrite IH. lia. Qed.
Lemma maxs_max l : is_max l (maxs l).
Proof.
  induction l as [|x l [H1 H2]]; cbn; [split; [intros x []|left; reflexivity]|]. split.
  - intros y [<-|H]; [lia|]. specialize (H1 y H). unfold maxs in *. lia.
  - fold (maxs l). destruct (Nat.max_spec x (maxs l)) as [[_ ->]|[_ ->]]; [destruct H2 as [H2|H2]; [left; exact H2|right; right; exact H2]|right; left; reflexivity].
Qed.
Lemma is_max_unique l a b : is_max l a -> is_max l b -> a = b.
Proof. intros [H1 H2] [H3 H4]. destruct H2 as [->|H2], H4 as [->|H4]; auto; [specialize (H1 _ H4)|specialize (H3 _ H2)|specialize (H1 _ H4); specialize (H3 _ H2)]; lia. Qed.

Definition sz nb_par (ds : list (named D)) (t : Z) : nat :=
  if (t =? CLOOG_PARAM)%Z then nb_par else if (t =? CLOOG_ITER)%Z then maxs (map d_dim ds) else if (t =? CLOOG_SCAT)%Z then maxs (scat_dims ds) else 0.
Definition good (t : Z) : Prop := t = CLOOG_PARAM \/ t = CLOOG_ITER \/ t = CLOOG_SCAT.
Lemma size_sz nb_par ds t n : size nb_par ds t n <-> good t /\ n = sz nb_par ds t.
Proof.
  unfold size, good, sz. split.
  - intros [[-> ->]|[[-> H]|[-> H]]]; (split; [auto|]); cbn; [reflexivity|apply (is_max_unique _ _ _ H (maxs_max _))..].
  - intros [[->|[->| ->]] ->]; cbn; [left; auto|right; left; split; [reflexivity|apply maxs_max]|right; right; split; [reflexivity|apply maxs_max]].
Qed.

(** the invariant after a history *)
Definition named_in h (t : Z) : Prop := exists i s, In (SetName t i s) h.
Definition name_of ud (t i : Z) : option string :=
  match u_name ud t with None => None | Some tab => if (i <? 0)%Z then None else nth (Z.to_nat i) tab None end.
Record Inv nb_par h ud : Prop := {
  I_dom : u_domains ud = added h;
  I_n : forall t, u_n ud t = sz nb_par (added h) t;
  I_tab : forall t, match u_name ud t with None => ~ named_in h t | Some tab => good t /\ named_in h t /\ List.length tab = sz nb_par (added h) t end;
  I_name : forall t i, last_name t i h (name_of ud t i)
}.
Lemma last_snoc_other t i h c o : last_name t i h o -> (forall s, c <> SetName t i s) -> last_name t i (h ++ [c]) o.
Proof.
  intros [h' H|h1 s h2 H] Hc.
  - constructor. intros s Hs. apply in_app_iff in Hs as [Hs|[Hs|[]]]; [exact (H s Hs)|exact (Hc s Hs)].
  - rewrite <- app_assoc. cbn. constructor. intros s' Hs. apply in_app_iff in Hs as [Hs|[Hs|[]]]; [exact (H s' Hs)|exact (Hc s' Hs)].
Qed.
Lemma last_snoc_same t i h s : last_name t i (h ++ [SetName t i s]) (Some s).
Proof. constructor. intros s' []. Qed.
Lemma named_snoc h t c : named_in (h ++ [c]) t <-> named_in h t \/ exists i s, c = SetName t i s.
Proof.
  unfold named_in. split.
  - intros (i & s & H). apply in_app_iff in H as [H|[H|[]]]; [left; eauto|right; eauto].
  - intros [(i & s & H)|(i & s & ->)]; exists i, s; apply in_app_iff; [left; exact H|right; left; reflexivity].
Qed.
Lemma nth_set {A} (l : list A) i j a d : i < List.length l -> nth j (set_nth l i a) d = if j =? i then a else nth j l d.
Proof.
  revert i j. induction l as [|b l IH]; intros i j H; cbn in H; [lia|]. destruct i, j; cbn; try reflexivity. rewrite IH by lia.
  change (S j =? S i) with (j =? i). reflexivity.
Qed.
Lemma len_set {A} (l : list A) i a : List.length (set_nth l i a) = List.length l.
Proof. revert i. induction l as [|b l IH]; intros [|i]; cbn; auto. Qed.

Lemma inv_init nb_par : Inv nb_par [] (ud_alloc nb_par).
Proof.
  constructor; cbn.
  - reflexivity.
  - intros t. unfold sz. cbn. destruct (t =? CLOOG_PARAM)%Z; [reflexivity|]. destruct (t =? _)%Z; [reflexivity|]. destruct (t =? _)%Z; reflexivity.
  - intros t (i & s & []).
  - intros t i. constructor. intros s [].
Qed.
Definition ok_call nb_par h (c : call D) : Prop :=
  match c with
  | Add _ => forall t i s, In (SetName t i s) h -> t = CLOOG_PARAM
  | SetName t i _ => exists n, size nb_par (added h) t n /\ (0 <= i < Z.of_nat n)%Z
  end.
Lemma scat_snoc (ds : list (named D)) (d : named D) : scat_dims (ds ++ [d]) = scat_dims ds ++ match d_scat d with Some s => [s] | None => [] end.
Proof. unfold scat_dims. rewrite flat_map_app. cbn. rewrite app_nil_r. reflexivity. Qed.
Lemma inv_step nb_par h ud c : Inv nb_par h ud ->
  match step ud c with Some ud' => ok_call nb_par h c /\ Inv nb_par (h ++ [c]) ud' | None => ~ ok_call nb_par h c end.
Proof.
  intros [Id In' It Iname]. destruct c as [d|t i s]; cbn [step].
  - unfold ud_add. pose proof (It CLOOG_ITER) as H1. pose proof (It CLOOG_SCAT) as H2.
    destruct (u_name ud CLOOG_ITER) as [tab|] eqn:E1.
    { intros Hok. destruct H1 as (_ & (j & s & Hj) & _). specialize (Hok _ _ _ Hj). discriminate. }
    destruct (u_name ud CLOOG_SCAT) as [tab|] eqn:E2.
    { intros Hok. destruct H2 as (_ & (j & s & Hj) & _). specialize (Hok _ _ _ Hj). discriminate. }
    assert (Hp : forall t i s, In (SetName t i s) h -> t = CLOOG_PARAM).
    { intros t i s Hs. pose proof (It t) as Ht. destruct (u_name ud t) eqn:Et.
      - destruct Ht as ([->|[->| ->]] & _); [reflexivity|congruence..].
      - exfalso. apply Ht. exists i, s. exact Hs. }
    split; [exact Hp|]. constructor; cbn.
    + rewrite added_app, Id. reflexivity.
    + intros t. rewrite added_app. cbn [added].
      assert (Hsz : sz nb_par (added h ++ [d]) t = if (t =? CLOOG_PARAM)%Z then nb_par else if (t =? CLOOG_ITER)%Z then Nat.max (maxs (map d_dim (added h))) (d_dim d) else if (t =? CLOOG_SCAT)%Z then Nat.max (maxs (scat_dims (added h))) (match d_scat d with Some s => s | None => 0 end) else 0).
      { unfold sz. rewrite map_app, scat_snoc, !maxs_app. cbn. rewrite Nat.max_0_r. destruct (d_scat d); cbn; rewrite ?Nat.max_0_r; reflexivity. }
      rewrite Hsz. pose proof (In' t) as Ht. pose proof (In' CLOOG_ITER) as Hi. pose proof (In' CLOOG_SCAT) as Hs. unfold sz in Ht, Hi, Hs. cbn in Hi, Hs.
      assert (Hn1 : forall t', (if u_n ud CLOOG_ITER <? d_dim d then upd (u_n ud) CLOOG_ITER (d_dim d) else u_n ud) t' = if (t' =? CLOOG_ITER)%Z then Nat.max (maxs (map d_dim (added h))) (d_dim d) else u_n ud t').
      { intros t'. destruct (Nat.ltb_spec (u_n ud CLOOG_ITER) (d_dim d)); unfold upd; destruct (Z.eqb_spec t' CLOOG_ITER) as [->|]; try reflexivity; rewrite Hi in *; lia. }
      destruct (d_scat d) as [s|].
      * destruct (Nat.ltb_spec ((if u_n ud CLOOG_ITER <? d_dim d then upd (u_n ud) CLOOG_ITER (d_dim d) else u_n ud) CLOOG_SCAT) s) as [Hl|Hl]; rewrite Hn1 in Hl; cbn in Hl; unfold upd at 1; rewrite Hn1.
        -- destruct (Z.eqb_spec t CLOOG_SCAT) as [E|E]; [subst t; cbn; lia|]. destruct (Z.eqb_spec t CLOOG_ITER) as [E'|E']; [subst t; reflexivity|]. exact Ht.
        -- destruct (Z.eqb_spec t CLOOG_ITER) as [E|E]; [subst t; reflexivity|]. rewrite Ht. destruct (t =? CLOOG_PARAM)%Z; [reflexivity|]. destruct (Z.eqb_spec t CLOOG_SCAT) as [E'|E']; [lia|reflexivity].
      * rewrite Hn1. destruct (Z.eqb_spec t CLOOG_ITER) as [E|E]; [subst t; reflexivity|]. rewrite Ht. rewrite Nat.max_0_r. reflexivity.
    + intros t. specialize (It t). destruct (u_name ud t) eqn:Et.
      * destruct It as (Hg & Hn & Hl). split; [exact Hg|]. split; [apply named_snoc; left; exact Hn|]. rewrite Hl.
        destruct Hn as (i & s & Hs). rewrite (Hp _ _ _ Hs). reflexivity.
      * rewrite named_snoc. intros [H|(i & s & H)]; [exact (It H)|discriminate].
    + intros t i. apply last_snoc_other; [apply Iname|discriminate].
  - unfold ud_set_name.
    assert (Hg : negb ((t =? CLOOG_PARAM) || (t =? CLOOG_ITER) || (t =? CLOOG_SCAT))%Z = false <-> good t).
    { rewrite negb_false_iff, !orb_true_iff, !Z.eqb_eq. unfold good. tauto. }
    destruct (negb _) eqn:Eg.
    { intros (n & Hn & _). apply size_sz in Hn as [Hn _]. apply Hg in Hn. discriminate. }
    apply proj1 in Hg. specialize (Hg eq_refl).
    destruct ((i <? 0) || (Z.of_nat (u_n ud t) <=? i))%Z eqn:Ei.
    { intros (n & Hn & Hr). apply size_sz in Hn as [_ ->]. rewrite In' in Ei. apply orb_prop in Ei as [Ei|Ei]; [apply Z.ltb_lt in Ei|apply Z.leb_le in Ei]; lia. }
    apply orb_false_elim in Ei as [Ei1 Ei2]. apply Z.ltb_ge in Ei1. apply Z.leb_gt in Ei2. rewrite In' in Ei2.
    set (tab := match u_name ud t with Some t => t | None => repeat None (u_n ud t) end).
    assert (Hlen : List.length tab = sz nb_par (added h) t).
    { subst tab. specialize (It t). destruct (u_name ud t); [apply It|]. rewrite repeat_length. apply In'. }
    destruct (Nat.ltb_spec (Z.to_nat i) (List.length tab)) as [Hl|Hl]; [|exfalso; lia].
    split.
    { exists (sz nb_par (added h) t). split; [apply size_sz; auto|lia]. }
    constructor; cbn [u_domains u_n u_name].
    + rewrite added_app. cbn. rewrite app_nil_r. exact Id.
    + intros t'. rewrite added_app. cbn. rewrite app_nil_r. apply In'.
    + intros t'. rewrite added_app. cbn [added]. rewrite app_nil_r. unfold upd. destruct (Z.eqb_spec t' t) as [->|Hne].
      * split; [exact Hg|]. split; [apply named_snoc; right; eauto|]. rewrite len_set. exact Hlen.
      * specialize (It t'). destruct (u_name ud t').
        -- destruct It as (A & B & C). split; [exact A|]. split; [apply named_snoc; left; exact B|exact C].
        -- rewrite named_snoc. intros [H|(i' & s' & H)]; [exact (It H)|congruence].
    + intros t' i'. unfold name_of. cbn [u_name]. unfold upd. specialize (Iname t' i'). unfold name_of in Iname.
      destruct (Z.eqb_spec t' t) as [->|Hne].
      * destruct (Z.ltb_spec i' 0) as [Hi'|Hi'].
        -- apply last_snoc_other; [|intros s' E; injection E as -> ->; lia]. destruct (u_name ud t); exact Iname.
        -- rewrite nth_set by exact Hl. destruct (Nat.eqb_spec (Z.to_nat i') (Z.to_nat i)) as [E|E].
           ++ assert (i' = i) by lia. subst. apply last_snoc_same.
           ++ apply last_snoc_other; [|intros s' E'; injection E' as -> ->; apply E; reflexivity].
              subst tab. destruct (u_name ud t) as [tb|]; [exact Iname|]. rewrite nth_repeat. exact Iname.
      * apply last_snoc_other; [exact Iname|]. intros s' E. injection E as -> _. congruence.
Qed.
Lemma allowed_snoc nb_par h c : allowed nb_par (h ++ [c]) <-> allowed nb_par h /\ ok_call nb_par h c.
Proof.
  split.
  - intros H. split.
    + intros h1 c1 h2 ->. apply (H h1 c1 (h2 ++ [c])). rewrite <- app_assoc. reflexivity.
    + apply (H h c []). reflexivity.
  - intros [H Hc] h1 c1 h2 E. destruct h2 as [|c2 h2] using rev_ind.
    + apply app_inj_tail in E as [-> ->]. exact Hc.
    + clear IHh2. rewrite app_comm_cons, app_assoc in E. apply app_inj_tail in E as [-> ->]. apply (H h1 c1 h2). reflexivity.
Qed.
Lemma run_spec nb_par h : match run (ud_alloc nb_par) h with Some ud => allowed nb_par h /\ Inv nb_par h ud | None => ~ allowed nb_par h end.
Proof.
  induction h as [|c h IH] using rev_ind.
  - cbn. split; [intros h1 c h2 E; destruct h1; discriminate|apply inv_init].
  - rewrite run_app. destruct (run (ud_alloc nb_par) h) as [ud|].
    + destruct IH as [Ha Hi]. cbn [run]. pose proof (inv_step nb_par h ud c Hi) as Hs. destruct (step ud c) as [ud'|].
      * destruct Hs as [Hc Hi']. split; [apply allowed_snoc; auto|exact Hi'].
      * intros H. apply allowed_snoc in H as [_ H]. exact (Hs H).
    + intros H. apply allowed_snoc in H as [H _]. exact (IH H).
Qed.
End UDP.
