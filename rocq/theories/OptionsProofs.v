(** Proofs about the command line. *)
From Coq Require Import ZArith List Bool Arith String Ascii Lia.
From Verif Require Import OptionsModel OptionsSpec.
Import ListNotations.
Local Open Scope Z_scope.

(** ** numbers *)
Lemma digit_range c d : digit c = Some d -> 0 <= d <= 9.
Proof. unfold digit. destruct (_ && _) eqn:E; [|discriminate]. intros H. injection H as <-. apply andb_prop in E as [E1 E2]. apply Nat.leb_le in E1, E2. lia. Qed.
Lemma digit_not c d : digit c = Some d -> is_space c = false /\ (nat_of_ascii c =? 45)%nat = false /\ (nat_of_ascii c =? 43)%nat = false.
Proof.
  unfold digit, is_space. destruct (_ && _) eqn:E; [|discriminate]. intros _. apply andb_prop in E as [E1 E2]. apply Nat.leb_le in E1, E2.
  set (n := nat_of_ascii c) in *. clearbody n. repeat split.
  - apply orb_false_intro; [apply Nat.eqb_neq; lia|]. apply andb_false_intro2. apply Nat.leb_gt. lia.
  - apply Nat.eqb_neq; lia.
  - apply Nat.eqb_neq; lia.
Qed.
Lemma digits_app s c acc d : digit c = Some d -> (forall x, In x (list_ascii_of_string s) -> digit x <> None) ->
  digits (s ++ String c "") acc = 10 * digits s acc + d.
Proof.
  intros Hd. revert acc. induction s as [|x s IH]; intros acc H; cbn.
  - rewrite Hd. reflexivity.
  - destruct (digit x) eqn:Ex; [|destruct (H x); [left; reflexivity|exact Ex]]. apply IH. intros y Hy. apply H. right. exact Hy.
Qed.
Lemma list_app s t : list_ascii_of_string (s ++ t) = (list_ascii_of_string s ++ list_ascii_of_string t)%list.
Proof. induction s; cbn; [reflexivity|]. f_equal. assumption. Qed.
Lemma digits_of_all s v : digits_of s v -> forall x, In x (list_ascii_of_string s) -> digit x <> None.
Proof.
  induction 1 as [c d Hd|s v c d Hs IH Hd]; intros x Hx.
  - destruct Hx as [<-|[]]. congruence.
  - rewrite list_app in Hx. apply in_app_iff in Hx as [Hx|[<-|[]]]; [apply IH; exact Hx|congruence].
Qed.
Lemma digits_of_val s v : digits_of s v -> digits s 0 = v /\ 0 <= v.
Proof.
  induction 1 as [c d Hd|s v c d Hs [IH IH'] Hd].
  - cbn. rewrite Hd. apply digit_range in Hd. lia.
  - rewrite (digits_app s c 0 d Hd (digits_of_all _ _ Hs)), IH. apply digit_range in Hd. lia.
Qed.
Lemma digits_of_first s v : digits_of s v -> exists c s' d, s = String c s' /\ digit c = Some d.
Proof.
  induction 1 as [c d Hd|s v c d Hs (c' & s' & d' & -> & Hd') Hd]; [exists c, EmptyString, d; auto|].
  exists c', (s' ++ String c "")%string, d'. auto.
Qed.
Lemma skip_digit c s d : digit c = Some d -> skip_spaces (String c s) = String c s.
Proof. intros H. cbn. destruct (digit_not _ _ H) as (-> & _). reflexivity. Qed.
Lemma strtol_number s v : number s v -> strtol s = clamp v.
Proof.
  intros [s' v' H|s' v' H|s' v' H].
  - destruct (digits_of_first _ _ H) as (c & t & d & -> & Hd). destruct (digits_of_val _ _ H) as [Hv _]. unfold strtol.
    rewrite (skip_digit _ _ _ Hd). destruct (digit_not _ _ Hd) as (_ & -> & ->). rewrite Hv. reflexivity.
  - destruct (digits_of_val _ _ H) as [Hv _]. change (strtol (String "+" s')) with (clamp (digits s' 0)). rewrite Hv. reflexivity.
  - destruct (digits_of_val _ _ H) as [Hv _]. change (strtol (String "-" s')) with (clamp (- digits s' 0)). rewrite Hv. reflexivity.
Qed.
Lemma to_int_id v : int_range v -> to_int v = v.
Proof. unfold int_range, to_int. intros H. rewrite Z.mod_small; lia. Qed.
Lemma int_value s v : number s v -> int_range v -> to_int (strtol s) = v.
Proof.
  intros H Hr. rewrite (strtol_number _ _ H). unfold clamp. unfold int_range in Hr.
  rewrite Z.min_r by lia. rewrite Z.max_r by lia. apply to_int_id. exact Hr.
Qed.

(** ** reading *)
Section FSP.
Variable readable writable : string -> bool.
Definition assign (o : opts) (l : list (field * Z)) : opts := fold_left (fun o x => set o (fst x) (snd x)) l o.
Fixpoint run_items (l : list item) (o : opts) (infos : bool) (input : option (string * source)) (output : sink) : outcome :=
  match l with
  | [] => match input with Some (name, src) => Ready o name src output | None => if infos then Exited else Died end
  | Value f s :: l' => run_items l' (set o f (to_int (strtol s))) infos input output
  | Flag fs :: l' => run_items l' (assign o fs) infos input output
  | Info :: l' => run_items l' o true input output
  | Unknown :: l' => run_items l' o infos input output
  | Output v :: l' => if streq v "stdout" then run_items l' o infos input Stdout
                      else if writable v then run_items l' o infos input (Outfile v) else Died
  | Input a :: l' => match input with
                     | None => if streq a "stdin" then run_items l' o infos (Some (a, Stdin)) output
                               else if readable a then run_items l' o infos (Some (a, Infile a)) output else Died
                     | Some _ => Died
                     end
  end.
Lemma dash_dec (a : string) : {s' | a = String "-" s'} + {~ starts_dash a}.
Proof.
  destruct a as [|c s]; [right; intros (s' & E); discriminate|]. destruct (ascii_dec c "-") as [->|n]; [left; eauto|right].
  intros (s' & E). injection E. intros. congruence.
Qed.
Lemma nodash_read a rest o i inp out : ~ starts_dash a ->
  read_args readable writable (a :: rest) o i inp out =
  match inp with
  | None => if streq a "stdin" then read_args readable writable rest o i (Some (a, Stdin)) out
            else if readable a then read_args readable writable rest o i (Some (a, Infile a)) out else Died
  | Some _ => Died
  end.
Proof.
  intros H. destruct a as [|c s]; [reflexivity|].
  destruct c as [[] [] [] [] [] [] [] []]; try reflexivity.
  destruct H. exists s. reflexivity.
Qed.
Local Ltac chain H :=
  match goal with |- context[if streq ?a ?s then _ else _] => destruct (streq a s) eqn:?E end.
Lemma streq_neq a s : streq a s = false -> a <> s.
Proof. intros H ->. unfold streq in H. rewrite String.eqb_refl in H. discriminate. Qed.
Lemma neq_streq a s : a <> s -> streq a s = false.
Proof. apply String.eqb_neq. Qed.
Lemma unknown_read a rest o i inp out : starts_dash a -> ~ In a known ->
  read_args readable writable (a :: rest) o i inp out = read_args readable writable rest o i inp out.
Proof.
  intros (s & ->) Hn. cbn [read_args].
  assert (Hs : forall k, In k known -> streq (String "-" s) k = false) by (intros k Hk; apply neq_streq; intros E; apply Hn; rewrite E; exact Hk).
  rewrite !Hs by (cbn; tauto). reflexivity.
Qed.
Lemma reads_run args items : reads args items -> forall o i inp out,
  read_args readable writable args o i inp out = run_items items o i inp out.
Proof.
  induction 1 as [|a f v rest l Hin Hr IH|a fs rest l Hin Hr IH|a rest l Hin Hr IH|v rest l Hr IH|a rest l Hs Hn Hr IH|a rest l Hs Hr IH]; intros o i inp out.
  - reflexivity.
  - cbn in Hin. cbn [run_items]. rewrite <- IH. repeat (destruct Hin as [E|Hin]; [injection E as <- <-; reflexivity|]). contradiction.
  - cbn in Hin. cbn [run_items]. rewrite <- IH. repeat (destruct Hin as [E|Hin]; [injection E as <- <-; reflexivity|]). contradiction.
  - cbn in Hin. cbn [run_items]. rewrite <- IH. repeat (destruct Hin as [<-|Hin]; [reflexivity|]). contradiction.
  - cbn [run_items]. rewrite <- !IH. reflexivity.
  - cbn [run_items]. rewrite <- IH. apply unknown_read; assumption.
  - cbn [run_items]. rewrite nodash_read by assumption. destruct inp; [reflexivity|]. rewrite <- !IH. reflexivity.
Qed.
Lemma read_reads args : forall o i inp out, read_args readable writable args o i inp out <> Died -> exists items, reads args items.
Proof.
  remember (List.length args) as n eqn:En. assert (Hle : (List.length args <= n)%nat) by lia. clear En. revert args Hle.
  induction n as [|n IH]; intros args Hle o i inp out H.
  { destruct args; [exists []; constructor|cbn in Hle; lia]. }
  destruct args as [|a rest]; [exists []; constructor|]. cbn in Hle.
  destruct (dash_dec a) as [(s & Ea)|Hnd].
  2:{ rewrite nodash_read in H by exact Hnd. assert (Hr : exists items, reads rest items).
      { destruct inp; [congruence|]. destruct (streq a "stdin"); [eapply IH; [lia|exact H]|]. destruct (readable a); [eapply IH; [lia|exact H]|congruence]. }
      destruct Hr as (items & Hr). exists (Input a :: items). apply R_input; assumption. }
  destruct (in_dec string_dec a known) as [Hk|Hk].
  2:{ rewrite unknown_read in H; [|exists s; exact Ea|exact Hk]. destruct (IH rest ltac:(lia) _ _ _ _ H) as (items & Hr). exists (Unknown :: items). apply R_unknown; [exists s; exact Ea|exact Hk|exact Hr]. }
  unfold known in Hk. apply in_app_iff in Hk as [Hk|Hk]; [|apply in_app_iff in Hk as [Hk|Hk]; [|apply in_app_iff in Hk as [Hk|Hk]]].
  - apply in_map_iff in Hk as ([a' f] & E & Hk). cbn in E. subst a'.
    destruct rest as [|v rest].
    { exfalso. apply H. cbn in Hk. repeat (destruct Hk as [E|Hk]; [injection E as <- <-; reflexivity|]). contradiction. }
    assert (H' : read_args readable writable rest (set o f (to_int (strtol v))) i inp out <> Died).
    { cbn in Hk. repeat (destruct Hk as [E|Hk]; [injection E as <- <-; exact H|]). contradiction. }
    cbn in Hle. destruct (IH rest ltac:(lia) _ _ _ _ H') as (items & Hr). eexists. eapply R_value; eauto.
  - apply in_map_iff in Hk as ([a' fs] & E & Hk). cbn in E. subst a'.
    assert (H' : read_args readable writable rest (assign o fs) i inp out <> Died).
    { cbn in Hk. repeat (destruct Hk as [E|Hk]; [injection E as <- <-; exact H|]). contradiction. }
    destruct (IH rest ltac:(lia) _ _ _ _ H') as (items & Hr). eexists. eapply R_flag; eauto.
  - assert (H' : read_args readable writable rest o true inp out <> Died).
    { cbn in Hk. repeat (destruct Hk as [<-|Hk]; [exact H|]). contradiction. }
    destruct (IH rest ltac:(lia) _ _ _ _ H') as (items & Hr). eexists. eapply R_info; eauto.
  - destruct Hk as [<-|[<-|[]]]; [|exfalso; apply H; reflexivity].
    destruct rest as [|v rest]; [exfalso; apply H; reflexivity|]. cbn in Hle.
    assert (Hr : exists items, reads rest items).
    { change (read_args readable writable ("-o"%string :: v :: rest) o i inp out) with
        (if streq v "stdout" then read_args readable writable rest o i inp Stdout else if writable v then read_args readable writable rest o i inp (Outfile v) else Died) in H.
      destruct (streq v "stdout"); [eapply IH; [lia|exact H]|]. destruct (writable v); [eapply IH; [lia|exact H]|congruence]. }
    destruct Hr as (items & Hr). eexists. eapply R_output; eauto.
Qed.

Definition numval (s : string) : Z := to_int (strtol s).
Lemma last_app_or (l1 l2 : list Z) d : last (l1 ++ l2) d = last l2 (last l1 d).
Proof.
  revert d. induction l2 as [|x l2 IH] using rev_ind; intros d; [rewrite app_nil_r; reflexivity|]. rewrite app_assoc, !last_last. reflexivity.
Qed.
Lemma assign_last fs f : forall o, assign o fs f = last (map snd (filter (fun x => if field_eq_dec (fst x) f then true else false) fs)) (o f).
Proof.
  induction fs as [|[g v] fs IH]; intros o; [reflexivity|]. unfold assign in *. cbn [fold_left fst snd filter]. rewrite IH. unfold set at 1.
  destruct (field_eq_dec f g) as [->|Hn]; destruct (field_eq_dec _ _); try congruence.
  cbn [map snd]. change (v :: ?l) with ([v] ++ l). rewrite last_app_or. reflexivity.
Qed.
Definition step_src (a : string) : source := if streq a "stdin" then Stdin else Infile a.
Definition step_out (a : string) : sink := if streq a "stdout" then Stdout else Outfile a.
Definition can_read (a : string) : bool := streq a "stdin" || readable a.
Definition can_write (a : string) : bool := streq a "stdout" || writable a.
(** what an accepted run gives *)
Lemma run_result l : forall o i inp out,
  match run_items l o i inp out with
  | Ready o' name src out' =>
      (forall f, o' f = last (flat_map (given numval f) l) (o f)) /\
      match inp with None => inputs l = [name] /\ can_read name = true /\ src = step_src name | Some (n, s) => inputs l = [] /\ name = n /\ src = s end /\
      (forall v, In v (outputs l) -> can_write v = true) /\ out' = last (map step_out (outputs l)) out
  | Exited => inputs l = [] /\ inp = None /\ (i = true \/ In Info l) /\ (forall v, In v (outputs l) -> can_write v = true)
  | Died => (inp = None /\ inputs l = [] /\ i = false /\ ~ In Info l) \/ (inp <> None /\ inputs l <> []) \/ (inp = None /\ exists a b r, inputs l = a :: b :: r) \/
            (exists v, In v (inputs l) /\ can_read v = false) \/ (exists v, In v (outputs l) /\ can_write v = false)
  end.
Proof.
  induction l as [|it l IH]; intros o i inp out.
  - cbn. destruct inp as [[n s]|].
    + repeat split; auto; contradiction.
    + destruct i; [repeat split; auto; contradiction|]. left. repeat split; auto.
  - destruct it as [f s|fs| |v|a|]; cbn [run_items].
    + specialize (IH (set o f (to_int (strtol s))) i inp out). destruct (run_items _ _ _ _ _) as [| |o' name src out'].
      * change (inputs (Value f s :: l)) with (inputs l). change (outputs (Value f s :: l)) with (outputs l).
        destruct IH as [IH|IH]; [left|right; exact IH]. destruct IH as (A & B & C & E). repeat split; auto. intros [F|F]; [discriminate|auto].
      * destruct IH as (A & B & C & E). repeat split; auto. destruct C; [auto|right; right; auto].
      * destruct IH as (A & B & C & E). split; [|split; [exact B|split; [exact C|exact E]]]. intros g. cbn [flat_map]. rewrite A, last_app_or. f_equal.
        cbn [given]. unfold set. destruct (field_eq_dec g f), (field_eq_dec f g); try congruence; reflexivity.
    + specialize (IH (assign o fs) i inp out). destruct (run_items _ _ _ _ _) as [| |o' name src out'].
      * change (inputs (Flag fs :: l)) with (inputs l). change (outputs (Flag fs :: l)) with (outputs l).
        destruct IH as [IH|IH]; [left|right; exact IH]. destruct IH as (A & B & C & E). repeat split; auto. intros [F|F]; [discriminate|auto].
      * destruct IH as (A & B & C & E). repeat split; auto. destruct C; [auto|right; right; auto].
      * destruct IH as (A & B & C & E). split; [|split; [exact B|split; [exact C|exact E]]]. intros g. cbn [flat_map]. rewrite A, last_app_or. f_equal. apply assign_last.
    + specialize (IH o true inp out). destruct (run_items _ _ _ _ _) as [| |o' name src out'].
      * change (inputs (Info :: l)) with (inputs l). change (outputs (Info :: l)) with (outputs l).
        destruct IH as [(_ & _ & E & _)|IH]; [discriminate|right; exact IH].
      * destruct IH as (A & B & C & E). repeat split; auto. right. left. reflexivity.
      * exact IH.
    + change (inputs (Output v :: l)) with (inputs l). change (outputs (Output v :: l)) with (v :: outputs l).
      assert (Hcase : can_write v = false /\ (if streq v "stdout" then run_items l o i inp Stdout else if writable v then run_items l o i inp (Outfile v) else Died) = Died \/
                      can_write v = true /\ (if streq v "stdout" then run_items l o i inp Stdout else if writable v then run_items l o i inp (Outfile v) else Died) = run_items l o i inp (step_out v)).
      { unfold can_write, step_out. destruct (streq v "stdout"); [right; auto|]. destruct (writable v); [right; auto|left; auto]. }
      destruct Hcase as [[Hc ->]|[Hc ->]]; [do 4 right; exists v; split; [left; reflexivity|exact Hc]|].
      specialize (IH o i inp (step_out v)). destruct (run_items _ _ _ _ _) as [| |o' name src out'].
      * destruct IH as [IH|[IH|[IH|[IH|(w & Hw & E)]]]].
        -- left. destruct IH as (A & B & C & E). repeat split; auto. intros [F|F]; [discriminate|auto].
        -- right; left; exact IH.
        -- right; right; left; exact IH.
        -- do 3 right; left; exact IH.
        -- do 4 right. exists w. split; [right; exact Hw|exact E].
      * destruct IH as (A & B & C & E). repeat split; auto; [destruct C; [auto|right; right; auto]|]. intros w [<-|Hw]; auto.
      * destruct IH as (A & B & C & E). split; [exact A|]. split; [exact B|]. split; [intros w [<-|Hw]; auto|]. rewrite E. cbn [map].
        clear. generalize (step_out v) as x. generalize (map step_out (outputs l)) as m. intros m x. destruct m; [reflexivity|]. cbn [last]. 
        revert s. induction m as [|y m IHm]; intros s; [reflexivity|]. cbn [last] in *. apply IHm.
    + change (inputs (Input a :: l)) with (a :: inputs l). change (outputs (Input a :: l)) with (outputs l).
      destruct inp as [[n s]|]; [right; left; split; discriminate|].
      assert (Hcase : can_read a = false /\ (if streq a "stdin" then run_items l o i (Some (a, Stdin)) out else if readable a then run_items l o i (Some (a, Infile a)) out else Died) = Died \/
                      can_read a = true /\ (if streq a "stdin" then run_items l o i (Some (a, Stdin)) out else if readable a then run_items l o i (Some (a, Infile a)) out else Died) = run_items l o i (Some (a, step_src a)) out).
      { unfold can_read, step_src. destruct (streq a "stdin"); [right; auto|]. destruct (readable a); [right; auto|left; auto]. }
      destruct Hcase as [[Hc ->]|[Hc ->]]; [do 3 right; left; exists a; split; [left; reflexivity|exact Hc]|].
      specialize (IH o i (Some (a, step_src a)) out). destruct (run_items _ _ _ _ _) as [| |o' name src out'].
      * destruct IH as [(E & _)|[(_ & E)|[(E & _)|[(v & Hv & E)|IH]]]]; try discriminate.
        -- right; right; left. split; [reflexivity|]. destruct (inputs l) as [|b r]; [congruence|eauto].
        -- do 3 right; left. exists v. split; [right; exact Hv|exact E].
        -- do 4 right; exact IH.
      * destruct IH as (_ & E & _). discriminate.
      * destruct IH as (A & (B1 & -> & ->) & C & E). split; [exact A|]. split; [|split; [exact C|exact E]]. rewrite B1. auto.
    + specialize (IH o i inp out). destruct (run_items _ _ _ _ _) as [| |o' name src out'].
      * change (inputs (Unknown :: l)) with (inputs l). change (outputs (Unknown :: l)) with (outputs l).
        destruct IH as [IH|IH]; [left|right; exact IH]. destruct IH as (A & B & C & E). repeat split; auto. intros [F|F]; [discriminate|auto].
      * destruct IH as (A & B & C & E). repeat split; auto. destruct C; [auto|right; right; auto].
      * exact IH.
Qed.
End FSP.
