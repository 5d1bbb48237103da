(** Proofs about InputModel.v: what is dumped is read back *)
From Coq Require Import ZArith List Bool Arith String Ascii Lia.
From Verif Require Import PprintModel PprintSpec OptionsModel NamesModel NamesSpec NamesProofs TextModel TextSpec TextProofs InputModel InputSpec.
Import ListNotations.
Local Open Scope string_scope.
Local Open Scope nat_scope.
Local Opaque BUF.

(** *** lines to skip *)
Lemma noise_app a b : noise a -> noise b -> noise (a ++ b).
Proof. intros A B. induction A as [|l s K A IH]; [exact B|]. rewrite !app_assoc_s. constructor; assumption. Qed.
Lemma noise_nl s : noise s -> noise (newline ++ s).
Proof.
  intro N. apply (Noise_line ""); [|exact N]. split; [split; [reflexivity|cbn; apply Nat.ltb_lt; vm_compute; reflexivity]|].
  exists "", "". split; [reflexivity|]. split; [reflexivity|left; reflexivity].
Qed.
Lemma noise_comment c s : all_chars not_nl c = true -> String.length c < 1000 -> noise s -> noise (String hash c ++ newline ++ s).
Proof.
  intros A L N. constructor; [|exact N]. split.
  - split; [cbn; rewrite A; reflexivity|]. cbn. apply Nat.lt_trans with (S 1000); [lia|]. apply Nat.ltb_lt. vm_compute. reflexivity.
  - exists "", (String hash c). split; [reflexivity|]. split; [reflexivity|]. right. exists c. reflexivity.
Qed.
Definition solid (s : string) : Prop := match s with String c _ => is_space c = false | EmptyString => False end.
Lemma left_over_noise x rest' : solid x -> left_over (newline ++ x) rest' -> exists n, noise n /\ rest' = n ++ x.
Proof.
  intros H [->|(w & A & E)].
  - exists (newline ++ newline). split; [|rewrite app_assoc_s; reflexivity]. change (noise (newline ++ newline ++ "")). apply noise_nl, noise_nl. constructor.
  - destruct w as [|c w]; cbn in E.
    + exists newline. split; [change (noise (newline ++ "")); apply noise_nl; constructor|symmetry; exact E].
    + injection E as <- E. destruct w as [|d w]; cbn in E.
      * exists "". split; [constructor|symmetry; exact E].
      * exfalso. rewrite E in H. cbn in H. cbn in A. rewrite H in A. cbn in A. rewrite ?andb_false_r in A. discriminate.
Qed.

(** *** lines with a number *)
Lemma skip_spaces_blank b s : all_chars blank b = true -> skip_spaces (b ++ s) = skip_spaces s.
Proof.
  induction b as [|c b IH]; [reflexivity|]. cbn. rewrite andb_true_iff. intros (A & B). unfold blank in A. apply andb_true_iff in A. destruct A as (A & _). rewrite A. auto.
Qed.
Lemma skipped_number l : skipped l -> scan_number (l ++ newline) = None.
Proof.
  intros (_ & b & c & -> & B & C). unfold scan_number. rewrite app_assoc_s, skip_spaces_blank by exact B. destruct C as [->|(c' & ->)]; reflexivity.
Qed.
Lemma option_line_right eof s l rest z r : noise s -> line_ok l -> starts_with hash (l ++ newline) || starts_with nl (l ++ newline) = false ->
  scan_number (l ++ newline) = Some (z, r) -> as_int z = Some z -> forall fuel, String.length s < fuel ->
  option_line eof fuel (s ++ l ++ newline ++ rest) = Some (z, rest).
Proof.
  intros N (K1 & K2) K3 SN AI. induction N as [|l' s SK N IH]; intros fuel F; destruct fuel as [|k]; try lia; cbn [option_line].
  - cbn [append]. rewrite fgets_line by assumption. destruct (nonempty_line l) as (c & t & E). rewrite E in *. rewrite K3, SN, AI. reflexivity.
  - pose proof (skipped_number l' SK) as Q. destruct SK as ((L1 & L2) & SK). rewrite !app_assoc_s, fgets_line by assumption.
    destruct (nonempty_line l') as (c & t & E). rewrite E in *. rewrite Q.
    assert (G : option_line eof k (s ++ l ++ newline ++ rest) = Some (z, rest)) by (apply IH; rewrite !length_app_s in F; cbn in F; lia).
    rewrite G. destruct (starts_with hash (String c t) || starts_with nl (String c t)); reflexivity.
Qed.
Lemma number_line n tail : starts_digit tail = false ->
  starts_with hash ((nat_text n ++ tail) ++ newline) || starts_with nl ((nat_text n ++ tail) ++ newline) = false /\
  scan_number ((nat_text n ++ tail) ++ newline) = Some (Z.of_nat n, tail ++ newline) /\ solid ((nat_text n ++ tail) ++ newline).
Proof.
  intro T. split; [|split].
  - rewrite app_assoc_s. unfold nat_text. destruct (nz_first (Nat.to_uint n)) as (c & s & E & D). rewrite E. cbn. destruct (dig_facts c D) as (_ & _ & _ & B & C). rewrite B, C. reflexivity.
  - rewrite app_assoc_s. apply scan_number_nat. destruct tail; [reflexivity|exact T].
  - rewrite app_assoc_s. unfold nat_text. destruct (nz_first (Nat.to_uint n)) as (c & s & E & D). rewrite E. cbn. destruct (dig_facts c D) as (A & _). exact A.
Qed.
Lemma as_int_nat n : (Z.of_nat n < 2 ^ 31)%Z -> as_int (Z.of_nat n) = Some (Z.of_nat n).
Proof. intro H. unfold as_int. destruct (Z.leb_spec (- 2 ^ 31) (Z.of_nat n)); [|lia]. apply Z.ltb_lt in H. rewrite H. reflexivity. Qed.
Lemma nat_ok n : (Z.of_nat n < 2 ^ 31)%Z -> all_chars not_nl (nat_text n) = true /\ String.length (nat_text n) <= 10.
Proof.
  intro H. split; [|apply short_number; lia]. apply (all_weaken isdig); [|apply nat_chars]. intros d D. destruct (dig_facts d D) as (_ & _ & _ & _ & E). unfold not_nl. rewrite E. reflexivity.
Qed.
Lemma number_line_ok n tail : (Z.of_nat n < 2 ^ 31)%Z -> all_chars not_nl tail = true -> String.length tail < 1000 -> line_ok (nat_text n ++ tail).
Proof.
  intros H A L. destruct (nat_ok n H) as (B & M). split; [rewrite all_app, A, B; reflexivity|]. rewrite length_app_s.
  apply Nat.lt_trans with 1010; [lia|]. apply Nat.ltb_lt. vm_compute. reflexivity.
Qed.
Lemma number_option eof n tail s rest fuel : noise s -> (Z.of_nat n < 2 ^ 31)%Z -> all_chars not_nl tail = true -> String.length tail < 1000 -> starts_digit tail = false ->
  String.length (s ++ (nat_text n ++ tail) ++ newline ++ rest) < fuel ->
  option_line eof fuel (s ++ (nat_text n ++ tail) ++ newline ++ rest) = Some (Z.of_nat n, rest).
Proof.
  intros N H A L T F. destruct (number_line n tail T) as (B & C & _). eapply option_line_right; [exact N|apply number_line_ok; assumption|exact B|exact C|apply as_int_nat; exact H|].
  rewrite length_app_s in F. lia.
Qed.
Lemma number_next n tail s rest : noise s -> (Z.of_nat n < 2 ^ 31)%Z -> all_chars not_nl tail = true -> String.length tail < 1000 -> starts_digit tail = false ->
  exists p, next_line (s ++ (nat_text n ++ tail) ++ newline ++ rest) = Some ((nat_text n ++ tail) ++ newline, p, rest).
Proof.
  intros N H A L T. destruct (number_line n tail T) as (B & _ & C). eexists. apply next_line_right; [exact N|]. split; [apply number_line_ok; assumption|].
  destruct ((nat_text n ++ tail) ++ newline) as [|c t]; [reflexivity|]. cbn in C. rewrite skip_blanks_stop by (unfold blank; rewrite C; reflexivity). exact B.
Qed.

(** *** names *)
Lemma good_first w : good_name w -> exists c w', w = String c w' /\ is_space c = false /\ Ascii.eqb c hash = false.
Proof.
  intros (N & A & H & _). destruct w as [|c w']; [contradiction|]. exists c, w'. split; [reflexivity|]. cbn in A, H. apply andb_true_iff in A. destruct A as (A & _). apply negb_true_iff in A. auto.
Qed.
Lemma read_names_right : forall l t, Forall good_name l -> read_names (List.length l) (names_text (map Some l) ++ t) = Some l /\
  read_names (List.length l) (" " ++ names_text (map Some l) ++ t) = Some l.
Proof.
  induction l as [|w l IH]; intros t F; [split; reflexivity|]. inversion F as [|? ? G F']; subst. destruct (IH t F') as (_ & IH2).
  assert (Q : read_names (List.length (w :: l)) (names_text (map Some (w :: l)) ++ t) = Some (w :: l)).
  { cbn [map names_text fold_right str List.length]. change (fold_right (fun s t => str s ++ " " ++ t) "" (map Some l)) with (names_text (map Some l)).
    rewrite !app_assoc_s. change (" " ++ names_text (map Some l) ++ t) with (String " " (names_text (map Some l) ++ t)) in *.
    pose proof (good_first w G) as (c & w' & E & S & H). pose proof G as (N & A & _ & L).
    cbn [read_names]. assert (K : skip_spaces (w ++ String " " (names_text (map Some l) ++ t)) = w ++ String " " (names_text (map Some l) ++ t)) by (rewrite E; cbn; rewrite S; reflexivity).
    rewrite K. pose proof (scan_word_app w " " (names_text (map Some l) ++ t) N A eq_refl) as SW. rewrite E in *. cbn [append] in *. rewrite H, SW, IH2.
    destruct (Nat.ltb_spec (String.length (String c w')) MAX_NAME) as [_|B]; [reflexivity|]. unfold MAX_NAME in B. lia. }
  split; [exact Q|]. exact Q.
Qed.
Lemma names_line l : Forall good_name l -> all_chars not_nl (names_text (map Some l)) = true.
Proof.
  induction 1 as [|w l (N & A & _) F IH]; [reflexivity|]. cbn [map names_text fold_right str]. rewrite !all_app. rewrite !andb_true_iff. split; [|split; [reflexivity|exact IH]].
  revert A. apply all_weaken. intros c C. unfold not_nl. destruct (Ascii.eqb_spec c nl) as [->|]; [discriminate|reflexivity].
Qed.

Section Round.
Variables D Sc : Type.
Variable print_dom : D -> string.
Variable print_scat : Sc -> string.
Variable read_ctx : string -> option (D * string).
Variable read_dom : nat -> string -> option (D * string).
Variable read_scat : D -> string -> option (Sc * string).
Variables par_dim dom_dim : D -> nat.
Variable scat_dim : Sc -> nat.
Notation st := (statement D Sc).
Notation made := (made D Sc dom_dim scat_dim).

(** what print_names prints after its first newline *)
Definition names_body (ud : udom (D * option Sc)) (t : Z) (label : string) : string :=
  (match u_name ud t with Some _ => "1" | None => "0" end) ++ " # " ++ label ++ " name(s)" ++ NL ++
  match u_name ud t with Some tab => names_text (firstn (u_n ud t) tab) ++ NL | None => "" end.
Lemma names_body_solid ud t label rest : solid (names_body ud t label ++ rest).
Proof. unfold names_body. destruct (u_name ud t); reflexivity. Qed.
Lemma print_names_read (ud : udom (D * option Sc)) t label n rest items : noise n -> names_ok D Sc ud t -> all_chars not_nl label = true -> String.length label <= 100 ->
  (forall tab, u_name ud t = Some tab -> tab <> [] /\ items = Z.of_nat (List.length tab) /\ u_n ud t = List.length tab) ->
  names_read_strings (n ++ names_body ud t label ++ rest) items = Some (option_map (map (fun o => str o)) (u_name ud t), rest).
Proof.
  intros N OK A L T. unfold names_read_strings, names_body, names_ok in *.
  assert (Tl : all_chars not_nl (" # " ++ label ++ " name(s)") = true) by (rewrite !all_app, A; reflexivity).
  assert (Ll : String.length (" # " ++ label ++ " name(s)") < 1000) by (rewrite !length_app_s; cbn; lia).
  destruct (u_name ud t) as [tab|] eqn:E.
  - destruct OK as (l & -> & G & LL). destruct (T _ eq_refl) as (NE & -> & UN). rewrite UN, firstn_all.
    replace (n ++ ("1" ++ " # " ++ label ++ " name(s)" ++ NL ++ names_text (map Some l) ++ NL) ++ rest)
      with (n ++ (nat_text 1 ++ " # " ++ label ++ " name(s)") ++ newline ++ (names_text (map Some l) ++ newline ++ rest))
      by (change (nat_text 1) with "1"; change NL with newline; rewrite !app_assoc_s; reflexivity).
    rewrite number_option; [|exact N|reflexivity|exact Tl|exact Ll|reflexivity|lia].
    destruct (Z.eqb_spec (Z.of_nat (List.length (map Some l))) 0) as [Q|Q]; [destruct l; [contradiction|cbn in Q; lia]|].
    change (Z.of_nat 1 =? 0)%Z with false. cbn iota. destruct (Z.ltb_spec (Z.of_nat (List.length (map Some l))) 0); [lia|].
    assert (SB : skip_blanks (names_text (map Some l) ++ newline) = names_text (map Some l) ++ newline /\ starts_with hash (names_text (map Some l) ++ newline) || starts_with nl (names_text (map Some l) ++ newline) = false).
    { destruct l as [|w l]; [contradiction|]. inversion G as [|? ? Gw _]; subst. destruct (good_first w Gw) as (c & w' & -> & S & H'). cbn [map names_text fold_right str append].
      split; [apply skip_blanks_stop; unfold blank; rewrite S; reflexivity|]. cbn [starts_with]. rewrite H'. destruct (Ascii.eqb_spec c nl) as [->|]; [discriminate S|reflexivity]. }
    destruct SB as (SB1 & SB2).
    assert (KL : kept (names_text (map Some l))) by (split; [split; [apply names_line; exact G|apply Nat.lt_le_trans with (S 1022); [lia|apply Nat.leb_le; vm_compute; reflexivity]]|rewrite SB1; exact SB2]).
    pose proof (next_line_right "" (names_text (map Some l)) rest Noise_nil KL) as NX. cbn [append] in NX. rewrite NX.
    rewrite SB1, Nat2Z.id, map_length, (proj1 (read_names_right l newline G)). cbn [option_map]. rewrite map_map. cbn [str]. rewrite map_id. reflexivity.
  - replace (n ++ ("0" ++ " # " ++ label ++ " name(s)" ++ NL ++ "") ++ rest)
      with (n ++ (nat_text 0 ++ " # " ++ label ++ " name(s)") ++ newline ++ rest)
      by (change (nat_text 0) with "0"; change NL with newline; rewrite !app_assoc_s; reflexivity).
    rewrite number_option; [|exact N|reflexivity|exact Tl|exact Ll|reflexivity|lia]. destruct (items =? 0)%Z; reflexivity.
Qed.

(** *** iteration domains and scatterings *)
Lemma label_noise i o (a : string) s : (Z.of_nat i < 2 ^ 31)%Z -> good_label o -> all_chars not_nl a = true -> String.length a <= 50 -> noise s ->
  noise ((String hash a ++ nat_text i ++ " (" ++ str o ++ ").") ++ newline ++ s).
Proof.
  intros I G A L N. destruct (nat_ok i I) as (B & M). change (String hash a ++ nat_text i ++ " (" ++ str o ++ ").") with (String hash (a ++ nat_text i ++ " (" ++ str o ++ ").")).
  assert (K : all_chars not_nl (str o) = true /\ String.length (str o) <= 900) by (destruct o; [exact G|cbn; split; [reflexivity|lia]]). destruct K as (K1 & K2).
  apply noise_comment; [rewrite !all_app, A, B, K1; reflexivity| |exact N]. rewrite !length_app_s. cbn. lia.
Qed.
Lemma read_domains_right np : forall (l : list st) i n rest, noise n -> Forall (fun s => good_label (d_name s) /\ reads_back (print_dom (fst (d_dom s))) (read_dom np) (fst (d_dom s))) l ->
  (Z.of_nat (i + List.length l) < 2 ^ 31)%Z ->
  exists n', noise n' /\ read_domains D read_dom (List.length l) np (n ++ domains_text D Sc print_dom i l ++ rest) = Some (map (fun s => fst (d_dom s)) l, n' ++ rest).
Proof.
  induction l as [|s l IH]; intros i n rest N F I; [exists n; split; [exact N|reflexivity]|].
  inversion F as [|? ? (G & R) F']; subst. cbn [List.length domains_text read_domains map].
  set (X := NL ++ domains_text D Sc print_dom (S i) l ++ rest).
  set (c := "# Iteration domain of statement " ++ nat_text i ++ " (" ++ str (d_name s) ++ ").").
  set (z := nat_text 0 ++ " 0 0 # For future options.").
  replace (n ++ ("# Iteration domain of statement " ++ nat_text i ++ " (" ++ str (d_name s) ++ ")." ++ NL ++ print_dom (fst (d_dom s)) ++ NL ++ "0 0 0 # For future options." ++ NL ++ NL ++ domains_text D Sc print_dom (S i) l) ++ rest)
    with ((n ++ c ++ newline ++ "") ++ print_dom (fst (d_dom s)) ++ newline ++ (z ++ newline ++ X))
    by (unfold c, z, X; change (nat_text 0) with "0"; change NL with newline; rewrite !app_assoc_s; reflexivity).
  assert (N1 : noise (n ++ c ++ newline ++ "")).
  { apply noise_app; [exact N|]. apply (label_noise i (d_name s) " Iteration domain of statement "); [cbn in I; lia|exact G|reflexivity|cbn; lia|constructor]. }
  destruct (R _ (z ++ newline ++ X) N1) as (rest' & -> & LO).
  destruct (left_over_noise (z ++ newline ++ X) rest' eq_refl LO) as (n1 & N2 & ->).
  destruct (number_next 0 " 0 0 # For future options." n1 X N2) as (p & NX); [reflexivity|reflexivity|cbn; lia|reflexivity|]. fold z in NX. rewrite NX.
  change (three_numbers (z ++ newline)) with true. cbn iota.
  destruct (IH (S i) newline rest) as (n' & N' & E); [apply (noise_nl ""); constructor|exact F'|cbn in I; lia|].
  exists n'. split; [exact N'|]. unfold X. change NL with newline. rewrite E. reflexivity.
Qed.
Lemma scatterings_text_all : forall (l : list st) i, (forall s, In s l -> snd (d_dom s) <> None) -> exists t, scatterings_text D Sc print_scat i l = Some t.
Proof.
  induction l as [|s l IH]; intros i H; [exists ""; reflexivity|]. cbn [scatterings_text]. destruct (IH (S i)) as (t & ->); [intros s' I; apply H; right; exact I|].
  pose proof (H s (or_introl eq_refl)) as Q. destruct (snd (d_dom s)); [eexists; reflexivity|contradiction].
Qed.
Lemma read_scatterings_right : forall (l : list st) i t n x rest, noise n -> scatterings_text D Sc print_scat i l = Some t -> newline ++ x = t ++ newline ++ rest ->
  Forall (fun s => good_label (d_name s) /\ forall c, snd (d_dom s) = Some c -> reads_back (print_scat c) (read_scat (fst (d_dom s))) c) l ->
  (Z.of_nat (i + List.length l) < 2 ^ 31)%Z -> solid rest ->
  exists n' cs, noise n' /\ map Some cs = map (fun s => snd (d_dom s)) l /\
  read_scatterings D Sc read_scat (map (fun s => fst (d_dom s)) l) (n ++ x) = Some (cs, n' ++ rest).
Proof.
  induction l as [|s l IH]; intros i t n x rest N T EX F I SO.
  { injection T as <-. cbn in EX. injection EX as ->. exists n, []. split; [exact N|]. split; reflexivity. }
  inversion F as [|? ? (G & R) F']; subst. cbn [scatterings_text] in T. destruct (snd (d_dom s)) as [c|] eqn:E; [|discriminate].
  destruct (scatterings_text D Sc print_scat (S i) l) as [t'|] eqn:ET; [|discriminate].
  pose proof (f_equal (fun o => match o with Some t => t | None => "" end) T) as T'. cbn iota beta in T'. rewrite <- T' in EX. clear T T'. cbn [map read_scatterings].
  set (k := "# Scattering of statement " ++ nat_text i ++ " (" ++ str (d_name s) ++ ").").
  (* what follows the scattering starts with a newline *)
  assert (TX : exists x', solid x' /\ newline ++ x' = t' ++ newline ++ rest).
  { destruct l as [|s' l']; cbn [scatterings_text] in ET; [injection ET as <-; exists rest; split; [exact SO|reflexivity]|].
    assert (Q : exists a, t' = String nl (String hash a)) by (destruct (snd (d_dom s')); [|discriminate]; destruct (scatterings_text D Sc print_scat (S (S i)) l'); [|discriminate]; injection ET as <-; eexists; reflexivity).
    destruct Q as (a & ->). exists (String hash a ++ newline ++ rest). split; reflexivity. }
  destruct TX as (x' & SX & EX').
  assert (XE : x = k ++ newline ++ print_scat c ++ newline ++ x').
  { rewrite EX'. change NL with newline in EX. rewrite !app_assoc_s in EX. change (String nl x = String nl ("# Scattering of statement " ++ nat_text i ++ " (" ++ str (d_name s) ++ ")." ++ newline ++ print_scat c ++ t' ++ newline ++ rest)) in EX.
    apply (f_equal (fun s => match s with String _ s => s | _ => s end)) in EX. cbn iota beta in EX. rewrite EX. unfold k. rewrite !app_assoc_s. reflexivity. }
  rewrite XE. replace (n ++ k ++ newline ++ print_scat c ++ newline ++ x') with ((n ++ k ++ newline ++ "") ++ print_scat c ++ newline ++ x') by (rewrite !app_assoc_s; reflexivity).
  assert (N1 : noise (n ++ k ++ newline ++ "")).
  { apply noise_app; [exact N|]. apply (label_noise i (d_name s) " Scattering of statement "); [cbn in I; lia|exact G|reflexivity|cbn; lia|constructor]. }
  destruct (R c eq_refl _ x' N1) as (rest' & -> & LO). destruct (left_over_noise x' rest' SX LO) as (n1 & N2 & ->).
  destruct (IH (S i) t' n1 x' rest N2 ET EX' F') as (n' & cs & N' & M & EQ); [cbn in I |- *; lia|exact SO|].
  exists n', (c :: cs). split; [exact N'|]. split; [cbn; rewrite M, E; reflexivity|]. rewrite EQ. reflexivity.
Qed.

(** *** building the union domain *)
Lemma set_names_run : forall l (ud : udom (D * option Sc)) t i, set_names D Sc ud t i l = run ud (map (fun p => SetName t (Z.of_nat (fst p)) (snd p)) (List.combine (seq i (List.length l)) l)).
Proof.
  induction l as [|w l IH]; intros ud t i; [reflexivity|]. cbn [set_names List.length seq List.combine map run fst snd step]. destruct (ud_set_name ud t (Z.of_nat i) w); [apply IH|reflexivity].
Qed.
Lemma added_sets (l : list (nat * string)) t : added (D := D * option Sc) (map (fun p => SetName t (Z.of_nat (fst p)) (snd p)) l) = [].
Proof. induction l; [reflexivity|assumption]. Qed.
Lemma set_nth_at {A} (a b : list A) x y : (set_nth (a ++ x :: b) (List.length a) y = a ++ y :: b)%list.
Proof. induction a as [|z a IH]; [reflexivity|]. cbn. rewrite IH. reflexivity. Qed.
Lemma set_names_right : forall l2 l1 (ud : udom (D * option Sc)) t, good t -> u_n ud t = List.length (l1 ++ l2)%list ->
  match u_name ud t with Some tab => tab | None => repeat None (u_n ud t) end = (map Some l1 ++ repeat None (List.length l2))%list ->
  (l2 = [] -> u_name ud t = Some (map Some l1)) ->
  exists ud', set_names D Sc ud t (List.length l1) l2 = Some ud' /\ u_domains ud' = u_domains ud /\ u_n ud' = u_n ud /\
  forall t', u_name ud' t' = if (t' =? t)%Z then Some (map Some (l1 ++ l2)%list) else u_name ud t'.
Proof.
  induction l2 as [|w l2 IH]; intros l1 ud t G UN TAB E.
  - exists ud. split; [reflexivity|]. split; [reflexivity|]. split; [reflexivity|]. intro t'. rewrite app_nil_r. destruct (Z.eqb_spec t' t) as [->|]; [apply E; reflexivity|reflexivity].
  - cbn [set_names]. unfold ud_set_name. rewrite TAB.
    assert (GT : ((t =? CLOOG_PARAM) || (t =? CLOOG_ITER) || (t =? CLOOG_SCAT))%Z = true) by (destruct G as [->|[->| ->]]; reflexivity).
    rewrite GT. cbn [negb]. rewrite UN, app_length in *. cbn [List.length] in *.
    destruct (Z.ltb_spec (Z.of_nat (List.length l1)) 0); [lia|]. destruct (Z.leb_spec (Z.of_nat (List.length l1 + S (List.length l2))) (Z.of_nat (List.length l1))); [lia|]. cbn [orb].
    rewrite Nat2Z.id, app_length, map_length, repeat_length. destruct (Nat.ltb_spec (List.length l1) (List.length l1 + S (List.length l2))); [|lia].
    replace (set_nth (map Some l1 ++ repeat None (S (List.length l2)))%list (List.length l1) (Some w)) with (map Some (l1 ++ [w]) ++ repeat None (List.length l2))%list.
    2:{ cbn [repeat]. rewrite <- (map_length Some l1), set_nth_at, map_app, <- app_assoc. reflexivity. }
    match goal with |- context [set_names D Sc ?u t _ l2] => specialize (IH (l1 ++ [w])%list u t G); replace (S (List.length l1)) with (List.length (l1 ++ [w])%list) by (rewrite app_length; cbn; lia) end.
    cbn [u_n u_name u_domains] in IH. unfold upd in IH. rewrite Z.eqb_refl, !app_length in IH. cbn [List.length] in IH. destruct IH as (ud' & H1' & H2' & H3' & H4').
    + rewrite UN. lia.
    + reflexivity.
    + intros ->. cbn [List.length repeat]. rewrite app_nil_r. reflexivity.
    + exists ud'. rewrite app_length. cbn [List.length]. split; [exact H1'|]. split; [exact H2'|]. split; [exact H3'|]. intro t'. rewrite H4', <- app_assoc. destruct (t' =? t)%Z; reflexivity.
Qed.
Lemma set_names_opt_right (ud : udom (D * option Sc)) t tab l : good t -> u_name ud t = None -> tab = option_map (map Some) l -> (forall l', l = Some l' -> l' <> [] /\ u_n ud t = List.length l') ->
  exists ud' h, set_names_opt D Sc ud t l = Some ud' /\ run ud h = Some ud' /\ added h = [] /\ u_n ud' = u_n ud /\
  forall t', u_name ud' t' = if (t' =? t)%Z then tab else u_name ud t'.
Proof.
  intros G NO -> L. destruct l as [l|]; cbn [set_names_opt option_map].
  - destruct (L l eq_refl) as (NE & UN). destruct (set_names_right l [] ud t G UN) as (ud' & E & H1 & H2 & H3).
    + rewrite NO, UN. reflexivity.
    + intros ->. contradiction.
    + exists ud'. eexists. split; [exact E|]. split; [rewrite <- set_names_run; exact E|]. split; [apply added_sets|]. split; [exact H2|exact H3].
  - exists ud, []. repeat split; try reflexivity. intro t'. destruct (Z.eqb_spec t' t) as [->|]; [exact NO|reflexivity].
Qed.
Fixpoint pairs (ds : list D) (ss : list (option Sc)) : list st :=
  match ds, ss with d :: ds', s :: ss' => made None d s 0 :: pairs ds' ss' | _, _ => [] end.
Lemma add_domains_right : forall ds (cs : option (list Sc)) ss (ud : udom (D * option Sc)), List.length ss = List.length ds ->
  match cs with Some l => map Some l = ss | None => ss = map (fun _ => None) ds end ->
  u_name ud CLOOG_ITER = None -> u_name ud CLOOG_SCAT = None ->
  exists ud', add_domains D Sc dom_dim scat_dim ud ds cs = Some ud' /\ run ud (map Add (pairs ds ss)) = Some ud' /\ u_name ud' = u_name ud.
Proof.
  induction ds as [|d ds IH]; intros cs ss ud L M E1 E2; [exists ud; destruct ss; repeat split|].
  destruct ss as [|s ss]; [discriminate|]. cbn [add_domains pairs map run step].
  assert (Q : exists cs', (match cs with Some (s :: ss') => (Some s, Some ss') | Some [] => (None, Some []) | None => (None, None) end) = (s, cs') /\
    match cs' with Some l => map Some l = ss | None => ss = map (fun _ => None) ds end).
  { destruct cs as [[|c cs]|]; cbn in M; [discriminate| |]; injection M as M1 M2; eexists; (split; [subst; reflexivity|]); subst; reflexivity. }
  destruct Q as (cs' & -> & M'). unfold ud_add. rewrite E1, E2. injection L as L.
  match goal with |- context [add_domains D Sc dom_dim scat_dim ?u ds cs'] => destruct (IH cs' ss u L M') as (ud' & A & B & C); [exact E1|exact E2|] end.
  exists ud'. split; [exact A|]. split; [exact B|exact C].
Qed.

(** *** everything together *)
Lemma table_facts np h (ud : udom (D * option Sc)) t tab : Inv np h ud -> u_name ud t = Some tab -> good t /\ tab <> [] /\ u_n ud t = List.length tab.
Proof.
  intros I E. pose proof (I_tab _ _ _ I t) as T. rewrite E in T. destruct T as (G & (i & s & In1) & L). split; [exact G|]. split; [|rewrite (I_n _ _ _ I t), L; reflexivity].
  intros ->. pose proof (I_name _ _ _ I t i) as N. unfold name_of in N. rewrite E in N. destruct (i <? 0)%Z; [|destruct (Z.to_nat i)]; inversion N as [h' H|]; subst; exact (H s In1).
Qed.
Lemma names_are ud t : names_ok D Sc ud t -> u_name ud t = option_map (map Some) (option_map (map (fun o => str o)) (u_name ud t)).
Proof.
  unfold names_ok. destruct (u_name ud t) as [tab|]; [|reflexivity]. intros (l & -> & _). cbn. f_equal. rewrite !map_map. apply map_ext. reflexivity.
Qed.
Lemma pairs_doms : forall ds ss, List.length ss = List.length ds -> map d_dom (pairs ds ss) = List.combine ds ss.
Proof. induction ds as [|d ds IH]; intros [|s ss] L; try discriminate; [reflexivity|]. cbn. rewrite IH by (injection L; auto). reflexivity. Qed.
Lemma pairs_dims : forall ds ss, List.length ss = List.length ds -> map d_dim (pairs ds ss) = map dom_dim ds.
Proof. induction ds as [|d ds IH]; intros [|s ss] L; try discriminate; [reflexivity|]. cbn. rewrite IH by (injection L; auto). reflexivity. Qed.
Lemma combine_split {A B C} (f : C -> A) (g : C -> B) (l : list C) : List.combine (map f l) (map g l) = map (fun c => (f c, g c)) l.
Proof. induction l as [|c l IH]; [reflexivity|]. cbn. rewrite IH. reflexivity. Qed.
Lemma max_dims : forall (ds : list D) k, (fold_left (fun n d => Z.max n (Z.of_nat (dom_dim d))) ds (Z.of_nat k) = Z.of_nat (Nat.max k (maxs (map dom_dim ds))))%Z.
Proof.
  induction ds as [|d ds IH]; intro k; [cbn; lia|]. cbn [fold_left map]. rewrite <- Nat2Z.inj_max, IH. unfold maxs. cbn [fold_right]. f_equal. lia.
Qed.
Definition well_made (s : st) : Prop := s = made (d_name s) (fst (d_dom s)) (snd (d_dom s)) (d_usr s).
Lemma pairs_sz np (l : list st) : (forall s, In s l -> well_made s) -> forall t, sz np (pairs (map (fun s => fst (d_dom s)) l) (map (fun s => snd (d_dom s)) l)) t = sz np l t.
Proof.
  intros W t. assert (Q : map d_dim (pairs (map (fun s => fst (d_dom s)) l) (map (fun s => snd (d_dom s)) l)) = map d_dim l /\
    scat_dims (pairs (map (fun s => fst (d_dom s)) l) (map (fun s => snd (d_dom s)) l)) = scat_dims l).
  { induction l as [|s l IH]; [split; reflexivity|]. destruct IH as (A & B); [intros s' I; apply W; right; exact I|]. pose proof (W s (or_introl eq_refl)) as E. unfold well_made in E.
    cbn [map pairs]. rewrite A. unfold scat_dims in *. cbn [flat_map]. rewrite B.
    pose proof (f_equal d_dim E) as E1. pose proof (f_equal d_scat E) as E2. cbn in E1, E2. cbn [made d_dim d_scat]. rewrite <- E1, <- E2. split; reflexivity. }
  destruct Q as (A & B). unfold sz. rewrite A, B. reflexivity.
Qed.
Lemma added_app (a b : list (call (D * option Sc))) : added (a ++ b)%list = (added a ++ added b)%list.
Proof. induction a as [|[d|t i s] a IH]; cbn; rewrite ?IH; reflexivity. Qed.
Lemma added_adds (l : list st) : added (map Add l) = l.
Proof. induction l as [|s l IH]; cbn; rewrite ?IH; reflexivity. Qed.
Lemma added_in (h : list (call (D * option Sc))) s : In s (added h) -> In (Add s) h.
Proof. induction h as [|[d|t i w] h IH]; cbn; [intros []| |]; intuition (subst; auto). Qed.
(** the end of the file *)
Definition no_scattering : string := "# No scattering functions." ++ NL ++ "0" ++ NL ++ NL.
Definition tail_text (l : list st) (names : string) : option string :=
  match l with
  | [] => Some no_scattering
  | s :: _ =>
    match snd (d_dom s) with
    | None => Some no_scattering
    | Some _ => match scatterings_text D Sc print_scat 1 l with
                | Some t => Some ("# --------------------- SCATTERING --------------------" ++ NL ++ nat_text (List.length l) ++ " # Scattering functions" ++ NL ++ t ++ names)
                | None => None
                end
    end
  end.
Definition start_text (language : lang) (ctx : D) (ud : udom (D * option Sc)) : string :=
  "# CLooG -> CLooG" ++ NL ++ "# This is an automatic dump of a CLooG input file from a CloogInput data" ++ NL ++ "# structure." ++ NL ++ NL ++
  match language with
  | LangFortran => "# Language: FORTRAN" ++ NL ++ "f" ++ NL ++ NL
  | LangC => "# Language: C" ++ NL ++ "c" ++ NL ++ NL
  end ++
  "# Context:" ++ NL ++ print_dom ctx ++ print_names D Sc ud CLOOG_PARAM "Parameter" ++
  NL ++ "# Statement number:" ++ NL ++ nat_text (List.length (u_domains ud)) ++ NL ++ NL ++ domains_text D Sc print_dom 1 (u_domains ud) ++ print_names D Sc ud CLOOG_ITER "Iterator".
Notation Dump := (dump D Sc print_dom print_scat).
Notation Read := (input_read D Sc read_ctx read_dom read_scat par_dim dom_dim scat_dim).
Lemma dump_shape language ctx ud : Dump language {| in_ctx := ctx; in_ud := ud |} =
  match tail_text (u_domains ud) (print_names D Sc ud CLOOG_SCAT "Scattering dimension") with Some t => Some (start_text language ctx ud ++ t) | None => None end.
Proof.
  unfold dump, tail_text, start_text. cbn [in_ctx in_ud]. destruct (u_domains ud) as [|s l]; [reflexivity|]. destruct (snd (d_dom s)); [|reflexivity].
  destruct (scatterings_text D Sc print_scat 1 (s :: l)); reflexivity.
Qed.
Lemma tail_read (l : list st) ud k : same_kind D Sc l -> (Z.of_nat (1 + List.length l) < 2 ^ 31)%Z ->
  Forall (fun s => good_label (d_name s) /\ forall c, snd (d_dom s) = Some c -> reads_back (print_scat c) (read_scat (fst (d_dom s))) c) l ->
  names_ok D Sc ud CLOOG_SCAT ->
  (forall tab, u_name ud CLOOG_SCAT = Some tab -> tab <> [] /\ k = List.length tab /\ u_n ud CLOOG_SCAT = List.length tab) ->
  ((forall s, In s l -> snd (d_dom s) = None) -> u_name ud CLOOG_SCAT = None) ->
  exists tail cs f5 rest, tail_text l (print_names D Sc ud CLOOG_SCAT "Scattering dimension") = Some tail /\ noise rest /\
  scattering_list_read D Sc read_scat (map (fun s => fst (d_dom s)) l) tail = Some (cs, f5) /\
  match cs with
  | Some c => map Some c = map (fun s => snd (d_dom s)) l /\ names_read_strings f5 (Z.of_nat k) = Some (option_map (map (fun o => str o)) (u_name ud CLOOG_SCAT), rest)
  | None => map (fun s => snd (d_dom s)) l = map (fun _ => None) (map (fun s => fst (d_dom s)) l) /\ u_name ud CLOOG_SCAT = None /\ f5 = rest
  end.
Proof.
  intros KIND LEN F NOK TAB NONE.
  assert (CASE : (l <> [] /\ forall s, In s l -> snd (d_dom s) <> None) \/ (forall s, In s l -> snd (d_dom s) = None)).
  { destruct KIND as [K|K]; [|right; exact K]. destruct l as [|s l']; [right; intros s []|left; split; [discriminate|exact K]]. }
  destruct CASE as [(NE & K)|K].
  - destruct (scatterings_text_all l 1 K) as (t & ET).
    assert (TT : tail_text l (print_names D Sc ud CLOOG_SCAT "Scattering dimension") = Some ("# --------------------- SCATTERING --------------------" ++ NL ++ nat_text (List.length l) ++ " # Scattering functions" ++ NL ++ t ++ print_names D Sc ud CLOOG_SCAT "Scattering dimension")).
    { unfold tail_text. destruct l as [|s l']; [contradiction|]. pose proof (K s (or_introl eq_refl)). destruct (snd (d_dom s)); [|contradiction]. rewrite ET. reflexivity. }
    assert (TX : exists x, newline ++ x = t ++ newline ++ names_body ud CLOOG_SCAT "Scattering dimension" ++ "").
    { destruct l as [|s l']; [contradiction|]. cbn [scatterings_text] in ET.
      assert (Q : exists a, t = String nl (String hash a)) by (destruct (snd (d_dom s)); [|discriminate]; destruct (scatterings_text D Sc print_scat 2 l'); [|discriminate]; injection ET as <-; eexists; reflexivity).
      destruct Q as (a & ->). eexists (String hash a ++ newline ++ _). reflexivity. }
    destruct TX as (x & EX).
    destruct (read_scatterings_right l 1 t newline x (names_body ud CLOOG_SCAT "Scattering dimension" ++ "")) as (n' & cs & N' & M & E); [apply (noise_nl ""); constructor|exact ET|exact EX|exact F|exact LEN|apply names_body_solid|].
    eexists _, (Some cs), (n' ++ names_body ud CLOOG_SCAT "Scattering dimension" ++ ""), "". split; [exact TT|]. split; [constructor|]. split.
    + unfold scattering_list_read.
      replace ("# --------------------- SCATTERING --------------------" ++ NL ++ nat_text (List.length l) ++ " # Scattering functions" ++ NL ++ t ++ print_names D Sc ud CLOOG_SCAT "Scattering dimension")
        with (("# --------------------- SCATTERING --------------------" ++ newline ++ "") ++ (nat_text (List.length l) ++ " # Scattering functions") ++ newline ++ (newline ++ x)).
      2:{ rewrite EX, (app_nil_s (names_body ud CLOOG_SCAT _)). change NL with newline. rewrite !app_assoc_s. reflexivity. }
      rewrite number_option; [|apply (noise_comment " --------------------- SCATTERING --------------------"); [reflexivity|cbn; lia|constructor]|lia|reflexivity|cbn; lia|reflexivity|lia].
      destruct (Z.eqb_spec (Z.of_nat (List.length l)) 0) as [Q|Q]; [destruct l; [contradiction|cbn in Q; lia]|]. rewrite map_length, Z.eqb_refl. cbn [negb]. rewrite E. reflexivity.
    + split; [exact M|]. apply print_names_read; [exact N'|exact NOK|reflexivity|cbn; lia|]. intros tab T. destruct (TAB tab T) as (A & -> & B). auto.
  - exists no_scattering, None, newline, newline. split; [|split; [apply (noise_nl ""); constructor|split]].
    + unfold tail_text. destruct l as [|s l']; [reflexivity|]. rewrite (K s (or_introl eq_refl)). reflexivity.
    + unfold scattering_list_read. change no_scattering with (("# No scattering functions." ++ newline ++ "") ++ (nat_text 0 ++ "") ++ newline ++ newline).
      rewrite number_option; [reflexivity|apply (noise_comment " No scattering functions."); [reflexivity|cbn; lia|constructor]|lia|reflexivity|cbn; lia|reflexivity|lia].
    + split; [|split; [apply NONE; exact K|reflexivity]]. rewrite map_map. apply map_ext_in. exact K.
Qed.
Theorem dump_read (language : lang) (inp : input D Sc) :
  built D Sc par_dim dom_dim scat_dim inp ->
  reads_back (print_dom (in_ctx _ _ inp)) read_ctx (in_ctx _ _ inp) ->
  Forall (fun s => good_label (d_name s) /\ reads_back (print_dom (fst (d_dom s))) (read_dom (par_dim (in_ctx _ _ inp))) (fst (d_dom s)) /\
                   forall c, snd (d_dom s) = Some c -> reads_back (print_scat c) (read_scat (fst (d_dom s))) c) (u_domains (in_ud _ _ inp)) ->
  (forall t, names_ok D Sc (in_ud _ _ inp) t) -> same_kind D Sc (u_domains (in_ud _ _ inp)) ->
  (Z.of_nat (List.length (u_domains (in_ud _ _ inp))) < 2 ^ 31 - 1)%Z ->
  exists text inp' rest, Dump language inp = Some text /\ Read text = Some (language, inp', rest) /\ same_input D Sc inp' inp /\ noise rest.
Proof.
  destruct inp as [ctx ud]. cbn [in_ctx in_ud]. intros (h & RUN & MADE) RC RS NOK KIND LEN. cbn [in_ctx in_ud] in RUN.
  set (np := par_dim ctx) in *. pose proof (run_spec np h) as RSP. rewrite RUN in RSP. destruct RSP as (_ & I).
  pose proof (I_dom _ _ _ I) as ID.
  assert (W : forall s, In s (u_domains ud) -> well_made s) by (intros s Hs; apply MADE, added_in; rewrite <- ID; exact Hs).
  assert (TAB : forall t tab, u_name ud t = Some tab -> tab <> [] /\ Z.of_nat (u_n ud t) = Z.of_nat (List.length tab) /\ u_n ud t = List.length tab).
  { intros t tab E. destruct (table_facts np h ud t tab I E) as (_ & A & B). rewrite B. auto. }
  assert (RD : Forall (fun s : st => good_label (d_name s) /\ reads_back (print_dom (fst (d_dom s))) (read_dom np) (fst (d_dom s))) (u_domains ud)) by (eapply Forall_impl; [|exact RS]; intros s (A & B & _); split; assumption).
  assert (RC' : Forall (fun s : st => good_label (d_name s) /\ forall c, snd (d_dom s) = Some c -> reads_back (print_scat c) (read_scat (fst (d_dom s))) c) (u_domains ud)) by (eapply Forall_impl; [|exact RS]; intros s (A & _ & B); split; assumption).
  assert (LEN' : (Z.of_nat (1 + @List.length st (u_domains ud)) < 2 ^ 31)%Z) by (unfold statement in *; lia).
  destruct (tail_read (u_domains ud) ud (u_n ud CLOOG_SCAT) KIND LEN' RC' (NOK _)) as (tail & cs & f5 & rest & TT & NR & SL & CS).
  { intros tab E. destruct (TAB _ tab E) as (A & _ & B). auto. }
  { intro K. destruct (u_name ud CLOOG_SCAT) as [tab|] eqn:E; [|reflexivity]. exfalso. destruct (TAB _ tab E) as (A & _ & B). apply A. apply length_zero_iff_nil. rewrite <- B, (I_n _ _ _ I), <- ID. unfold sz. cbn.
    assert (Q : scat_dims (u_domains ud) = []); [|rewrite Q; reflexivity]. revert K W. generalize (u_domains ud). clear. induction l as [|s l IH]; intros K W; [reflexivity|]. unfold scat_dims in *. cbn [flat_map].
    rewrite IH; [|intros s' Is; apply K; right; exact Is|intros s' Is; apply W; right; exact Is].
    pose proof (f_equal d_scat (W s (or_introl eq_refl))) as E2. cbn in E2. rewrite E2, (K s (or_introl eq_refl)). reflexivity. }
  set (l := u_domains ud) in *. set (ds := map (fun s : st => fst (d_dom s)) l) in *. set (ss := map (fun s : st => snd (d_dom s)) l) in *.
  assert (LS : List.length ss = List.length ds) by (unfold ss, ds; rewrite !map_length; reflexivity).
  assert (L31 : (Z.of_nat (List.length l) < 2 ^ 31)%Z) by (eapply Z.lt_trans; [|exact LEN']; apply Nat2Z.inj_lt, Nat.lt_succ_diag_r).
  eexists. rewrite dump_shape. fold l. rewrite TT.
  (* the language *)
  set (after_ctx := names_body ud CLOOG_PARAM "Parameter" ++ newline ++ "# Statement number:" ++ newline ++ nat_text (List.length l) ++ newline ++ newline ++ domains_text D Sc print_dom 1 l ++ newline ++ names_body ud CLOOG_ITER "Iterator" ++ tail).
  set (word := match language with LangFortran => "f" | LangC => "c" end).
  set (n0 := "# CLooG -> CLooG" ++ newline ++ "# This is an automatic dump of a CLooG input file from a CloogInput data" ++ newline ++ "# structure." ++ newline ++ newline ++
             match language with LangFortran => "# Language: FORTRAN" | LangC => "# Language: C" end ++ newline ++ "").
  assert (TEXT : start_text language ctx ud ++ tail = n0 ++ word ++ newline ++ ((newline ++ "# Context:" ++ newline ++ "") ++ print_dom ctx ++ newline ++ after_ctx)).
  { unfold start_text, n0, word, after_ctx, print_names, names_body. fold l. change NL with newline. destruct language; rewrite !app_assoc_s; reflexivity. }
  assert (N0 : noise n0).
  { unfold n0. apply (noise_comment " CLooG -> CLooG"); [reflexivity|cbn; lia|]. apply (noise_comment " This is an automatic dump of a CLooG input file from a CloogInput data"); [reflexivity|cbn; lia|].
    apply (noise_comment " structure."); [reflexivity|cbn; lia|]. apply noise_nl.
    destruct language; [apply (noise_comment " Language: C")|apply (noise_comment " Language: FORTRAN")]; try reflexivity; try constructor; cbn; lia. }
  assert (NC : noise (newline ++ "# Context:" ++ newline ++ "")) by (apply noise_nl, (noise_comment " Context:"); [reflexivity|cbn; lia|constructor]).
  destruct (RC _ after_ctx NC) as (f2 & ERC & LO). destruct (left_over_noise after_ctx f2 (names_body_solid _ _ _ _) LO) as (n1 & N1 & ->).
  (* parameters *)
  destruct (set_names_opt_right (ud_alloc np) CLOOG_PARAM (u_name ud CLOOG_PARAM) (option_map (map (fun o => str o)) (u_name ud CLOOG_PARAM))) as (ud1 & h1 & S1 & R1 & A1 & U1 & T1); [left; reflexivity|reflexivity|apply names_are, NOK| |].
  { intros l' E. destruct (u_name ud CLOOG_PARAM) as [tab|] eqn:EP; [|discriminate]. injection E as <-. destruct (TAB _ tab EP) as (A & _ & B). split; [destruct tab; [contradiction|discriminate]|].
    rewrite map_length, <- B, (I_n _ _ _ I). reflexivity. }
  (* domains *)
  destruct (read_domains_right np l 1 newline (newline ++ names_body ud CLOOG_ITER "Iterator" ++ tail)) as (n2 & N2 & RDS); [apply (noise_nl ""); constructor|exact RD|exact LEN'|].
  destruct (add_domains_right ds cs ss ud1 LS) as (ud2 & A2 & R2 & T2).
  { destruct cs; [exact (proj1 CS)|exact (proj1 CS)]. }
  { rewrite T1. reflexivity. }
  { rewrite T1. reflexivity. }
  assert (RUN2 : run (ud_alloc np) (h1 ++ map Add (pairs ds ss))%list = Some ud2) by (rewrite run_app, R1; exact R2).
  pose proof (run_spec np (h1 ++ map Add (pairs ds ss))%list) as RSP. rewrite RUN2 in RSP. destruct RSP as (_ & I2).
  assert (UN2 : forall t, u_n ud2 t = u_n ud t).
  { intro t. rewrite (I_n _ _ _ I2), (I_n _ _ _ I), added_app, A1, added_adds, <- ID. cbn [app]. apply (pairs_sz np l W t). }
  (* iterators *)
  destruct (set_names_opt_right ud2 CLOOG_ITER (u_name ud CLOOG_ITER) (option_map (map (fun o => str o)) (u_name ud CLOOG_ITER))) as (ud3 & h3 & S3 & R3 & A3 & U3 & T3); [right; left; reflexivity|rewrite T2, T1; reflexivity|apply names_are, NOK| |].
  { intros l' E. destruct (u_name ud CLOOG_ITER) as [tab|] eqn:EP; [|discriminate]. injection E as <-. destruct (TAB _ tab EP) as (A & _ & B). split; [destruct tab; [contradiction|discriminate]|].
    rewrite map_length, <- B. apply UN2. }
  (* scattering dimensions *)
  destruct (set_names_opt_right ud3 CLOOG_SCAT (u_name ud CLOOG_SCAT) (option_map (map (fun o => str o)) (u_name ud CLOOG_SCAT))) as (ud4 & h4 & S4 & R4 & A4 & U4 & T4); [right; right; reflexivity|rewrite T3, T2, T1; reflexivity|apply names_are, NOK| |].
  { intros l' E. destruct (u_name ud CLOOG_SCAT) as [tab|] eqn:EP; [|discriminate]. injection E as <-. destruct (TAB _ tab EP) as (A & _ & B). split; [destruct tab; [contradiction|discriminate]|].
    rewrite map_length, <- B, U3. apply UN2. }
  exists {| in_ctx := ctx; in_ud := ud4 |}, rest. split; [reflexivity|]. split; [|split; [|exact NR]].
  - rewrite TEXT. unfold input_read.
    assert (KW : kept word) by (unfold word, kept, line_ok; destruct language; (split; [split; [reflexivity|apply Nat.ltb_lt; vm_compute; reflexivity]|reflexivity])).
    rewrite next_line_right by assumption. rewrite ERC.
    replace (match word ++ newline with String c _ => if Ascii.eqb c "f" then LangFortran else LangC | EmptyString => LangC end) with language by (unfold word; destruct language; reflexivity).
    unfold union_domain_read. unfold after_ctx at 1.
    rewrite print_names_read; [|exact N1|apply NOK|reflexivity|cbn; lia|intros tab E; destruct (TAB _ tab E) as (A & _ & B); rewrite <- B; split; [exact A|split; [|reflexivity]]; rewrite (I_n _ _ _ I); reflexivity].
    fold np. rewrite S1.
    set (rest2 := newline ++ domains_text D Sc print_dom 1 l ++ newline ++ names_body ud CLOOG_ITER "Iterator" ++ tail).
    assert (NS : noise (newline ++ "# Statement number:" ++ newline ++ "")) by (apply noise_nl, (noise_comment " Statement number:"); [reflexivity|cbn; lia|constructor]).
    destruct (number_next (List.length l) "" (newline ++ "# Statement number:" ++ newline ++ "") rest2 NS) as (p & NX); [exact L31|reflexivity|cbn; lia|reflexivity|].
    replace (newline ++ "# Statement number:" ++ newline ++ nat_text (List.length l) ++ newline ++ rest2)
      with ((newline ++ "# Statement number:" ++ newline ++ "") ++ (nat_text (List.length l) ++ "") ++ newline ++ rest2) by (rewrite !app_assoc_s; reflexivity).
    rewrite NX. destruct (number_line (List.length l) "" eq_refl) as (_ & SN & _). rewrite SN, as_int_nat by exact L31.
    destruct (Z.ltb_spec (Z.of_nat (List.length l)) 0); [lia|]. rewrite Nat2Z.id. unfold rest2. unfold statement in RDS |- *. rewrite RDS. fold ds.
    replace (n2 ++ newline ++ names_body ud CLOOG_ITER "Iterator" ++ tail) with ((n2 ++ newline) ++ names_body ud CLOOG_ITER "Iterator" ++ tail) by (rewrite !app_assoc_s; reflexivity).
    assert (NI : noise (n2 ++ newline)) by (apply noise_app; [exact N2|apply (noise_nl ""); constructor]).
    rewrite print_names_read; [|exact NI|apply NOK|reflexivity|cbn; lia|].
    2:{ intros tab E. destruct (TAB _ tab E) as (A & _ & B). split; [exact A|]. split; [|exact B]. rewrite <- B, <- UN2, (I_n _ _ _ I2), added_app, A1, added_adds. cbn [app].
        unfold sz. change (CLOOG_ITER =? CLOOG_PARAM)%Z with false. change (CLOOG_ITER =? CLOOG_ITER)%Z with true. cbn iota. rewrite pairs_dims by exact LS. assert (ED : ds = [] \/ exists d ds', ds = d :: ds') by (destruct ds as [|d ds']; eauto). destruct ED as [ED|(d & ds' & ED)].
        - exfalso. apply A. apply length_zero_iff_nil. rewrite <- B, (I_n _ _ _ I), <- ID. fold l. unfold sz. cbn. unfold ds in ED. apply map_eq_nil in ED. rewrite ED. reflexivity.
        - fold ds. unfold statement in *. change (map (fun s : named (D * option Sc) => fst (d_dom s)) l) with ds. rewrite ED. cbn [fold_left map]. replace (Z.max (-1) (Z.of_nat (dom_dim d))) with (Z.of_nat (dom_dim d)) by lia. rewrite max_dims. reflexivity. }
    rewrite SL. change (map (fun s : named (D * option Sc) => fst (d_dom s)) l) with ds. rewrite A2, S3. destruct cs as [c|].
    + destruct CS as (_ & CS). rewrite U3, UN2, CS, S4. reflexivity.
    + destruct CS as (_ & CN & ->). rewrite CN in S4. cbn in S4. injection S4 as ->. reflexivity.
  - split; [reflexivity|]. cbn [in_ctx in_ud].
    assert (RUN4 : run (ud_alloc np) ((h1 ++ map Add (pairs ds ss)) ++ h3 ++ h4)%list = Some ud4) by (rewrite run_app, RUN2, run_app, R3; exact R4).
    pose proof (run_spec np ((h1 ++ map Add (pairs ds ss)) ++ h3 ++ h4)%list) as RSP. rewrite RUN4 in RSP. destruct RSP as (_ & I4).
    split; [|split].
    + rewrite (I_dom _ _ _ I4), !added_app, A1, A3, A4, added_adds, app_nil_r. cbn [app]. rewrite pairs_doms by exact LS. fold l. unfold ds, ss. rewrite combine_split. apply map_ext. intro s. destruct (d_dom s); reflexivity.
    + intro t. rewrite U4, U3. apply UN2.
    + intro t. rewrite T4, T3, T2, T1. destruct (Z.eqb_spec t CLOOG_SCAT) as [->|n_s]; [reflexivity|]. destruct (Z.eqb_spec t CLOOG_ITER) as [->|n_i]; [reflexivity|]. destruct (Z.eqb_spec t CLOOG_PARAM) as [->|n_p]; [reflexivity|].
      cbn. destruct (u_name ud t) as [tab|] eqn:E; [|reflexivity]. destruct (table_facts np h ud t tab I E) as ([G|[G|G]] & _); contradiction.
Qed.
End Round.
