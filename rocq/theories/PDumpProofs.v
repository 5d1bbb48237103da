(** Proofs about PDumpModel.v: what is dumped is read back *)
From Coq Require Import ZArith List Bool Arith String Ascii Lia.
From Verif Require Import PprintModel PprintSpec OptionsModel NamesModel NamesSpec NamesProofs TextModel TextSpec TextProofs InputModel InputSpec InputProofs PDumpModel PDumpSpec.
Import ListNotations.
Local Open Scope string_scope.
Local Open Scope nat_scope.
Local Opaque BUF.

Lemma noise1 : noise newline.
Proof. apply (noise_nl ""). constructor. Qed.
Lemma BUF_big : 1022 < BUF.
Proof. apply Nat.ltb_lt. vm_compute. reflexivity. Qed.
Lemma words_start w l x : Forall good_name (w :: l) -> skip_blanks (words (w :: l) ++ x) = words (w :: l) ++ x /\ starts_with hash (words (w :: l) ++ x) || starts_with nl (words (w :: l) ++ x) = false.
Proof.
  intros G. inversion G as [|? ? Gw _]; subst. destruct (good_first w Gw) as (c & w' & -> & S & H'). unfold words. cbn [map names_text fold_right str append].
  split; [apply skip_blanks_stop; unfold blank; rewrite S; reflexivity|]. cbn [starts_with]. rewrite H'. destruct (Ascii.eqb_spec c nl) as [->|]; [discriminate S|reflexivity].
Qed.
Lemma words_kept w l : good_names (w :: l) -> kept (words (w :: l)).
Proof.
  intros (G & L). split; [split; [apply names_line; exact G|apply Nat.le_lt_trans with 1022; [exact L|exact BUF_big]]|].
  destruct (words_start w l newline G) as (A & B). rewrite A. exact B.
Qed.
Definition given (l : list string) : option (list string) := match l with [] => None | _ => Some l end.
Lemma given_named l : named_as l = option_map (map Some) (given l).
Proof. destruct l; reflexivity. Qed.
(** the names that a dump prints: an option line, then the names *)
Lemma names_read_line n label l rest : noise n -> good_names l -> all_chars not_nl label = true -> String.length label <= 100 ->
  exists n', noise n' /\ names_read_strings (n ++ ("1" ++ " # " ++ label ++ " name(s)") ++ newline ++ words l ++ newline ++ rest) (Z.of_nat (List.length l)) = Some (given l, n' ++ rest).
Proof.
  intros N G A L. unfold names_read_strings.
  assert (Tl : all_chars not_nl (" # " ++ label ++ " name(s)") = true) by (rewrite !all_app, A; reflexivity).
  assert (Ll : String.length (" # " ++ label ++ " name(s)") < 1000) by (rewrite !length_app_s; cbn; lia).
  change "1" with (nat_text 1). rewrite number_option; [|exact N|reflexivity|exact Tl|exact Ll|reflexivity|lia].
  destruct l as [|w l]; [exists newline; split; [exact noise1|reflexivity]|]. exists "". split; [constructor|].
  destruct (Z.eqb_spec (Z.of_nat (List.length (w :: l))) 0) as [Q|Q]; [cbn in Q; lia|]. change (Z.of_nat 1 =? 0)%Z with false. cbn iota.
  destruct (Z.ltb_spec (Z.of_nat (List.length (w :: l))) 0); [lia|].
  pose proof (next_line_right "" (words (w :: l)) rest Noise_nil (words_kept w l G)) as NX. cbn [append] in NX. rewrite NX.
  rewrite (proj1 (words_start w l newline (proj1 G))), Nat2Z.id. unfold words. rewrite (proj1 (read_names_right (w :: l) newline (proj1 G))). reflexivity.
Qed.
(** the same at the end of the file, with no newline *)
Lemma fgets_end : forall l n, all_chars not_nl l = true -> String.length l < n -> fgets n l = (l, "").
Proof.
  induction l as [|c l IH]; intros n A L; destruct n as [|n]; cbn in L; try lia; [reflexivity|]. cbn in A. apply andb_true_iff in A. destruct A as (A & B).
  unfold not_nl in A. apply negb_true_iff in A. cbn [fgets]. rewrite A, IH by (assumption || lia). reflexivity.
Qed.
Lemma names_read_end n label l : noise n -> good_names l -> all_chars not_nl label = true -> String.length label <= 100 ->
  names_read_strings (n ++ ("1" ++ " # " ++ label ++ " name(s)") ++ newline ++ words l) (Z.of_nat (List.length l)) = Some (given l, "").
Proof.
  intros N G A L. unfold names_read_strings.
  assert (Tl : all_chars not_nl (" # " ++ label ++ " name(s)") = true) by (rewrite !all_app, A; reflexivity).
  assert (Ll : String.length (" # " ++ label ++ " name(s)") < 1000) by (rewrite !length_app_s; cbn; lia).
  change "1" with (nat_text 1). rewrite number_option; [|exact N|reflexivity|exact Tl|exact Ll|reflexivity|lia].
  destruct l as [|w l]; [reflexivity|].
  destruct (Z.eqb_spec (Z.of_nat (List.length (w :: l))) 0) as [Q|Q]; [cbn in Q; lia|]. change (Z.of_nat 1 =? 0)%Z with false. cbn iota.
  destruct (Z.ltb_spec (Z.of_nat (List.length (w :: l))) 0); [lia|].
  assert (NX : next_line (words (w :: l)) = Some (words (w :: l), words (w :: l), "")).
  { unfold next_line. cbn [next_line_loop]. rewrite fgets_end; [|apply names_line; exact (proj1 G)|apply Nat.le_lt_trans with 1022; [exact (proj2 G)|exact BUF_big]].
    destruct (words_start w l "" (proj1 G)) as (P & Q'). rewrite app_nil_s in P, Q'. rewrite P, Q'.
    destruct (words (w :: l)) eqn:E; [|reflexivity]. exfalso. destruct (good_first w (Forall_inv (proj1 G))) as (c & w' & -> & _). discriminate E. }
  rewrite NX, Nat2Z.id. pose proof (proj1 (read_names_right (w :: l) "" (proj1 G))) as R. rewrite app_nil_s in R. unfold words. rewrite R. reflexivity.
Qed.
Lemma greatest_maxs n l : greatest n l -> maxs l = n.
Proof.
  intros (A & B). apply Nat.le_antisymm.
  - clear A. induction l as [|m l IH]; [cbn; lia|]. cbn. assert (m <= n) by (apply B; left; reflexivity). assert (maxs l <= n) by (apply IH; intros k K; apply B; right; exact K). unfold maxs in *. cbn in *. lia.
  - clear B. induction l as [|m l IH]; [destruct A|]. unfold maxs in *. cbn in *. destruct A as [->|A]; [lia|]. specialize (IH A). lia.
Qed.

(** both texts in normal form: no attempt to compute further when they differ *)
Ltac same_text := with_strategy opaque [nat_text words loops_text] reflexivity.
(** the same, part by part *)
Ltac same_parts := with_strategy opaque [nat_text words loops_text append] reflexivity.

Section Round.
Variables D Sc : Type.
Variable print_plain : D -> option string.
Variable print_dom : D -> string.
Variable print_scat : Sc -> string.
Variable read_ctx : string -> option (D * string).
Variable read_dom : nat -> string -> option (D * string).
Variable read_scat : D -> string -> option (Sc * string).
Variables par_dim dom_dim : D -> nat.
Variable scat_dim : Sc -> nat.
Notation Read := (input_read D Sc read_ctx read_dom read_scat par_dim dom_dim scat_dim).

Lemma read_loops np : forall (l : list D) i n x, noise n -> Forall (fun d => reads_on (print_dom d) (read_dom np) d) l -> (Z.of_nat (i + List.length l) < 2 ^ 31)%Z ->
  exists n', noise n' /\ read_domains D read_dom (List.length l) np (n ++ loops_text D print_dom i l ++ x) = Some (l, n' ++ x).
Proof.
  induction l as [|d l IH]; intros i n x N F I; [exists n; split; [exact N|reflexivity]|].
  inversion F as [|? ? R F']; subst. cbn [List.length loops_text read_domains].
  set (X := NL ++ loops_text D print_dom (S i) l ++ x).
  set (z := nat_text 0 ++ " 0 0 # For future options.").
  set (c := " Iteration domain of statement " ++ nat_text i ++ ".").
  replace (n ++ ("# Iteration domain of statement " ++ nat_text i ++ "." ++ NL ++ print_dom d ++ "0 0 0 # For future options." ++ NL ++ NL ++ loops_text D print_dom (S i) l) ++ x)
    with ((n ++ String hash c ++ newline ++ "") ++ print_dom d ++ "" ++ (z ++ newline ++ X))
    by (unfold c, z, X; change (nat_text 0) with "0"; unfold newline, NL, hash; cbn [append]; rewrite !app_assoc_s; cbn [append]; rewrite ?app_assoc_s; cbn [append]; same_text).
  assert (N1 : noise (n ++ String hash c ++ newline ++ "")).
  { apply noise_app; [exact N|]. destruct (nat_ok i) as (B & M); [cbn in I; lia|]. apply noise_comment; [unfold c; rewrite !all_app, B; reflexivity| |constructor]. unfold c. rewrite !length_app_s. cbn. lia. }
  destruct (R _ "" (z ++ newline ++ X) N1 Noise_nil eq_refl) as (n1 & N2 & ->).
  destruct (number_next 0 " 0 0 # For future options." n1 X N2) as (p & NX); [reflexivity|reflexivity|cbn; lia|reflexivity|]. fold z in NX. rewrite NX.
  change (three_numbers (z ++ newline)) with true. cbn iota.
  destruct (IH (S i) newline x noise1 F') as (n' & N' & E); [cbn in I; lia|].
  exists n'. split; [exact N'|]. unfold X. change NL with newline. rewrite E. reflexivity.
Qed.

(** the text before the scatterings, with [its] as iterators *)
Definition front (p : program D) (ctx : string) (its : list string) (tail : string) : string :=
  warning ++ (if Ascii.eqb (p_lang D p) "c" then "# Language: C" ++ NL else "# Language: FORTRAN" ++ NL) ++ String (p_lang D p) "" ++ NL ++ NL ++
  "# Context (" ++ nat_text (List.length (p_pars D p)) ++ " parameter(s)):" ++ NL ++ ctx ++
  "1 # Parameter name(s)" ++ NL ++ words (p_pars D p) ++ NL ++ NL ++ "# Statement number:" ++ NL ++ nat_text (List.length (p_loops D p)) ++ NL ++ NL ++
  loops_text D print_dom 1 (p_loops D p) ++ NL ++ "1 # Iterator name(s)" ++ NL ++ words its ++ NL ++ NL ++ tail.

(** up to the iterators: [k] is what the reader goes on with *)
Definition after_loops (np : nat) (ud1 : udom (D * option Sc)) (ds : list D) (f3 : string) : option (udom (D * option Sc) * string) :=
  let n_iter := fold_left (fun n d => Z.max n (Z.of_nat (dom_dim d))) ds (-1)%Z in
  match names_read_strings f3 n_iter with
  | None => None
  | Some (iters, f4) =>
    match scattering_list_read D Sc read_scat ds f4 with
    | None => None
    | Some (ss, f5) =>
      match add_domains D Sc dom_dim scat_dim ud1 ds ss with
      | None => None
      | Some ud2 =>
        match set_names_opt D Sc ud2 CLOOG_ITER iters with
        | None => None
        | Some ud3 =>
          match ss with
          | None => Some (ud3, f5)
          | Some _ =>
            match names_read_strings f5 (Z.of_nat (u_n ud3 CLOOG_SCAT)) with
            | None => None
            | Some (scats, f6) => match set_names_opt D Sc ud3 CLOOG_SCAT scats with Some ud4 => Some (ud4, f6) | None => None end
            end
          end
        end
      end
    end
  end.
Lemma front_read c p its tail ctx : p_lang D p = lang_letter c -> print_plain (p_ctx D p) = Some ctx -> reads_on ctx read_ctx (p_ctx D p) ->
  Forall (fun d => reads_on (print_dom d) (read_dom (par_dim (p_ctx D p))) d) (p_loops D p) ->
  good_names (p_pars D p) -> List.length (p_pars D p) = par_dim (p_ctx D p) ->
  (Z.of_nat (List.length (p_pars D p)) < 2 ^ 31 - 1)%Z -> (Z.of_nat (List.length (p_loops D p)) < 2 ^ 31 - 1)%Z ->
  exists ud1 h1 n3, run (ud_alloc (par_dim (p_ctx D p))) h1 = Some ud1 /\ added h1 = [] /\
    (forall t, u_name ud1 t = if (t =? CLOOG_PARAM)%Z then named_as (p_pars D p) else None) /\ noise n3 /\
    Read (front p ctx its tail) =
      match after_loops (par_dim (p_ctx D p)) ud1 (p_loops D p) (n3 ++ ("1" ++ " # " ++ "Iterator" ++ " name(s)") ++ newline ++ words its ++ newline ++ (newline ++ tail)) with
      | Some (ud, f) => Some (c, {| in_ctx := p_ctx D p; in_ud := ud |}, f) | None => None
      end.
Proof.
  intros HL HC RC RL GP LP SP SL. set (np := par_dim (p_ctx D p)) in *.
  set (its_text := ("1" ++ " # " ++ "Iterator" ++ " name(s)") ++ newline ++ words its ++ newline ++ (newline ++ tail)).
  set (rest2 := newline ++ loops_text D print_dom 1 (p_loops D p) ++ newline ++ its_text).
  set (stn := newline ++ "# Statement number:" ++ newline ++ "").
  set (num := nat_text (List.length (p_loops D p)) ++ "").
  set (after_ctx := ("1" ++ " # " ++ "Parameter" ++ " name(s)") ++ newline ++ words (p_pars D p) ++ newline ++ (stn ++ num ++ newline ++ rest2)).
  set (cc := " Context (" ++ nat_text (List.length (p_pars D p)) ++ " parameter(s)):").
  set (nc := newline ++ String hash cc ++ newline ++ "").
  set (n0 := warning ++ String hash (match c with LangC => " Language: C" | LangFortran => " Language: FORTRAN" end) ++ newline ++ "").
  set (word := String (lang_letter c) "").
  assert (TEXT : front p ctx its tail = n0 ++ word ++ newline ++ (nc ++ ctx ++ "" ++ after_ctx)).
  { unfold front, n0, word, after_ctx, nc, cc, stn, num, rest2, its_text. rewrite HL. change NL with newline.
    change (String hash (" Context (" ++ nat_text (List.length (p_pars D p)) ++ " parameter(s)):")) with ("# Context (" ++ nat_text (List.length (p_pars D p)) ++ " parameter(s)):").
    unfold warning, newline, NL. rewrite !app_assoc_s. destruct c; cbn [lang_letter append]; same_text. }
  assert (N0 : noise n0).
  { unfold n0, warning. change NL with newline. rewrite !app_assoc_s.
    apply (noise_comment " CLooG -> CLooG"); [reflexivity|cbn; lia|].
    apply (noise_comment " This is an automatic dump of a CLooG input file from a CloogProgram data"); [reflexivity|cbn; lia|].
    apply (noise_comment " structure. WARNING: it is highly dangerous and MAY be correct ONLY if"); [reflexivity|cbn; lia|].
    apply (noise_comment " - it has been dumped before loop generation."); [reflexivity|cbn; lia|].
    apply (noise_comment " - option -noscalars is used (it removes scalar dimensions otherwise)"); [reflexivity|cbn; lia|].
    apply (noise_comment " - option -l is at least the original scattering dimension number"); [reflexivity|cbn; lia|].
    apply (noise_comment " ASK THE AUTHOR IF YOU *NEED* SOMETHING MORE ROBUST"); [reflexivity|cbn; lia|].
    destruct c; apply noise_comment; try reflexivity; try constructor; cbn; lia. }
  assert (NC : noise nc).
  { apply noise_nl. destruct (nat_ok (List.length (p_pars D p))) as (B & M); [lia|]. apply noise_comment; [unfold cc; rewrite !all_app, B; reflexivity| |constructor]. unfold cc. rewrite !length_app_s. cbn. lia. }
  destruct (RC nc "" after_ctx NC Noise_nil eq_refl) as (n1 & N1 & ERC).
  destruct (names_read_line n1 "Parameter" (p_pars D p) (stn ++ num ++ newline ++ rest2) N1 GP eq_refl) as (n2 & N2 & EP); [cbn; lia|].
  destruct (set_names_opt_right D Sc (ud_alloc np) CLOOG_PARAM (named_as (p_pars D p)) (given (p_pars D p))) as (ud1 & h1 & S1 & R1 & A1 & U1 & T1); [left; reflexivity|reflexivity|apply given_named| |].
  { intros l' E. destruct (p_pars D p) as [|w l]; [discriminate|]. injection E as <-. split; [discriminate|]. rewrite LP. reflexivity. }
  destruct (read_loops np (p_loops D p) 1 newline (newline ++ its_text) noise1 RL) as (n3 & N3 & RDS); [lia|].
  exists ud1, h1, (n3 ++ newline). split; [exact R1|]. split; [exact A1|]. split; [intros t; rewrite T1; destruct (t =? CLOOG_PARAM)%Z; reflexivity|].
  split; [apply noise_app; [exact N3|exact noise1]|].
  rewrite TEXT. unfold input_read.
  assert (KW : kept word) by (unfold word, kept, line_ok; destruct c; (split; [split; [reflexivity|apply Nat.ltb_lt; vm_compute; reflexivity]|reflexivity])).
  rewrite next_line_right by assumption. rewrite ERC.
  replace (match word ++ newline with String c _ => if Ascii.eqb c "f" then LangFortran else LangC | EmptyString => LangC end) with c by (unfold word; destruct c; reflexivity).
  fold np. unfold union_domain_read. unfold after_ctx. rewrite LP in EP. rewrite EP, S1.
  assert (NS : noise (n2 ++ stn)) by (apply noise_app; [exact N2|]; apply noise_nl, (noise_comment " Statement number:"); [reflexivity|cbn; lia|constructor]).
  destruct (number_next (List.length (p_loops D p)) "" (n2 ++ stn) rest2 NS) as (q & NX); [lia|reflexivity|cbn; lia|reflexivity|]. fold num in NX. rewrite app_assoc_s in NX.
  rewrite NX. destruct (number_line (List.length (p_loops D p)) "" eq_refl) as (_ & SN & _). fold num in SN. rewrite SN, as_int_nat by lia.
  destruct (Z.ltb_spec (Z.of_nat (List.length (p_loops D p))) 0); [lia|]. rewrite Nat2Z.id. unfold rest2. rewrite RDS.
  rewrite app_assoc_s. unfold after_loops. reflexivity.
Qed.

Lemma pairs_scats : forall (ds : list D) (cs : list Sc), List.length cs = List.length ds -> scat_dims (pairs D Sc dom_dim scat_dim ds (map Some cs)) = map scat_dim cs.
Proof.
  induction ds as [|d ds IH]; intros [|s cs] L; try discriminate; [reflexivity|]. cbn [map pairs]. unfold scat_dims in *. cbn [flat_map made d_scat option_map app]. rewrite IH by (injection L as L; exact L). reflexivity.
Qed.
Lemma read_back c p its tail (cs : option (list Sc)) ss scats ctx rest :
  print_plain (p_ctx D p) = Some ctx ->
  dumpable D print_plain print_dom read_ctx read_dom par_dim dom_dim c p its -> List.length ss = List.length (p_loops D p) ->
  match cs with Some l => map Some l = ss /\ greatest (List.length scats) (map scat_dim l) | None => ss = map (fun _ => None) (p_loops D p) /\ scats = [] end ->
  (forall n, noise n -> exists f5, scattering_list_read D Sc read_scat (p_loops D p) (n ++ tail) = Some (cs, f5) /\
    match cs with Some _ => names_read_strings f5 (Z.of_nat (List.length scats)) = Some (given scats, rest) | None => f5 = rest end) ->
  exists inp', Read (front p ctx its tail) = Some (c, inp', rest) /\ is_program D Sc p its scats ss inp'.
Proof.
  intros EC [HL (ctx' & HC & RC) RL (GP & LP) (GI & MI) (SP & SL)] LS HS HT. rewrite EC in HC. injection HC as <-.
  destruct (front_read c p its tail ctx HL EC RC RL GP LP SP SL) as (ud1 & h1 & n3 & R1 & A1 & T1 & N3 & ->).
  set (np := par_dim (p_ctx D p)) in *. set (ds := p_loops D p) in *.
  unfold after_loops.
  assert (NI : fold_left (fun n d => Z.max n (Z.of_nat (dom_dim d))) ds (-1)%Z = Z.of_nat (List.length its)).
  { rewrite <- (greatest_maxs _ _ MI). destruct ds as [|d ds']; [destruct MI as ([] & _)|]. cbn [fold_left]. replace (Z.max (-1) (Z.of_nat (dom_dim d))) with (Z.of_nat (dom_dim d)) by lia. rewrite max_dims. reflexivity. }
  rewrite NI. destruct (names_read_line n3 "Iterator" its (newline ++ tail) N3 GI eq_refl) as (n4 & N4 & ->); [cbn; lia|].
  destruct (HT (n4 ++ newline)) as (f5 & E5 & H5); [apply noise_app; [exact N4|exact noise1]|]. rewrite app_assoc_s in E5. rewrite E5.
  destruct (add_domains_right D Sc dom_dim scat_dim ds cs ss ud1 LS) as (ud2 & A2 & R2 & T2).
  { destruct cs; exact (proj1 HS). }
  { rewrite T1. reflexivity. }
  { rewrite T1. reflexivity. }
  rewrite A2.
  assert (RUN2 : run (ud_alloc np) (h1 ++ map Add (pairs D Sc dom_dim scat_dim ds ss))%list = Some ud2) by (rewrite run_app, R1; exact R2).
  pose proof (run_spec np (h1 ++ map Add (pairs D Sc dom_dim scat_dim ds ss))%list) as RSP. rewrite RUN2 in RSP. destruct RSP as (_ & I2).
  assert (UI : u_n ud2 CLOOG_ITER = List.length its).
  { rewrite (I_n _ _ _ I2), added_app, A1, added_adds. cbn [app]. unfold sz. change (CLOOG_ITER =? CLOOG_PARAM)%Z with false. change (CLOOG_ITER =? CLOOG_ITER)%Z with true. cbn iota.
    rewrite pairs_dims by exact LS. apply greatest_maxs. exact MI. }
  destruct (set_names_opt_right D Sc ud2 CLOOG_ITER (named_as its) (given its)) as (ud3 & h3 & S3 & R3 & A3 & U3 & T3); [right; left; reflexivity|rewrite T2, T1; reflexivity|apply given_named| |].
  { intros l' E. destruct its as [|w l]; [discriminate|]. injection E as <-. split; [discriminate|exact UI]. }
  rewrite S3.
  destruct (set_names_opt_right D Sc ud3 CLOOG_SCAT (named_as scats) (given scats)) as (ud4 & h4 & S4 & R4 & A4 & U4 & T4); [right; right; reflexivity|rewrite T3, T2, T1; reflexivity|apply given_named| |].
  { intros l' E. destruct scats as [|w l]; [discriminate|]. injection E as <-. split; [discriminate|]. destruct cs as [cl|]; [|destruct HS as (_ & HS); discriminate HS].
    destruct HS as (<- & HG). rewrite U3, (I_n _ _ _ I2), added_app, A1, added_adds. cbn [app]. unfold sz. change (CLOOG_SCAT =? CLOOG_PARAM)%Z with false. change (CLOOG_SCAT =? CLOOG_ITER)%Z with false. change (CLOOG_SCAT =? CLOOG_SCAT)%Z with true. cbn iota.
    rewrite pairs_scats; [apply greatest_maxs; exact HG|]. rewrite map_length in LS. exact LS. }
  exists {| in_ctx := p_ctx D p; in_ud := ud4 |}. split.
  - destruct cs as [cl|].
    + destruct HS as (HM & HG).
      assert (US : u_n ud3 CLOOG_SCAT = List.length scats).
      { rewrite U3, (I_n _ _ _ I2), added_app, A1, added_adds. cbn [app]. unfold sz. change (CLOOG_SCAT =? CLOOG_PARAM)%Z with false. change (CLOOG_SCAT =? CLOOG_ITER)%Z with false. change (CLOOG_SCAT =? CLOOG_SCAT)%Z with true. cbn iota.
        rewrite <- HM, pairs_scats; [apply greatest_maxs; exact HG|]. rewrite <- HM, map_length in LS. exact LS. }
      rewrite US, H5, S4. reflexivity.
    + destruct HS as (_ & ->). cbn in S4. injection S4 as ->. rewrite H5. reflexivity.
  - assert (RUN4 : run (ud_alloc np) ((h1 ++ map Add (pairs D Sc dom_dim scat_dim ds ss)) ++ h3 ++ h4)%list = Some ud4) by (rewrite run_app, RUN2, run_app, R3; exact R4).
    pose proof (run_spec np ((h1 ++ map Add (pairs D Sc dom_dim scat_dim ds ss)) ++ h3 ++ h4)%list) as RSP. rewrite RUN4 in RSP. destruct RSP as (_ & I4).
    split; [reflexivity|]. cbn [in_ud]. split; [|split; [|split]].
    + rewrite (I_dom _ _ _ I4), !added_app, A1, A3, A4, added_adds, app_nil_r. cbn [app]. apply pairs_doms. exact LS.
    + rewrite T4, T3, T2, T1. reflexivity.
    + rewrite T4, T3. reflexivity.
    + rewrite T4. reflexivity.
Qed.

Notation Dump := (program_dump D Sc print_plain print_dom print_scat).
Theorem dump_without c p :
  dumpable D print_plain print_dom read_ctx read_dom par_dim dom_dim c p (p_scats D p ++ p_iters D p)%list ->
  exists text inp' rest, Dump p [] = Some text /\ Read text = Some (c, inp', rest) /\
    is_program D Sc p (p_scats D p ++ p_iters D p)%list [] (map (fun _ => None) (p_loops D p)) inp' /\ noise rest.
Proof.
  intros HD. destruct (D_ctx _ _ _ _ _ _ _ _ _ _ HD) as (ctx & HC & _).
  destruct (read_back c p (p_scats D p ++ p_iters D p)%list ("# No scattering functions." ++ NL ++ "0" ++ NL ++ NL) None (map (fun _ => None) (p_loops D p)) [] ctx newline HC HD) as (inp' & ER & HP).
  { rewrite map_length. reflexivity. }
  { split; reflexivity. }
  { intros n N. exists newline. split; [|reflexivity]. unfold scattering_list_read.
    replace (n ++ "# No scattering functions." ++ NL ++ "0" ++ NL ++ NL) with ((n ++ "# No scattering functions." ++ newline ++ "") ++ (nat_text 0 ++ "") ++ newline ++ newline) by (rewrite !app_assoc_s; reflexivity).
    rewrite number_option; [reflexivity| |lia|reflexivity|cbn; lia|reflexivity|lia]. apply noise_app; [exact N|]. apply (noise_comment " No scattering functions."); [reflexivity|cbn; lia|constructor]. }
  eexists _, inp', newline. split; [|split; [exact ER|]]; [unfold program_dump, front; rewrite HC; apply f_equal; same_parts|]. split; [exact HP|exact noise1].
Qed.

(** without statements nothing can be read *)
Theorem dump_empty c p scattering its :
  p_lang D p = lang_letter c -> (exists t, print_plain (p_ctx D p) = Some t /\ reads_on t read_ctx (p_ctx D p)) ->
  good_names (p_pars D p) -> List.length (p_pars D p) = par_dim (p_ctx D p) -> (Z.of_nat (List.length (p_pars D p)) < 2 ^ 31 - 1)%Z ->
  p_loops D p = [] -> its = match scattering with [] => (p_scats D p ++ p_iters D p)%list | _ => p_iters D p end ->
  exists text, Dump p scattering = Some text /\ Read text = None.
Proof.
  intros HL (ctx & HC & RC) GP LP SP E HI. unfold program_dump. rewrite HC. eexists. split; [reflexivity|].
  match goal with |- context [words ?a ++ NL ++ NL ++ ?t] =>
    match t with match scattering with _ => _ end => destruct (front_read c p a t ctx HL HC RC) as (ud1 & h1 & n3 & R1 & A1 & T1 & N3 & ER) end end.
  { rewrite E. constructor. }
  { exact GP. }
  { exact LP. }
  { exact SP. }
  { rewrite E. cbn. lia. }
  etransitivity; [|etransitivity; [exact ER|]]; [apply f_equal; unfold front; same_parts|]. rewrite E. unfold after_loops. cbn [fold_left]. unfold names_read_strings at 1.
  change ("1" ++ " # " ++ "Iterator" ++ " name(s)") with (nat_text 1 ++ " # Iterator name(s)").
  rewrite number_option; [reflexivity|exact N3|lia|reflexivity|cbn; lia|reflexivity|lia].
Qed.

(** with scatterings: the first line of the first one ends up in a comment *)
Lemma read_more : forall (ds : list D) (cs : list Sc) n k x, noise n -> noise k -> visible x -> List.length cs = List.length ds ->
  Forall (fun q => reads_on (print_scat (snd q)) (read_scat (fst q)) (snd q)) (List.combine ds cs) ->
  (forall c, In c cs -> visible (print_scat c)) ->
  exists n', noise n' /\ read_scatterings D Sc read_scat ds (n ++ fold_right (fun s t => print_scat s ++ t) "" cs ++ k ++ x) = Some (cs, n' ++ x).
Proof.
  induction ds as [|d ds IH]; intros [|c cs] n k x N K V L F HV; try discriminate.
  - exists (n ++ k). split; [apply noise_app; assumption|]. cbn. rewrite app_assoc_s. reflexivity.
  - cbn [fold_right read_scatterings List.combine] in *. inversion F as [|? ? R F']; subst. cbn [fst snd] in R. injection L as L.
    destruct cs as [|c' cs'].
    + destruct ds; [|discriminate]. cbn [fold_right]. rewrite app_nil_s. destruct (R n k x N K V) as (n1 & N1 & ->). exists n1. split; [exact N1|]. reflexivity.
    + set (rest := fold_right (fun s t => print_scat s ++ t) "" (c' :: cs') ++ k ++ x).
      assert (VR : visible rest). { unfold rest. cbn [fold_right]. specialize (HV c' (or_intror (or_introl eq_refl))). destruct (print_scat c'); [destruct HV|exact HV]. }
      rewrite app_assoc_s. destruct (R n "" rest N Noise_nil VR) as (n1 & N1 & E1). cbn [append] in E1. fold rest. rewrite E1.
      destruct (IH (c' :: cs') n1 k x N1 K V L F') as (n' & N' & E'); [intros y Hy; apply HV; right; exact Hy|]. exists n'. split; [exact N'|]. unfold rest. rewrite E'. reflexivity.
Qed.
Theorem dump_with c p s cs a b :
  dumpable D print_plain print_dom read_ctx read_dom par_dim dom_dim c p (p_iters D p) ->
  List.length (s :: cs) = List.length (p_loops D p) ->
  print_scat s = a ++ newline ++ b -> all_chars not_nl a = true -> String.length a <= 900 ->
  match p_loops D p with
  | d :: ds => reads_on b (read_scat d) s /\ Forall (fun q => reads_on (print_scat (snd q)) (read_scat (fst q)) (snd q)) (List.combine ds cs)
  | [] => False
  end -> (forall c, In c cs -> visible (print_scat c)) ->
  good_names (p_scats D p) -> greatest (List.length (p_scats D p)) (map scat_dim (s :: cs)) ->
  exists text inp' rest, Dump p (s :: cs) = Some text /\ Read text = Some (c, inp', rest) /\
    is_program D Sc p (p_iters D p) (p_scats D p) (map Some (s :: cs)) inp' /\ rest = "".
Proof.
  intros HD LEN EP HA LA HR HV GS MS. destruct (D_ctx _ _ _ _ _ _ _ _ _ _ HD) as (ctx & HC & _). pose proof (D_small _ _ _ _ _ _ _ _ _ _ HD) as (_ & SL).
  set (names := ("1" ++ " # " ++ "Scattering dimension" ++ " name(s)") ++ newline ++ words (p_scats D p)).
  set (body := fold_right (fun s t => print_scat s ++ t) "" cs).
  set (tail := "# --------------------- SCATTERING --------------------" ++ NL ++ nat_text (List.length (s :: cs)) ++ " # Scattering functions" ++
             fold_right (fun s t => print_scat s ++ t) "" (s :: cs) ++ NL ++ "1 # Scattering dimension name(s)" ++ NL ++ words (p_scats D p)).
  assert (TE : forall n, n ++ tail = (n ++ "# --------------------- SCATTERING --------------------" ++ newline ++ "") ++ (nat_text (List.length (s :: cs)) ++ " # Scattering functions" ++ a) ++ newline ++ (b ++ body ++ newline ++ names)).
  { intros n. unfold tail, names, body. cbn [fold_right]. rewrite EP. unfold newline, NL. rewrite !app_assoc_s. cbn [append]. same_text. }
  destruct (read_back c p (p_iters D p) tail (Some (s :: cs)) (map Some (s :: cs)) (p_scats D p) ctx "" HC HD) as (inp' & ER & HP).
  { rewrite map_length. exact LEN. }
  { split; [reflexivity|exact MS]. }
  { intros n N. rewrite TE. unfold scattering_list_read. rewrite number_option; cycle 1.
    { apply noise_app; [exact N|]. apply (noise_comment " --------------------- SCATTERING --------------------"); [reflexivity|cbn; lia|constructor]. }
    { rewrite LEN. lia. }
    { rewrite all_app, HA. reflexivity. }
    { rewrite length_app_s. cbn. lia. }
    { reflexivity. }
    { lia. }
    destruct (Z.eqb_spec (Z.of_nat (List.length (s :: cs))) 0) as [Q|Q]; [cbn in Q; lia|]. rewrite LEN, Z.eqb_refl. cbn [negb].
    destruct (p_loops D p) as [|d ds] eqn:EL; [destruct HR|]. destruct HR as (R & F). cbn [read_scatterings].
    assert (E : exists n1, noise n1 /\ match read_scat d (b ++ body ++ newline ++ names) with None => None | Some (s, f1) => match read_scatterings D Sc read_scat ds f1 with Some (l, f2) => Some (s :: l, f2) | None => None end end = Some (s :: cs, n1 ++ names)).
    { cbn in LEN. injection LEN as LEN. destruct cs as [|c' cs'].
      - destruct ds; [|discriminate]. cbn [body fold_right append] in *. destruct (R "" newline names Noise_nil noise1 eq_refl) as (n1 & N1 & E1). cbn [append] in E1. rewrite E1. exists n1. split; [exact N1|reflexivity].
      - assert (VR : visible (body ++ newline ++ names)). { unfold body. cbn [fold_right]. specialize (HV c' (or_introl eq_refl)). destruct (print_scat c'); [destruct HV|exact HV]. }
        destruct (R "" "" (body ++ newline ++ names) Noise_nil Noise_nil VR) as (n1 & N1 & E1). cbn [append] in E1. rewrite E1.
        destruct (read_more ds (c' :: cs') n1 newline names N1 noise1 eq_refl LEN F HV) as (n' & N' & E'). fold body in E'. rewrite E'. exists n'. split; [exact N'|reflexivity]. }
    destruct E as (n1 & N1 & E). exists (n1 ++ names). split; [rewrite E; reflexivity|]. unfold names. apply names_read_end; [exact N1|exact GS|reflexivity|cbn; lia]. }
  eexists _, inp', "". split; [|split; [exact ER|]]; [unfold program_dump, front; rewrite HC; apply f_equal; same_parts|]. split; [exact HP|reflexivity].
Qed.
End Round.
