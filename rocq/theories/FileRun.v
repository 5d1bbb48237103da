(** Running the function of a file: what it does follows the run of its statements. *)
From Coq Require Import ZArith List Bool Arith String Ascii Lia.
From Verif Require Import ClastSpec ClastModel PprintModel CReader PprintSpec PprintLex PprintStmt PprintEnd FileModel FileReader FileSpec FileLex FileParse FileText FileRead FileMain.
Import ListNotations.
Local Open Scope string_scope.
Local Open Scope Z_scope.

(** *** values *)
Lemma cval_mono : forall rho rho', (forall x v, rho x = Some v -> rho' x = Some v) -> forall e z, cval rho e = Some z -> cval rho' e = Some z.
Proof.
  intros rho rho' H. induction e as [x|k|a IHa|op a IHa b IHb|a IHa b IHb c IHc|g l]; intros z E; cbn [cval] in *; [now apply H|exact E| | | |discriminate].
  - destruct (cval rho a) as [u|]; [|discriminate]. now rewrite (IHa u eq_refl).
  - destruct op; (destruct (cval rho a) as [u|]; [|discriminate]); rewrite (IHa u eq_refl);
      try (destruct (cval rho b) as [v|]; [|discriminate]; now rewrite (IHb v eq_refl)).
    destruct (u =? 0); [exact E|]. destruct (cval rho b) as [v|]; [|discriminate]. now rewrite (IHb v eq_refl).
  - destruct (cval rho a) as [u|]; [|discriminate]. rewrite (IHa u eq_refl). destruct (u =? 0); auto.
Qed.
Lemma assign_same : forall rho x z, assign rho x z x = Some z.
Proof. intros. unfold assign. now rewrite String.eqb_refl. Qed.
Lemma assign_other : forall rho x z y, y <> x -> assign rho x z y = rho y.
Proof. intros rho x z y N. unfold assign. destruct (String.eqb_spec x y); [congruence|]. reflexivity. Qed.

(** *** one run *)
Scheme frun1_mind := Induction for frun1 Sort Prop
  with floop_mind := Induction for floop Sort Prop
  with frun_mind := Induction for frun Sort Prop.
Combined Scheme frun_mutind from frun1_mind, floop_mind, frun_mind.
Lemma frun_unique f :
  (forall s rho rho' t, frun1 f s rho rho' t -> forall rho2 t2, frun1 f s rho rho2 t2 -> rho2 = rho' /\ t2 = t) /\
  (forall it ub st b rho rho' t, floop f it ub st b rho rho' t -> forall rho2 t2, floop f it ub st b rho rho2 t2 -> rho2 = rho' /\ t2 = t) /\
  (forall p rho rho' t, frun f p rho rho' t -> forall rho2 t2, frun f p rho rho2 t2 -> rho2 = rho' /\ t2 = t).
Proof.
  apply frun_mutind.
  - intros x e rho z V rho2 t2 H. inversion H; subst. same_val. auto.
  - intros g es rho rho' t ps b F L M rho2 t2 H. inversion H; subst.
    match goal with A : find _ _ = Some (g, (?p, ?c)) |- _ => lazymatch p with ps => fail | _ => rewrite F in A; injection A as <- <- end end. same_val. auto.
  - intros b rho rho' t H IH rho2 t2 H2. inversion H2; subst. now apply IH.
  - intros c b rho rho' t z V NZ H IH rho2 t2 H2. inversion H2; subst; [now apply IH|]. same_val. congruence.
  - intros c b rho V rho2 t2 H2. inversion H2; subst; [|auto]. same_val. congruence.
  - intros it lb ub st b rho z rho' t V H IH rho2 t2 H2. inversion H2; subst. same_val. now apply IH.
  - intros it ub st b rho v u E V L rho2 t2 H2. inversion H2; subst; [auto|]. repeat same_val. lia.
  - intros it ub st b rho v u rho1 t1 v1 rho2 t2 E V L H IH E1 H' IH' rho3 t3 H2. inversion H2; subst; [repeat same_val; lia|].
    match goal with A : frun f b rho ?r ?t |- _ => destruct (IH _ _ A) as [-> ->] end.
    match goal with A : rho1 it = Some ?w |- _ => lazymatch w with v1 => fail | _ => rewrite E1 in A; injection A as <- end end.
    match goal with A : floop f it ub st b _ rho3 _ |- _ => destruct (IH' _ _ A) as [-> ->] end. auto.
  - intros rho rho2 t2 H. inversion H; subst. auto.
  - intros s p rho rho1 t1 rho2 t2 H IH H' IH' rho3 t3 H2. inversion H2; subst.
    match goal with A : frun1 f s rho ?r ?t |- _ => destruct (IH _ _ A) as [-> ->] end.
    match goal with A : frun f p _ rho3 _ |- _ => destruct (IH' _ _ A) as [-> ->] end. auto.
Qed.
Lemma brun_unique : forall f b rho t, brun f b rho t -> forall t2, brun f b rho t2 -> t2 = t.
Proof.
  intros f b rho t H. induction H as [rho|z b rho|s b rho rho1 t1 t2 F H IH|x b rho rho1 l t1 t2 F M H IH|g es b rho zs s t2 V E H IH]; intros u U; inversion U; subst.
  - reflexivity.
  - reflexivity.
  - match goal with A : frun1 f s rho ?r ?t |- _ => lazymatch t with t1 => fail | _ => destruct (proj1 (frun_unique f) _ _ _ _ F _ _ A) as [-> ->] end end. f_equal. now apply IH.
  - match goal with A : find _ _ = Some (x, ?k) |- _ => lazymatch k with l => fail | _ => rewrite F in A; injection A as <- end end. same_val. f_equal. now apply IH.
  - repeat same_val. f_equal. now apply IH.
Qed.
Lemma runs_unique : forall f zs t t2, runs f zs t -> runs f zs t2 -> t2 = t.
Proof.
  intros f zs t t2 (a & b & B & D & H) (a' & b' & B' & D' & H'). rewrite B in B'. injection B' as <-. rewrite D in D'. injection D' as <-. exact (brun_unique _ _ _ _ H _ H').
Qed.
Lemma frun_body : forall f p rho rho' t, frun f p rho rho' t -> forall b t2, brun f b rho' t2 -> brun f (map FStmt p ++ b) rho (t ++ t2).
Proof.
  intros f p. induction p as [|s p IH]; intros rho rho' t H b t2 B; inversion H; subst; [exact B|]. cbn [map List.app]. rewrite <- app_assoc. econstructor; [eassumption|]. eapply IH; eassumption.
Qed.

(** *** the run of the file follows the run of the program *)
Section Follow.
Variable f : cfile.
Variable vs : list string.
Variable ps : list (string * nat).
Variable ctr : nat -> env -> Prop.
Variable emit : call -> list out.
Hypothesis macros_f : expr_macros f = program_macros.
Hypothesis no_object : forall x, In x vs -> object_value f x = None.
Hypothesis ctr_assign : forall c sigma x z, In x vs -> ctr c sigma -> ctr c (assign sigma x z).
Definition follows (c : nat) (rho sigma : env) : Prop := (forall x v, rho x = Some v -> In x vs /\ sigma x = Some v) /\ ctr c sigma.
Hypothesis proc : forall g es zs c rho sigma, callable ps g (List.length es) = true -> follows c rho sigma -> values program_macros rho es = Some zs ->
  exists xs b sigma', find (fun m => String.eqb (fst m) g) (stmt_macros f) = Some (g, (xs, b)) /\ List.length xs = List.length es /\
    mrun f (List.combine xs es) b sigma = Some (sigma', emit (g, zs)) /\ follows (S c) rho sigma'.
Lemma follow_value : forall c rho sigma e z, follows c rho sigma -> value program_macros rho e = Some z -> fvalue f sigma e = Some z.
Proof.
  intros c rho sigma e z [H _] V. unfold fvalue, value. rewrite macros_f. eapply cval_mono; [|exact V]. intros x v E. destruct (H x v E) as [I E']. unfold visible. now rewrite (no_object x I).
Qed.
Lemma follow_values : forall c rho sigma es zs, follows c rho sigma -> values program_macros rho es = Some zs -> fvalues f sigma es = Some zs.
Proof.
  intros c rho sigma es. induction es as [|e es IH]; intros zs R V; [exact V|]. unfold fvalues in *. cbn [values] in *. destruct (value program_macros rho e) as [z|] eqn:E; [|discriminate].
  destruct (values program_macros rho es) as [zs'|] eqn:E'; [|discriminate]. pose proof (follow_value _ _ _ _ _ R E) as F. unfold fvalue in F. rewrite F. now rewrite (IH zs' R eq_refl).
Qed.
Lemma follow_assign : forall c rho sigma x z, In x vs -> follows c rho sigma -> follows c (assign rho x z) (assign sigma x z).
Proof.
  intros c rho sigma x z I [H1 H2]. split; [|now apply ctr_assign]. intros y v E. destruct (String.eqb_spec y x) as [->|N].
  - rewrite assign_same in *. split; [exact I|exact E].
  - rewrite assign_other in * by exact N. now apply H1.
Qed.
Lemma follow_run :
  (forall s rho rho' t, crun1 program_macros s rho rho' t -> known_stmt vs (arities program_macros) ps s = true -> forall c sigma, follows c rho sigma ->
     exists sigma', frun1 f s sigma sigma' (flat_map emit t) /\ follows (c + List.length t) rho' sigma') /\
  (forall it ub st b rho rho' t, cloop program_macros it ub st b rho rho' t -> In it vs -> forallb (known_stmt vs (arities program_macros) ps) b = true -> forall c sigma, follows c rho sigma ->
     exists sigma', floop f it ub st b sigma sigma' (flat_map emit t) /\ follows (c + List.length t) rho' sigma') /\
  (forall p rho rho' t, crun program_macros p rho rho' t -> forallb (known_stmt vs (arities program_macros) ps) p = true -> forall c sigma, follows c rho sigma ->
     exists sigma', frun f p sigma sigma' (flat_map emit t) /\ follows (c + List.length t) rho' sigma').
Proof.
  apply crun_mutind.
  - intros x e rho z V K c sigma R. cbn [known_stmt] in K. apply andb_true_iff in K. destruct K as [K _]. exists (assign sigma x z). rewrite Nat.add_0_r.
    split; [constructor; now apply (follow_value c rho)|apply follow_assign; [now apply str_mem|exact R]].
  - intros g es rho zs N V K c sigma R. cbn [known_stmt] in K. apply andb_true_iff in K. destruct K as [K _]. destruct (proc g es zs c rho sigma K R V) as (xs & b & sigma' & F & L & M & R').
    exists sigma'. cbn [flat_map List.length]. rewrite app_nil_r, Nat.add_1_r. split; [econstructor; eassumption|exact R'].
  - intros b rho rho' t H IH K c sigma R. cbn [known_stmt] in K. destruct (IH K c sigma R) as (sigma' & F & R'). exists sigma'. split; [now constructor|exact R'].
  - intros e b rho rho' t z V NZ H IH K c sigma R. cbn [known_stmt] in K. apply andb_true_iff in K. destruct K as [_ K]. destruct (IH K c sigma R) as (sigma' & F & R').
    exists sigma'. split; [econstructor; [eapply follow_value; eassumption|exact NZ|exact F]|exact R'].
  - intros e b rho V K c sigma R. exists sigma. rewrite Nat.add_0_r. split; [constructor; eapply follow_value; eassumption|exact R].
  - intros it lb ub st b rho z rho' t V H IH K c sigma R. cbn [known_stmt] in K. do 3 (apply andb_true_iff in K; destruct K as [K ?]). apply str_mem in K.
    destruct (IH K ltac:(assumption) c (assign sigma it z) (follow_assign _ _ _ _ _ K R)) as (sigma' & F & R'). exists sigma'. split; [econstructor; [eapply follow_value; eassumption|exact F]|exact R'].
  - intros it ub st b rho v u E V L I K c sigma R. exists sigma. rewrite Nat.add_0_r. split; [|exact R]. econstructor; [apply R; exact E|eapply follow_value; eassumption|exact L].
  - intros it ub st b rho v u rho1 t1 v1 rho2 t2 E V L H IH E1 H' IH' I K c sigma R. destruct (IH K c sigma R) as (sigma1 & F1 & R1).
    destruct (IH' I K _ _ (follow_assign _ _ _ it (v1 + st) I R1)) as (sigma2 & F2 & R2). exists sigma2. rewrite flat_map_app, app_length, Nat.add_assoc. split; [|exact R2].
    econstructor; [apply R; exact E|eapply follow_value; eassumption|exact L|exact F1|apply R1; exact E1|exact F2].
  - intros rho K c sigma R. exists sigma. rewrite Nat.add_0_r. split; [constructor|exact R].
  - intros s p rho rho1 t1 rho2 t2 H IH H' IH' K c sigma R. cbn [forallb] in K. apply andb_true_iff in K. destruct K as [K1 K2].
    destruct (IH K1 c sigma R) as (sigma1 & F1 & R1). destruct (IH' K2 _ sigma1 R1) as (sigma2 & F2 & R2). exists sigma2. rewrite flat_map_app, app_length, Nat.add_assoc. split; [econstructor; eassumption|exact R2].
Qed.
End Follow.

(** *** formats *)
Lemma format_word : forall s r zs, all_chars is_idchar s = true -> format (s ++ r) zs = option_map (append s) (format r zs).
Proof.
  induction s as [|c s IH]; intros r zs A; [cbn [append]; destruct (format r zs); reflexivity|]. cbn [all_chars] in A. apply andb_true_iff in A. destruct A as [A1 A2]. cbn [append format].
  destruct (Ascii.eqb_spec c "%") as [->|_]; [discriminate A1|]. rewrite (IH r zs A2). now destruct (format r zs).
Qed.
Lemma conv_word : forall s r, all_chars is_idchar s = true -> conversions (s ++ r) = conversions r.
Proof.
  induction s as [|c s IH]; intros r A; [reflexivity|]. cbn [all_chars] in A. apply andb_true_iff in A. destruct A as [A1 A2]. cbn [append conversions].
  destruct (Ascii.eqb_spec c "%") as [->|_]; [discriminate A1|]. now apply IH.
Qed.
Lemma format_values : forall (its : list string) zs, List.length its = List.length zs -> format (String.concat "" (map (fun _ => " %d") its) ++ newline) zs = Some (String.concat "" (map (fun z => " " ++ decimal z) zs) ++ newline).
Proof.
  induction its as [|x its IH]; intros [|z zs] L; try discriminate; [reflexivity|]. injection L as L. cbn [map]. rewrite !concat_cons, !app_assoc_s.
  change (format (" %d" ++ (String.concat "" (map (fun _ => " %d") its) ++ newline)) (z :: zs))
    with (option_map (String " ") (option_map (append (decimal z)) (format (String.concat "" (map (fun _ => " %d") its) ++ newline) zs))).
  rewrite (IH zs L). cbn [option_map]. reflexivity.
Qed.
Lemma conv_values : forall its : list string, conversions (String.concat "" (map (fun _ => " %d") its) ++ newline) = Some (List.length its).
Proof.
  induction its as [|x its IH]; [reflexivity|]. cbn [map]. rewrite concat_cons, app_assoc_s.
  change (conversions (" %d" ++ (String.concat "" (map (fun _ => " %d") its) ++ newline))) with (option_map S (conversions (String.concat "" (map (fun _ => " %d") its) ++ newline))). now rewrite IH.
Qed.
Lemma s_chars : forall n, all_chars is_idchar (s_name n) = true.
Proof. intro n. unfold s_name. rewrite all_app, nat_chars. reflexivity. Qed.
Lemma fmt_format : forall its n zs, List.length its = List.length zs -> format (fmt its n ++ newline) zs = Some (s_name n ++ String.concat "" (map (fun z => " " ++ decimal z) zs) ++ newline).
Proof. intros its n zs L. unfold fmt. rewrite app_assoc_s, format_word, format_values by (apply s_chars || exact L). reflexivity. Qed.
Lemma fmt_conv : forall its n, conversions (fmt its n ++ newline) = Some (List.length its).
Proof. intros its n. unfold fmt. rewrite app_assoc_s, conv_word by apply s_chars. apply conv_values. Qed.

(** *** arguments *)
Lemma subst_params : forall its es, NoDup its -> List.length its = List.length es -> map (subst (List.combine its es)) (map CVar its) = es.
Proof.
  intros its es N L. rewrite map_map. cbn [subst].
  assert (G : forall l l' pre pre', List.length pre = List.length pre' -> List.length l = List.length l' -> NoDup (pre ++ l) ->
     map (fun x => match find (fun p => String.eqb (fst p) x) (List.combine (pre ++ l) (pre' ++ l')) with Some (_, a) => a | None => CVar x end) l = l').
  { induction l as [|x l IH]; intros [|e l'] pre pre' L1 L2 ND; try discriminate; [reflexivity|]. cbn [map]. f_equal.
    - assert (NI : ~ In x pre) by (apply NoDup_remove_2 in ND; intro I; apply ND, in_or_app; now left). clear -L1 NI.
      revert pre' L1. induction pre as [|y pre IHp]; intros [|e' pre'] L1; try discriminate; cbn [List.app List.combine find fst].
      + now rewrite String.eqb_refl.
      + destruct (String.eqb_spec y x) as [->|_]; [exfalso; apply NI; now left|]. apply IHp; [intro I; apply NI; now right|now injection L1].
    - specialize (IH l' (pre ++ [x])%list (pre' ++ [e])%list). rewrite <- !app_assoc in IH. cbn [List.app] in IH. apply IH; [rewrite !app_length; cbn; lia|now injection L2|exact ND]. }
  exact (G its es [] [] eq_refl L N).
Qed.
Lemma values_length : forall ms rho es zs, values ms rho es = Some zs -> List.length es = List.length zs.
Proof.
  intros ms rho es. induction es as [|e es IH]; intros zs V; cbn [values] in V; [injection V as <-; reflexivity|].
  destruct (value ms rho e); [|discriminate]. destruct (values ms rho es) as [l|] eqn:E; [|discriminate]. injection V as <-. cbn. f_equal. now apply IH.
Qed.
