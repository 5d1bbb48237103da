(** C63: the matrix back end visits every constraint once, in order; its accessors read and write the columns of a row; and
    look-ups treat a dropped constraint as removed.

    Specification: a row is written kind :: coefficients ++ [constant] below; [visit] goes through a list once. *)
From Coq Require Import ZArith List Bool Arith Lia.
From Verif Require Import RowModel RowSpec RowWalkModel.
Import ListNotations.
Local Arguments Nat.ltb : simpl never. Local Arguments Nat.leb : simpl never. Local Arguments Nat.eqb : simpl never. Local Arguments Nat.sub : simpl never.
Local Open Scope Z_scope.
Local Notation length := List.length.

Section Visit.
Context {S : Type} (fn : mrow -> S -> mrow * S * Z).
(** one row after the other until [fn] gives a negative number *)
Fixpoint visit (rows : list mrow) (s : S) : list mrow * S * Z :=
  match rows with
  | [] => ([], s, 0)
  | r :: rest =>
    let '(r', s', z) := fn r s in
    if z <? 0 then (r' :: rest, s', -1) else let '(rest', s'', ret) := visit rest s' in (r' :: rest', s'', ret)
  end.
End Visit.

Lemma set_at_mid {A} (a : list A) x b y : set_at (a ++ x :: b) (length a) y = a ++ y :: b.
Proof. induction a as [|z a IH]; cbn [app length set_at]; [reflexivity|now rewrite IH]. Qed.
Lemma nth_mid {A} (a : list A) x b : nth_error (a ++ x :: b) (length a) = Some x.
Proof. induction a as [|z a IH]; cbn; auto. Qed.

(** The loop with a cursor goes through the rows once, in order; what the function writes goes to the row it was given; after
    a negative number the remaining rows are not touched; no row outside the array is looked at. *)
Theorem C63_every_row_once : forall (S : Type) (fn : mrow -> S -> mrow * S * Z) (rows : list mrow) (s : S), foreach_constraint fn rows s = Some (visit fn rows s).
Proof.
  intros S fn rows s. assert (G : forall rest done n s, length rest = Datatypes.S n -> foreach_loop fn (Datatypes.S n) (Some (length done)) (done ++ rest) s = Some (let '(r, s', z) := visit fn rest s in (done ++ r, s', z))).
  { induction rest as [|r rest IH]; intros done n s0 L; [discriminate L|]. cbn [foreach_loop visit]. rewrite nth_mid. destruct (fn r s0) as [[r' s'] z] eqn:E. rewrite set_at_mid.
    destruct (z <? 0); [reflexivity|]. unfold m_next. rewrite app_length. cbn [length] in *. destruct n as [|n].
    - destruct rest; [|discriminate L]. cbn [visit]. replace (Datatypes.S (length done) =? length done + Datatypes.S (length []))%nat with true by (symmetry; apply Nat.eqb_eq; cbn; lia). cbn [foreach_loop]. reflexivity.
    - replace (Datatypes.S (length done) =? length done + Datatypes.S (length rest))%nat with false by (symmetry; apply Nat.eqb_neq; lia).
      specialize (IH (done ++ [r']) n s' ltac:(lia)). rewrite app_length in IH. cbn [length] in IH. rewrite Nat.add_1_r, <- app_assoc in IH. cbn [app] in IH. rewrite IH.
      destruct (visit fn rest s') as [[a b] d]. rewrite <- app_assoc. reflexivity. }
  unfold foreach_constraint, m_first. destruct rows as [|r rows]; [reflexivity|]. cbn [length]. change (Datatypes.S (length rows) =? 0)%nat with false. cbv iota.
  specialize (G (r :: rows) [] (length rows) s eq_refl). cbn [app length] in G. rewrite G. destruct (visit fn (r :: rows) s) as [[a b] d]. reflexivity.
Qed.
Print Assumptions C63_every_row_once.

(** In particular a function that only notes what it sees has seen exactly the rows. *)
Theorem C63_rows_seen : forall (rows : list mrow), foreach_constraint (fun r seen => (r, seen ++ [r], 0)) rows [] = Some (rows, rows, 0).
Proof.
  intros rows. rewrite C63_every_row_once. assert (G : forall rows seen, visit (fun r seen => (r, seen ++ [r], 0)) rows seen = (rows, seen ++ rows, 0)).
  { induction rows0 as [|r rows0 IH]; intros seen; cbn [visit]; [now rewrite app_nil_r|]. change (0 <? 0) with false. cbv iota. rewrite IH, <- app_assoc. reflexivity. }
  now rewrite G.
Qed.
Print Assumptions C63_rows_seen.

Lemma nth_in (l : list Z) k v : (v < length l)%nat -> nth_error (l ++ [k]) v = nth_error l v. Proof. intros H. now apply nth_error_app1. Qed.
Lemma set_app (l : list Z) k v z : (v < length l)%nat -> set_at (l ++ [k]) v z = set_at l v z ++ [k].
Proof. revert v. induction l as [|x l IH]; intros [|v] H; cbn [length] in H; try lia; cbn [app set_at]; [reflexivity|]. rewrite IH by lia. reflexivity. Qed.
Lemma set_nth_at (l : list Z) : forall v z w, (v < length l)%nat -> nth_error (set_at l v z) w = if (w =? v)%nat then Some z else nth_error l w.
Proof. induction l as [|x l IH]; intros [|v] z [|w] H; cbn [length] in H; try lia; cbn [set_at nth_error]; try reflexivity. rewrite IH by lia. reflexivity. Qed.
Lemma set_len {A} (l : list A) : forall v z, length (set_at l v z) = length l.
Proof. induction l as [|x l IH]; intros [|v] z; cbn [set_at length]; auto. Qed.

Lemma clear_row t co k : m_clear (t :: co ++ [k]) = t :: repeat 0 (length co) ++ [k].
Proof.
  unfold m_clear. cbn [length]. rewrite app_length. cbn [length]. replace (Datatypes.S (length co + 1) - 2)%nat with (length co) by lia.
  assert (G : forall rest done, fold_left (fun r k => set_at r k 0) (seq (1 + length done) (length rest)) (t :: done ++ rest ++ [k]) = t :: done ++ repeat 0 (length rest) ++ [k]).
  { induction rest as [|x rest IH]; intros done; [reflexivity|]. cbn [length seq fold_left app repeat]. cbn [Nat.add set_at]. rewrite set_at_mid.
    specialize (IH (done ++ [0])). rewrite app_length in IH. cbn [length] in IH. rewrite Nat.add_1_r, <- !app_assoc in IH. cbn [app Nat.add] in IH. exact IH. }
  exact (G co []).
Qed.

(** Reading, writing, copying and clearing by columns. *)
Theorem C63_columns :
  forall (t k : Z) (co : list Z), let r := t :: co ++ [k] in
  m_total r = length co /\ m_constant r = Some k /\ m_copy r = co ++ [k] /\ m_equality r = Some (t =? 0) /\
  (forall v, (v < length co)%nat -> exists z, nth_error co v = Some z /\ m_get r v = Some z /\ m_involves r v = Some (negb (z =? 0)) /\ m_lower r v = Some (0 <? z) /\ m_upper r v = Some (z <? 0)) /\
  (forall v z, (v < length co)%nat -> exists co', m_set r v z = t :: co' ++ [k] /\ length co' = length co /\ forall w, nth_error co' w = if (w =? v)%nat then Some z else nth_error co w) /\
  m_clear r = t :: repeat 0 (length co) ++ [k].
Proof.
  intros t k co. cbv zeta. assert (L : length (t :: co ++ [k]) = (length co + 2)%nat) by (cbn [length]; rewrite app_length; cbn; lia).
  split; [unfold m_total; rewrite L; lia|]. split; [unfold m_constant; rewrite L; replace (length co + 2 - 1)%nat with (Datatypes.S (length co)) by lia; cbn [nth_error]; apply nth_mid|].
  split; [unfold m_copy; rewrite L; cbn [skipn]; apply firstn_all2; rewrite app_length; cbn; lia|]. split; [reflexivity|]. split; [|split].
  - intros v Hv. destruct (nth_error co v) as [z|] eqn:E; [|apply nth_error_None in E; lia]. exists z. unfold m_involves, m_lower, m_upper, m_get. cbn [Nat.add nth_error]. rewrite nth_in by exact Hv. rewrite E. auto.
  - intros v z Hv. exists (set_at co v z). unfold m_set. cbn [Nat.add set_at]. rewrite set_app by exact Hv. split; [reflexivity|]. split; [apply set_len|]. intros w. now apply set_nth_at.
  - apply clear_row.
Qed.
Print Assumptions C63_columns.

(** A dropped constraint is not found any more: looking for a defining equality or for a pair of inequalities gives at
    every level what it gives in the set without this row. *)
Lemma eq_skip level r0 : at_ r0 level = 0 -> forall a b, defining_equality (a ++ r0 :: b) level = defining_equality (a ++ b) level.
Proof.
  intros H. unfold defining_equality. induction a as [|r a IH]; intros b; cbn [app find].
  - unfold defines at 1. rewrite H, Z.eqb_refl, andb_false_r. reflexivity.
  - destruct (defines level r); [reflexivity|apply IH].
Qed.
Lemma ex_skip level r0 : at_ r0 level = 0 -> forall a b, existsb (fun r => negb (at_ r level =? 0)) (a ++ r0 :: b) = existsb (fun r => negb (at_ r level =? 0)) (a ++ b).
Proof. intros H a b. rewrite !existsb_app. cbn [existsb]. rewrite H, Z.eqb_refl. reflexivity. Qed.
Lemma partner_skip level ni len ri r0 : at_ r0 level = 0 -> forall a b, defining_partner level ni len ri (a ++ r0 :: b) = defining_partner level ni len ri (a ++ b).
Proof.
  intros H. induction a as [|r a IH]; intros b; cbn [app defining_partner].
  - unfold usable at 1. rewrite H, Z.eqb_refl. reflexivity.
  - destruct (usable level ni r) as [[|]|]; [|reflexivity|apply IH]. rewrite ex_skip by exact H. reflexivity.
Qed.
Lemma ineq_skip columns level np r0 : at_ r0 level = 0 -> forall a b, defining_inequalities (a ++ r0 :: b) columns level np = defining_inequalities (a ++ b) columns level np.
Proof.
  intros H. induction a as [|r a IH]; intros b; cbn [app defining_inequalities].
  - unfold usable at 1. rewrite H, Z.eqb_refl. reflexivity.
  - rewrite partner_skip, ex_skip, IH by exact H. reflexivity.
Qed.
Theorem C63_dropped_rows_are_not_found :
  forall (before after : list mrow) (r : mrow) (level columns np : nat), (1 <= level <= length r - 2)%nat ->
  let rows := m_drop (before ++ r :: after) (length before) in
  (exists r', rows = before ++ r' :: after /\ length r' = length r) /\
  defining_equality rows level = defining_equality (before ++ after) level /\
  defining_inequalities rows columns level np = defining_inequalities (before ++ after) columns level np /\
  existsb (fun r => negb (at_ r level =? 0)) rows = existsb (fun r => negb (at_ r level =? 0)) (before ++ after).
Proof.
  intros before after r level columns np Hl. cbv zeta. unfold m_drop.
  assert (N : nth (length before) (before ++ r :: after) [] = r) by (clear; induction before; cbn; auto). unfold mrow in N |- *. rewrite N. rewrite set_at_mid. fold mrow.
  assert (C : exists t co k, r = t :: co ++ [k]). { destruct r as [|t r]; cbn [length] in Hl; [lia|]. destruct (exists_last (l := r)) as (co & k & ->); [intros ->; cbn in Hl; lia|]. eauto. }
  destruct C as (t & co & k & ->). rewrite clear_row. set (r0 := t :: repeat 0 (length co) ++ [k]).
  assert (Z0 : at_ r0 level = 0). { cbn [length] in Hl. rewrite app_length in Hl. cbn [length] in Hl. unfold at_, r0. destruct level as [|l]; [lia|]. cbn [nth]. rewrite app_nth1 by (rewrite repeat_length; lia). apply nth_repeat. }
  split; [exists r0; split; [reflexivity|unfold r0; cbn [length]; rewrite !app_length, repeat_length; reflexivity]|].
  split; [now apply eq_skip|]. split; [now apply ineq_skip|now apply ex_skip].
Qed.
Print Assumptions C63_dropped_rows_are_not_found.

(** i = 3 is dropped from a set with 2 i + j >= 0: the equality of level 1 is gone.  But the row is still there as 0 = 3, so the
    set must not be taken for a polyhedron any more: no point satisfies it. *)
Definition c63 : list mrow := [[0; 1; 0; -3]; [1; 2; 1; 0]].
Example C63_example :
  defining_equality c63 1 = Some [0; 1; 0; -3] /\ m_drop c63 0 = [[0; 0; 0; -3]; [1; 2; 1; 0]] /\ defining_equality (m_drop c63 0) 1 = None /\
  (forall it par, all_hold 0 (m_drop c63 0) it par -> False) /\ all_hold 0 c63 (fun j => if Nat.eqb j 0 then 3 else 0) (fun _ => 0) /\
  foreach_constraint (fun r n => (m_set r 1 5, n + 1, if n =? 0 then 0 else -1)) (c63 ++ c63) 0 = Some ([[0; 1; 5; -3]; [1; 2; 5; 0]] ++ c63, 2, -1) /\ (1 <= 1 <= length (nth 0 c63 []) - 2)%nat.
Proof.
  split; [reflexivity|]. split; [reflexivity|]. split; [reflexivity|]. split; [|split; [|split; [reflexivity|cbn; lia]]].
  - intros it par H. specialize (H [0; 0; 0; -3] (or_introl eq_refl)). vm_compute in H. discriminate H.
  - intros r [<-|[<-|[]]]; vm_compute; first [reflexivity|discriminate].
Qed.
