(** Statements without floors and ceilings of quotients: their Fortran text computes with integers only. *)
From Coq Require Import ZArith List Bool Arith String Ascii Lia.
From Verif Require Import ClastSpec ClastModel ClastCmp PprintModel CReader FReader PprintSpec PprintStmt FSpec PprintExpr FExpr FStmt.
Import ListNotations.
Local Open Scope string_scope.
Local Open Scope Z_scope.

Fixpoint unrounded (e : expr) : bool :=
  match e with
  | EName _ | ETerm _ None => true
  | ETerm _ (Some x) => unrounded x
  | EBin (BFdiv | BCdiv) _ _ => false
  | EBin _ l _ => unrounded l
  | ERed _ l => forallb unrounded l
  end.
Definition opt_unrounded (e : option expr) : bool := match e with Some e => unrounded e | None => true end.
Fixpoint unrounded_stmt (s : stmt) : bool :=
  match s with
  | SAss _ e => opt_unrounded e
  | SUser _ subs => forallb opt_unrounded subs
  | SBlock b => forallb unrounded_stmt b
  | SFor _ lb ub _ b => opt_unrounded lb && opt_unrounded ub && forallb unrounded_stmt b
  | SGuard qs b => forallb (fun q => unrounded (e_lhs q) && opt_unrounded (e_rhs q)) qs && forallb unrounded_stmt b
  end.

Lemma unrounded_eval : forall e rho, unrounded e = true -> small_eval rho e = eval rho e.
Proof.
  induction e as [s|v [x|] IH|t l r IH|t l IH] using expr_ind'; intros rho H.
  - reflexivity.
  - cbn [small_eval eval]. now rewrite IH.
  - reflexivity.
  - destruct t; try discriminate H; cbn [small_eval eval small_quot unrounded] in *; rewrite IH by exact H; reflexivity.
  - rewrite small_red, eval_red. assert (V : svals rho l = vals rho l); [|now rewrite V].
    cbn [unrounded] in H. induction IH as [|e l He Hl IHl]; [reflexivity|]. cbn [forallb] in H. apply andb_true_iff in H. destruct H as [H1 H2]. cbn [svals vals]. now rewrite He, IHl.
Qed.
Lemma unrounded_opt : forall e rho, opt_unrounded e = true -> opt_with small_eval rho e = eval_opt rho e.
Proof. intros [e|] rho H; [now apply unrounded_eval|reflexivity]. Qed.
Lemma unrounded_hold : forall qs rho, forallb (fun q => unrounded (e_lhs q) && opt_unrounded (e_rhs q)) qs = true -> all_hold_with small_eval rho qs = all_hold rho qs.
Proof.
  induction qs as [|q qs IH]; intros rho H; [reflexivity|]. cbn [forallb] in H. apply andb_true_iff in H. destruct H as [H1 H2]. apply andb_true_iff in H1. destruct H1 as [H0 H1].
  cbn [all_hold_with all_hold]. rewrite IH by exact H2. unfold holds_with, eqn_holds. now rewrite unrounded_eval, unrounded_opt.
Qed.
Lemma unrounded_all : forall es rho, forallb opt_unrounded es = true -> all_with small_eval rho es = eval_all rho es.
Proof.
  induction es as [|e es IH]; intros rho H; [reflexivity|]. cbn [forallb] in H. apply andb_true_iff in H. destruct H as [H1 H2]. cbn [all_with eval_all]. now rewrite unrounded_opt, IH.
Qed.
Lemma unrounded_execs : forall b, Forall (fun s => unrounded_stmt s = true -> forall rho, exec1_with small_eval s rho = exec1 s rho) b -> forallb unrounded_stmt b = true ->
  forall rho, exec_with small_eval b rho = exec b rho.
Proof.
  induction 1 as [|s b Hs Hb IH]; intros H rho; [reflexivity|]. cbn [forallb] in H. apply andb_true_iff in H. destruct H as [H1 H2]. cbn [exec_with exec]. rewrite Hs by exact H1.
  destruct (exec1 s rho) as [[r1 t1]|]; [|reflexivity]. now rewrite IH.
Qed.
Lemma iterate_same : forall f g, (forall rho, f rho = g rho) -> forall it step k v rho, iterate f it step k v rho = iterate g it step k v rho.
Proof.
  intros f g H it step. induction k as [|k IH]; intros v rho; [reflexivity|]. cbn [iterate]. rewrite H. destruct (g (assign rho it v)) as [[r t]|]; [|reflexivity]. now rewrite IH.
Qed.
Lemma unrounded_exec1 : forall s, unrounded_stmt s = true -> forall rho, exec1_with small_eval s rho = exec1 s rho.
Proof.
  induction s as [y e|n l|b IH|it lb ub st b IH|qs b IH] using stmt_ind'; intros H rho; rewrite sexec1_eq, exec1_eq; cbn [unrounded_stmt] in H.
  - now rewrite unrounded_opt.
  - now rewrite unrounded_all.
  - now apply unrounded_execs.
  - apply andb_true_iff in H. destruct H as [H H3]. apply andb_true_iff in H. destruct H as [H1 H2]. rewrite !unrounded_opt by assumption.
    destruct (eval_opt rho lb); [|reflexivity]. destruct (eval_opt rho ub); [|reflexivity]. destruct (0 <? st); [|reflexivity]. apply iterate_same. now apply unrounded_execs.
  - apply andb_true_iff in H. destruct H as [H1 H2]. rewrite unrounded_hold by exact H1. destruct (all_hold rho qs) as [[]|]; try reflexivity. now apply unrounded_execs.
Qed.
Theorem unrounded_exec : forall ss, forallb unrounded_stmt ss = true -> forall rho, exec_with small_eval ss rho = exec ss rho.
Proof. intros ss H. apply unrounded_execs; [|exact H]. clear H. induction ss; constructor; [apply unrounded_exec1|assumption]. Qed.
