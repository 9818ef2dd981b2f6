From Coq Require Import List Arith Bool Reals Permutation Lia Lra.
From Verif Require Import Model.Outcome Model.Solver Spec.Solver Proofs.Solver.
Import ListNotations.

(** ** Examples: one point, no gradients, no polynomial; the fit at the point is the weight plus half of it
    (nugget 1/2). The Krylov method starts with 0 and finds 2 in its first iteration; the value is 3. *)
Definition ex (t : nat) (value : num) (sol : nat -> num) (iters : nat) : senv :=
  mk_senv 1 1 0 0 [value] 1 1 (1 / 2) t (fun _ => None) (fun _ is => is)
    (fun w _ => hd None w) (fun _ _ _ => None) (fun w => [hd None w]) (Some 1%R) [Some 0%R]
    (fun k => [sol k]) iters.
Definition ex_sol (k : nat) : num := match k with 0 => Some 0%R | _ => Some 2%R end.

Lemma ex_ok : forall t v sol n, senv_ok (ex t v sol n).
Proof. intros t v sol n. constructor; cbn; auto. Qed.

Lemma ex_converged : forall t x y sol n, 1 <= t ->
  converged (ex t (Some y) sol n) [Some x] = Ok (if Rlt_dec 1 (Rabs (x + x * (1 / 2) - y)) then false else true).
Proof.
  intros [|t] x y sol n T; [lia|]. unfold converged, passes. cbn -[Rlt_dec Rmax Rabs].
  rewrite Rmax_left by apply Rabs_pos.
  destruct (Rlt_dec 1 (Rabs (x + x * (1 / 2) - y))); cbn -[Rlt_dec]; auto.
  destruct (Rlt_dec 1 0); [lra|]. reflexivity.
Qed.

(** C15: unless the initial weights already solve the system, the returned weights are those of the first
    iteration, at most the max_iter-th, whose residuals pass the test; if there is none, an exception is
    thrown. Nothing undefined happens and the loop ends. *)
Theorem C15_first_converged_or_throw :
  forall E, senv_ok E -> ~ exact_start E ->
  (exists k, k <= max_iter E /\ solve E = Ok (solution E k) /\ converged E (solution E k) = Ok true /\
             forall j, j < k -> converged E (solution E j) = Ok false) \/
  (solve E = Throw ExRuntimeError /\
   forall k, k <= max_iter E -> converged E (solution E k) = Ok false).
Proof. exact solve_first. Qed.
Print Assumptions C15_first_converged_or_throw.

Lemma ex_solve : solve (ex 1024 (Some 3%R) ex_sol 5) = Ok [Some 2%R].
Proof.
  unfold solve. cbn [relative_residual ex]. destruct (Req_EM_T 1 0); [lra|].
  cbn [max_iter loop ex solution ex_sol]. rewrite ex_converged by (apply Nat.leb_le; reflexivity). cbn [bind].
  destruct (Rlt_dec 1 (Rabs (0 + 0 * (1 / 2) - 3))) as [_|N].
  2:{ exfalso. apply N. rewrite Rabs_left; lra. }
  rewrite ex_converged by (apply Nat.leb_le; reflexivity). cbn [bind].
  destruct (Rlt_dec 1 (Rabs (2 + 2 * (1 / 2) - 3))) as [N|_]; [|reflexivity].
  exfalso. replace (2 + 2 * (1 / 2) - 3)%R with 0%R in N by lra. rewrite Rabs_R0 in N. lra.
Qed.
Example C15_first_converged_or_throw_ex :
  senv_ok (ex 1024 (Some 3%R) ex_sol 5) /\ ~ exact_start (ex 1024 (Some 3%R) ex_sol 5) /\
  solve (ex 1024 (Some 3%R) ex_sol 5) = Ok [Some 2%R] /\
  solve (ex 1024 (Some 3%R) (fun _ => Some 0%R) 5) = Throw ExRuntimeError.
Proof.
  split; [apply ex_ok|]. split.
  { unfold exact_start. cbn. intros H. injection H as H. lra. }
  split; [apply ex_solve|].
  unfold solve. cbn [relative_residual ex]. destruct (Req_EM_T 1 0); [lra|].
  assert (forall m k, loop (ex 1024 (Some 3%R) (fun _ => Some 0%R) 5) k m = Throw ExRuntimeError) as G; [|auto].
  induction m as [|m IH]; intros k; cbn [loop ex solution];
    rewrite ex_converged by (apply Nat.leb_le; reflexivity); cbn [bind];
    (destruct (Rlt_dec 1 (Rabs (0 + 0 * (1 / 2) - 3))) as [_|N];
     [|exfalso; apply N; rewrite Rabs_left; lra]); auto.
Qed.

(** C15: when no NaN is involved and there are at most 1024 points and gradient points, the returned weights
    reproduce every value and gradient component within the tolerances, nugget included. *)
Theorem C15_small_problem_reproduced :
  forall E, senv_ok E -> forall w, solve E = Ok w -> ~ exact_start E -> no_nan E w -> small E ->
  reproduces E w (tolerance E) (grad_tolerance E).
Proof. exact solve_small. Qed.
Print Assumptions C15_small_problem_reproduced.

Example C15_small_problem_ex :
  no_nan (ex 1024 (Some 3%R) ex_sol 5) [Some 2%R] /\ small (ex 1024 (Some 3%R) ex_sol 5).
Proof.
  split.
  - split; [|split; [|split]]; cbn.
    + intros [|[|i]] v H; cbn in H; congruence.
    + intros [|i] H; [discriminate|lia].
    + lia.
    + intros [|[|i]] v H; cbn in H; congruence.
  - split; cbn; [apply Nat.leb_le; reflexivity|lia].
Qed.

(** C15: for larger problems the test at all points uses the fast evaluator, so its error adds up. *)
Theorem C15_large_problem_reproduced :
  forall E, senv_ok E -> forall w acc gacc, solve E = Ok w -> ~ exact_start E -> no_nan E w -> ~ small E ->
  accurate E w acc gacc -> reproduces E w (tolerance E + acc) (grad_tolerance E + gacc).
Proof. exact solve_large. Qed.
Print Assumptions C15_large_problem_reproduced.

Example C15_large_problem_ex :
  ~ small (ex 0 (Some 3%R) ex_sol 5) /\ accurate (ex 0 (Some 3%R) ex_sol 5) [Some 2%R] 0 0.
Proof.
  split; [intros [H _]; cbn in H; lia|]. split; cbn.
  - intros [|i] H; [|lia]. exists 2%R, 2%R. split; auto. split; auto. rewrite Rminus_diag_eq, Rabs_R0; lra.
  - lia.
Qed.

(** C15, the exception: a NaN residual passes the test. If the first weights are NaN, they are returned as
    converged, although the value is 3. *)
Theorem C15_nan_refuted :
  exists E w, senv_ok E /\ ~ exact_start E /\ small E /\ solve E = Ok w /\
  ~ reproduces E w (tolerance E) (grad_tolerance E).
Proof.
  exists (ex 1024 (Some 3%R) (fun _ => None) 5), [None]. split; [apply ex_ok|]. split.
  { unfold exact_start. cbn. intros H. injection H as H. lra. }
  split; [apply C15_small_problem_ex|]. split.
  - unfold solve. cbn [relative_residual ex]. destruct (Req_EM_T 1 0); [lra|].
    cbn [max_iter loop ex solution]. unfold converged, passes. cbn -[Rlt_dec].
    destruct (Rlt_dec 1 0); [lra|]. reflexivity.
  - intros [H _]. destruct (H 0) as (v & _ & x & y & X & _); [cbn; lia|]. discriminate X.
Qed.
Print Assumptions C15_nan_refuted.
