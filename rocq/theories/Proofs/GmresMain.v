From Coq Require Import Reals List Arith Bool Lia Lra.
From Verif Require Import Model.LinAlg Model.RasPreconditioner Model.Gmres Spec.Gmres Proofs.LinAlg Proofs.Orthonormalize Proofs.Gmres Proofs.GmresState.
Import ListNotations.
Local Open Scope R_scope.

Section Main.
Variable m max_iter : nat.
Variable op left right : (nat -> R) -> nat -> R.
Variable x0 rhs : nat -> R.
Hypothesis LIN_op : linear_map m op.
Hypothesis LIN_left : linear_map m left.
Hypothesis START : good_start m (is_zero m x0) x0.
Notation run := (gmres m max_iter op left right x0 rhs).
Notation mr := (minres m max_iter op left right x0 rhs).
Lemma some_residual : forall st e, absolute_residual st = Some e -> ok st = true /\ e = Rabs (g st (iter st)).
Proof. intros st e E. unfold absolute_residual in E. destruct (ok st); [|discriminate]. injection E as <-. auto. Qed.

Lemma fgmres_main : forall k e, absolute_residual (run k) = Some e ->
  residual_norm m op left rhs (fgmres_solution x0 (run k)) = e /\
  forall y, e <= residual_norm m op left rhs (combination x0 (iter (run k)) (zs (run k)) y).
Proof.
  intros k e E. apply some_residual in E. destruct E as [OK ->]. split; [apply fgmres_residual; auto|]. intros. apply gmres_least; auto.
Qed.
Lemma gmres_main : linear_map m right -> forall k e, absolute_residual (run k) = Some e ->
  residual_norm m op left rhs (solution right x0 (run k)) = e.
Proof. intros L k e E. apply some_residual in E. destruct E as [OK ->]. apply gmres_residual; auto. Qed.
Lemma minres_main : linear_map m right -> self_adjoint m (fun x => left (op (right x))) -> forall k e, absolute_residual (mr k) = Some e ->
  residual_norm m op left rhs (solution right x0 (mr k)) = e /\
  forall y, e <= residual_norm m op left rhs (combination x0 (iter (mr k)) (zs (mr k)) y).
Proof.
  intros L A k e E. apply some_residual in E. destruct E as [OK ->]. split; [apply minres_residual; auto|]. intros. apply minres_least; auto.
Qed.
End Main.

Lemma gmres_monotone : forall m max_iter op left right x0 rhs k e, absolute_residual (gmres m max_iter op left right x0 rhs (S k)) = Some e ->
  exists e', absolute_residual (gmres m max_iter op left right x0 rhs k) = Some e' /\ e <= e'.
Proof.
  intros m max_iter op left right x0 rhs k e E. apply some_residual in E. destruct E as [OK ->]. exists (Rabs (g (gmres m max_iter op left right x0 rhs k) (iter (gmres m max_iter op left right x0 rhs k)))).
  split; [|apply gmres_decreases; auto]. unfold absolute_residual. destruct (ok_back m max_iter op left right x0 rhs (gmres m max_iter op left right x0 rhs k) OK) as [-> _]. auto.
Qed.
Lemma minres_monotone : forall m max_iter op left right x0 rhs k e, self_adjoint m (fun x => left (op (right x))) ->
  absolute_residual (minres m max_iter op left right x0 rhs (S k)) = Some e ->
  exists e', absolute_residual (minres m max_iter op left right x0 rhs k) = Some e' /\ e <= e'.
Proof.
  intros m max_iter op left right x0 rhs k e A E. apply some_residual in E. destruct E as [OK ->]. exists (Rabs (g (minres m max_iter op left right x0 rhs k) (iter (minres m max_iter op left right x0 rhs k)))).
  split; [|apply minres_decreases; auto]. unfold absolute_residual.
  destruct (minres_ok_back m max_iter op left right x0 (Nat.iter k (minres_step m max_iter op left right) (0, setup m op left x0 rhs)) OK) as [E _].
  unfold minres. rewrite E. auto.
Qed.
