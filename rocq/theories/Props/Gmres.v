From Coq Require Import Reals List Arith Lia Lra.
From Verif Require Import Model.LinAlg Model.RasPreconditioner Model.Gmres Spec.Gmres Proofs.GmresState Proofs.GmresMain.
Import ListNotations.
Local Open Scope R_scope.

(** C21: the reported residual of flexible GMRES is the norm of the preconditioned residual of its solution, and no other
    combination of the search directions does better. The right preconditioner is arbitrary. *)
Theorem C21_fgmres : forall m max_iter op left right x0 rhs, linear_map m op -> linear_map m left -> good_start m (is_zero m x0) x0 ->
  let st := gmres m max_iter op left right x0 rhs in
  forall k e, absolute_residual (st k) = Some e ->
  residual_norm m op left rhs (fgmres_solution x0 (st k)) = e /\
  forall y, e <= residual_norm m op left rhs (combination x0 (iter (st k)) (zs (st k)) y).
Proof. exact fgmres_main. Qed.
Print Assumptions C21_fgmres.

(** C21: the same for GMRES, whose solution preconditions the combination of the basis. *)
Theorem C21_gmres : forall m max_iter op left right x0 rhs, linear_map m op -> linear_map m left -> good_start m (is_zero m x0) x0 -> linear_map m right ->
  let st := gmres m max_iter op left right x0 rhs in
  forall k e, absolute_residual (st k) = Some e -> residual_norm m op left rhs (solution right x0 (st k)) = e.
Proof. exact gmres_main. Qed.
Print Assumptions C21_gmres.

(** C21: it never grows. *)
Theorem C21_monotone : forall m max_iter op left right x0 rhs k e,
  absolute_residual (gmres m max_iter op left right x0 rhs (S k)) = Some e ->
  exists e', absolute_residual (gmres m max_iter op left right x0 rhs k) = Some e' /\ e <= e'.
Proof. exact gmres_monotone. Qed.
Print Assumptions C21_monotone.

(** C21: with an injective preconditioned operator it is zero after at most as many steps as there are rows; the step after
    that divides by zero. *)
Theorem C21_ends : forall m max_iter op left right x0 rhs, linear_map m op -> linear_map m left -> linear_map m right ->
  injective_map m (fun x => left (op (right x))) -> (m <= max_iter)%nat ->
  let st := gmres m max_iter op left right x0 rhs in
  exists k, (k <= m)%nat /\ absolute_residual (st k) = Some 0 /\ ((k < max_iter)%nat -> absolute_residual (st (S k)) = None).
Proof. exact gmres_ends. Qed.
Print Assumptions C21_ends.

(** C21: MINRES, for self-adjoint preconditioned operators. *)
Theorem C21_minres : forall m max_iter op left right x0 rhs, linear_map m op -> linear_map m left -> good_start m (is_zero m x0) x0 ->
  linear_map m right -> self_adjoint m (fun x => left (op (right x))) ->
  let st := minres m max_iter op left right x0 rhs in
  forall k e, absolute_residual (st k) = Some e ->
  residual_norm m op left rhs (solution right x0 (st k)) = e /\
  forall y, e <= residual_norm m op left rhs (combination x0 (iter (st k)) (zs (st k)) y).
Proof. exact minres_main. Qed.
Print Assumptions C21_minres.

Theorem C21_minres_monotone : forall m max_iter op left right x0 rhs k e, self_adjoint m (fun x => left (op (right x))) ->
  absolute_residual (minres m max_iter op left right x0 rhs (S k)) = Some e ->
  exists e', absolute_residual (minres m max_iter op left right x0 rhs k) = Some e' /\ e <= e'.
Proof. exact minres_monotone. Qed.
Print Assumptions C21_minres_monotone.

Theorem C21_minres_ends : forall m max_iter op left right x0 rhs, linear_map m op -> linear_map m left ->
  self_adjoint m (fun x => left (op (right x))) -> linear_map m right -> injective_map m (fun x => left (op (right x))) ->
  (m <= max_iter)%nat -> exists k, (k <= m)%nat /\ absolute_residual (minres m max_iter op left right x0 rhs k) = Some 0.
Proof. exact minres_ends. Qed.
Print Assumptions C21_minres_ends.

(** C21: without a good start the estimate is wrong: a start of 1e-13 is taken for zero. *)
Theorem C21_tiny_start_refuted :
  let x0 := fun _ : nat => / 10 ^ 13 in
  let st := gmres 1 1 (fun x => x) (fun x => x) (fun x => x) x0 (fun _ => 1) 0 in
  absolute_residual st = Some 1 /\ residual_norm 1 (fun x => x) (fun x => x) (fun _ => 1) (fgmres_solution x0 st) = 1 - / 10 ^ 13.
Proof. exact tiny_start. Qed.
Print Assumptions C21_tiny_start_refuted.

(** One equation: solved by the first step, undefined after the second. *)
Example C21_one_equation :
  let st := gmres 1 2 (fun x => x) (fun x => x) (fun x => x) (fun _ => 0) (fun _ => 1) in
  absolute_residual (st 0%nat) = Some 1 /\ absolute_residual (st 1%nat) = Some 0 /\ fgmres_solution (fun _ => 0) (st 1%nat) 0%nat = 1 /\
  absolute_residual (st 2%nat) = None.
Proof. exact one_equation. Qed.
(** Its assumptions are satisfiable. *)
Example C21_assumptions : linear_map 1 (fun x => x) /\ injective_map 1 (fun x => x) /\ self_adjoint 1 (fun x => x) /\
  good_start 1 (is_zero 1 (fun _ => 0)) (fun _ => 0).
Proof. repeat split; intro; intros; auto. Qed.
