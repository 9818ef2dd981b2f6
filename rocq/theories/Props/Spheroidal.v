From Coq Require Import Reals List Arith Lra Lia.
From Verif Require Import Model.LinAlg Model.Rbfs Spec.Rbfs Proofs.Spheroidal.
Import ListNotations.
Local Open Scope R_scope.

(** C19: the short-range and the long-range part of a spheroidal function add up to it. *)
Theorem C19_value : forall n sp p0 p1 a x,
  evaluate n (Sp sp DirectPart) p0 p1 a x + evaluate n (Sp sp FastPart) p0 p1 a x = evaluate n (Sp sp Full) p0 p1 a x.
Proof. exact split_value. Qed.
Print Assumptions C19_value.

(** C19: so do the gradients, *)
Theorem C19_gradient : forall n sp p0 p1 a x,
  plus_vector (evaluate_gradient n (Sp sp DirectPart) p0 p1 a x) (evaluate_gradient n (Sp sp FastPart) p0 p1 a x) = evaluate_gradient n (Sp sp Full) p0 p1 a x.
Proof. exact split_gradient. Qed.
Print Assumptions C19_gradient.

(** C19: the Hessians, *)
Theorem C19_hessian : forall n sp p0 p1 a x,
  plus_matrix (evaluate_hessian n (Sp sp DirectPart) p0 p1 a x) (evaluate_hessian n (Sp sp FastPart) p0 p1 a x) = evaluate_hessian n (Sp sp Full) p0 p1 a x.
Proof. exact split_hessian. Qed.
Print Assumptions C19_hessian.

(** C19: and the entries of every kernel. *)
Theorem C19_kernel : forall n sp p0 p1 a kk i j x,
  plus (kernel_entry n (Sp sp DirectPart) p0 p1 a kk i j x) (kernel_entry n (Sp sp FastPart) p0 p1 a kk i j x) = kernel_entry n (Sp sp Full) p0 p1 a kk i j x.
Proof. exact split_kernel. Qed.
Print Assumptions C19_kernel.

(** C19: from the support radius on every kernel of a function with bounded support is zero. *)
Theorem C19_support : forall n k p0 p1 a kk i j x radius, 0 < p1 -> support_radius k p1 = Some radius -> ~ (no_hessian k /\ kk = KHessian) ->
  radius <= sqrt (dot n x x) -> kernel_entry n k p0 p1 a kk i j x = Num 0.
Proof. exact beyond. Qed.
Print Assumptions C19_support.

(** C19: the direct evaluator, which looks only at the sources found near the target, loses nothing. *)
Theorem C19_near : forall n n_points k p0 p1 a kk points w x i indices radius, 0 < p1 -> support_radius k p1 = Some radius -> ~ (no_hessian k /\ kk = KHessian) ->
  found_near n n_points points x radius indices ->
  direct_target n k p0 p1 a kk points w x i indices = direct_target n k p0 p1 a kk points w x i (seq 0 n_points).
Proof. exact near_enough. Qed.
Print Assumptions C19_near.

(** C19: nor does the symmetric one, which adds the target's own term separately. *)
Theorem C19_symmetric : forall n n_points k p0 p1 a kk points w trg i indices radius, 0 < p1 -> 0 < radius -> support_radius k p1 = Some radius -> ~ (no_hessian k /\ kk = KHessian) ->
  (trg < n_points)%nat -> found_near n n_points points (points trg) radius indices ->
  direct_symmetric n k p0 p1 a kk points w trg i indices = direct_target n k p0 p1 a kk points w (points trg) i (seq 0 n_points).
Proof. exact symmetric_sum. Qed.
Print Assumptions C19_symmetric.

(** C19: near sources for the short-range part and all sources for the long-range part give the sum of the whole function. *)
Theorem C19_evaluator : forall n n_points sp p0 p1 a kk points w x i indices, 0 < p1 -> found_near n n_points points x (kRho0 sp * p1) indices ->
  spheroidal_sum (direct_target n (Sp sp DirectPart) p0 p1 a kk points w x i indices) (direct_target n (Sp sp FastPart) p0 p1 a kk points w x i (seq 0 n_points)) =
  direct_target n (Sp sp Full) p0 p1 a kk points w x i (seq 0 n_points).
Proof. exact spheroidal_evaluator. Qed.
Print Assumptions C19_evaluator.

(** C19: what these sums are. *)
Theorem C19_sum : forall n n_points k p0 p1 a kk points w x i f,
  (forall src j, (src < n_points)%nat -> (j < kernel_inputs n kk)%nat -> kernel_entry n k p0 p1 a kk i j (difference x (points src)) = Num (f src j)) ->
  direct_target n k p0 p1 a kk points w x i (seq 0 n_points) = Num (rsum n_points (fun src => rsum (kernel_inputs n kk) (fun j => w (kernel_inputs n kk * src + j)%nat * f src j))).
Proof. exact sum_meaning. Qed.
Print Assumptions C19_sum.

(** Two sources at 0 and 3 on a line, range 1: only the first is near the target 0 and is all that has to be found. *)
Example C19_two : found_near 1 2 (fun j _ => 3 * INR j) (fun _ => 0) (kRho0 sp3 * 1) [0%nat] /\
  spheroidal_sum (Num 1) (Num 2) = Num (0 + 1 + 2).
Proof.
  split; [|reflexivity]. split; [repeat constructor; intros []|]. split; [intros j [<-|[]]; lia|].
  intros j J L. destruct j as [|[|j]]; [left; auto| |lia]. exfalso. revert L. unfold dot, difference. cbn [rsum INR sp3 kRho0].
  replace (0 + (0 - 3 * 1) * (0 - 3 * 1)) with (3 * 3) by lra. rewrite sqrt_square by lra. lra.
Qed.
