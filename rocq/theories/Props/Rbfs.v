From Coq Require Import Reals ZArith List Arith Lra Lia.
From Verif Require Import Model.LinAlg Model.Operator Model.Rbfs Spec.MonomialBasis Spec.Operator Spec.Rbfs Proofs.Rbfs Proofs.RbfFacts.
Import ListNotations.
Local Open Scope R_scope.

(** C17: where evaluate_gradient returns a number it is the gradient of evaluate, in every dimension, for all parameters and
    through every anisotropy matrix. *)
Theorem C17_gradient : forall n k p0 p1 a d g, exact_kind k -> range_ok k p1 ->
  grad_regular k p1 (dot n (mat_vec n a d) (mat_vec n a d)) -> evaluate_gradient n k p0 p1 a d = Num g ->
  forall e, (e < n)%nat -> partial (evaluate n k p0 p1 a) e d (g e).
Proof. exact gradient_correct. Qed.
Print Assumptions C17_gradient.

(** C17: evaluate_hessian is the derivative of that gradient. *)
Theorem C17_hessian : forall n k p0 p1 a d h, exact_kind k -> range_ok k p1 ->
  hess_regular k p1 (dot n (mat_vec n a d) (mat_vec n a d)) -> evaluate_hessian n k p0 p1 a d = Num h ->
  forall c e, (c < n)%nat -> (e < n)%nat -> partial (fun x => component (evaluate_gradient n k p0 p1 a x) c) e d (h c e).
Proof. exact hessian_correct. Qed.
Print Assumptions C17_hessian.

(** C17: the gradient never raises, and is not a number exactly for the functions with a cusp, at the origin. *)
Theorem C17_defined : forall n k p0 p1 a d, range_ok k p1 -> junction_ok k ->
  evaluate_gradient n k p0 p1 a d <> Raised /\
  (evaluate_gradient n k p0 p1 a d = Nan <-> cusp k /\ forall i, (i < n)%nat -> mat_vec n a d i = 0).
Proof. exact gradient_defined. Qed.
Print Assumptions C17_defined.

(** C17: the Hessian raises exactly for the two functions without one, and where it is not a number. *)
Theorem C17_hessian_defined : forall n k p0 p1 a d, range_ok k p1 -> junction_ok k ->
  let u := dot n (mat_vec n a d) (mat_vec n a d) in
  (evaluate_hessian n k p0 p1 a d = Raised <-> no_hessian k) /\
  (evaluate_hessian n k p0 p1 a d = Nan <->
     (cusp k /\ ~ no_hessian k /\ u = 0) \/
     (exists K, log_degree k = Some K /\ 0 < u + p1 * p1 /\ 1 + INR K * ln (sqrt (u + p1 * p1)) = 0)).
Proof. exact hessian_defined. Qed.
Print Assumptions C17_hessian_defined.

(** C17: the rounded constants of the spheroidal functions are within 2e-16 of the ones their derivatives need. *)
Theorem C17_constants : forall sp, In sp spheroids ->
  exact_constants (exact_version sp) /\ close (kD sp) (kD (exact_version sp)) /\ close (kE sp) (kE (exact_version sp)).
Proof. exact constants_close. Qed.
Print Assumptions C17_constants.

(** C17: so their gradients as coded differ from the true ones by at most 2e-16 of the smooth part. *)
Theorem C17_spheroidal_gradient : forall n sp p p0 p1 a d g, In sp spheroids -> 0 < p1 -> evaluate_gradient n (Sp sp p) p0 p1 a d = Num g ->
  exists g' f, evaluate_gradient n (Sp (exact_version sp) p) p0 p1 a d = Num g' /\
    evaluate_gradient n (Sp (exact_version sp) FastPart) p0 p1 a d = Num f /\
    forall e, Rabs (g e - g' e) <= 0.0000000000000002 * Rabs (f e).
Proof. exact spheroidal_gradient. Qed.
Print Assumptions C17_spheroidal_gradient.

(** C17: every function satisfies what the operator asks of it (C16). *)
Theorem C17_even : forall n k p0 p1 a,
  even_rbf (nat -> R) difference n (Rbf (nat -> R) (evaluate n k p0 p1 a) (fun x => component (evaluate_gradient n k p0 p1 a x)) (fun x => entry (evaluate_hessian n k p0 p1 a x))).
Proof. exact symmetric. Qed.
Print Assumptions C17_even.

(** C17: at the origin without smoothing a gradient of 0 is returned for bh3, which has none. *)
Theorem C17_bh3_origin_refuted : (exists g, evaluate_gradient 1 Bh3 1 0 identity_matrix (fun _ => 0) = Num g /\ g 0%nat = 0) /\
  forall x, ~ partial (evaluate 1 Bh3 1 0 identity_matrix) 0 (fun _ => 0) x.
Proof. exact bh3_origin. Qed.
Print Assumptions C17_bh3_origin_refuted.

(** C17: likewise the Hessian of bh2. *)
Theorem C17_bh2_origin_refuted : (exists h, evaluate_hessian 1 Bh2 1 0 identity_matrix (fun _ => 0) = Num h /\ h 0%nat 0%nat = 0) /\
  forall x, ~ partial (fun y => component (evaluate_gradient 1 Bh2 1 0 identity_matrix y) 0) 0 (fun _ => 0) x.
Proof. exact bh2_origin. Qed.
Print Assumptions C17_bh2_origin_refuted.

(** C17: at the distance exp(-1/2) the Hessian of bh2 exists and is returned as not a number. *)
Theorem C17_bh2_nan_refuted : evaluate_hessian 1 Bh2 1 0 identity_matrix (fun _ => exp (- (1 / 2))) = Nan /\
  exists x, partial (fun y => component (evaluate_gradient 1 Bh2 1 0 identity_matrix y) 0) 0 (fun _ => exp (- (1 / 2))) x.
Proof. exact bh2_nan. Qed.
Print Assumptions C17_bh2_nan_refuted.

(** th3 stretched by 2 along the axis: |2 x|^3 has the derivative 24 x^2 at x = 1. *)
Example C17_stretched : exists g, evaluate_gradient 1 Th3 1 0 (fun _ _ => 2) (fun _ => 1) = Num g /\ g 0%nat = 24.
Proof.
  unfold evaluate_gradient, gradient_at. replace (dot 1 _ _) with 4 by (unfold dot, mat_vec; cbn [rsum]; lra). cbn [gradient]. unfold odd_gradient. cbv zeta.
  replace (4 + 0 * 0) with (2 * 2) by lra. rewrite sqrt_square by lra. unfold is_zero. destruct (Req_EM_T 2 0); [lra|]. cbn [res_map]. eexists. split; [reflexivity|].
  unfold row_mat, mat_vec, odd_coeff, odd_sign. change (Z.of_nat 3 - 2)%Z with 1%Z. rewrite powerRZ_1. cbn [rsum Nat.add Nat.div Nat.divmod Nat.modulo Nat.eqb fst snd Nat.sub INR]. lra.
Qed.
