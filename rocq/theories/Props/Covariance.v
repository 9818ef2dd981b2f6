From Coq Require Import Reals List Arith Lra.
From Verif Require Import Model.LinAlg Model.Rbfs Spec.Rbfs Proofs.Covariance.
Import ListNotations.
Local Open Scope R_scope.

(** C18: at distance zero a covariance function is its partial sill. *)
Theorem C18_sill : forall k p0 p1, covariance k -> 0 < p1 -> at_distance k p0 p1 0 = p0.
Proof. exact sill. Qed.
Print Assumptions C18_sill.

(** C18: everywhere it lies between zero and the sill. *)
Theorem C18_bounds : forall k p0 p1 r, covariance k -> 0 <= p0 -> 0 < p1 -> 0 <= r -> 0 <= at_distance k p0 p1 r <= p0.
Proof. exact bounds. Qed.
Print Assumptions C18_bounds.

(** C18: it does not increase with the distance. *)
Theorem C18_decreasing : forall k p0 p1, covariance k -> ~ spheroidal k -> 0 <= p0 -> 0 < p1 ->
  forall r r', 0 <= r -> r <= r' -> at_distance k p0 p1 r' <= at_distance k p0 p1 r.
Proof. exact monotone. Qed.
Print Assumptions C18_decreasing.

(** C18: the spheroidal ones not by more than 1e-16 of the sill. *)
Theorem C18_spheroidal_decreasing : forall sp p0 p1 r r', In sp spheroids -> 0 <= p0 -> 0 < p1 -> 0 <= r -> r <= r' ->
  at_distance (Sp sp Full) p0 p1 r' <= at_distance (Sp sp Full) p0 p1 r + junction * p0.
Proof. exact spheroidal_monotone. Qed.
Print Assumptions C18_spheroidal_decreasing.

(** C18: their two branches meet in value and in slope up to the rounding of the constants. *)
Theorem C18_junction : forall sp p0 p1, In sp spheroids -> 0 <= p0 -> 0 < p1 ->
  let s := (kRho0 sp * p1) * (kRho0 sp * p1) in
  Rabs (lin_value sp p0 p1 s - imq_value sp p0 p1 s) <= junction * p0 /\
  Rabs ((lin_coeff sp p0 p1 s - imq_coeff sp p0 p1 s) * (kRho0 sp * p1)) <= 2 * junction * (p0 / p1).
Proof. exact junctions. Qed.
Print Assumptions C18_junction.

(** C18: the two with a bounded support are zero from their range on and reach it smoothly. *)
Theorem C18_support : forall k p0 p1, k = Cub \/ k = Sph -> 0 < p1 ->
  (forall r, p1 <= r -> at_distance k p0 p1 r = 0) /\ derivable_pt_lim (at_distance k p0 p1) p1 0.
Proof. exact support. Qed.
Print Assumptions C18_support.

(** C18: with the constants as written the 5th order spheroidal function does step up where its branches meet. *)
Theorem C18_step_refuted : exists r r', 0 <= r <= r' /\ at_distance (Sp sp5 Full) 1 1 r < at_distance (Sp sp5 Full) 1 1 r'.
Proof. exact step_up. Qed.
Print Assumptions C18_step_refuted.

(** Half way to its range the spherical function is at 5/16 of the sill. *)
Example C18_half : covariance Sph /\ at_distance Sph 16 2 1 = 5.
Proof.
  split; [exact I|]. unfold at_distance. cbn [value]. unfold sph_value. cbv zeta. rewrite sqrt_square by lra. unfold lt_dec_b. destruct (Rlt_dec 1 2); lra.
Qed.
