From Coq Require Import Reals ZArith List Arith Lia Lra.
From Verif Require Import Proofs.Covariance Proofs.VariogramFitting Proofs.Description.
From Verif Require Import Model.Outcome Model.LinAlg Model.Rbfs Model.VariogramFitting Model.Description Spec.Rbfs Spec.VariogramFitting Spec.Description.
Import ListNotations.
Local Open Scope R_scope.

(** C59: the printed description of a model tells the truth about it. *)

(** The axes of the anisotropy: a rotation, with positive and falling scales, and along axis [i] the function is the isotropic one
    with the printed range. *)
Theorem C59_axes : forall n a values vectors, (1 <= n <= 3)%nat -> 0 < det n a -> eigen_system n (gram n a) values vectors ->
  let '(rot, scale) := decompose n values vectors in
  column_rotation n rot /\ (forall i, (i < n)%nat -> 0 < scale i) /\ (forall i j, (i <= j < n)%nat -> scale j <= scale i) /\
  (forall k p0 p1 i h, covariance k -> 0 < p1 -> (i < n)%nat -> 0 <= h ->
     evaluate n k p0 p1 a (fun j => h * rot j i) = at_distance k p0 (scale i * p1) h).
Proof.
  intros n a values vectors N D E. assert (D' : det n a <> 0) by lra. destruct (decompose n values vectors) as [rot scale] eqn:X.
  pose proof (decompose_rotation n a values vectors N E) as P. pose proof (scale_pos n a values vectors N E D') as Q.
  pose proof (scale_descending n a values vectors N E D') as S. pose proof (described_range n a values vectors N E D') as T.
  rewrite X in P, Q, S, T. exact (conj P (conj Q (conj S T))).
Qed.
(** A fitted anisotropy, a rotation followed by ascending scales [s], is described with the ranges p1 / s i, longest first. *)
Theorem C59_fitted : forall n rot s values vectors, (1 <= n <= 3)%nat -> rotation n rot -> (forall i, (i < n)%nat -> 0 < s i) ->
  (forall i j, (i <= j < n)%nat -> s i <= s j) -> eigen_system n (gram n (scaled rot s)) values vectors ->
  forall i, (i < n)%nat -> snd (decompose n values vectors) i = / s i.
Proof. exact fitted_scales. Qed.
(** In two dimensions the printed angle lies in [0, 180) and its direction is that of the axis, clockwise, up to the sign. *)
Theorem C59_angle2 : forall angle, 0 <= angle2 angle < 180 /\ exists s, (s = 1 \/ s = -1) /\
  cos (angle2 angle * deg) = s * cos angle /\ sin (angle2 angle * deg) = - (s * sin angle).
Proof. exact angle2_spec. Qed.
(** In three dimensions azimuth, dip and rotation lie in [0, 360), [0, 90] and [0, 180), and turning by them gives the same axes. *)
Theorem C59_angles3 : forall e0 e1 e2, let '(az, dip, rot) := angles3 e0 e1 e2 in
  0 <= az < 360 /\ 0 <= dip <= 90 /\ 0 <= rot < 180 /\ same_axes 3 (zxz (- (az * deg)) (- (dip * deg)) (- (rot * deg))) (zxz e0 e1 e2).
Proof. exact angles3_spec. Qed.
(** It throws exactly if some function is a polyharmonic one; otherwise nugget, partial sills and ranges are printed in order. *)
Theorem C59_description : forall n m eigen,
  (description n m eigen = Throw ExRuntimeError <-> Exists (fun f => In (f_kind f) [Bh2; Th2; Bh3; Th3]) (m_rbfs m)) /\
  (forall d, description n m eigen = Ok d -> fst d = m_nugget m /\
     Forall2 (fun f l => fst l = f_p0 f /\ forall i, (i < n)%nat -> nth_error (snd l) i = Some (snd (decompose n (fst (eigen f)) (snd (eigen f))) i * f_p1 f)) (m_rbfs m) (snd d)).
Proof. exact description_spec. Qed.

(** The matrix diag(1, 2): ranges 30 and 15 for a range parameter of 30; the azimuth of the axis turned by an eighth. *)
Lemma half_turn_id : forall x, 0 <= x < 180 -> half_turn x = x.
Proof.
  intros x X. destruct (half_turn_spec x) as (A & k & E). assert (K : (-1 < k < 1)%Z) by (split; apply lt_IZR; lra). replace k with 0%Z in E by lia. lra.
Qed.
Definition unit2 : nat -> nat -> R := identity.
Definition squares (i : nat) : R := match i with 0%nat => 1 | _ => 4 end.
Definition stretched : nat -> nat -> R := scaled unit2 (scale2 2).
Example C59_example :
  eigen_system 2 (gram 2 stretched) squares unit2 /\ 0 < det 2 stretched /\
  ranges 2 (Function Exp 1 30 stretched) (snd (decompose 2 squares unit2)) = [30; 15] /\
  angle2 (- (PI / 4)) = 45 /\
  description 2 (RbfModel 1 [Function Bh3 1 0 unit2]) (fun _ => (squares, unit2)) = Throw ExRuntimeError.
Proof.
  split; [|split; [|split; [|split]]].
  - split; [|split].
    + intros i j I J. destruct i as [|[|i]], j as [|[|j]]; try lia; unfold dot, column, unit2, identity; cbn; ring.
    + intros i j I J. destruct i as [|[|i]], j as [|[|j]]; try lia; unfold mat_vec, gram, column, stretched, scaled, scale2, squares, unit2, identity; cbn; ring.
    + intros i j IJ. destruct i as [|[|i]], j as [|[|j]]; try lia; unfold squares; lra.
  - unfold det, stretched, scaled, scale2, unit2, identity. cbn. lra.
  - unfold ranges, decompose, squares. cbn [map seq snd f_p1]. rewrite sqrt_1. replace 4 with (2 * 2) by ring. rewrite sqrt_square by lra. f_equal; [lra|f_equal; lra].
  - unfold angle2. replace (- - (PI / 4) / deg) with 45 by (unfold deg; field; pose proof PI_RGT_0; lra). apply half_turn_id. lra.
  - reflexivity.
Qed.

Print Assumptions C59_axes.
Print Assumptions C59_fitted.
Print Assumptions C59_angle2.
Print Assumptions C59_angles3.
Print Assumptions C59_description.
