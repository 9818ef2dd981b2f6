From Coq Require Import Reals List Arith ZArith Permutation Lia Lra.
From Verif Require Import Model.Outcome Model.LinAlg Model.NormalScore Spec.NormalScore Proofs.NormalScore.
Import ListNotations.
Local Open Scope R_scope.

(** C42: the scores are the quantiles of (2i + 1) / 2n, rearranged. *)
Theorem C42_rearranged : forall quantile n z indices, sorting n z indices ->
  Permutation (map (scores quantile n indices) (seq 0 n)) (map (fun i => quantile ((2 * INR i + 1) * (1 / (2 * INR n)))) (seq 0 n)).
Proof. exact scores_perm. Qed.
Print Assumptions C42_rearranged.

(** C42: they are ordered as the data are, however std::sort places equal data. *)
Theorem C42_monotone : forall quantile, increasing quantile -> forall n z indices, sorting n z indices -> forall i j, (i < n)%nat -> (j < n)%nat -> z i < z j ->
  scores quantile n indices i < scores quantile n indices j.
Proof. exact scores_monotone. Qed.
Print Assumptions C42_monotone.

(** C42: transform returns these scores and keeps the mean and the Hermite coefficients of the sorted data. *)
Theorem C42_transform : forall quantile t n z indices t' y, transform quantile t n z indices = Ok (t', y) ->
  n <> 1%nat /\ s_order t' = s_order t /\ y = scores quantile n indices /\ exists phi, s_phi t' = Some phi /\ phi 0%nat = rsum n (fun i => z (nth i indices 0%nat)) / INR n /\
  forall p, (1 <= p <= s_order t)%nat -> phi p = 1 / sqrt (INR p) * rsum n (fun i => slope n (fun k => z (nth k indices 0%nat)) i * hermite (p - 1) (y (nth i indices 0%nat)) * density (y (nth i indices 0%nat))).
Proof. exact transform_spec. Qed.
Print Assumptions C42_transform.

(** C42: the slopes in the coefficients are those of the falling data: the step itself for evenly spaced values, never positive for sorted
    ones, so the first coefficient is not positive. *)
Theorem C42_slope_even : forall n a b i, (2 <= n)%nat -> (i < n)%nat -> slope n (fun k => a + b * INR k) i = - b.
Proof. exact slope_even. Qed.
Print Assumptions C42_slope_even.
Theorem C42_slope_sorted : forall n z, (2 <= n)%nat -> (forall i j, (i < j < n)%nat -> z i <= z j) -> forall i, (i < n)%nat -> slope n z i <= 0.
Proof. exact slope_sorted. Qed.
Print Assumptions C42_slope_sorted.
Theorem C42_first_coefficient : forall quantile t n z indices t' y phi, sorting n z indices -> (1 <= s_order t)%nat -> (2 <= n)%nat ->
  transform quantile t n z indices = Ok (t', y) -> s_phi t' = Some phi -> phi 1%nat <= 0.
Proof. exact first_coefficient. Qed.
Print Assumptions C42_first_coefficient.

(** C42: back_transform is the expansion in normalized Hermite polynomials up to the order. *)
Theorem C42_back : forall t phi, s_phi t = Some phi -> forall y, back_transform t y = Ok (rsum (S (s_order t)) (fun p => phi p * hermite p y)).
Proof. exact back_transform_spec. Qed.
Print Assumptions C42_back.

(** C42: back-transforming variogram values: zero at zero, the sum of the squares at one, nonnegative and nondecreasing between. *)
Theorem C42_gamma_ends : forall t phi, s_phi t = Some phi -> back_transform_gamma t 0 = Ok 0 /\
  back_transform_gamma t 1 = Ok (rsum (s_order t) (fun p => phi (S p) * phi (S p))).
Proof. exact gamma_ends. Qed.
Print Assumptions C42_gamma_ends.
Theorem C42_gamma_monotone : forall t phi, s_phi t = Some phi -> forall a b u v, 0 <= a <= b -> b <= 1 ->
  back_transform_gamma t a = Ok u -> back_transform_gamma t b = Ok v -> 0 <= u <= v.
Proof. exact gamma_monotone. Qed.
Print Assumptions C42_gamma_monotone.

(** C42: a new object refuses to transform back, an order below zero is refused. *)
Theorem C42_refuses : forall order, match new_score order with
  | Ok t => (0 <= order)%Z /\ forall x, back_transform t x = Throw ExRuntimeError /\ back_transform_gamma t x = Throw ExRuntimeError
  | Throw e => (order < 0)%Z /\ e = ExInvalidArgument
  | UB => False
  end.
Proof. intros order. unfold new_score. destruct (Z.ltb_spec order 0); auto. Qed.
Print Assumptions C42_refuses.

(** C42, refuted for one sample: it reads past the end. *)
Theorem C42_single_refuted : forall quantile t z indices, transform quantile t 1 z indices = UB.
Proof. reflexivity. Qed.
Print Assumptions C42_single_refuted.

(** The hypotheses can be met: three values with the quantiles of the uniform distribution. *)
Example C42_three : let z := fun i => match i with 0%nat => 7 | 1%nat => 5 | _ => 9 end in
  sorting 3 z [1; 0; 2]%nat /\ increasing (fun p => p) /\ scores (fun p => p) 3 [1; 0; 2]%nat 0%nat = / 2 /\
  exists t' y phi, transform (fun p => p) {| s_order := 2; s_phi := None |} 3 z [1; 0; 2]%nat = Ok (t', y) /\ s_phi t' = Some phi /\ phi 0%nat = 7.
Proof.
  intros z. split; [|split; [|split]].
  - split; [apply perm_swap|]. intros i j I. destruct i as [|[|i]], j as [|[|[|j]]]; try lia; cbn; lra.
  - intros a b _ L _. exact L.
  - unfold scores, set_at. cbn. field.
  - do 3 eexists. split; [reflexivity|]. split; [reflexivity|]. cbn. field.
Qed.
