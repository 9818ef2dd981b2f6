From Coq Require Import Reals List Arith ZArith Lia Lra.
From Verif Require Import Proofs.LinAlg Proofs.PositiveDefinite Proofs.CompactKinds Proofs.PositiveSystem Proofs.SpheroidalStep.
From Verif Require Import Model.LinAlg Model.RbfModel Model.Rbfs Model.Operator Spec.Rbfs Spec.Operator Spec.PositiveDefinite.
Import ListNotations.
Local Open Scope R_scope.

(** C67: between distinct points of at most three dimensions the cubic and the spherical function are positive definite. *)
Theorem C67_functions : forall n d x k p0 p1, distinct n d x -> compact_kind k = true -> (d <= 3)%nat -> 0 < p0 -> 0 < p1 ->
  definite n (fun _ => True) (fun i j => value k p0 p1 (distance2 d (x i) (x j))).
Proof. exact compact_definite. Qed.
Print Assumptions C67_functions.
(** C67: these two kinds are meant, ... *)
Theorem C67_kinds : forall k, compact_kind k = true <-> k = Cub \/ k = Sph.
Proof. intros k. split; [destruct k; try discriminate; auto|intros [-> | ->]; reflexivity]. Qed.
Print Assumptions C67_kinds.
(** ... for which the library asks for no polynomial. *)
Theorem C67_order : cpd_order1 RbfModel.Cub = 0%Z /\ cpd_order1 RbfModel.Sph = 0%Z.
Proof. split; reflexivity. Qed.
Print Assumptions C67_order.
(** C67: their form is never negative, distinct points or not. *)
Theorem C67_nonnegative : forall n d x k p0 p1 c, compact_kind k = true -> (d <= 3)%nat -> 0 <= p0 -> 0 < p1 ->
  0 <= quad n (fun i j => value k p0 p1 (distance2 d (x i) (x j))) c.
Proof. exact compact_nonneg. Qed.
Print Assumptions C67_nonnegative.
(** C67: no covariance of two points exceeds what their variances allow, so no coefficient of correlation is more than 1. *)
Theorem C67_correlation : forall d x y k p0 p1, compact_kind k = true -> (d <= 3)%nat -> 0 <= p0 -> 0 < p1 ->
  Rabs (value k p0 p1 (distance2 d x y)) <= value k p0 p1 0.
Proof. exact compact_correlation. Qed.
Print Assumptions C67_correlation.
(** C67: one term with an anisotropy and no nugget: the operator takes every right hand side exactly once. *)
Theorem C67_solved : forall n d x k p0 p1 a p ss, compact_kind k = true -> (d <= 3)%nat -> 0 < p0 -> 0 < p1 -> distinct n d x ->
  (forall v, (forall e, (e < d)%nat -> mat_vec d a v e = 0) -> forall e, (e < d)%nat -> v e = 0) ->
  let terms := [term_rbf d (Term k p0 p1 a)] in schedules_ok (nat -> R) terms n ss ->
  let A := direct_operator (nat -> R) difference d terms 0 0 ss (points n x) p in
  forall b, (exists w, forall r, (r < n)%nat -> A w r = b r) /\
  forall w v, (forall r, (r < n)%nat -> A w r = b r) -> (forall r, (r < n)%nat -> A v r = b r) -> forall r, (r < n)%nat -> w r = v r.
Proof. exact compact_solved. Qed.
Print Assumptions C67_solved.
(** C67: not so the four spheroidal functions: with the constants as written the branches leave a step, and on a line already
    three distinct points have weights for which the form is negative. *)
Theorem C67_spheroidal_refuted : forall sp, In sp spheroids -> exists x c, distinct 3 1 x /\
  quad 3 (fun i j => value (Sp sp Full) 1 1 (distance2 1 (x i) (x j))) c < 0.
Proof. exact step_negative. Qed.
Print Assumptions C67_spheroidal_refuted.

(** The form of the spherical function at the ends of a half range, on the weights 1, -1. *)
Example C67_pair : quad 2 (fun i j => value Sph 1 2 (distance2 1 (fun _ => INR i) (fun _ => INR j))) (fun i => if Nat.eqb i 0 then 1 else -1) = 11 / 8.
Proof.
  unfold quad, distance2. cbn [rsum Nat.eqb value INR]. unfold sph_value.
  replace (0 + (0 - 0) * (0 - 0)) with 0 by ring. replace (0 + (1 - 1) * (1 - 1)) with 0 by ring. replace (0 + (0 - 1) * (0 - 1)) with 1 by ring. replace (0 + (1 - 0) * (1 - 0)) with 1 by ring.
  rewrite sqrt_0, sqrt_1. rewrite !lt_dec_b_true by lra. unfold Rdiv. rewrite !Rmult_0_l. lra.
Qed.
(** Four points of space with a cubic term. *)
Definition simplex (i e : nat) : R := if Nat.eqb i (S e) then 1 else 0.
Definition cub : term := Term Cub 2 3 (fun i j => if Nat.eqb i j then 1 else 0).
Example C67_simplex : distinct 4 3 simplex /\ good_term 3 0 cub /\ has_weight 4 3 simplex [cub] 0 /\
  schedules_ok (nat -> R) (map (term_rbf 3) [cub]) 4 [([0]%nat, fun _ => 0%nat)] /\ definite_in 4 Cub = None.
Proof.
  assert (D : distinct 4 3 simplex).
  { intros i j I J N. unfold simplex. destruct i as [|[|[|[|i]]]], j as [|[|[|[|j]]]]; try lia; try contradiction;
      try (exists 0%nat; split; [lia|]; cbn; lra); try (exists 1%nat; split; [lia|]; cbn; lra); exists 2%nat; split; try lia; cbn; lra. }
  split; auto. split; [|split; [|split; [|reflexivity]]].
  - exists 0%nat. cbn. split; [reflexivity|]. split; [lia|]. split; [lra|]. split; [lra|]. intros v H e E.
    destruct e as [|[|[|e]]]; [specialize (H 0%nat E)|specialize (H 1%nat E)|specialize (H 2%nat E)|lia]; unfold mat_vec in H; cbn in H; lra.
  - right. split; auto. split; auto. exists cub. split; [left; auto|cbn; lra].
  - split; [reflexivity|]. constructor; [|constructor]. split; [repeat constructor; cbn; intuition|]. intros r _. left. reflexivity.
Qed.
