From Coq Require Import Reals List Arith ZArith Lia Lra.
From Verif Require Import Proofs.LinAlg Proofs.PositiveDefinite Proofs.PositiveKinds Proofs.PositiveSystem.
From Verif Require Import Model.LinAlg Model.RbfModel Model.MonomialBasis Model.Rbfs Model.Operator Spec.Rbfs Spec.Operator Spec.PositiveDefinite.
Import ListNotations.
Local Open Scope R_scope.

(** C64: between any distinct points of any dimension, the exponential, Gaussian and Cauchy functions are positive definite
    and the polyharmonic ones, with any smoothing constant, are so on weights whose moments below their order vanish. *)
Theorem C64_functions : forall n d x k m p0 p1, distinct n d x -> definite_order k = Some m -> 0 < p0 -> (m = 0%nat -> 0 < p1) ->
  definite n (moments n d x m) (fun i j => value k p0 p1 (distance2 d (x i) (x j))).
Proof. exact kind_low. Qed.
Print Assumptions C64_functions.
(** C64: the form is never negative, distinct points or not. *)
Theorem C64_nonnegative : forall n d x k m p0 p1, definite_order k = Some m -> 0 <= p0 -> (m = 0%nat -> 0 < p1) ->
  forall c, moments n d x m c -> 0 <= quad n (fun i j => value k p0 p1 (distance2 d (x i) (x j))) c.
Proof. exact kind_nonneg. Qed.
Print Assumptions C64_nonnegative.
(** C64: the order the library asks for, less one being the degree of its polynomials, is that order. *)
Theorem C64_order : map (fun k => option_map Z.of_nat (definite_order k)) [Bh2; Th2; Bh3; Th3; Exp; Gau; Gc3; Gc5; Gc7; Gc9] =
  map (fun k => Some (cpd_order1 k)) [RbfModel.Bh2; RbfModel.Th2; RbfModel.Bh3; RbfModel.Th3; RbfModel.Exp; RbfModel.Gau;
    RbfModel.Gc3; RbfModel.Gc5; RbfModel.Gc7; RbfModel.Gc9].
Proof. reflexivity. Qed.
Print Assumptions C64_order.
(** C64: no smaller order would do: on a line already there are weights for which the form is negative. *)
Theorem C64_order_sharp : forall k m, definite_order k = Some (S m) -> exists n x c, distinct n 1 x /\ moments n 1 x m c /\
  quad n (fun i j => value k 1 0 (distance2 1 (x i) (x j))) c < 0.
Proof. exact order_sharp. Qed.
Print Assumptions C64_order_sharp.
(** C64: so the matrix of a model of such terms, each with its anisotropy, plus the nugget. *)
Theorem C64_matrix : forall n d x terms m nugget, Forall (good_term d m) terms -> has_weight n d x terms nugget ->
  definite n (moments n d x m) (mat_a (nat -> R) difference (fun _ => 0) d (map (term_rbf d) terms) nugget (points n x)).
Proof. exact mat_a_definite. Qed.
Print Assumptions C64_matrix.
(** C64: and the operator takes every right hand side exactly once, with the monomials of a degree that fits... *)
Theorem C64_solved : forall n d degree x terms nugget ss, (1 <= d <= 3)%nat -> (degree <= 2)%nat ->
  Forall (good_term d (S degree)) terms -> has_weight n d x terms nugget ->
  let l := length (columns d degree) in let p := MonomialBasis.evaluate d degree n x (fun _ _ => 0) in
  unisolvent n l p -> schedules_ok (nat -> R) (map (term_rbf d) terms) n ss ->
  let A := direct_operator (nat -> R) difference d (map (term_rbf d) terms) nugget l ss (points n x) p in
  forall b, (exists w, forall r, (r < n + l)%nat -> A w r = b r) /\
  forall w v, (forall r, (r < n + l)%nat -> A w r = b r) -> (forall r, (r < n + l)%nat -> A v r = b r) -> forall r, (r < n + l)%nat -> w r = v r.
Proof. exact monomials_solved. Qed.
Print Assumptions C64_solved.
(** ... or without a polynomial. *)
Theorem C64_solved_plain : forall n d x terms nugget p ss, Forall (good_term d 0) terms -> has_weight n d x terms nugget ->
  schedules_ok (nat -> R) (map (term_rbf d) terms) n ss ->
  let A := direct_operator (nat -> R) difference d (map (term_rbf d) terms) nugget 0 ss (points n x) p in
  forall b, (exists w, forall r, (r < n)%nat -> A w r = b r) /\
  forall w v, (forall r, (r < n)%nat -> A w r = b r) -> (forall r, (r < n)%nat -> A v r = b r) -> forall r, (r < n)%nat -> w r = v r.
Proof. exact plain_solved. Qed.
Print Assumptions C64_solved_plain.
(** C64: whatever the terms, the system is solved once only if the points are unisolvent, and, without a nugget, distinct. *)
Theorem C64_needs_unisolvent : forall n d x terms nugget l p,
  solved_once (n + l) (system (nat -> R) difference d (map (term_rbf d) terms) nugget (points n x) p) -> unisolvent n l p.
Proof. exact needs_unisolvent. Qed.
Print Assumptions C64_needs_unisolvent.
Theorem C64_needs_distinct : forall n d x terms l p,
  (forall i j k, (i < n)%nat -> (j < n)%nat -> (k < l)%nat -> (forall e, (e < d)%nat -> x i e = x j e) -> p i k = p j k) ->
  solved_once (n + l) (system (nat -> R) difference d (map (term_rbf d) terms) 0 (points n x) p) -> distinct n d x.
Proof. exact needs_distinct. Qed.
Print Assumptions C64_needs_distinct.

(** Three points of the plane with a biharmonic term and a constant: the weights are determined. *)
Definition corner (i e : nat) : R := if Nat.eqb i (S e) then 1 else 0.
Definition bh3 : term := Term Bh3 1 0 (fun i j => if Nat.eqb i j then 1 else 0).
Example C64_corner : distinct 3 2 corner /\ good_term 2 1 bh3 /\ has_weight 3 2 corner [bh3] 0 /\
  unisolvent 3 1 (MonomialBasis.evaluate 2 0 3 corner (fun _ _ => 0)) /\
  schedules_ok (nat -> R) (map (term_rbf 2) [bh3]) 3 [([0]%nat, fun _ => 0%nat)].
Proof.
  assert (D : distinct 3 2 corner).
  { intros i j I J N. unfold corner. destruct i as [|[|[|i]]], j as [|[|[|j]]]; try lia; try contradiction;
      try (exists 0%nat; split; [lia|]; cbn; lra); exists 1%nat; split; try lia; cbn; lra. }
  split; auto. split; [|split; [|split]].
  - exists 1%nat. cbn. split; [reflexivity|]. split; [lia|]. split; [lra|]. split; [discriminate|]. intros v H e E.
    destruct e as [|[|e]]; [specialize (H 0%nat E)|specialize (H 1%nat E)|lia]; unfold mat_vec in H; cbn in H; lra.
  - right. split; auto. split; auto. exists bh3. split; [left; auto|cbn; lra].
  - intros a H k K. assert (k = 0)%nat by lia. subst k. specialize (H 0%nat ltac:(lia)). unfold mat_vec, MonomialBasis.evaluate in H. cbn in H. lra.
  - split; [reflexivity|]. constructor; [|constructor]. split; [repeat constructor; cbn; intuition|]. intros r _. left. reflexivity.
Qed.
(** The form of that term on the weights 1, -1, 0. *)
Example C64_corner_form : quad 3 (fun i j => value Bh3 1 0 (distance2 2 (corner i) (corner j)))
  (fun i => if Nat.eqb i 0 then 1 else if Nat.eqb i 1 then -1 else 0) = 2.
Proof.
  assert (Z : forall y, y = 0 -> odd_sign 1 * 1 * (sqrt (y + 0 * 0) * 1) = 0).
  { intros y ->. replace (0 + 0 * 0) with 0 by ring. rewrite sqrt_0. ring. }
  assert (O : forall y, y = 1 -> odd_sign 1 * 1 * (sqrt (y + 0 * 0) * 1) = -1).
  { intros y ->. replace (1 + 0 * 0) with 1 by ring. rewrite sqrt_1. unfold odd_sign. cbn. ring. }
  unfold quad, distance2, corner. cbn [value]. unfold odd_value. cbn [rsum Nat.eqb pow].
  rewrite !(Z (0 + (0 - 0) * (0 - 0) + (0 - 0) * (0 - 0))), !(Z (0 + (1 - 1) * (1 - 1) + (0 - 0) * (0 - 0))),
    !(O (0 + (0 - 1) * (0 - 1) + (0 - 0) * (0 - 0))), !(O (0 + (1 - 0) * (1 - 0) + (0 - 0) * (0 - 0))) by ring. ring.
Qed.
