From Coq Require Import Reals List Arith Lia Lra.
From Verif Require Import Proofs.LinAlg Proofs.Description Proofs.PlaneEstimator.
From Verif Require Import Model.Outcome Model.LinAlg Model.VariogramFitting Model.PlaneEstimator Spec.Description Spec.PlaneEstimator.
Local Open Scope R_scope.

(** C60: the three errors are the root mean square distances from the best point, the best line and the best plane of all, apart from their
    lower limits; the normal is that of a best plane, through the barycenter. *)
Theorem C60_errors : forall n p s v, (3 <= n)%nat -> svd n (centered n p) s v -> exists e mp ml mq, estimator n s v = Ok e /\
  least (fun _ => True) (from_point n p) mp /\ least (fun qu => unit3 (snd qu)) (fun qu => from_line n p (fst qu) (snd qu)) ml /\
  least (fun wc => unit3 (fst wc)) (fun wc => from_plane n p (fst wc) (snd wc)) mq /\
  point_error e = Rmax (sqrt mp) (/ 10 ^ 10) /\ line_error e = Rmax (sqrt ml) (/ 10 ^ 10 * point_error e) /\
  plane_error e = Rmax (sqrt mq) (/ 10 ^ 10 * line_error e) /\ plane_factor e = line_error e * line_error e / (plane_error e * point_error e) /\
  unit3 (plane_normal e) /\ from_plane n p (plane_normal e) (dot 3 (plane_normal e) (barycenter n p)) = mq.
Proof.
  intros n p s v N S. destruct (estimator_spec n p s v N S) as (e & mp & ml & mq & E & P & L & Q & X & F & U & B & _).
  exists e, mp, ml, mq. unfold errors in X. cbv zeta in X. apply triple_eq in X. destruct X as (X1 & X2 & X3).
  split; [exact E|]. split; [exact P|]. split; [exact L|]. split; [exact Q|]. split; [exact X1|]. split; [rewrite X1; exact X2|]. split; [rewrite X2; exact X3|].
  split; [exact F|]. split; [exact U|exact B].
Qed.
Print Assumptions C60_errors.
(** C60: so errors and plane factor do not depend on which decomposition was found. *)
Theorem C60_unique : forall n p s v s' v' e e', (3 <= n)%nat -> svd n (centered n p) s v -> svd n (centered n p) s' v' ->
  estimator n s v = Ok e -> estimator n s' v' = Ok e' ->
  point_error e = point_error e' /\ line_error e = line_error e' /\ plane_error e = plane_error e' /\ plane_factor e = plane_factor e'.
Proof.
  intros n p s v s' v' e e' N S S' E E'.
  destruct (C60_errors n p s v N S) as (f & mp & ml & mq & F & P & L & Q & A1 & A2 & A3 & A4 & _).
  destruct (C60_errors n p s' v' N S') as (f' & mp' & ml' & mq' & F' & P' & L' & Q' & B1 & B2 & B3 & B4 & _).
  rewrite E in F. rewrite E' in F'. injection F as <-. injection F' as <-.
  rewrite (least_unique _ _ _ _ _ P P') in A1. rewrite (least_unique _ _ _ _ _ L L') in A2. rewrite (least_unique _ _ _ _ _ Q Q') in A3.
  assert (X1 : point_error e = point_error e') by congruence. assert (X2 : line_error e = line_error e') by congruence. assert (X3 : plane_error e = plane_error e') by congruence.
  split; [exact X1|]. split; [exact X2|]. split; [exact X3|congruence].
Qed.
Print Assumptions C60_unique.
(** C60: the plane factor lies between 1e-10 and 1e10. It is 1 if the points lie in a line, and 1e10 times the ratio of line and point error
    if they lie in a plane and clearly not in a line. *)
Theorem C60_factor : forall n p s v e, (3 <= n)%nat -> svd n (centered n p) s v -> estimator n s v = Ok e ->
  / 10 ^ 10 <= plane_factor e <= 10 ^ 10 /\
  ((exists q u, unit3 u /\ from_line n p q u = 0) -> plane_factor e = 1) /\
  ((exists w c, unit3 w /\ from_plane n p w c = 0) -> / 10 ^ 10 < line_error e -> / 10 ^ 10 * point_error e < line_error e ->
     plane_factor e = 10 ^ 10 * (line_error e / point_error e)).
Proof.
  intros n p s v e N S E. destruct (estimator_spec n p s v N S) as (f & mp & ml & mq & F & P & L & Q & X & G & _ & _ & O1 & O2).
  rewrite E in F. injection F as <-. assert (FA : plane_factor e = factor mp ml mq) by (unfold factor; rewrite <- X; exact G).
  split; [|split].
  - rewrite FA. exact (factor_bounds mp ml mq O1 O2).
  - intros (q & u & U & Z). assert (ML : ml = 0) by (pose proof (proj2 L (q, u) U) as H; cbn [fst snd] in H; lra). assert (MQ : mq = 0) by lra.
    rewrite FA, ML, MQ. apply factor_line.
  - intros (w & c & U & Z) L1 L2. assert (MQ : mq = 0) by (pose proof (proj2 Q (w, c) U) as H; cbn [fst snd] in H; lra).
    unfold errors in X. cbv zeta in X. apply triple_eq in X. destruct X as (X1 & X2 & X3). pose proof ten_pos as T. pose proof (sqrt_le_1_alt _ _ O2) as SL.
    assert (LE : line_error e = sqrt ml).
    { rewrite X2. destruct (Rle_lt_dec (/ 10 ^ 10 * Rmax (sqrt mp) (/ 10 ^ 10)) (sqrt ml)) as [H|H]; [apply Rmax_left; exact H|].
      rewrite X2, X1 in L2. rewrite (Rmax_right (sqrt ml)) in L2 by lra. lra. }
    assert (PE : point_error e = sqrt mp) by (rewrite X1; apply Rmax_left; lra).
    rewrite FA, MQ, LE, PE. apply factor_plane; [lra|exact O2|]. rewrite PE, LE in L2. lra.
Qed.
Print Assumptions C60_factor.
(** C60: with fewer than three points the behaviour is undefined. *)
Theorem C60_few_points : forall n s v, (n < 3)%nat -> estimator n s v = UB.
Proof. intros n s v N. unfold estimator. destruct (Nat.ltb_spec n 3); [reflexivity|lia]. Qed.
Print Assumptions C60_few_points.

(** The corners (+-1, +-1, 0) of a square: point error sqrt 2, line error 1, normal the third axis, plane factor 1e10 / sqrt 2. *)
Definition square (i k : nat) : R :=
  match k with
  | 0%nat => match i with 0%nat | 1%nat => 1 | _ => -1 end
  | 1%nat => match i with 0%nat | 2%nat => 1 | _ => -1 end
  | _ => 0
  end.
Definition widths (j : nat) : R := match j with 2%nat => 0 | _ => 2 end.
Example C60_example : svd 4 (centered 4 square) widths identity /\ exists e, estimator 4 widths identity = Ok e /\
  point_error e = sqrt 2 /\ line_error e = 1 /\ plane_factor e = 10 ^ 10 * (1 / sqrt 2).
Proof.
  assert (B : forall k, (k < 3)%nat -> barycenter 4 square k = 0).
  { intros k K. unfold barycenter, square. destruct k as [|[|[|k]]]; try lia; cbn [rsum]; unfold Rdiv; ring. }
  assert (SV : svd 4 (centered 4 square) widths identity).
  { split; [|split; [|split]].
    - intros j l J L. destruct j as [|[|[|j]]], l as [|[|[|l]]]; try lia; unfold dot, column, identity; cbn; ring.
    - intros j l J L. rewrite (rsum_ext 4 _ (fun i => square i j * square i l)).
      + destruct j as [|[|[|j]]], l as [|[|[|l]]]; try lia; unfold square, widths, identity; cbn; ring.
      + intros i I. f_equal; rewrite dot3_expand; unfold column, centered; rewrite !B by lia; [destruct j as [|[|[|j]]]|destruct l as [|[|[|l]]]]; try lia; unfold identity; cbn [Nat.eqb]; ring.
    - intros j J. destruct j as [|[|[|j]]]; try lia; unfold widths; lra.
    - unfold widths. lra. }
  split; [exact SV|]. destruct (C60_errors 4 square widths identity ltac:(lia) SV) as (e & _ & _ & _ & E & _). exists e. split; [exact E|].
  assert (S4 : sqrt 4 = 2) by (replace 4 with (2 * 2) by ring; apply sqrt_square; lra). assert (I4 : INR 4 = 4) by (cbn; ring).
  pose proof Rlt_sqrt2_0 as P2. assert (Q2 : 1 < sqrt 2) by (rewrite <- sqrt_1 at 1; apply sqrt_lt_1; lra). assert (R2 : sqrt 2 < 2) by (rewrite <- S4; apply sqrt_lt_1; lra). pose proof ten_pos as T.
  assert (PL : point_error e = sqrt 2 /\ line_error e = 1).
  { assert (X : forall (A : Type) (x y : A), Ok x = Ok y -> x = y) by (intros A x y H; injection H; auto). unfold estimator in E. change (4 <? 3)%nat with false in E. cbv iota in E.
    apply X in E. rewrite <- E. cbn [point_error line_error]. unfold hypot3, hypot2, widths. rewrite I4, S4.
    replace (2 * 2 + 2 * 2 + 0 * 0) with (2 * 4) by ring. rewrite sqrt_mult, S4 by lra. replace (2 * 2 + 0 * 0) with 4 by ring. rewrite S4.
    assert (A : Rmax (sqrt 2 * 2 / 2) (/ 10 ^ 10) = sqrt 2) by (rewrite Rmax_left; lra). rewrite A. split; [reflexivity|]. rewrite Rmax_left; lra. }
  destruct PL as [PE LE]. split; [exact PE|]. split; [exact LE|].
  destruct (C60_factor 4 square widths identity e ltac:(lia) SV E) as (_ & _ & F). rewrite F; [rewrite PE, LE; reflexivity| |lra|rewrite PE, LE; nra].
  exists (fun k => identity k 2%nat), 0. split; [unfold unit3; rewrite dot3_expand; unfold identity; cbn; ring|].
  unfold from_plane. unfold Rdiv. rewrite rsum_0; [ring|]. intros i I. rewrite dot3_expand. unfold identity, square. cbn [Nat.eqb]. ring.
Qed.
