From Coq Require Import Reals List Arith Bool Lra.
From Verif Require Import Proofs.Clip.
From Verif Require Import Model.Outcome Model.Clip Model.PointTriangle Model.Predicates Spec.PointTriangle Spec.Predicates
  Proofs.Predicates Proofs.TriangleIntersect Proofs.TriangleCases.
Import ListNotations.
Local Open Scope R_scope.

(** A segment and a triangle with a common point are never reported apart, however they lie: flat, touching, collapsed. *)
Theorem C51_segment : forall a b p q r x, in_segment a b x -> in_triangle p q r x -> segment_triangle a b p q r = true.
Proof. exact segment_triangle_complete. Qed.
Print Assumptions C51_segment.
Example C51_segment_example : segment_triangle (0, 0, -1) (0, 0, 1) (-1, -1, 0) (1, -1, 0) (0, 1, 0) = true.
Proof.
  apply (C51_segment _ _ _ _ _ (0, 0, 0)); [exists (1 / 2), (1 / 2), 0|exists (1 / 4), (1 / 4), (1 / 2)]; unfold px, py, pz; cbn; repeat split; lra.
Qed.

(** Triangles with distinct corners: any common point outside of the simplex of their common corners is noticed. *)
Theorem C51_triangles : forall s t, distinct_corners s -> distinct_corners t ->
  forall x, inside s x -> inside t x -> ~ in_shared s t x -> triangles_intersect s t = Ok true.
Proof. exact intersect_complete. Qed.
Print Assumptions C51_triangles.
Example C51_triangles_example :
  triangles_intersect ((0, 0, 0), (2, 0, 0), (0, 2, 0)) ((0, 0, 0), (2, 2, 1), (2, 2, -1)) = Ok true.
Proof.
  apply (C51_triangles _ _) with (x := (1, 1, 0)).
  - repeat split; intros X; injection X; lra.
  - repeat split; intros X; injection X; lra.
  - exists 0, (1 / 2), (1 / 2). unfold px, py, pz. cbn. repeat split; lra.
  - exists (1 / 2), (1 / 4), (1 / 4). unfold px, py, pz. cbn. repeat split; lra.
  - intros [a [b [c [H [u [v [w [_ [_ [_ [_ [X _]]]]]]]]]]]].
    assert (E : forall y, In y [a; b; c] -> px y = 0).
    { intros y I. destruct (H y I) as [I1 I2]. cbn in I1, I2. destruct I1 as [<-|[<-|[<-|[]]]]; [reflexivity| |reflexivity].
      exfalso. destruct I2 as [X2|[X2|[X2|[]]]]; injection X2; lra. }
    rewrite (E a), (E b), (E c) in X by (cbn; auto). unfold px in X. cbn in X. lra.
Qed.

(** No exception for triangles with distinct corners. *)
Theorem C51_no_throw : forall s t, distinct_corners s -> distinct_corners t -> exists v, triangles_intersect s t = Ok v.
Proof. exact no_throw. Qed.
Print Assumptions C51_no_throw.
Example C51_no_throw_example : exists v, triangles_intersect ((0, 0, 0), (1, 0, 0), (0, 1, 0)) ((0, 0, 0), (1, 0, 0), (0, 1, 0)) = Ok v.
Proof. apply C51_no_throw; repeat split; intros X; injection X; lra. Qed.

(** A triangle with two equal corners that also are a corner of the other one: the index of the apex comes out as 3. *)
Theorem C51_equal_corners_refuted : ~ forall s t, distinct_corners t -> exists v, triangles_intersect s t = Ok v.
Proof.
  intros H. destruct (H ((0, 0, 0), (0, 0, 0), (1, 0, 0)) ((0, 0, 0), (0, 1, 0), (0, 0, 1))) as [v E]; [repeat split; intros X; injection X; lra|].
  assert (L : same_corners ((0, 0, 0), (0, 0, 0), (1, 0, 0)) ((0, 0, 0), (0, 1, 0), (0, 0, 1)) = [(0, 0); (1, 0)]%nat).
  { unfold same_corners. cbn [filter corner]. rewrite (proj2 (pt_eqb_true (0, 0, 0) (0, 0, 0)) eq_refl).
    repeat match goal with |- context [pt_eqb ?x ?y] => let F := fresh in destruct (pt_eqb x y) eqn:F; [exfalso; apply pt_eqb_true in F; injection F; lra|clear F] end. reflexivity. }
  unfold triangles_intersect in E. rewrite L in E. discriminate E.
Qed.
Print Assumptions C51_equal_corners_refuted.

(** Unless some determinant is within the tolerance, the answer is exactly right. *)
Theorem C51_segment_exact : forall a b p q r, decisive a b p q r ->
  (segment_triangle a b p q r = true <-> exists x, in_segment a b x /\ in_triangle p q r x).
Proof. exact segment_triangle_exact. Qed.
Print Assumptions C51_segment_exact.
Theorem C51_triangle_exact : forall a b c p q r,
  decisive a b p q r -> decisive b c p q r -> decisive c a p q r -> decisive p q a b c -> decisive q r a b c -> decisive r p a b c ->
  (triangle_triangle a b c p q r = true <-> exists x, in_triangle a b c x /\ in_triangle p q r x).
Proof. exact triangle_triangle_exact. Qed.
Print Assumptions C51_triangle_exact.
Example C51_segment_exact_example : decisive (0, 0, -1) (0, 0, 1) (-1, -1, 0) (1, -1, 0) (0, 1, 0).
Proof.
  unfold decisive. assert (S : norm (extent (0, 0, -1) [(0, 0, 1); (-1, -1, 0); (1, -1, 0); (0, 1, 0)]) <= 4).
  { unfold norm. rewrite <- (sqrt_square 4) by lra. apply sqrt_le_1_alt. unfold norm2, dot3, extent, sub3, lo_of, hi_of, lo2, hi2, px, py, pz. cbn [fold_left fst snd].
    repeat match goal with
    | |- context [Rmin (IZR ?a) (IZR ?b)] => first [rewrite (Rmin_left (IZR a) (IZR b)) by lra|rewrite (Rmin_right (IZR a) (IZR b)) by lra]
    | |- context [Rmax (IZR ?a) (IZR ?b)] => first [rewrite (Rmax_left (IZR a) (IZR b)) by lra|rewrite (Rmax_right (IZR a) (IZR b)) by lra]
    end. lra. }
  set (z := norm _) in *. assert (Z0 : 0 <= z) by apply norm_nonneg. clearbody z.
  assert (T : kTinyFactor * z * z * z < 1).
  { unfold kTinyFactor. assert (K : / 10 ^ 12 <= / 100) by (apply Rinv_le_contravar; lra). assert (P : 0 < / 10 ^ 12) by (apply Rinv_0_lt_compat; lra). set (k := / 10 ^ 12) in *. clearbody k.
    assert (Q : z * z * z <= 64) by nra. assert (k * z * z * z <= / 100 * 64); [|lra]. replace (k * z * z * z) with (k * (z * z * z)) by ring.
    apply Rmult_le_compat; [lra| |lra|lra]. assert (0 <= z * z) by nra. nra. }
  repeat apply Forall_cons; try constructor; unfold orient3d, det3, sub3, px, py, pz; cbn [fst snd]; unfold Rabs; destruct (Rcase_abs _); lra.
Qed.

(** The in-circle determinant is the orientation of a, b, c times the power of d with respect to their circle. *)
Theorem C51_incircle : forall a b c d o rr,
  (fst a - fst o) ^ 2 + (snd a - snd o) ^ 2 = rr -> (fst b - fst o) ^ 2 + (snd b - snd o) ^ 2 = rr -> (fst c - fst o) ^ 2 + (snd c - snd o) ^ 2 = rr ->
  incircle a b c d = orient2d a b c * (rr - ((fst d - fst o) ^ 2 + (snd d - snd o) ^ 2)).
Proof. exact incircle_spec. Qed.
Print Assumptions C51_incircle.
Example C51_incircle_example : 0 < incircle (1, 0) (0, 1) (-1, 0) (0, 0).
Proof. rewrite (C51_incircle _ _ _ _ (0, 0) 1); cbn; [unfold orient2d; cbn; lra|lra|lra|lra]. Qed.

(** orient3d is six times the signed volume: positive if d is on the side the corners a, b, c are seen from clockwise. *)
Theorem C51_orient3d : forall a b c d, orient3d a b c d = - dot3 (cross (sub3 b a) (sub3 c a)) (sub3 d a).
Proof. intros [[a1 a2] a3] [[b1 b2] b3] [[c1 c2] c3] [[d1 d2] d3]. unfold orient3d, det3, dot3, cross, sub3, px, py, pz. cbn [fst snd]. ring. Qed.
Print Assumptions C51_orient3d.
Example C51_orient3d_example : orient3d (0, 0, 0) (1, 0, 0) (0, 1, 0) (0, 0, -1) = 1.
Proof. rewrite C51_orient3d. unfold dot3, cross, sub3, px, py, pz. cbn [fst snd]. lra. Qed.
