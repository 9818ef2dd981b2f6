From Coq Require Import Reals List Lra.
From Verif Require Import Model.Clip Model.PointTriangle Spec.PointTriangle Proofs.PointTriangle.
Import ListNotations.
Local Open Scope R_scope.

(** For every point and every triangle whose first two corners differ, even one whose corners lie on a line: numbers come
    out, and they are the nearest point of the triangle and its squared distance. *)
Theorem C50_closest : forall p a b c, a <> b ->
  exists q d, point_triangle_closest p a b c = Some (q, d) /\ nearest p a b c q d.
Proof. exact closest_nearest. Qed.
Print Assumptions C50_closest.
Example C50_closest_example : exists q d, point_triangle_closest (0, 0, 1) (0, 0, 0) (1, 0, 0) (0, 1, 0) = Some (q, d) /\ d = 1.
Proof.
  destruct (C50_closest (0, 0, 1) (0, 0, 0) (1, 0, 0) (0, 1, 0)) as [q [d [E [I [D N]]]]]; [intros X; injection X; lra|].
  exists q, d. split; [exact E|]. apply Rle_antisym.
  - apply Rle_trans with (dist2 (0, 0, 1) (0, 0, 0)); [apply N; exists 1, 0, 0; unfold px, py, pz; cbn; repeat split; lra|unfold dist2, px, py, pz; cbn; lra].
  - destruct I as [u [v [w [U [V [W [S1 [X [Y Z]]]]]]]]]. unfold px, py, pz in *. cbn in *. rewrite D. unfold dist2, px, py, pz. cbn. rewrite Z.
    pose proof (Rle_0_sqr (0 - fst (fst q))). pose proof (Rle_0_sqr (0 - snd (fst q))). unfold Rsqr in *. nra.
Qed.

(** With the first two corners equal the code divides zero by zero. *)
Theorem C50_equal_corners_refuted : ~ forall p a b c, b <> c -> point_triangle_closest p a b c <> None.
Proof.
  intros H. apply (H (1, 1, 0) (0, 0, 0) (0, 0, 0) (2, 0, 0)); [intros X; injection X; lra|].
  unfold point_triangle_closest, sub3, dot3, px, py, pz. cbn [fst snd]. unfold leb, quot, eqb.
  repeat match goal with |- context [Rle_dec ?x ?y] => destruct (Rle_dec x y); [try (exfalso; lra)|try (exfalso; lra)] end; cbn [andb].
  destruct (Req_EM_T _ 0) as [E|E]; [reflexivity|exfalso; apply E; lra].
Qed.
Print Assumptions C50_equal_corners_refuted.

(** snap_to_bbox: every coordinate stays, or moves to a face of the box, by less than the tolerance (twice that in a box
    thinner than the tolerance); a point within the tolerance of the box ends in the box; afterwards each coordinate is on
    a face or away from both; doing it again changes nothing. *)
Theorem C50_snap : forall tiny lo hi x, lo <= hi ->
  let y := snap1 tiny lo hi x in
  (y = x \/ y = lo \/ y = hi) /\ (y = x \/ Rabs (y - x) < 2 * tiny) /\ (tiny <= hi - lo -> y = x \/ Rabs (y - x) < tiny) /\
  (lo - tiny < x < hi + tiny -> lo <= y <= hi) /\ (y = lo \/ y = hi \/ (tiny <= Rabs (y - lo) /\ tiny <= Rabs (y - hi))) /\
  snap1 tiny lo hi y = y.
Proof. exact snap1_spec. Qed.
Print Assumptions C50_snap.
Example C50_snap_example : snap1 1 0 10 (1 / 2) = 0.
Proof.
  unfold snap1, ltb. destruct (Rlt_dec (Rabs (1 / 2 - 0)) 1) as [L|L]; [|exfalso; apply L; unfold Rabs; destruct (Rcase_abs _); lra].
  destruct (Rlt_dec (Rabs (0 - 10)) 1) as [M|M]; [exfalso; revert M; unfold Rabs; destruct (Rcase_abs _); lra|reflexivity].
Qed.

(** For a box at least twice as wide as the tolerance: no coordinate moves by 1e-10 of the resolution or more, only onto a face, and one nearer to a face than
    that goes onto it. *)
Theorem C50_snap_box : forall p lo hi res, 0 < res ->
  forall x l h y, In (x, l, h, y) [(px p, px lo, px hi, px (snap_to_bbox p lo hi res)); (py p, py lo, py hi, py (snap_to_bbox p lo hi res));
                                   (pz p, pz lo, pz hi, pz (snap_to_bbox p lo hi res))] ->
  2 * (res / 10000000000) <= h - l ->
  (Rabs (x - l) < res / 10000000000 -> y = l) /\ (Rabs (x - h) < res / 10000000000 -> y = h) /\
  (res / 10000000000 <= Rabs (x - l) -> res / 10000000000 <= Rabs (x - h) -> y = x).
Proof. exact snap_to_bbox_spec. Qed.
Print Assumptions C50_snap_box.
Example C50_snap_box_example : snap_to_bbox (1 / 10 ^ 11, 1, 1 / 10 ^ 9) (0, 0, 0) (1, 1, 1) 1 = (0, 1, 1 / 10 ^ 9).
Proof.
  pose proof (C50_snap_box (1 / 10 ^ 11, 1, 1 / 10 ^ 9) (0, 0, 0) (1, 1, 1) 1 ltac:(lra)) as H.
  destruct (snap_to_bbox _ _ _ _) as [[a b] c] eqn:E. unfold px, py, pz in H. cbn [fst snd] in H.
  pose proof (H _ _ _ _ (or_introl eq_refl)) as [A _]; [lra|]. pose proof (H _ _ _ _ (or_intror (or_introl eq_refl))) as [_ [B _]]; [lra|].
  pose proof (H _ _ _ _ (or_intror (or_intror (or_introl eq_refl)))) as [_ [_ C]]; [lra|].
  rewrite A, B, C; [reflexivity|..]; unfold Rabs; destruct (Rcase_abs _); lra.
Qed.
