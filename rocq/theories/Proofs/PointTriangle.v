From Coq Require Import Reals List Bool Lra Psatz.
From Verif Require Import Model.Clip Model.PointTriangle Spec.PointTriangle.
Import ListNotations.
Local Open Scope R_scope.

Lemma leb_true : forall a b, leb a b = true -> a <= b.
Proof. intros a b. unfold leb. destruct (Rle_dec a b); [auto|discriminate]. Qed.
Lemma leb_false : forall a b, leb a b = false -> b < a.
Proof. intros a b. unfold leb. destruct (Rle_dec a b); [discriminate|]. intros. lra. Qed.
Lemma pt_eq : forall p q : pt, px p = px q -> py p = py q -> pz p = pz q -> p = q.
Proof. intros [[a b] c] [[x y] z]. cbn. congruence. Qed.

(** The impossible sign pattern: in the frame of one corner with the edges' Gram matrix A, B, C. *)
Lemma pattern : forall s t A B C : R, 0 < A -> 0 < C -> B * B < A * C -> t < 0 -> s * A + t * B < 0 -> 0 < s * B + t * C -> s < 0.
Proof.
  intros s t A B C HA HC HB Ht H1 H2. destruct (Rlt_le_dec s 0) as [L|L]; [exact L|exfalso].
  destruct (Rle_lt_dec B 0) as [LB|LB]; [nra|].
  assert (P1 : B * (s * A + t * B) <= 0) by nra.
  assert (P2 : 0 < A * (s * B + t * C)) by nra.
  assert (P3 : t * (A * C - B * B) > 0) by nra. nra.
Qed.
Lemma impossible : forall s t A B C : R, 0 < A -> 0 < C -> B * B < A * C -> t < 0 ->
  s * A + t * B < 0 -> 0 < s * B + t * C ->
  0 < s * B + (t - 1) * C -> s * B + (t - 1) * C < s * A + (t - 1) * B -> False.
Proof.
  intros s t A B C HA HC HB Ht H1 H2 H3 H4. pose proof (pattern s t A B C HA HC HB Ht H1 H2) as Hs.
  assert (LB : B < 0) by nra.
  assert (P1 : 0 < s * A + (t - 1) * B) by lra.
  assert (P2 : B * (s * A + (t - 1) * B) < 0) by nra.
  assert (P3 : 0 < A * (s * B + (t - 1) * C)) by nra.
  assert (P4 : 0 < (t - 1) * (A * C - B * B)) by nra. nra.
Qed.

(** Outside of the regions of the corners and the edges there is only the inside. *)
Lemma region : forall s t A B C d1 d2 : R, 0 < A -> 0 < C -> B * B < A * C ->
  d1 = s * A + t * B -> d2 = s * B + t * C ->
  0 < d1 \/ 0 < d2 -> d1 - A < 0 \/ d1 - A < d2 - B -> d2 - C < 0 \/ d2 - C < d1 - B ->
  (0 < (A * C - B * B) * t \/ d1 < 0) \/ 0 < d1 - A ->
  (0 < (A * C - B * B) * s \/ d2 < 0) \/ 0 < d2 - C ->
  (0 < (A * C - B * B) * (1 - s - t) \/ d2 - B - (d1 - A) < 0) \/ d1 - B - (d2 - C) < 0 ->
  0 <= s /\ 0 <= t /\ s + t <= 1.
Proof.
  intros s t A B C d1 d2 HA HC HD E1 E2 Ca Cb Cc Cab Cac Cbc.
  set (D := A * C - B * B) in *. assert (PD : 0 < D) by (unfold D; lra).
  set (K := A - 2 * B + C). assert (PK : 0 < K).
  { assert (X : K * A = (A - B) * (A - B) + D) by (unfold K, D; ring). pose proof (Rle_0_sqr (A - B)) as Y. unfold Rsqr in Y. clear - X Y PD HA. nra. }
  assert (HK : (A - B) * (A - B) < A * K) by (unfold K, D in *; lra).
  assert (HK2 : (C - B) * (C - B) < C * K) by (unfold K, D in *; lra).
  assert (HK3 : (A - B) * (A - B) < K * A) by lra. assert (HK4 : (C - B) * (C - B) < K * C) by lra.
  subst d1 d2. clearbody D.
  assert (T : 0 <= t).
  { destruct (Rlt_le_dec t 0) as [L|L]; [exfalso|exact L].
    destruct Cab as [[F|F]|F]; [clear - F PD L; nra| |].
    - (* d1 < 0 *)
      destruct Ca as [G|G]; [lra|].
      assert (S0 : s < 0) by (apply (pattern s t A B C); lra).
      destruct Cac as [[F2|F2]|F2]; [clear - F2 PD S0; nra|lra|].
      destruct Cc as [G2|G2]; [lra|].
      apply (impossible s t A B C); lra.
    - (* 0 < d3 *)
      destruct Cb as [G|G]; [lra|].
      assert (S0 : 1 - s - t < 0) by (apply (pattern (1 - s - t) t A (A - B) K); try assumption; unfold K; lra).
      destruct Cbc as [[F2|F2]|F2]; [clear - F2 PD S0; nra|lra|].
      destruct Cc as [G2|G2]; [|lra].
      apply (impossible (1 - s - t) t A (A - B) K); try assumption; unfold K; lra. }
  assert (SS : 0 <= s).
  { destruct (Rlt_le_dec s 0) as [L|L]; [exfalso|exact L].
    destruct Cac as [[F|F]|F]; [clear - F PD L; nra| |].
    - (* d2 < 0 *)
      destruct Ca as [G|G]; [|lra].
      assert (S0 : t < 0) by (apply (pattern t s C B A); lra). lra.
    - (* 0 < d6 *)
      destruct Cc as [G|G]; [lra|].
      assert (S0 : 1 - s - t < 0) by (apply (pattern (1 - s - t) s C (C - B) K); try assumption; unfold K; lra).
      destruct Cbc as [[F2|F2]|F2]; [clear - F2 PD S0; nra| |lra].
      destruct Cb as [G2|G2]; [|lra].
      apply (impossible (1 - s - t) s C (C - B) K); try assumption; unfold K; lra. }
  split; [exact SS|]. split; [exact T|].
  destruct (Rlt_le_dec 1 (s + t)) as [L|L]; [exfalso|exact L].
  destruct Cbc as [[F|F]|F]; [clear - F PD L; nra| |].
  - (* d4 < d3 *)
    destruct Cb as [G|G]; [|lra].
    assert (S0 : t < 0) by (apply (pattern t (1 - s - t) K (A - B) A); try assumption; unfold K; lra). lra.
  - (* d5 < d6 *)
    destruct Cc as [G|G]; [|lra].
    assert (S0 : s < 0) by (apply (pattern s (1 - s - t) K (C - B) C); try assumption; unfold K; lra). lra.
Qed.

Lemma dist2_nonneg : forall p q, 0 <= dist2 p q.
Proof.
  intros. unfold dist2. pose proof (Rle_0_sqr (px p - px q)). pose proof (Rle_0_sqr (py p - py q)). pose proof (Rle_0_sqr (pz p - pz q)). unfold Rsqr in *. lra.
Qed.

(** The same for three corners on one line. *)
Lemma region_flat : forall l A d1 : R, 0 < A ->
  0 < d1 \/ 0 < l * d1 -> d1 - A < 0 \/ d1 - A < l * d1 - l * A -> l * d1 - l * l * A < 0 \/ l * d1 - l * l * A < d1 - l * A ->
  d1 < 0 \/ 0 < d1 - A -> l * d1 < 0 \/ 0 < l * d1 - l * l * A ->
  l * d1 - l * A - (d1 - A) < 0 \/ d1 - l * A - (l * d1 - l * l * A) < 0 -> False.
Proof.
  intros l A d1 HA Ca Cb Cc Cab Cac Cbc.
  replace (l * d1 - l * l * A) with (l * (d1 - l * A)) in * by ring.
  replace (d1 - l * A - l * (d1 - l * A)) with ((1 - l) * (d1 - l * A)) in * by ring.
  replace (l * d1 - l * A - (d1 - A)) with ((l - 1) * (d1 - A)) in * by ring.
  assert (Cb' : d1 - A < 0 \/ 0 < (l - 1) * (d1 - A)) by (destruct Cb; [left|right]; lra).
  assert (Cc' : l * (d1 - l * A) < 0 \/ 0 < (1 - l) * (d1 - l * A)) by (destruct Cc; [left|right]; lra). clear Cb Cc.
  destruct Cab as [F|F].
  - destruct Ca as [G|G]; [lra|]. assert (l < 0) by (clear - F G; nra). destruct Cac as [F2|F2]; [lra|].
    assert (d1 - l * A < 0) by (clear - F2 H; nra). destruct Cc' as [X|X]; [lra|clear - X H0 H; nra].
  - destruct Cb' as [G|G]; [lra|]. assert (1 < l) by (clear - F G; nra). destruct Cbc as [F2|F2]; [lra|].
    assert (0 < d1 - l * A) by (clear - F2 H; nra). destruct Cc' as [X|X]; clear - X H0 H; nra.
Qed.

Section G.
Variables p a b c : pt.
Hypothesis H : a <> b.
Let A := dot3 (sub3 b a) (sub3 b a).
Let B := dot3 (sub3 b a) (sub3 c a).
Let C := dot3 (sub3 c a) (sub3 c a).

Lemma lagrange : forall u v : pt, dot3 u u * dot3 v v - dot3 u v * dot3 u v = norm2 (cross u v).
Proof. intros. unfold norm2, dot3, cross, px, py, pz. cbn. ring. Qed.
Lemma binet : forall u v w : pt, dot3 u u * dot3 v w - dot3 u v * dot3 u w = dot3 (cross u v) (cross u w).
Proof. intros. unfold dot3, cross, px, py, pz. cbn. ring. Qed.
Lemma norm2_nonneg : forall u : pt, 0 <= norm2 u.
Proof.
  intros. unfold norm2, dot3. pose proof (Rle_0_sqr (px u)). pose proof (Rle_0_sqr (py u)). pose proof (Rle_0_sqr (pz u)). unfold Rsqr in *. lra.
Qed.
Lemma norm2_zero : forall u : pt, norm2 u <= 0 -> px u = 0 /\ py u = 0 /\ pz u = 0.
Proof. intros u L. unfold norm2, dot3 in L. repeat split; nra. Qed.
Lemma A_pos : 0 < A.
Proof.
  destruct (Rlt_le_dec 0 A) as [L|L]; [exact L|exfalso]. apply H. destruct (norm2_zero (sub3 b a) L) as [X [Y Z]].
  unfold sub3, px, py, pz in X, Y, Z. cbn in X, Y, Z. apply pt_eq; unfold px, py, pz; lra.
Qed.
Lemma gram_le : B * B <= A * C.
Proof. pose proof (lagrange (sub3 b a) (sub3 c a)) as X. fold A B C in X. pose proof (norm2_nonneg (cross (sub3 b a) (sub3 c a))). lra. Qed.

(** A point q of the triangle from which no corner is nearer to p's side. *)
Lemma nearest_by_corners : forall q : pt,
  dot3 (sub3 p q) (sub3 a q) <= 0 -> dot3 (sub3 p q) (sub3 b q) <= 0 -> dot3 (sub3 p q) (sub3 c q) <= 0 ->
  forall x, in_triangle a b c x -> dist2 p q <= dist2 p x.
Proof.
  intros q Ha Hb Hc x [u [v [w [Hu [Hv [Hw [S1 [X [Y Z]]]]]]]]].
  assert (E : dot3 (sub3 p q) (sub3 x q) = u * dot3 (sub3 p q) (sub3 a q) + v * dot3 (sub3 p q) (sub3 b q) + w * dot3 (sub3 p q) (sub3 c q)).
  { replace w with (1 - u - v) in * by lra. unfold dot3, sub3, px, py, pz in *. cbn in *. rewrite X, Y, Z. ring. }
  assert (L : dot3 (sub3 p q) (sub3 x q) <= 0).
  { rewrite E. clear - Ha Hb Hc Hu Hv Hw. revert Ha Hb Hc. generalize (dot3 (sub3 p q) (sub3 a q)) (dot3 (sub3 p q) (sub3 b q)) (dot3 (sub3 p q) (sub3 c q)).
    intros r1 r2 r3 L1 L2 L3. assert (u * r1 <= 0) by nra. assert (v * r2 <= 0) by nra. assert (w * r3 <= 0) by nra. lra. }
  assert (I : dist2 p x = dist2 p q - 2 * dot3 (sub3 p q) (sub3 x q) + dist2 q x).
  { unfold dist2, dot3, sub3, px, py, pz. cbn. ring. }
  pose proof (dist2_nonneg q x). lra.
Qed.

(** The point with weights 1 - v - w, v, w. *)
Definition at_ (v w : R) : pt := add3 (add3 a (scale3 v (sub3 b a))) (scale3 w (sub3 c a)).
Lemma at_in : forall v w : R, 0 <= v -> 0 <= w -> v + w <= 1 -> in_triangle a b c (at_ v w).
Proof.
  intros v w Hv Hw Hs. exists (1 - v - w), v, w. repeat split; try lra; unfold at_, add3, scale3, sub3, px, py, pz; cbn; ring.
Qed.
Let d1 := dot3 (sub3 b a) (sub3 p a).
Let d2 := dot3 (sub3 c a) (sub3 p a).
Lemma at_nearest : forall v w : R, 0 <= v -> 0 <= w -> v + w <= 1 ->
  0 <= v * (d1 - v * A - w * B) + w * (d2 - v * B - w * C) ->
  (1 - v) * (d1 - v * A - w * B) - w * (d2 - v * B - w * C) <= 0 ->
  (1 - w) * (d2 - v * B - w * C) - v * (d1 - v * A - w * B) <= 0 ->
  nearest p a b c (at_ v w) (dist2 p (at_ v w)).
Proof.
  intros v w Hv Hw Hs Ka Kb Kc. split; [apply at_in; assumption|]. split; [reflexivity|].
  apply nearest_by_corners.
  - assert (E : dot3 (sub3 p (at_ v w)) (sub3 a (at_ v w)) = - (v * (d1 - v * A - w * B) + w * (d2 - v * B - w * C))); [|lra].
    unfold d1, d2, A, B, C, at_, dot3, add3, scale3, sub3, px, py, pz. cbn. ring.
  - assert (E : dot3 (sub3 p (at_ v w)) (sub3 b (at_ v w)) = (1 - v) * (d1 - v * A - w * B) - w * (d2 - v * B - w * C)); [|lra].
    unfold d1, d2, A, B, C, at_, dot3, add3, scale3, sub3, px, py, pz. cbn. ring.
  - assert (E : dot3 (sub3 p (at_ v w)) (sub3 c (at_ v w)) = (1 - w) * (d2 - v * B - w * C) - v * (d1 - v * A - w * B)); [|lra].
    unfold d1, d2, A, B, C, at_, dot3, add3, scale3, sub3, px, py, pz. cbn. ring.
Qed.
Lemma corner_a : at_ 0 0 = a.
Proof. apply pt_eq; unfold at_, add3, scale3, sub3, px, py, pz; cbn; ring. Qed.
Lemma corner_b : at_ 1 0 = b.
Proof. apply pt_eq; unfold at_, add3, scale3, sub3, px, py, pz; cbn; ring. Qed.
Lemma corner_c : at_ 0 1 = c.
Proof. apply pt_eq; unfold at_, add3, scale3, sub3, px, py, pz; cbn; ring. Qed.
Lemma d3_eq : dot3 (sub3 b a) (sub3 p b) = d1 - A.
Proof. unfold d1, A, dot3, sub3, px, py, pz. cbn. ring. Qed.
Lemma d4_eq : dot3 (sub3 c a) (sub3 p b) = d2 - B.
Proof. unfold d2, B, dot3, sub3, px, py, pz. cbn. ring. Qed.
Lemma d5_eq : dot3 (sub3 b a) (sub3 p c) = d1 - B.
Proof. unfold d1, B, dot3, sub3, px, py, pz. cbn. ring. Qed.
Lemma d6_eq : dot3 (sub3 c a) (sub3 p c) = d2 - C.
Proof. unfold d2, C, dot3, sub3, px, py, pz. cbn. ring. Qed.

Lemma flat : A * C <= B * B -> A * d2 = B * d1.
Proof.
  intros L. pose proof (lagrange (sub3 b a) (sub3 c a)) as X. fold A B C in X.
  destruct (norm2_zero (cross (sub3 b a) (sub3 c a))) as [X1 [Y1 Z1]]; [lra|].
  pose proof (binet (sub3 b a) (sub3 c a) (sub3 p a)) as Y. fold A B d1 d2 in Y.
  assert (E : dot3 (cross (sub3 b a) (sub3 c a)) (cross (sub3 b a) (sub3 p a)) = 0) by (unfold dot3 at 1; rewrite X1, Y1, Z1; ring). lra.
Qed.
(** The plane coordinates of p: what the interior branch divides out. *)
Lemma solve : B * B < A * C -> exists s t, d1 = s * A + t * B /\ d2 = s * B + t * C.
Proof.
  intros HD. exists ((d1 * C - d2 * B) / (A * C - B * B)), ((d2 * A - d1 * B) / (A * C - B * B)).
  split; field; lra.
Qed.
Lemma edge_bc : 0 < A - 2 * B + C -> (d1 - A) * (d2 - C) - (d1 - B) * (d2 - B) <= 0 -> 0 <= d2 - B - (d1 - A) -> 0 <= d1 - B - (d2 - C) ->
  let w := (d2 - B - (d1 - A)) / (d2 - B - (d1 - A) + (d1 - B - (d2 - C))) in
  nearest p a b c (add3 b (scale3 w (sub3 c b))) (dist2 p (add3 b (scale3 w (sub3 c b)))).
Proof.
  intros PK C1 C2 C3 w. set (K := A - 2 * B + C) in *.
  assert (Ew : w * K = d2 - B - (d1 - A)) by (unfold w, K; field; unfold K in PK; lra).
  replace (add3 b (scale3 w (sub3 c b))) with (at_ (1 - w) w) by (apply pt_eq; unfold at_, add3, scale3, sub3, px, py, pz; cbn; ring).
  assert (V0 : 0 <= w) by nra. assert (V1 : w <= 1) by (assert (W : w * K <= K) by (rewrite Ew; unfold K; lra); clear - W PK; nra).
  assert (X : d1 - (1 - w) * A - w * B = d2 - (1 - w) * B - w * C) by (unfold K in Ew; lra).
  assert (Y : 0 <= d1 - (1 - w) * A - w * B).
  { assert (KK : K * (d1 - (1 - w) * A - w * B) = - ((d1 - A) * (d2 - C) - (d1 - B) * (d2 - B))).
    { replace (K * (d1 - (1 - w) * A - w * B)) with (K * (d1 - A) + (w * K) * (A - B)) by ring. rewrite Ew. unfold K. ring. }
    clear - KK C1 PK. nra. }
  apply at_nearest; nra.
Qed.
Lemma quot_some : forall x y : R, y <> 0 -> quot x y = Some (x / y).
Proof. intros x y N. unfold quot, eqb. destruct (Req_EM_T y 0); [contradiction|reflexivity]. Qed.

Lemma closest_nearest : exists q d, point_triangle_closest p a b c = Some (q, d) /\ nearest p a b c q d.
Proof.
  pose proof A_pos as HA. pose proof gram_le as HG. unfold point_triangle_closest.
  rewrite d3_eq, d4_eq, d5_eq, d6_eq. fold d1 d2.
  assert (N : forall x y, norm2 (sub3 x y) = dist2 x y) by (intros; unfold norm2, dist2, dot3, sub3, px, py, pz; cbn; ring).
  destruct (leb d1 0 && leb d2 0) eqn:Ca.
  { apply andb_prop in Ca. destruct Ca as [C1 C2]. apply leb_true in C1, C2. rewrite N. eexists. eexists. split; [reflexivity|].
    pose proof (at_nearest 0 0) as X. rewrite corner_a in X. apply X; lra. }
  destruct (leb 0 (d1 - A) && leb (d2 - B) (d1 - A)) eqn:Cb.
  { apply andb_prop in Cb. destruct Cb as [C1 C2]. apply leb_true in C1, C2. rewrite N. eexists. eexists. split; [reflexivity|].
    pose proof (at_nearest 1 0) as X. rewrite corner_b in X. apply X; lra. }
  destruct (leb 0 (d2 - C) && leb (d1 - B) (d2 - C)) eqn:Cc.
  { apply andb_prop in Cc. destruct Cc as [C1 C2]. apply leb_true in C1, C2. rewrite N. eexists. eexists. split; [reflexivity|].
    pose proof (at_nearest 0 1) as X. rewrite corner_c in X. apply X; lra. }
  replace (d1 * (d2 - B) - (d1 - A) * d2) with (A * d2 - B * d1) by ring.
  replace ((d1 - B) * d2 - d1 * (d2 - C)) with (C * d1 - B * d2) by ring.
  destruct (leb (A * d2 - B * d1) 0 && leb 0 d1 && leb (d1 - A) 0) eqn:Cab.
  { apply andb_prop in Cab. destruct Cab as [C12 C3]. apply andb_prop in C12. destruct C12 as [C1 C2]. apply leb_true in C1, C2, C3.
    rewrite quot_some by lra. set (v := d1 / (d1 - (d1 - A))). assert (Ev : v * A = d1) by (unfold v; field; lra).
    replace (add3 a (scale3 v (sub3 b a))) with (at_ v 0) by (apply pt_eq; unfold at_, add3, scale3, sub3, px, py, pz; cbn; ring).
    replace (norm2 (sub3 (sub3 p a) (scale3 v (sub3 b a)))) with (dist2 p (at_ v 0)) by (unfold dist2, norm2, dot3, at_, add3, scale3, sub3, px, py, pz; cbn; ring).
    assert (V0 : 0 <= v) by nra. assert (V1 : v <= 1) by nra.
    assert (K : d2 - v * B <= 0).
    { assert (X : A * (d2 - v * B) = A * d2 - B * d1) by (rewrite <- Ev; ring). clear - X C1 HA. nra. }
    eexists. eexists. split; [reflexivity|]. apply at_nearest; nra. }
  destruct (leb (C * d1 - B * d2) 0 && leb 0 d2 && leb (d2 - C) 0) eqn:Cac.
  { apply andb_prop in Cac. destruct Cac as [C12 C3]. apply andb_prop in C12. destruct C12 as [C1 C2]. apply leb_true in C1, C2, C3.
    assert (HC : 0 < C).
    { destruct (Rlt_le_dec 0 C) as [L|L]; [exact L|exfalso].
      assert (C = 0) by lra. assert (B = 0) by (rewrite H0 in HG; clear - HG; nra). pose proof (flat ltac:(rewrite H0, H1; lra)) as F. rewrite H1 in F.
      assert (d2 = 0) by (clear - F HA; nra). clear - Ca Cb Cc Cab H0 H1 H2 HA F. rewrite H0, H1, H2 in *.
      repeat rewrite andb_false_iff in *.
      destruct Ca as [X|X]; apply leb_false in X; [|lra]. destruct Cab as [[Y|Y]|Y]; apply leb_false in Y; [lra|lra|].
      destruct Cb as [Z|Z]; apply leb_false in Z; lra. }
    rewrite quot_some by lra. set (w := d2 / (d2 - (d2 - C))). assert (Ew : w * C = d2) by (unfold w; field; lra).
    replace (add3 a (scale3 w (sub3 c a))) with (at_ 0 w) by (apply pt_eq; unfold at_, add3, scale3, sub3, px, py, pz; cbn; ring).
    replace (norm2 (sub3 (sub3 p a) (scale3 w (sub3 c a)))) with (dist2 p (at_ 0 w)) by (unfold dist2, norm2, dot3, at_, add3, scale3, sub3, px, py, pz; cbn; ring).
    assert (V0 : 0 <= w) by nra. assert (V1 : w <= 1) by nra.
    assert (K : d1 - w * B <= 0).
    { assert (X : C * (d1 - w * B) = C * d1 - B * d2) by (rewrite <- Ew; ring). clear - X C1 HC. nra. }
    eexists. eexists. split; [reflexivity|]. apply at_nearest; nra. }
  set (va := (d1 - A) * (d2 - C) - (d1 - B) * (d2 - B)).
  set (K := A - 2 * B + C).
  assert (PK0 : 0 <= K) by (assert (X : K = norm2 (sub3 c b)) by (unfold K, A, B, C, norm2, dot3, sub3, px, py, pz; cbn; ring); rewrite X; apply norm2_nonneg).
  destruct (Rlt_le_dec (B * B) (A * C)) as [HD|HD].
  - (* a proper triangle *)
    assert (HC : 0 < C) by (pose proof (Rle_0_sqr B); unfold Rsqr in *; clear - HD HA H0; nra).
    destruct (solve HD) as [s [t [E1 E2]]].
    set (D := A * C - B * B). assert (PD : 0 < D) by (unfold D; lra).
    assert (Ec : A * d2 - B * d1 = D * t) by (rewrite E1, E2; unfold D; ring).
    assert (Eb : C * d1 - B * d2 = D * s) by (rewrite E1, E2; unfold D; ring).
    assert (Ea : va = D * (1 - s - t)) by (unfold va; rewrite E1, E2; unfold D; ring).
    rewrite Ec in Cab |- *. rewrite Eb in Cac |- *. rewrite Ea.
    assert (PK : 0 < K).
    { assert (X : K * A = (A - B) * (A - B) + D) by (unfold K, D; ring). pose proof (Rle_0_sqr (A - B)) as Y. unfold Rsqr in Y. clear - X Y PD HA. nra. }
    destruct (leb (D * (1 - s - t)) 0 && leb 0 (d2 - B - (d1 - A)) && leb 0 (d1 - B - (d2 - C))) eqn:Cbc.
    { apply andb_prop in Cbc. destruct Cbc as [C12 C3]. apply andb_prop in C12. destruct C12 as [C1 C2]. apply leb_true in C1, C2, C3.
      rewrite <- Ea in C1. rewrite quot_some by (unfold K in PK; lra). eexists. eexists. split; [reflexivity|]. rewrite N.
      apply (edge_bc PK C1 C2 C3). }
    assert (I : 0 <= s /\ 0 <= t /\ s + t <= 1).
    { repeat rewrite andb_false_iff in *. apply (region s t A B C d1 d2 HA HC HD E1 E2); fold D.
      - destruct Ca as [G|G]; apply leb_false in G; auto.
      - destruct Cb as [G|G]; apply leb_false in G; auto.
      - destruct Cc as [G|G]; apply leb_false in G; auto.
      - destruct Cab as [[G|G]|G]; apply leb_false in G; auto.
      - destruct Cac as [[G|G]|G]; apply leb_false in G; auto.
      - destruct Cbc as [[G|G]|G]; apply leb_false in G; auto. }
    destruct I as [I1 [I2 I3]].
    replace (D * (1 - s - t) + D * s + D * t) with D by ring. rewrite quot_some by lra.
    replace (D * s * (1 / D)) with s by (field; lra). replace (D * t * (1 / D)) with t by (field; lra).
    eexists. eexists. split; [reflexivity|]. rewrite N.
    fold (at_ s t). apply at_nearest; try assumption; rewrite E1, E2; lra.
  - (* three corners on one line *)
    set (l := B / A). assert (EB : B = l * A) by (unfold l; field; lra).
    assert (EC : C = l * l * A) by (assert (A * C = B * B) by lra; rewrite EB in H0; apply (Rmult_eq_reg_l A); lra).
    assert (E2 : d2 = l * d1) by (pose proof (flat HD) as F; rewrite EB in F; apply (Rmult_eq_reg_l A); lra).
    assert (Za : va = 0) by (unfold va; rewrite EB, EC, E2; ring).
    rewrite Za.
    destruct (leb 0 0 && leb 0 (d2 - B - (d1 - A)) && leb 0 (d1 - B - (d2 - C))) eqn:Cbc.
    { apply andb_prop in Cbc. destruct Cbc as [C12 C3]. apply andb_prop in C12. destruct C12 as [C1 C2]. apply leb_true in C1, C2, C3.
      assert (PK : 0 < K).
      { destruct PK0 as [L|E]; [exact L|exfalso]. assert (L1 : l = 1).
        { unfold K in E. rewrite EB, EC in E. assert (X : A * ((1 - l) * (1 - l)) = 0) by lra. apply Rmult_integral in X. destruct X as [X|X]; [lra|].
          apply Rmult_integral in X. lra. }
        rewrite L1 in *. repeat rewrite andb_false_iff in *. rewrite EB, E2 in *.
        destruct Ca as [X|X]; apply leb_false in X; destruct Cab as [[Y|Y]|Y]; apply leb_false in Y; destruct Cb as [Z|Z]; apply leb_false in Z; lra. }
      rewrite quot_some by (unfold K in PK; lra). eexists. eexists. split; [reflexivity|]. rewrite N.
      apply edge_bc; fold A B C d1 d2 K va; lra. }
    exfalso. repeat rewrite andb_false_iff in *. apply (region_flat l A d1 HA); rewrite <- ?EC, <- ?EB, <- ?E2.
    + destruct Ca as [G|G]; apply leb_false in G; auto.
    + destruct Cb as [G|G]; apply leb_false in G; auto.
    + destruct Cc as [G|G]; apply leb_false in G; auto.
    + destruct Cab as [[G|G]|G]; apply leb_false in G; auto. rewrite E2, EB in G. lra.
    + destruct Cac as [[G|G]|G]; apply leb_false in G; auto. rewrite E2, EB, EC in G. lra.
    + destruct Cbc as [[G|G]|G]; apply leb_false in G; auto. lra.
Qed.
End G.

(** snap_to_bbox, one coordinate. *)
Lemma snap1_spec : forall tiny lo hi x, lo <= hi ->
  let y := snap1 tiny lo hi x in
  (y = x \/ y = lo \/ y = hi) /\ (y = x \/ Rabs (y - x) < 2 * tiny) /\ (tiny <= hi - lo -> y = x \/ Rabs (y - x) < tiny) /\
  (lo - tiny < x < hi + tiny -> lo <= y <= hi) /\ (y = lo \/ y = hi \/ (tiny <= Rabs (y - lo) /\ tiny <= Rabs (y - hi))) /\
  snap1 tiny lo hi y = y.
Proof.
  intros tiny lo hi x H. unfold snap1.
  assert (lt : forall a b, (ltb a b = true /\ a < b) \/ (ltb a b = false /\ b <= a)).
  { intros a b. unfold ltb. destruct (Rlt_dec a b); [left|right]; split; auto. lra. }
  assert (R0 : forall z, Rabs (z - z) = 0) by (intros; replace (z - z) with 0 by ring; apply Rabs_R0).
  assert (RS : forall z w, Rabs (z - w) = Rabs (w - z)) by (intros; apply Rabs_minus_sym).
  assert (RB : forall z w t, Rabs (z - w) < t -> - t < z - w < t) by (intros z w t L; apply Rabs_def2 in L; lra).
  assert (RL : forall z w t, t <= Rabs (z - w) -> t <= z - w \/ t <= w - z) by (intros z w t; unfold Rabs; destruct (Rcase_abs (z - w)); lra).
  destruct (lt (Rabs (x - lo)) tiny) as [[-> A]|[-> A]].
  - destruct (lt (Rabs (lo - hi)) tiny) as [[-> B]|[-> B]]; cbn zeta.
    + rewrite (RS hi lo). destruct (lt (Rabs (lo - hi)) tiny) as [[-> B']|[-> B']]; [|lra].
      destruct (lt (Rabs (lo - hi)) tiny) as [[-> B'']|[-> B'']]; [|lra].
      pose proof (RB _ _ _ A). pose proof (RB _ _ _ B). repeat split; auto; try lra; try (intros; lra).
      right. apply Rabs_def1; lra.
    + rewrite (R0 lo). assert (0 <= Rabs (x - lo)) by apply Rabs_pos. destruct (lt 0 tiny) as [[-> C]|[-> C]]; [|lra].
      destruct (lt (Rabs (lo - hi)) tiny) as [[-> B']|[-> B']]; [lra|]. pose proof (RB _ _ _ A). rewrite (RS lo x). repeat split; auto; try lra; right; lra.
  - destruct (lt (Rabs (x - hi)) tiny) as [[-> B]|[-> B]]; cbn zeta.
    + assert (0 <= Rabs (x - hi)) by apply Rabs_pos. pose proof (RB _ _ _ B). rewrite (RS hi x), (R0 hi).
      assert (W : (if ltb (Rabs (hi - lo)) tiny then lo else hi) = hi \/ (if ltb (Rabs (hi - lo)) tiny then lo else hi) = lo /\ Rabs (lo - hi) < tiny).
      { destruct (lt (Rabs (hi - lo)) tiny) as [[-> C]|[-> C]]; [right; rewrite (RS lo hi)|left]; auto. }
      repeat split; auto; try lra; try (right; lra).
      destruct W as [->|[-> W]]; [rewrite (R0 hi); destruct (lt 0 tiny) as [[-> C]|[-> C]]; [reflexivity|lra]|].
      destruct (lt (Rabs (lo - hi)) tiny) as [[-> C]|[-> C]]; [reflexivity|lra].
    + destruct (lt (Rabs (x - lo)) tiny) as [[-> C]|[-> C]]; [lra|]. destruct (lt (Rabs (x - hi)) tiny) as [[-> D]|[-> D]]; [lra|].
      pose proof (RL _ _ _ A). pose proof (RL _ _ _ B). repeat split; auto; intros; lra.
Qed.

Lemma snap1_sharp : forall t lo hi x, 0 < t -> 2 * t <= hi - lo -> let y := snap1 t lo hi x in
  (Rabs (x - lo) < t -> y = lo) /\ (Rabs (x - hi) < t -> y = hi) /\ (t <= Rabs (x - lo) -> t <= Rabs (x - hi) -> y = x).
Proof.
  intros t lo hi x T W y. unfold y, snap1, ltb. destruct (Rlt_dec (Rabs (x - lo)) t) as [A|A].
  - apply Rabs_def2 in A. split; [intros _|split; [intros B; exfalso; apply Rabs_def2 in B; lra|]].
    + destruct (Rlt_dec (Rabs (lo - hi)) t) as [B|B]; [|reflexivity]. exfalso. apply Rabs_def2 in B. lra.
    + intros B _. exfalso. revert B. unfold Rabs. destruct (Rcase_abs _); lra.
  - split; [intros B; lra|]. destruct (Rlt_dec (Rabs (x - hi)) t) as [B|B]; (split; [intros C; first [reflexivity|lra]|intros C D; first [reflexivity|lra]]).
Qed.
Lemma snap_to_bbox_spec : forall p lo hi res, 0 < res ->
  forall x l h y, In (x, l, h, y) [(px p, px lo, px hi, px (snap_to_bbox p lo hi res)); (py p, py lo, py hi, py (snap_to_bbox p lo hi res));
                                   (pz p, pz lo, pz hi, pz (snap_to_bbox p lo hi res))] ->
  2 * (res / 10000000000) <= h - l ->
  (Rabs (x - l) < res / 10000000000 -> y = l) /\ (Rabs (x - h) < res / 10000000000 -> y = h) /\
  (res / 10000000000 <= Rabs (x - l) -> res / 10000000000 <= Rabs (x - h) -> y = x).
Proof.
  intros p lo hi res R x l h y I W. assert (E : / 10 ^ 10 * res = res / 10000000000) by (unfold Rdiv; rewrite Rmult_comm; do 2 f_equal; ring).
  assert (Y : y = snap1 (res / 10000000000) l h x).
  { rewrite <- E. destruct I as [I|[I|[I|[]]]]; injection I as <- <- <- <-; reflexivity. }
  rewrite Y. apply snap1_sharp; [lra|exact W].
Qed.
