From Coq Require Import Reals List Arith Bool Lia Lra Psatz.
From Verif Require Import Model.Outcome Model.Clip Model.PointTriangle Model.Predicates Spec.PointTriangle Spec.Predicates Proofs.PointTriangle Proofs.Predicates.
Import ListNotations.
Local Open Scope R_scope.

Lemma one_side_false : forall tiny x y z, 0 <= tiny -> one_side tiny x y z = false ->
  (x < 0 \/ y < 0 \/ z < 0) /\ (0 < x \/ 0 < y \/ 0 < z).
Proof.
  intros tiny x y z T F. unfold one_side in F. apply orb_false_iff in F. rewrite !andb_false_iff in F. destruct F as [F1 F2]. split.
  - destruct F2 as [[F|F]|F]; apply leb_false in F; [left|right; left|right; right]; lra.
  - destruct F1 as [[F|F]|F]; apply leb_false in F; [left|right; left|right; right]; lra.
Qed.
Lemma one_side_true : forall tiny x y z, 0 <= tiny -> (x <= 0 /\ y <= 0 /\ z <= 0) \/ (0 <= x /\ 0 <= y /\ 0 <= z) -> one_side tiny x y z = true.
Proof.
  intros tiny x y z T C. destruct (one_side tiny x y z) eqn:F; [reflexivity|]. destruct (one_side_false _ _ _ _ T F). lra.
Qed.

Lemma coord_in : forall a b c x, in_triangle a b c x -> exists u v w, 0 <= u /\ 0 <= v /\ 0 <= w /\ u + v + w = 1 /\
  forall i, coord x i = u * coord a i + v * coord b i + w * coord c i.
Proof.
  intros a b c x [u [v [w [Hu [Hv [Hw [S1 [X [Y Z]]]]]]]]]. exists u, v, w. repeat split; auto.
  intros [|[|i]]; cbn; auto.
Qed.
Lemma in_coord : forall a b c x u v w, 0 <= u -> 0 <= v -> 0 <= w -> u + v + w = 1 ->
  (forall i, coord x i = u * coord a i + v * coord b i + w * coord c i) -> in_triangle a b c x.
Proof.
  intros a b c x u v w Hu Hv Hw S1 C. exists u, v, w. repeat split; auto; [apply (C 0%nat)|apply (C 1%nat)|apply (C 2%nat)].
Qed.
(** The same with all corners and coordinates. *)
Lemma orient3d_affine : forall (a b p q r x y : pt) (u v w : R), u + v + w = 1 ->
  (forall i, coord x i = u * coord p i + v * coord q i + w * coord r i) ->
  orient3d a b x y = u * orient3d a b p y + v * orient3d a b q y + w * orient3d a b r y.
Proof.
  intros a b p q r x y u v w S1 C. pose proof (C 0%nat) as X. pose proof (C 1%nat) as Y. pose proof (C 2%nat) as Z. cbn [coord] in X, Y, Z.
  replace w with (1 - u - v) in * by lra. unfold orient3d, det3, sub3. unfold px at 1 4 7, py at 1 4 7, pz at 1 4 7. cbn [fst snd].
  unfold px, py, pz in *. cbn [fst snd] in *. rewrite X, Y, Z. ring.
Qed.
Lemma orient3d_swap : forall a b x y : pt, orient3d a b x y = - orient3d a b y x.
Proof. intros. unfold orient3d, det3, sub3, px, py, pz. cbn [fst snd]. ring. Qed.
Lemma orient3d_pairs : forall a b x y : pt, orient3d a b x y = orient3d x y a b.
Proof. intros. unfold orient3d, det3, sub3, px, py, pz. cbn [fst snd]. ring. Qed.
Lemma orient3d_cycle : forall x p q r : pt, orient3d x p q r = - orient3d p q r x.
Proof. intros. unfold orient3d, det3, sub3, px, py, pz. cbn [fst snd]. ring. Qed.
Lemma orient3d_same : forall a b x : pt, orient3d a b x x = 0.
Proof. intros. unfold orient3d, det3, sub3, px, py, pz. cbn [fst snd]. ring. Qed.
Lemma orient3d_first : forall a b x : pt, orient3d a b a x = 0.
Proof. intros. unfold orient3d, det3, sub3, px, py, pz. cbn [fst snd]. ring. Qed.
Lemma orient3d_second : forall a b x : pt, orient3d a b b x = 0.
Proof. intros. unfold orient3d, det3, sub3, px, py, pz. cbn [fst snd]. ring. Qed.

Lemma mixed_neg : forall u v w A B : R, 0 <= u -> 0 <= v -> 0 <= w -> u + v + w = 1 -> u * A + v * B + w * B = 0 -> A < 0 -> B < 0 -> False.
Proof. intros u v w A B U V W E Z HA HB. destruct (Req_EM_T u 0) as [->|N]; nra. Qed.
Lemma mixed_pos : forall u v w A B : R, 0 <= u -> 0 <= v -> 0 <= w -> u + v + w = 1 -> u * A + v * B + w * B = 0 -> 0 < A -> 0 < B -> False.
Proof. intros u v w A B U V W E Z HA HB. apply (mixed_neg u v w (- A) (- B)); lra. Qed.

Section Segment.
Variables a b p q r x : pt.
Hypothesis S : in_segment a b x.
Hypothesis T : in_triangle p q r x.
Lemma segment_2d : forall i j k scale, (i = 0 /\ j = 1 /\ k = 2 \/ i = 1 /\ j = 2 /\ k = 0 \/ i = 2 /\ j = 0 /\ k = 1)%nat -> 0 <= scale ->
  segment_triangle_2d a b p q r i j scale = true.
Proof.
  intros i j k scale ax Hs. destruct (segment_triangle_2d a b p q r i j scale) eqn:F; [reflexivity|exfalso].
  unfold segment_triangle_2d in F. pose proof (tiny2_nonneg scale Hs) as Tn. set (tiny := kTinyFactor * scale * scale) in *. clearbody tiny.
  destruct (one_side tiny _ _ _) eqn:F1 in F; [discriminate|]. destruct (one_side tiny _ _ _) eqn:F2 in F; [discriminate|].
  apply one_side_false in F1; [|exact Tn]. apply one_side_false in F2; [|exact Tn].
  apply orb_false_iff in F. destruct F as [F F5]. apply orb_false_iff in F. destruct F as [F3 F4].
  destruct (coord_in _ _ _ _ S) as [u1 [v1 [w1 [U1 [V1 [W1 [S1 C1]]]]]]].
  destruct (coord_in _ _ _ _ T) as [u [v [w [U [V [W [S2 C2]]]]]]].
  assert (E : forall m, coord a m + (v1 + w1) * (coord b m - coord a m) = u * coord p m + v * coord q m + w * coord r m).
  { intros m. rewrite <- C2, C1. replace u1 with (1 - v1 - w1) by lra. ring. }
  assert (O : over i j a b p q r (v1 + w1) u v w).
  { unfold over. repeat split; try assumption; try lra; apply E. }
  assert (G : gap k a b p q r (v1 + w1) u v w = 0) by (unfold gap; rewrite E; ring).
  destruct (Req_dec (orient2d (coord p i, coord p j) (coord q i, coord q j) (coord r i, coord r j)) 0) as [D|D].
  - apply (no_line i j k ax a b p q r F3 F4 F5 (v1 + w1) u v w O G F1 F2 D).
  - apply (no_triangle i j k ax a b p q r F3 F4 F5 (v1 + w1) u v w O G F1 F2 D).
Qed.
Lemma segment_with : segment_triangle_with a b p q r (orient3d a p q r) (orient3d b p q r) = true.
Proof.
  unfold segment_triangle_with. set (e := extent a [b; p; q; r]). pose proof (norm_nonneg e) as Hs. pose proof (tiny3_nonneg _ Hs) as Tn.
  set (tiny := kTinyFactor * norm e * norm e * norm e) in *. clearbody tiny.
  destruct (coord_in _ _ _ _ S) as [u1 [v1 [w1 [U1 [V1 [W1 [S1 C1]]]]]]].
  destruct (coord_in _ _ _ _ T) as [u [v [w [U [V [W [S2 C2]]]]]]].
  assert (Z : u1 * orient3d a p q r + v1 * orient3d b p q r + w1 * orient3d b p q r = 0).
  { replace (orient3d a p q r) with (orient3d q r a p) by (rewrite (orient3d_pairs q r a p); reflexivity).
    replace (orient3d b p q r) with (orient3d q r b p) by (rewrite (orient3d_pairs q r b p); reflexivity).
    rewrite <- (orient3d_affine q r a b b x p u1 v1 w1 S1 C1).
    rewrite (orient3d_affine q r p q r x p u v w S2 C2). rewrite orient3d_same, orient3d_first, orient3d_second. ring. }
  destruct (_ || _) eqn:F1.
  { exfalso. apply orb_true_iff in F1. rewrite !andb_true_iff in F1. destruct F1 as [[X Y]|[X Y]]; apply ltb_true in X, Y; [apply (mixed_neg u1 v1 w1 _ _ U1 V1 W1 S1 Z)|apply (mixed_pos u1 v1 w1 _ _ U1 V1 W1 S1 Z)]; lra. }
  assert (K : (min_at e < 3)%nat) by (unfold min_at; repeat match goal with |- context [if ?c then _ else _] => destruct c end; lia).
  set (k := min_at e) in *. clearbody k.
  rewrite (segment_2d ((k + 1) mod 3) ((k + 2) mod 3) k).
  2:{ destruct k as [|[|[|k]]]; [right; left|right; right|left|lia]; cbn; auto. }
  2:{ exact Hs. }
  cbn [negb]. apply one_side_true; [exact Tn|].
  assert (L : forall y, orient3d a b x y = 0).
  { intros y. rewrite (orient3d_affine a b a b b x y u1 v1 w1 S1 C1). rewrite orient3d_first, orient3d_second. ring. }
  pose proof (L p) as Lp. pose proof (L q) as Lq. pose proof (L r) as Lr.
  rewrite (orient3d_affine a b p q r x _ u v w S2 C2), orient3d_same in Lp.
  rewrite (orient3d_affine a b p q r x _ u v w S2 C2), orient3d_same in Lq.
  rewrite (orient3d_affine a b p q r x _ u v w S2 C2), orient3d_same in Lr.
  rewrite (orient3d_swap a b q p) in Lp. rewrite (orient3d_swap a b r q) in Lq. rewrite (orient3d_swap a b p r) in Lr.
  revert Lp Lq Lr. generalize (orient3d a b p q) (orient3d a b q r) (orient3d a b r p). intros A B C Lp Lq Lr. clear - U V W S2 Lp Lq Lr.
  assert (E1 : w * C = v * A) by lra. assert (E2 : u * A = w * B) by lra. assert (E3 : v * B = u * C) by lra. clear Lp Lq Lr.
  assert (P : 0 < u \/ 0 < v \/ 0 < w) by lra. destruct P as [P|[P|P]].
  - destruct (Rle_lt_dec 0 B) as [L|L]; [right|left]; repeat split; nra.
  - destruct (Rle_lt_dec 0 C) as [L|L]; [right|left]; repeat split; nra.
  - destruct (Rle_lt_dec 0 A) as [L|L]; [right|left]; repeat split; nra.
Qed.
End Segment.

Lemma lo_le : forall a b c x, in_triangle a b c x -> forall i, coord (lo_of a [b; c]) i <= coord x i <= coord (hi_of a [b; c]) i.
Proof.
  intros a b c x T. destruct (coord_in _ _ _ _ T) as [u [v [w [U [V [W [S1 C]]]]]]].
  assert (M : forall A B D, Rmin (Rmin A B) D <= u * A + v * B + w * D <= Rmax (Rmax A B) D).
  { intros A B D. pose proof (Rmin_l (Rmin A B) D). pose proof (Rmin_r (Rmin A B) D). pose proof (Rmin_l A B). pose proof (Rmin_r A B).
    pose proof (Rmax_l (Rmax A B) D). pose proof (Rmax_r (Rmax A B) D). pose proof (Rmax_l A B). pose proof (Rmax_r A B).
    set (m := Rmin (Rmin A B) D) in *. set (n := Rmax (Rmax A B) D) in *. clearbody m n. replace m with (u * m + v * m + w * m) by nra. replace n with (u * n + v * n + w * n) by nra.
    assert (u * m <= u * A <= u * n) by nra. assert (v * m <= v * B <= v * n) by nra. assert (w * m <= w * D <= w * n) by nra. lra. }
  intros i. rewrite C. destruct i as [|[|i]]; cbn [coord lo_of hi_of fold_left lo2 hi2 px py pz fst snd]; apply M.
Qed.
Lemma not_less : forall hi lo x : pt, (forall i, coord lo i <= coord x i) -> (forall i, coord x i <= coord hi i) -> any_less hi lo = false.
Proof.
  intros hi lo x L H. unfold any_less. pose proof (L 0%nat). pose proof (L 1%nat). pose proof (L 2%nat). pose proof (H 0%nat). pose proof (H 1%nat). pose proof (H 2%nat).
  cbn [coord] in *. rewrite !orb_false_iff. unfold ltb. repeat split; match goal with |- (if ?c then _ else _) = _ => destruct c; [exfalso; lra|reflexivity] end.
Qed.
Lemma hi_pair : forall a b, hi_of a [b; b] = hi_of a [b].
Proof. intros. cbn. unfold hi2, px, py, pz. cbn. f_equal; [f_equal|]; unfold Rmax; repeat match goal with |- context [Rle_dec ?x ?y] => destruct (Rle_dec x y) end; lra. Qed.
Lemma lo_pair : forall a b, lo_of a [b; b] = lo_of a [b].
Proof. intros. cbn. unfold lo2, px, py, pz. cbn. f_equal; [f_equal|]; unfold Rmin; repeat match goal with |- context [Rle_dec ?x ?y] => destruct (Rle_dec x y) end; lra. Qed.
Lemma segment_triangle_complete : forall a b p q r x, in_segment a b x -> in_triangle p q r x -> segment_triangle a b p q r = true.
Proof.
  intros a b p q r x S T. unfold segment_triangle.
  pose proof (lo_le _ _ _ _ S) as L1. rewrite hi_pair, lo_pair in L1. pose proof (lo_le _ _ _ _ T) as L2.
  rewrite (not_less (hi_of a [b]) (lo_of p [q; r]) x) by (intros i; first [apply L1|apply L2]).
  rewrite (not_less (hi_of p [q; r]) (lo_of a [b]) x) by (intros i; first [apply L1|apply L2]).
  cbn [orb]. apply (segment_with a b p q r x S T).
Qed.

(** More vectors than dimensions are dependent. *)
Lemma dep1 : forall x y : R, exists c d, (c <> 0 \/ d <> 0) /\ c * x + d * y = 0.
Proof.
  intros x y. destruct (Req_EM_T x 0) as [E|N]; [exists 1, 0; split; [left; lra|rewrite E; lra]|exists (- y), x; split; [right; exact N|lra]].
Qed.
Lemma dep2_pivot : forall x1 y1 x2 y2 x3 y3 : R, y3 <> 0 -> exists c1 c2 c3, (c1 <> 0 \/ c2 <> 0 \/ c3 <> 0) /\
  c1 * x1 + c2 * x2 + c3 * x3 = 0 /\ c1 * y1 + c2 * y2 + c3 * y3 = 0.
Proof.
  intros x1 y1 x2 y2 x3 y3 N. destruct (dep1 (x1 - y1 / y3 * x3) (x2 - y2 / y3 * x3)) as [c [d [C E]]].
  exists c, d, (- (c * y1 + d * y2) / y3). split; [tauto|]. split; [rewrite <- E; field; exact N|field; exact N].
Qed.
Lemma dep2 : forall x1 y1 x2 y2 x3 y3 : R, exists c1 c2 c3, (c1 <> 0 \/ c2 <> 0 \/ c3 <> 0) /\
  c1 * x1 + c2 * x2 + c3 * x3 = 0 /\ c1 * y1 + c2 * y2 + c3 * y3 = 0.
Proof.
  intros x1 y1 x2 y2 x3 y3.
  destruct (Req_EM_T y3 0) as [E3|N]; [|apply dep2_pivot; exact N].
  destruct (Req_EM_T y2 0) as [E2|N].
  2:{ destruct (dep2_pivot x1 y1 x3 y3 x2 y2 N) as [c1 [c2 [c3 [C [E E']]]]]. exists c1, c3, c2. repeat split; [tauto|lra|lra]. }
  destruct (Req_EM_T y1 0) as [E1|N].
  2:{ destruct (dep2_pivot x3 y3 x2 y2 x1 y1 N) as [c1 [c2 [c3 [C [E E']]]]]. exists c3, c2, c1. repeat split; [tauto|lra|lra]. }
  destruct (dep1 x1 x2) as [c [d [C E]]]. exists c, d, 0. subst. repeat split; [tauto|lra|lra].
Qed.
Lemma dep3_pivot : forall x1 y1 z1 x2 y2 z2 x3 y3 z3 x4 y4 z4 : R, z4 <> 0 ->
  exists c1 c2 c3 c4, (c1 <> 0 \/ c2 <> 0 \/ c3 <> 0 \/ c4 <> 0) /\
  c1 * x1 + c2 * x2 + c3 * x3 + c4 * x4 = 0 /\ c1 * y1 + c2 * y2 + c3 * y3 + c4 * y4 = 0 /\ c1 * z1 + c2 * z2 + c3 * z3 + c4 * z4 = 0.
Proof.
  intros x1 y1 z1 x2 y2 z2 x3 y3 z3 x4 y4 z4 N.
  destruct (dep2 (x1 - z1 / z4 * x4) (y1 - z1 / z4 * y4) (x2 - z2 / z4 * x4) (y2 - z2 / z4 * y4) (x3 - z3 / z4 * x4) (y3 - z3 / z4 * y4)) as [c1 [c2 [c3 [C [E E']]]]].
  exists c1, c2, c3, (- (c1 * z1 + c2 * z2 + c3 * z3) / z4). split; [tauto|]. split; [rewrite <- E; field; exact N|]. split; [rewrite <- E'; field; exact N|field; exact N].
Qed.
Lemma dep3 : forall x1 y1 z1 x2 y2 z2 x3 y3 z3 x4 y4 z4 : R,
  exists c1 c2 c3 c4, (c1 <> 0 \/ c2 <> 0 \/ c3 <> 0 \/ c4 <> 0) /\
  c1 * x1 + c2 * x2 + c3 * x3 + c4 * x4 = 0 /\ c1 * y1 + c2 * y2 + c3 * y3 + c4 * y4 = 0 /\ c1 * z1 + c2 * z2 + c3 * z3 + c4 * z4 = 0.
Proof.
  intros x1 y1 z1 x2 y2 z2 x3 y3 z3 x4 y4 z4.
  destruct (Req_EM_T z4 0) as [E4|N]; [|apply dep3_pivot; exact N].
  destruct (Req_EM_T z3 0) as [E3|N].
  2:{ destruct (dep3_pivot x1 y1 z1 x2 y2 z2 x4 y4 z4 x3 y3 z3 N) as [c1 [c2 [c3 [c4 [C [E [E' E'']]]]]]]. exists c1, c2, c4, c3. repeat split; [tauto|lra|lra|lra]. }
  destruct (Req_EM_T z2 0) as [E2|N].
  2:{ destruct (dep3_pivot x1 y1 z1 x4 y4 z4 x3 y3 z3 x2 y2 z2 N) as [c1 [c2 [c3 [c4 [C [E [E' E'']]]]]]]. exists c1, c4, c3, c2. repeat split; [tauto|lra|lra|lra]. }
  destruct (Req_EM_T z1 0) as [E1|N].
  2:{ destruct (dep3_pivot x4 y4 z4 x2 y2 z2 x3 y3 z3 x1 y1 z1 N) as [c1 [c2 [c3 [c4 [C [E [E' E'']]]]]]]. exists c4, c2, c3, c1. repeat split; [tauto|lra|lra|lra]. }
  destruct (dep2 x1 y1 x2 y2 x3 y3) as [c1 [c2 [c3 [C [E E']]]]]. exists c1, c2, c3, 0. subst. repeat split; [tauto|lra|lra|lra].
Qed.

Definition mk (f : nat -> R) : pt := (f 0%nat, f 1%nat, f 2%nat).
Lemma coord_mk : forall (f : nat -> R) (g : nat -> R), f 0%nat = g 0%nat -> f 1%nat = g 1%nat -> (forall i, f (S (S i)) = f 2%nat) -> (forall i, g (S (S i)) = g 2%nat) -> f 2%nat = g 2%nat ->
  forall i, coord (mk f) i = g i.
Proof. intros f g E0 E1 F G E2 [|[|i]]; cbn; [exact E0|exact E1|rewrite G; exact E2]. Qed.

Section Triangles.
Variables a b c p q r x : pt.
Hypothesis T1 : in_triangle a b c x.
Hypothesis T2 : in_triangle p q r x.
(** Two triangles with a common point: a side of one of them meets the other. *)
Lemma side_meets : exists y,
  (in_segment a b y /\ in_triangle p q r y) \/ (in_segment b c y /\ in_triangle p q r y) \/ (in_segment c a y /\ in_triangle p q r y) \/
  (in_segment p q y /\ in_triangle a b c y) \/ (in_segment q r y /\ in_triangle a b c y) \/ (in_segment r p y /\ in_triangle a b c y).
Proof.
  destruct (coord_in _ _ _ _ T1) as [u1 [v1 [w1 [U1 [V1 [W1 [S1 C1]]]]]]].
  destruct (coord_in _ _ _ _ T2) as [u2 [v2 [w2 [U2 [V2 [W2 [S2 C2]]]]]]].
  destruct (dep3 (coord b 0 - coord a 0) (coord b 1 - coord a 1) (coord b 2 - coord a 2) (coord c 0 - coord a 0) (coord c 1 - coord a 1) (coord c 2 - coord a 2)
    (coord q 0 - coord p 0) (coord q 1 - coord p 1) (coord q 2 - coord p 2) (coord r 0 - coord p 0) (coord r 1 - coord p 1) (coord r 2 - coord p 2))
    as [c1 [c2 [c3 [c4 [Cn [D0 [D1 D2]]]]]]].
  assert (D : forall i, (- c1 - c2) * coord a i + c1 * coord b i + c2 * coord c i = (c3 + c4) * coord p i + - c3 * coord q i + - c4 * coord r i).
  { intros [|[|i]]; [lra|lra|]. cbn [coord] in *. lra. }
  assert (N : - c1 - c2 < 0 \/ c1 < 0 \/ c2 < 0 \/ c3 + c4 < 0 \/ - c3 < 0 \/ - c4 < 0) by lra.
  assert (Z : exists z, 0 <= z /\ (u1 + z * (- c1 - c2) < 0 \/ v1 + z * c1 < 0 \/ w1 + z * c2 < 0 \/ u2 + z * (c3 + c4) < 0 \/ v2 + z * - c3 < 0 \/ w2 + z * - c4 < 0)).
  { assert (Q : forall k n, 0 <= k -> n < 0 -> 0 <= (k + 1) / - n /\ k + (k + 1) / - n * n < 0).
    { intros k n Hc Hn. assert ((k + 1) / - n * n = - (k + 1)) by (field; lra). split; [|lra].
      apply Rmult_le_pos; [lra|]. left. apply Rinv_0_lt_compat. lra. }
    destruct N as [N|[N|[N|[N|[N|N]]]]];
      [destruct (Q u1 _ U1 N)|destruct (Q v1 _ V1 N)|destruct (Q w1 _ W1 N)|destruct (Q u2 _ U2 N)|destruct (Q v2 _ V2 N)|destruct (Q w2 _ W2 N)]; eexists; (split; [eassumption|tauto]). }
  destruct Z as [z [Z0 Z1]].
  destruct (exit6 _ u1 _ v1 _ w1 _ u2 _ v2 _ w2 U1 V1 W1 U2 V2 W2 Z1) as [m [Hm [G1 [G2 [G3 [G4 [G5 [G6 G]]]]]]]].
  set (z' := (1 - m) * z).
  assert (E : forall o n, o + z * n + m * (o - (o + z * n)) = o + z' * n) by (intros; unfold z'; ring).
  rewrite E in G1, G2, G3, G4, G5, G6. rewrite !E in G. clear E.
  set (y := mk (fun i => (u1 + z' * (- c1 - c2)) * coord a i + (v1 + z' * c1) * coord b i + (w1 + z' * c2) * coord c i)).
  assert (Y1 : forall i, coord y i = (u1 + z' * (- c1 - c2)) * coord a i + (v1 + z' * c1) * coord b i + (w1 + z' * c2) * coord c i)
    by (intros [|[|i]]; reflexivity).
  assert (Y2 : forall i, coord y i = (u2 + z' * (c3 + c4)) * coord p i + (v2 + z' * - c3) * coord q i + (w2 + z' * - c4) * coord r i).
  { intros i. rewrite Y1. pose proof (C1 i) as K1. pose proof (C2 i) as K2. pose proof (D i) as K3.
    replace ((u1 + z' * (- c1 - c2)) * coord a i + (v1 + z' * c1) * coord b i + (w1 + z' * c2) * coord c i) with
      (u1 * coord a i + v1 * coord b i + w1 * coord c i + z' * ((- c1 - c2) * coord a i + c1 * coord b i + c2 * coord c i)) by ring.
    rewrite <- K1, K2, K3. ring. }
  assert (I1 : in_triangle a b c y) by (apply (in_coord _ _ _ _ _ _ _ G1 G2 G3); [lra|exact Y1]).
  assert (I2 : in_triangle p q r y) by (apply (in_coord _ _ _ _ _ _ _ G4 G5 G6); [lra|exact Y2]).
  exists y. destruct G as [G|[G|[G|[G|[G|G]]]]]; rewrite G in *.
  - right; left. split; [|exact I2]. apply (in_coord _ _ _ _ _ _ 0 G2 G3); [lra|lra|]. intros i. rewrite Y1. ring.
  - right; right; left. split; [|exact I2]. apply (in_coord _ _ _ _ _ _ 0 G3 G1); [lra|lra|]. intros i. rewrite Y1. ring.
  - left. split; [|exact I2]. apply (in_coord _ _ _ _ _ _ 0 G1 G2); [lra|lra|]. intros i. rewrite Y1. ring.
  - right; right; right; right; left. split; [|exact I1]. apply (in_coord _ _ _ _ _ _ 0 G5 G6); [lra|lra|]. intros i. rewrite Y2. ring.
  - do 5 right. split; [|exact I1]. apply (in_coord _ _ _ _ _ _ 0 G6 G4); [lra|lra|]. intros i. rewrite Y2. ring.
  - right; right; right; left. split; [|exact I1]. apply (in_coord _ _ _ _ _ _ 0 G4 G5); [lra|lra|]. intros i. rewrite Y2. ring.
Qed.
Lemma triangle_triangle_complete : triangle_triangle a b c p q r = true.
Proof.
  unfold triangle_triangle.
  pose proof (lo_le _ _ _ _ T1) as L1. pose proof (lo_le _ _ _ _ T2) as L2.
  rewrite (not_less (hi_of a [b; c]) (lo_of p [q; r]) x) by (intros i; first [apply L1|apply L2]).
  rewrite (not_less (hi_of p [q; r]) (lo_of a [b; c]) x) by (intros i; first [apply L1|apply L2]).
  cbn [orb]. destruct side_meets as [y [[A B]|[[A B]|[[A B]|[[A B]|[[A B]|[A B]]]]]]]; rewrite (segment_with _ _ _ _ _ _ A B); rewrite ?orb_true_r; reflexivity.
Qed.
End Triangles.

(** One common corner: beyond it, a point of both leads to a point of both on an opposite side. *)
Lemma one_shared : forall o a b p q x, in_triangle o a b x -> in_triangle o p q x -> x <> o ->
  exists y, (in_segment a b y /\ in_triangle o p q y) \/ (in_segment p q y /\ in_triangle o a b y).
Proof.
  intros o a b p q x T1 T2 N.
  destruct (coord_in _ _ _ _ T1) as [u1 [v1 [w1 [U1 [V1 [W1 [S1 C1]]]]]]].
  destruct (coord_in _ _ _ _ T2) as [u2 [v2 [w2 [U2 [V2 [W2 [S2 C2]]]]]]].
  assert (P1 : 0 < v1 + w1).
  { destruct (Rlt_le_dec 0 (v1 + w1)) as [L|L]; [exact L|exfalso]. apply N. assert (v1 = 0) by lra. assert (w1 = 0) by lra. assert (u1 = 1) by lra. subst.
    apply pt_eq; [pose proof (C1 0%nat)|pose proof (C1 1%nat)|pose proof (C1 2%nat)]; cbn [coord] in *; lra. }
  assert (P2 : 0 < v2 + w2).
  { destruct (Rlt_le_dec 0 (v2 + w2)) as [L|L]; [exact L|exfalso]. apply N. assert (v2 = 0) by lra. assert (w2 = 0) by lra. assert (u2 = 1) by lra. subst.
    apply pt_eq; [pose proof (C2 0%nat)|pose proof (C2 1%nat)|pose proof (C2 2%nat)]; cbn [coord] in *; lra. }
  assert (go : forall m, 0 < m -> v1 + w1 <= m -> v2 + w2 <= m -> exists y,
    (forall i, coord y i = (1 - (v1 + w1) / m) * coord o i + v1 / m * coord a i + w1 / m * coord b i) /\
    (forall i, coord y i = (1 - (v2 + w2) / m) * coord o i + v2 / m * coord p i + w2 / m * coord q i)).
  { intros m M L1 L2. exists (mk (fun i => (1 - (v1 + w1) / m) * coord o i + v1 / m * coord a i + w1 / m * coord b i)).
    assert (Y : forall i, coord (mk (fun i => (1 - (v1 + w1) / m) * coord o i + v1 / m * coord a i + w1 / m * coord b i)) i =
      (1 - (v1 + w1) / m) * coord o i + v1 / m * coord a i + w1 / m * coord b i) by (intros [|[|i]]; reflexivity).
    split; [exact Y|]. intros i. rewrite Y. pose proof (C1 i) as K1. pose proof (C2 i) as K2. rewrite K1 in K2.
    replace u1 with (1 - v1 - w1) in K2 by lra. replace u2 with (1 - v2 - w2) in K2 by lra.
    replace ((1 - (v1 + w1) / m) * coord o i + v1 / m * coord a i + w1 / m * coord b i) with (coord o i + / m * ((1 - v1 - w1) * coord o i + v1 * coord a i + w1 * coord b i - coord o i)) by (field; lra).
    rewrite K2. field. lra. }
  assert (pos : forall k m, 0 <= k -> 0 < m -> 0 <= k / m) by (intros; apply Rmult_le_pos; [assumption|left; apply Rinv_0_lt_compat; assumption]).
  destruct (Rle_lt_dec (v2 + w2) (v1 + w1)) as [L|L].
  - destruct (go (v1 + w1) P1 (Rle_refl _) L) as [y [Y1 Y2]]. exists y. left. split.
    + apply (in_coord _ _ _ _ (v1 / (v1 + w1)) (w1 / (v1 + w1)) 0); [apply pos; lra|apply pos; lra|lra|field; lra|]. intros i. rewrite Y1. field. lra.
    + apply (in_coord _ _ _ _ (1 - (v2 + w2) / (v1 + w1)) (v2 / (v1 + w1)) (w2 / (v1 + w1))); [|apply pos; lra|apply pos; lra|field; lra|exact Y2].
      assert ((v2 + w2) / (v1 + w1) <= 1); [|lra]. apply (Rmult_le_reg_r (v1 + w1)); [exact P1|]. unfold Rdiv. rewrite Rmult_assoc, Rinv_l by lra. lra.
  - destruct (go (v2 + w2) P2 (Rlt_le _ _ L) (Rle_refl _)) as [y [Y1 Y2]]. exists y. right. split.
    + apply (in_coord _ _ _ _ (v2 / (v2 + w2)) (w2 / (v2 + w2)) 0); [apply pos; lra|apply pos; lra|lra|field; lra|]. intros i. rewrite Y2. field. lra.
    + apply (in_coord _ _ _ _ (1 - (v1 + w1) / (v2 + w2)) (v1 / (v2 + w2)) (w1 / (v2 + w2))); [|apply pos; lra|apply pos; lra|field; lra|exact Y1].
      assert ((v1 + w1) / (v2 + w2) <= 1); [|lra]. apply (Rmult_le_reg_r (v2 + w2)); [exact P2|]. unfold Rdiv. rewrite Rmult_assoc, Rinv_l by lra. lra.
Qed.

(** A common side: a further common point means the triangles lie over each other. *)
Lemma two_shared : forall a b p q x, in_triangle a b p x -> in_triangle a b q x -> ~ in_segment a b x -> folded a b p q = true.
Proof.
  intros a b p q x T1 T2 N.
  destruct (coord_in _ _ _ _ T1) as [u1 [v1 [w1 [U1 [V1 [W1 [S1 C1]]]]]]].
  destruct (coord_in _ _ _ _ T2) as [u2 [v2 [w2 [U2 [V2 [W2 [S2 C2]]]]]]].
  assert (P1 : 0 < w1).
  { destruct W1 as [L|L]; [exact L|exfalso]. apply N. apply (in_coord _ _ _ _ u1 v1 0); try lra. intros i. rewrite C1, <- L. ring. }
  assert (P2 : 0 < w2).
  { destruct W2 as [L|L]; [exact L|exfalso]. apply N. apply (in_coord _ _ _ _ u2 v2 0); try lra. intros i. rewrite C2, <- L. ring. }
  unfold folded. set (e := extent a [b; p; q]). pose proof (norm_nonneg e) as Hs. pose proof (tiny3_nonneg _ Hs) as Tn3. pose proof (tiny2_nonneg _ Hs) as Tn2.
  set (i := ((min_at e + 1) mod 3)%nat). set (j := ((min_at e + 2) mod 3)%nat). clearbody i j.
  set (t3 := kTinyFactor * norm e * norm e * norm e) in *. set (t2 := kTinyFactor * norm e * norm e) in *. clearbody t2 t3.
  set (flat := fun y => (coord y i, coord y j)).
  assert (A1 : orient2d (flat a) (flat b) (flat x) = w1 * orient2d (flat a) (flat b) (flat p)).
  { unfold orient2d, flat. cbn [fst snd]. rewrite !C1. replace u1 with (1 - v1 - w1) by lra. ring. }
  assert (A2 : orient2d (flat a) (flat b) (flat x) = w2 * orient2d (flat a) (flat b) (flat q)).
  { unfold orient2d, flat. cbn [fst snd]. rewrite !C2. replace u2 with (1 - v2 - w2) by lra. ring. }
  destruct (_ || _) eqn:F.
  { exfalso. fold (flat a) (flat b) (flat p) (flat q) in F. revert A1 A2 F. generalize (orient2d (flat a) (flat b) (flat x)) (orient2d (flat a) (flat b) (flat p)) (orient2d (flat a) (flat b) (flat q)). intros X Y Z A1 A2 F.
    apply orb_true_iff in F. rewrite !andb_true_iff in F. destruct F as [[F1 F2]|[F1 F2]]; apply ltb_true in F1, F2; subst X; nra. }
  assert (E : orient3d a b p q = 0).
  { assert (D : w1 * orient3d a b p q = w2 * orient3d a b q q).
    { pose proof (orient3d_affine a b a b p x q u1 v1 w1 S1 C1) as H1. pose proof (orient3d_affine a b a b q x q u2 v2 w2 S2 C2) as H2.
      rewrite orient3d_first, orient3d_second in H1, H2. lra. }
    rewrite orient3d_same in D. nra. }
  rewrite E, Rabs_R0. unfold leb. destruct (Rle_dec 0 t3); [reflexivity|contradiction].
Qed.
