From Coq Require Import Reals ZArith List Bool Lia Lra.
From Verif Require Import Model.Clip Model.PointTriangle Model.Predicates Model.PrimitiveLattice Spec.PrimitiveLattice.
Import ListNotations.
Local Open Scope R_scope.

(** Where a plane cuts a box, linear functions take their extremes on the edges. *)

Lemma slide : forall l h a d, l <= a <= h -> d <> 0 ->
  exists s, 0 <= s /\ (a + s * d = l \/ a + s * d = h) /\ forall r, 0 <= r <= s -> l <= a + r * d <= h.
Proof.
  intros l h a d I N. destruct (Rtotal_order d 0) as [D|[D|D]]; [|contradiction|].
  - exists ((a - l) * / - d). pose proof (Rinv_0_lt_compat (- d) ltac:(lra)) as P.
    assert (E : (a - l) * / - d * d = l - a) by (field; lra). split; [apply Rmult_le_pos; lra|]. split; [left; lra|].
    intros r [R0 R1]. assert ((a - l) * / - d * - d >= r * - d) by (apply Rle_ge, Rmult_le_compat_r; lra). nra.
  - exists ((h - a) * / d). pose proof (Rinv_0_lt_compat d ltac:(lra)) as P.
    assert (E : (h - a) * / d * d = h - a) by (field; lra). split; [apply Rmult_le_pos; lra|]. split; [right; lra|].
    intros r [R0 R1]. assert ((h - a) * / d * d >= r * d) by (apply Rle_ge, Rmult_le_compat_r; lra). nra.
Qed.

Lemma direction : forall fa fb ga gb, exists da db, fa * da + fb * db = 0 /\ ga * da + gb * db <= 0 /\ (da <> 0 \/ db <> 0).
Proof.
  intros fa fb ga gb. assert (H : exists da db, fa * da + fb * db = 0 /\ (da <> 0 \/ db <> 0)).
  { destruct (Req_dec fa 0) as [A|A]; [destruct (Req_dec fb 0) as [B|B]|].
    - exists 1, 0. split; [subst; lra|left; lra].
    - exists fb, (- fa). split; [ring|auto].
    - exists fb, (- fa). split; [ring|right; lra]. }
  destruct H as (da & db & E & N). destruct (Rle_dec (ga * da + gb * db) 0) as [L|L]; [exists da, db; auto|].
  exists (- da), (- db). split; [lra|]. split; [lra|]. destruct N; [left|right]; lra.
Qed.

Lemma two_free : forall l1 h1 l2 h2 a b fa fb ga gb, l1 <= a <= h1 -> l2 <= b <= h2 ->
  exists a' b', l1 <= a' <= h1 /\ l2 <= b' <= h2 /\ fa * a' + fb * b' = fa * a + fb * b /\ ga * a' + gb * b' <= ga * a + gb * b /\
    ((a' = l1 \/ a' = h1) \/ (b' = l2 \/ b' = h2)).
Proof.
  intros l1 h1 l2 h2 a b fa fb ga gb A B. destruct (direction fa fb ga gb) as (da & db & E & G & N).
  assert (H : exists s, 0 <= s /\ l1 <= a + s * da <= h1 /\ l2 <= b + s * db <= h2 /\ ((a + s * da = l1 \/ a + s * da = h1) \/ (b + s * db = l2 \/ b + s * db = h2))).
  { destruct (Req_dec da 0) as [DA|DA]; [|destruct (Req_dec db 0) as [DB|DB]].
    - destruct (slide l2 h2 b db B) as (s & S & T & U); [destruct N; [contradiction|auto]|]. exists s. rewrite DA, Rmult_0_r, Rplus_0_r. split; [auto|]. split; [auto|]. split; [apply U; lra|auto].
    - destruct (slide l1 h1 a da A DA) as (s & S & T & U). exists s. rewrite DB, Rmult_0_r, Rplus_0_r. split; [auto|]. split; [apply U; lra|auto].
    - destruct (slide l1 h1 a da A DA) as (s & S & T & U), (slide l2 h2 b db B DB) as (s' & S' & T' & U'). destruct (Rle_dec s s') as [L|L].
      + exists s. split; [auto|]. split; [apply U; lra|]. split; [apply U'; lra|auto].
      + exists s'. split; [auto|]. split; [apply U; lra|]. split; [apply U'; lra|auto]. }
  destruct H as (s & S & HA & HB & HC). exists (a + s * da), (b + s * db). split; [auto|]. split; [auto|]. split; [|split; [|exact HC]].
  - replace (fa * (a + s * da) + fb * (b + s * db)) with (fa * a + fb * b + s * (fa * da + fb * db)) by ring. rewrite E. ring.
  - replace (ga * (a + s * da) + gb * (b + s * db)) with (ga * a + gb * b + s * (ga * da + gb * db)) by ring. nra.
Qed.
Lemma one_free : forall l h a g, l <= a <= h -> exists a', (a' = l \/ a' = h) /\ g * a' <= g * a.
Proof. intros l h a g A. destruct (Rle_dec 0 g); [exists l|exists h]; (split; [auto|nra]). Qed.

Definition end_of (l h x : R) : Prop := x = l \/ x = h.

Lemma hit_edge : forall n d lo hi i j v t, In (i, j) edges -> dot3 n (sub3 (corner_at lo hi j) (corner_at lo hi i)) <> 0 -> 0 <= t <= 1 ->
  v = add3 (corner_at lo hi i) (scale3 t (sub3 (corner_at lo hi j) (corner_at lo hi i))) -> dot3 n v + d = 0 -> In v (plane_hits n d lo hi).
Proof.
  intros n d lo hi i j v t I N T V Z. unfold plane_hits. apply in_flat_map. exists (i, j). split; [exact I|]. cbn [fst snd].
  set (p := corner_at lo hi i) in *. set (pq := sub3 (corner_at lo hi j) p) in *. clearbody pq p. unfold eqb. destruct (Req_EM_T (dot3 n pq) 0); [contradiction|].
  assert (E : - (dot3 n p + d) / dot3 n pq = t).
  { assert (H : dot3 n v = dot3 n p + t * dot3 n pq) by (rewrite V; unfold dot3, add3, scale3, px, py, pz; cbn [fst snd]; ring).
    apply (Rmult_eq_reg_r (dot3 n pq)); [|exact N]. unfold Rdiv. rewrite Rmult_assoc, Rinv_l, Rmult_1_r by exact N. lra. }
  rewrite E. unfold leb. destruct (Rle_dec 0 t); [|lra]. destruct (Rle_dec t 1); [|lra]. cbn [andb]. left. auto.
Qed.

Ltac bits := unfold corner_at; cbn [Nat.testbit Nat.odd Nat.even Nat.div2 Nat.pred negb px py pz fst snd].
Ltac on_edge' i j k l h x :=
  apply (hit_edge _ _ _ _ i j _ ((x - l) / (h - l)));
  [cbn; tauto
  |bits; unfold dot3, sub3, px, py, pz; cbn [fst snd]; intros E; apply (Rmult_integral_contrapositive_currified k (h - l)); [assumption|lra|lra]
  |split; [apply Rmult_le_pos; [lra|apply Rlt_le, Rinv_0_lt_compat; lra]|apply (Rmult_le_reg_r (h - l)); [lra|unfold Rdiv; rewrite Rmult_assoc, Rinv_l by lra; lra]]
  |bits; unfold add3, scale3, sub3, px, py, pz; cbn [fst snd]; f_equal; [f_equal|]; field; lra
  |assumption].

Section Plane.
Variables n0 n1 n2 d l0 l1 l2 h0 h1 h2 : R.
Hypotheses (W0 : l0 < h0) (W1 : l1 < h1) (W2 : l2 < h2).
Notation hits := (plane_hits (n0, n1, n2) d (l0, l1, l2) (h0, h1, h2)).
Notation f x y z := (dot3 (n0, n1, n2) (x, y, z) + d).

Lemma hit_x : forall x y z, l0 <= x <= h0 -> end_of l1 h1 y -> end_of l2 h2 z -> n0 <> 0 -> f x y z = 0 -> In (x, y, z) hits.
Proof using W0.
  intros x y z X [->| ->] [->| ->] N Z.
  - on_edge' 0%nat 1%nat n0 l0 h0 x.
  - on_edge' 4%nat 5%nat n0 l0 h0 x.
  - on_edge' 2%nat 3%nat n0 l0 h0 x.
  - on_edge' 6%nat 7%nat n0 l0 h0 x.
Qed.
Lemma hit_y : forall x y z, l1 <= y <= h1 -> end_of l0 h0 x -> end_of l2 h2 z -> n1 <> 0 -> f x y z = 0 -> In (x, y, z) hits.
Proof using W1.
  intros x y z Y [->| ->] [->| ->] N Z.
  - on_edge' 0%nat 2%nat n1 l1 h1 y.
  - on_edge' 4%nat 6%nat n1 l1 h1 y.
  - on_edge' 1%nat 3%nat n1 l1 h1 y.
  - on_edge' 5%nat 7%nat n1 l1 h1 y.
Qed.
Lemma hit_z : forall x y z, l2 <= z <= h2 -> end_of l0 h0 x -> end_of l1 h1 y -> n2 <> 0 -> f x y z = 0 -> In (x, y, z) hits.
Proof using W2.
  intros x y z Z0 [->| ->] [->| ->] N Z.
  - on_edge' 0%nat 4%nat n2 l2 h2 z.
  - on_edge' 2%nat 6%nat n2 l2 h2 z.
  - on_edge' 1%nat 5%nat n2 l2 h2 z.
  - on_edge' 3%nat 7%nat n2 l2 h2 z.
Qed.
Hypothesis NZ : n0 <> 0 \/ n1 <> 0 \/ n2 <> 0.
Lemma hit_corner : forall x y z, end_of l0 h0 x -> end_of l1 h1 y -> end_of l2 h2 z -> f x y z = 0 -> In (x, y, z) hits.
Proof using W0 W1 W2 NZ.
  intros x y z X Y Z E. assert (R : forall l h a, l < h -> end_of l h a -> l <= a <= h) by (intros l h a W [->| ->]; lra).
  destruct NZ as [N|[N|N]]; [apply hit_x|apply hit_y|apply hit_z]; auto.
Qed.
Lemma hits_min : forall x y z c0 c1 c2, l0 <= x <= h0 -> l1 <= y <= h1 -> l2 <= z <= h2 -> f x y z = 0 ->
  exists v, In v hits /\ dot3 (c0, c1, c2) v <= dot3 (c0, c1, c2) (x, y, z).
Proof using W0 W1 W2 NZ.
  intros x y z c0 c1 c2 X Y Z E.
  (* two coordinates at an end *)
  assert (H : exists x' y' z', l0 <= x' <= h0 /\ l1 <= y' <= h1 /\ l2 <= z' <= h2 /\ f x' y' z' = 0 /\ dot3 (c0, c1, c2) (x', y', z') <= dot3 (c0, c1, c2) (x, y, z) /\
     ((end_of l0 h0 x' /\ end_of l1 h1 y') \/ (end_of l0 h0 x' /\ end_of l2 h2 z') \/ (end_of l1 h1 y' /\ end_of l2 h2 z'))).
  { destruct (two_free l0 h0 l1 h1 x y n0 n1 c0 c1 X Y) as (x1 & y1 & X1 & Y1 & F1 & G1 & [B|B]).
    - destruct (two_free l1 h1 l2 h2 y1 z n1 n2 c1 c2 Y1 Z) as (y2 & z2 & Y2 & Z2 & F2 & G2 & C). exists x1, y2, z2. split; [auto|]. split; [auto|]. split; [auto|].
      split; [unfold dot3, px, py, pz in *; cbn [fst snd] in *; lra|]. split; [unfold dot3, px, py, pz in *; cbn [fst snd] in *; lra|]. destruct C; auto.
    - destruct (two_free l0 h0 l2 h2 x1 z n0 n2 c0 c2 X1 Z) as (x2 & z2 & X2 & Z2 & F2 & G2 & C). exists x2, y1, z2. split; [auto|]. split; [auto|]. split; [auto|].
      split; [unfold dot3, px, py, pz in *; cbn [fst snd] in *; lra|]. split; [unfold dot3, px, py, pz in *; cbn [fst snd] in *; lra|]. destruct C; auto. }
  destruct H as (x' & y' & z' & X' & Y' & Z' & F & G & C). destruct C as [[A B]|[[A B]|[A B]]].
  - destruct (Req_dec n2 0) as [N|N]; [|exists (x', y', z'); split; [apply hit_z; auto|auto]].
    destruct (one_free l2 h2 z' c2 Z') as (z2 & Z2 & L). exists (x', y', z2). split; [apply hit_corner; auto|]; unfold dot3, px, py, pz in *; cbn [fst snd] in *; try lra.
    rewrite N in *. lra.
  - destruct (Req_dec n1 0) as [N|N]; [|exists (x', y', z'); split; [apply hit_y; auto|auto]].
    destruct (one_free l1 h1 y' c1 Y') as (y2 & Y2 & L). exists (x', y2, z'). split; [apply hit_corner; auto|]; unfold dot3, px, py, pz in *; cbn [fst snd] in *; try lra.
    rewrite N in *. lra.
  - destruct (Req_dec n0 0) as [N|N]; [|exists (x', y', z'); split; [apply hit_x; auto|auto]].
    destruct (one_free l0 h0 x' c0 X') as (x2 & X2 & L). exists (x2, y', z'). split; [apply hit_corner; auto|]; unfold dot3, px, py, pz in *; cbn [fst snd] in *; try lra.
    rewrite N in *. lra.
Qed.
End Plane.

Theorem plane_min : forall n d lo hi x c, px lo < px hi -> py lo < py hi -> pz lo < pz hi -> n <> (0, 0, 0) -> box lo hi x -> dot3 n x + d = 0 ->
  exists v, In v (plane_hits n d lo hi) /\ dot3 c v <= dot3 c x.
Proof.
  intros [[n0 n1] n2] d [[l0 l1] l2] [[h0 h1] h2] [[x y] z] [[c0 c1] c2] W0 W1 W2 N (X & Y & Z) E. unfold px, py, pz in W0, W1, W2, X, Y, Z. cbn [fst snd] in *.
  apply hits_min; auto. destruct (Req_dec n0 0) as [A|A]; [|auto]. destruct (Req_dec n1 0) as [B|B]; [|auto]. destruct (Req_dec n2 0) as [C|C]; [|auto]. exfalso. apply N. congruence.
Qed.

Lemma corner_box : forall lo hi i, px lo <= px hi -> py lo <= py hi -> pz lo <= pz hi -> box lo hi (corner_at lo hi i).
Proof. intros lo hi i A B C. unfold box, corner_at, px, py, pz in *. cbn [fst snd]. destruct (Nat.testbit i 0), (Nat.testbit i 1), (Nat.testbit i 2); repeat split; lra. Qed.
Theorem hits_sound : forall n d lo hi v, px lo <= px hi -> py lo <= py hi -> pz lo <= pz hi -> In v (plane_hits n d lo hi) -> box lo hi v /\ dot3 n v + d = 0.
Proof.
  intros n d lo hi v A B C I. unfold plane_hits in I. apply in_flat_map in I. destruct I as ([i j] & _ & I). cbn [fst snd] in I. revert I.
  pose proof (corner_box lo hi i A B C) as BI. pose proof (corner_box lo hi j A B C) as BJ. set (p := corner_at lo hi i) in *. set (q := corner_at lo hi j) in *. clearbody p q.
  unfold eqb. destruct (Req_EM_T (dot3 n (sub3 q p)) 0) as [|N]; [intros []|]. set (t := - (dot3 n p + d) / dot3 n (sub3 q p)). unfold leb.
  destruct (Rle_dec 0 t) as [T0|T0]; [|intros []]. destruct (Rle_dec t 1) as [T1|T1]; [|intros []]. cbn [andb]. intros [<-|[]]. split.
  - unfold box, add3, scale3, sub3, px, py, pz in *. cbn [fst snd] in *. clear - BI BJ T0 T1. clearbody t. repeat split; nra.
  - assert (E : t * dot3 n (sub3 q p) = - (dot3 n p + d)) by (unfold t, Rdiv; rewrite Rmult_assoc, Rinv_l, Rmult_1_r by exact N; reflexivity).
    replace (dot3 n (add3 p (scale3 t (sub3 q p)))) with (dot3 n p + t * dot3 n (sub3 q p)) by (unfold dot3, add3, scale3, sub3, px, py, pz; cbn [fst snd]; ring). lra.
Qed.

Theorem corners_min : forall lo hi x c, box lo hi x -> exists i, (i < 8)%nat /\ dot3 c (corner_at lo hi i) <= dot3 c x.
Proof.
  intros lo hi x c (X & Y & Z). destruct (one_free _ _ _ (px c) X) as (x' & XE & XL), (one_free _ _ _ (py c) Y) as (y' & YE & YL), (one_free _ _ _ (pz c) Z) as (z' & ZE & ZL).
  assert (H : exists i, (i < 8)%nat /\ corner_at lo hi i = (x', y', z')).
  { destruct XE as [->| ->], YE as [->| ->], ZE as [->| ->]; [exists 0%nat|exists 4%nat|exists 2%nat|exists 6%nat|exists 1%nat|exists 5%nat|exists 3%nat|exists 7%nat]; (split; [lia|reflexivity]). }
  destruct H as (i & I & E). exists i. split; [exact I|]. rewrite E. unfold dot3, px, py, pz in *. cbn [fst snd] in *. lra.
Qed.
