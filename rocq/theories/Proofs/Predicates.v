From Coq Require Import Reals List Arith Bool Lia Lra Psatz.
From Verif Require Import Model.Outcome Model.Clip Model.PointTriangle Model.Predicates Spec.PointTriangle Spec.Predicates Proofs.PointTriangle.
Import ListNotations.
Local Open Scope R_scope.

Lemma ltb_true : forall a b, ltb a b = true -> a < b.
Proof. intros a b. unfold ltb. destruct (Rlt_dec a b); [auto|discriminate]. Qed.
Lemma ltb_false : forall a b, ltb a b = false -> b <= a.
Proof. intros a b. unfold ltb. destruct (Rlt_dec a b); [discriminate|]. intros. lra. Qed.
Lemma kTiny_pos : 0 < kTinyFactor.
Proof. unfold kTinyFactor. apply Rinv_0_lt_compat. apply pow_lt. lra. Qed.
Lemma norm_nonneg : forall p, 0 <= norm p.
Proof. intros. apply sqrt_pos. Qed.
Lemma tiny2_nonneg : forall x, 0 <= x -> 0 <= kTinyFactor * x * x.
Proof. intros x L. pose proof kTiny_pos. apply Rmult_le_pos; [apply Rmult_le_pos; lra|lra]. Qed.
Lemma tiny3_nonneg : forall x, 0 <= x -> 0 <= kTinyFactor * x * x * x.
Proof. intros x L. apply Rmult_le_pos; [apply tiny2_nonneg; lra|lra]. Qed.

(** Moving from the values f towards the nonnegative values g until none is negative. *)
Lemma exits : forall l : list (R * R), Forall (fun '(f, g) => 0 <= g) l ->
  exists m, 0 <= m <= 1 /\ Forall (fun '(f, g) => 0 <= f + m * (g - f)) l /\
    (m = 0 \/ Exists (fun '(f, g) => f < 0 /\ f + m * (g - f) = 0) l).
Proof.
  induction l as [|[f g] l IH]; intros F.
  - exists 0. repeat split; [lra|lra|constructor|left; reflexivity].
  - inversion F as [|? ? G F']. subst. destruct (IH F') as [m [M [A E]]].
    destruct (Rle_lt_dec 0 (f + m * (g - f))) as [L|L].
    + exists m. split; [exact M|]. split; [constructor; assumption|]. destruct E as [E|E]; [left; exact E|right; apply Exists_cons_tl; exact E].
    + assert (Nf : f < 0) by nra. exists (- f / (g - f)).
      assert (Em : - f / (g - f) * (g - f) = - f) by (field; lra). set (n := - f / (g - f)) in *.
      assert (N1 : n <= 1) by nra. assert (N2 : m <= n) by nra.
      split; [lra|]. split.
      * constructor; [lra|]. rewrite Forall_forall in A, F' |- *. intros [f' g'] I. pose proof (A _ I) as X. pose proof (F' _ I) as Y. cbn in X, Y.
        destruct (Rle_lt_dec f' g'); nra.
      * right. apply Exists_cons_hd. split; [exact Nf|lra].
Qed.
Lemma exit3 : forall f1 g1 f2 g2 f3 g3 : R, 0 <= g1 -> 0 <= g2 -> 0 <= g3 -> f1 < 0 \/ f2 < 0 \/ f3 < 0 ->
  exists m, 0 <= m <= 1 /\ 0 <= f1 + m * (g1 - f1) /\ 0 <= f2 + m * (g2 - f2) /\ 0 <= f3 + m * (g3 - f3) /\
    ((f1 < 0 /\ f1 + m * (g1 - f1) = 0) \/ (f2 < 0 /\ f2 + m * (g2 - f2) = 0) \/ (f3 < 0 /\ f3 + m * (g3 - f3) = 0)).
Proof.
  intros f1 g1 f2 g2 f3 g3 G1 G2 G3 N.
  destruct (exits [(f1, g1); (f2, g2); (f3, g3)]) as [m [M [A E]]]; [repeat apply Forall_cons; auto|].
  inversion A as [|? ? A1 A']. inversion A' as [|? ? A2 A'']. inversion A'' as [|? ? A3 A''']. subst.
  exists m. repeat split; try assumption; try lra.
  destruct E as [E|E]; [subst m; exfalso; lra|].
  inversion E as [? ? E1|? ? E']; subst; [left; exact E1|]. inversion E' as [? ? E1|? ? E'']; subst; [right; left; exact E1|].
  inversion E'' as [? ? E1|? ? E''']; subst; [right; right; exact E1|inversion E'''].
Qed.
Lemma exit6 : forall f1 g1 f2 g2 f3 g3 f4 g4 f5 g5 f6 g6 : R,
  0 <= g1 -> 0 <= g2 -> 0 <= g3 -> 0 <= g4 -> 0 <= g5 -> 0 <= g6 -> f1 < 0 \/ f2 < 0 \/ f3 < 0 \/ f4 < 0 \/ f5 < 0 \/ f6 < 0 ->
  exists m, 0 <= m <= 1 /\ 0 <= f1 + m * (g1 - f1) /\ 0 <= f2 + m * (g2 - f2) /\ 0 <= f3 + m * (g3 - f3) /\
    0 <= f4 + m * (g4 - f4) /\ 0 <= f5 + m * (g5 - f5) /\ 0 <= f6 + m * (g6 - f6) /\
    (f1 + m * (g1 - f1) = 0 \/ f2 + m * (g2 - f2) = 0 \/ f3 + m * (g3 - f3) = 0 \/
     f4 + m * (g4 - f4) = 0 \/ f5 + m * (g5 - f5) = 0 \/ f6 + m * (g6 - f6) = 0).
Proof.
  intros f1 g1 f2 g2 f3 g3 f4 g4 f5 g5 f6 g6 G1 G2 G3 G4 G5 G6 N.
  destruct (exits [(f1, g1); (f2, g2); (f3, g3); (f4, g4); (f5, g5); (f6, g6)]) as [m [M [A E]]]; [repeat apply Forall_cons; auto|].
  inversion A as [|? ? A1 B1]. inversion B1 as [|? ? A2 B2]. inversion B2 as [|? ? A3 B3].
  inversion B3 as [|? ? A4 B4]. inversion B4 as [|? ? A5 B5]. inversion B5 as [|? ? A6 B6]. subst.
  exists m. repeat split; try assumption; try lra.
  destruct E as [E|E]; [subst m; exfalso; lra|].
  rewrite Exists_exists in E. destruct E as [[f g] [I [_ Z]]]. cbn in I.
  repeat (destruct I as [I|I]; [injection I as <- <-; tauto|]). contradiction.
Qed.

Lemma between_lt : forall s e a b p q : R, 0 <= s <= 1 -> 0 <= e <= 1 -> a < p -> a < q -> b < p -> b < q ->
  a + s * (b - a) < p + e * (q - p).
Proof.
  intros s e a b p q Hs He H1 H2 H3 H4.
  assert (L : a + s * (b - a) <= Rmax a b) by (unfold Rmax; destruct (Rle_dec a b); nra).
  assert (U : Rmin p q <= p + e * (q - p)) by (unfold Rmin; destruct (Rle_dec p q); nra).
  assert (M : Rmax a b < Rmin p q) by (apply Rmax_lub_lt; apply Rmin_glb_lt; assumption). lra.
Qed.

(** The test of a segment against one side of the triangle, in the projection along axis k. *)
Section Axes.
Variables i j k : nat.
Hypothesis axes : (i = 0 /\ j = 1 /\ k = 2 \/ i = 1 /\ j = 2 /\ k = 0 \/ i = 2 /\ j = 0 /\ k = 1)%nat.
Let flat (x : pt) : pt2 := (coord x i, coord x j).
Lemma separated_1d : forall a b p q : pt, segment_segment_1d a b p q = false -> exists m, (m < 3)%nat /\
  ((coord a m < coord p m /\ coord a m < coord q m /\ coord b m < coord p m /\ coord b m < coord q m) \/
   (coord p m < coord a m /\ coord q m < coord a m /\ coord p m < coord b m /\ coord q m < coord b m)).
Proof.
  intros a b p q. unfold segment_segment_1d. set (m := max_at _).
  assert (M : (m < 3)%nat) by (unfold m, max_at; repeat match goal with |- context [if ?c then _ else _] => destruct c end; lia). clearbody m.
  destruct (ltb _ _ && _ && _ && _) eqn:E1.
  - intros _. exists m. split; [exact M|left]. repeat rewrite andb_true_iff in E1. destruct E1 as [[[X Y] Z] W]. apply ltb_true in X, Y, Z, W. auto.
  - destruct (ltb (coord p m) (coord a m) && _ && _ && _) eqn:E2; [|discriminate].
    intros _. exists m. split; [exact M|right]. repeat rewrite andb_true_iff in E2. destruct E2 as [[[X Y] Z] W]. apply ltb_true in X, Y, Z, W. auto.
Qed.
(** If the projections meet, the test only fails when the segments are apart along k. *)
Lemma separated_2d : forall (a b p q : pt) (s e : R), 0 <= s <= 1 -> 0 <= e <= 1 ->
  coord a i + s * (coord b i - coord a i) = coord p i + e * (coord q i - coord p i) ->
  coord a j + s * (coord b j - coord a j) = coord p j + e * (coord q j - coord p j) ->
  segment_segment_2d a b p q (orient2d (flat a) (flat b) (flat p)) (orient2d (flat a) (flat b) (flat q))
    (orient2d (flat a) (flat p) (flat q)) (orient2d (flat b) (flat p) (flat q)) = false ->
  (coord a k < coord p k /\ coord a k < coord q k /\ coord b k < coord p k /\ coord b k < coord q k) \/
  (coord p k < coord a k /\ coord q k < coord a k /\ coord p k < coord b k /\ coord q k < coord b k).
Proof.
  intros a b p q s e Hs He Ei Ej. unfold segment_segment_2d.
  set (sc := norm _). pose proof (tiny2_nonneg sc (norm_nonneg _)) as T. set (tiny := kTinyFactor * sc * sc) in *. clearbody tiny.
  set (abp := orient2d (flat a) (flat b) (flat p)). set (abq := orient2d (flat a) (flat b) (flat q)).
  set (apq := orient2d (flat a) (flat p) (flat q)). set (bpq := orient2d (flat b) (flat p) (flat q)).
  assert (Z1 : (1 - e) * abp + e * abq = 0).
  { replace ((1 - e) * abp + e * abq) with
      ((coord a i - (coord p i + e * (coord q i - coord p i))) * (coord b j - (coord p j + e * (coord q j - coord p j))) -
       (coord a j - (coord p j + e * (coord q j - coord p j))) * (coord b i - (coord p i + e * (coord q i - coord p i))))
      by (unfold abp, abq, orient2d, flat; cbn [fst snd]; ring).
    rewrite <- Ei, <- Ej. ring. }
  assert (Z2 : (1 - s) * apq + s * bpq = 0).
  { replace ((1 - s) * apq + s * bpq) with
      ((coord a i + s * (coord b i - coord a i) - coord q i) * (coord p j - coord q j) -
       (coord a j + s * (coord b j - coord a j) - coord q j) * (coord p i - coord q i))
      by (unfold apq, bpq, orient2d, flat; cbn [fst snd]; ring).
    rewrite Ei, Ej. ring. }
  clearbody abp abq apq bpq.
  destruct (_ || _) eqn:T1.
  { exfalso. apply orb_true_iff in T1. rewrite !andb_true_iff in T1. destruct T1 as [[X Y]|[X Y]]; apply ltb_true in X, Y; nra. }
  destruct ((ltb apq _ && _) || _) eqn:T2.
  { exfalso. apply orb_true_iff in T2. rewrite !andb_true_iff in T2. destruct T2 as [[X Y]|[X Y]]; apply ltb_true in X, Y; nra. }
  intros F. destruct (separated_1d a b p q F) as [m [M D]].
  assert (K : (m = i \/ m = j \/ m = k)%nat) by lia.
  destruct K as [->|[->| ->]]; [exfalso|exfalso|exact D].
  - destruct D as [[D1 [D2 [D3 D4]]]|[D1 [D2 [D3 D4]]]]; [pose proof (between_lt s e _ _ _ _ Hs He D1 D2 D3 D4)|pose proof (between_lt e s _ _ _ _ He Hs D1 D3 D2 D4)]; lra.
  - destruct D as [[D1 [D2 [D3 D4]]]|[D1 [D2 [D3 D4]]]]; [pose proof (between_lt s e _ _ _ _ Hs He D1 D2 D3 D4)|pose proof (between_lt e s _ _ _ _ He Hs D1 D3 D2 D4)]; lra.
Qed.

(** The difference of height along k at a common point of the projections. *)
Lemma edge_gap : forall (a b p q : pt) (s u v : R), 0 <= s <= 1 -> 0 <= u -> 0 <= v -> u + v = 1 ->
  coord a i + s * (coord b i - coord a i) = u * coord p i + v * coord q i ->
  coord a j + s * (coord b j - coord a j) = u * coord p j + v * coord q j ->
  segment_segment_2d a b p q (orient2d (flat a) (flat b) (flat p)) (orient2d (flat a) (flat b) (flat q))
    (orient2d (flat a) (flat p) (flat q)) (orient2d (flat b) (flat p) (flat q)) = false ->
  let g := coord a k + s * (coord b k - coord a k) - (u * coord p k + v * coord q k) in
  (coord a k < coord p k /\ coord a k < coord q k /\ g < 0) \/ (coord p k < coord a k /\ coord q k < coord a k /\ 0 < g).
Proof.
  intros a b p q s u v Hs Hu Hv E Ei Ej F g. assert (He : 0 <= v <= 1) by lra.
  destruct (separated_2d a b p q s v Hs He) as [[D1 [D2 [D3 D4]]]|[D1 [D2 [D3 D4]]]]; [replace u with (1 - v) in Ei by lra; lra|replace u with (1 - v) in Ej by lra; lra|exact F| |].
  - left. pose proof (between_lt s v _ _ _ _ Hs He D1 D2 D3 D4) as L. repeat split; try assumption. unfold g. replace u with (1 - v) by lra. lra.
  - right. pose proof (between_lt v s _ _ _ _ He Hs D1 D3 D2 D4) as L. repeat split; try assumption. unfold g. replace u with (1 - v) by lra. lra.
Qed.

Section Segment.
Variables a b p q r : pt.
Definition side_test (p q : pt) : bool :=
  segment_segment_2d a b p q (orient2d (flat a) (flat b) (flat p)) (orient2d (flat a) (flat b) (flat q))
    (orient2d (flat a) (flat p) (flat q)) (orient2d (flat b) (flat p) (flat q)).
Hypothesis Fpq : side_test p q = false.
Hypothesis Fqr : side_test q r = false.
Hypothesis Frp : side_test r p = false.
(** A place on the segment over a place of the triangle. *)
Definition over (s u v w : R) : Prop :=
  0 <= s <= 1 /\ 0 <= u /\ 0 <= v /\ 0 <= w /\ u + v + w = 1 /\
  coord a i + s * (coord b i - coord a i) = u * coord p i + v * coord q i + w * coord r i /\
  coord a j + s * (coord b j - coord a j) = u * coord p j + v * coord q j + w * coord r j.
Definition gap (s u v w : R) : R := coord a k + s * (coord b k - coord a k) - (u * coord p k + v * coord q k + w * coord r k).
Lemma gap_w : forall s u v w : R, over s u v w -> w = 0 ->
  (coord a k < coord p k /\ coord a k < coord q k /\ gap s u v w < 0) \/ (coord p k < coord a k /\ coord q k < coord a k /\ 0 < gap s u v w).
Proof.
  intros s u v w [Hs [Hu [Hv [Hw [E [Ei Ej]]]]]] ->. destruct (edge_gap a b p q s u v) as [D|D]; try assumption; try lra; unfold gap; [left|right]; repeat split; lra.
Qed.
Lemma gap_u : forall s u v w : R, over s u v w -> u = 0 ->
  (coord a k < coord q k /\ coord a k < coord r k /\ gap s u v w < 0) \/ (coord q k < coord a k /\ coord r k < coord a k /\ 0 < gap s u v w).
Proof.
  intros s u v w [Hs [Hu [Hv [Hw [E [Ei Ej]]]]]] ->. destruct (edge_gap a b q r s v w) as [D|D]; try assumption; try lra; unfold gap; [left|right]; repeat split; lra.
Qed.
Lemma gap_v : forall s u v w : R, over s u v w -> v = 0 ->
  (coord a k < coord r k /\ coord a k < coord p k /\ gap s u v w < 0) \/ (coord r k < coord a k /\ coord p k < coord a k /\ 0 < gap s u v w).
Proof.
  intros s u v w [Hs [Hu [Hv [Hw [E [Ei Ej]]]]]] ->. destruct (edge_gap a b r p s w u) as [D|D]; try assumption; try lra; unfold gap; [left|right]; repeat split; lra.
Qed.
Lemma two_exits : forall s u v w s' u' v' w' : R, over s u v w -> over s' u' v' w' -> gap s u v w * gap s' u' v' w' <= 0 ->
  (u = 0 /\ v' = 0) \/ (u = 0 /\ w' = 0) \/ (v = 0 /\ u' = 0) \/ (v = 0 /\ w' = 0) \/ (w = 0 /\ u' = 0) \/ (w = 0 /\ v' = 0) -> False.
Proof.
  intros s u v w s' u' v' w' O O' G C.
  destruct C as [[C C']|[[C C']|[[C C']|[[C C']|[[C C']|[C C']]]]]];
    [destruct (gap_u _ _ _ _ O C) as [A|A]; destruct (gap_v _ _ _ _ O' C') as [B|B]
    |destruct (gap_u _ _ _ _ O C) as [A|A]; destruct (gap_w _ _ _ _ O' C') as [B|B]
    |destruct (gap_v _ _ _ _ O C) as [A|A]; destruct (gap_u _ _ _ _ O' C') as [B|B]
    |destruct (gap_v _ _ _ _ O C) as [A|A]; destruct (gap_w _ _ _ _ O' C') as [B|B]
    |destruct (gap_w _ _ _ _ O C) as [A|A]; destruct (gap_u _ _ _ _ O' C') as [B|B]
    |destruct (gap_w _ _ _ _ O C) as [A|A]; destruct (gap_v _ _ _ _ O' C') as [B|B]];
    destruct A as [A1 [A2 A3]]; destruct B as [B1 [B2 B3]];
    try lra; revert A3 B3 G; generalize (gap s u v w) (gap s' u' v' w'); intros; nra.
Qed.

Variables t u v w : R.
Hypothesis X : over t u v w.
Hypothesis X0 : gap t u v w = 0.
Let apq := orient2d (flat a) (flat p) (flat q).
Let aqr := orient2d (flat a) (flat q) (flat r).
Let arp := orient2d (flat a) (flat r) (flat p).
Let bpq := orient2d (flat b) (flat p) (flat q).
Let bqr := orient2d (flat b) (flat q) (flat r).
Let brp := orient2d (flat b) (flat r) (flat p).
Let d := orient2d (flat p) (flat q) (flat r).
(** Points strictly on both sides of the sides of the triangle. *)
Hypothesis Am : (apq < 0 \/ aqr < 0 \/ arp < 0) /\ (0 < apq \/ 0 < aqr \/ 0 < arp).
Hypothesis Bm : (bpq < 0 \/ bqr < 0 \/ brp < 0) /\ (0 < bpq \/ 0 < bqr \/ 0 < brp).

Lemma sum_a : apq + aqr + arp = d.
Proof. unfold apq, aqr, arp, d, orient2d, flat. cbn [fst snd]. ring. Qed.
Lemma sum_b : bpq + bqr + brp = d.
Proof. unfold bpq, bqr, brp, d, orient2d, flat. cbn [fst snd]. ring. Qed.
Lemma mix_w : (1 - t) * apq + t * bpq = w * d.
Proof.
  destruct X as [Hs [Hu [Hv [Hw [E [Ei Ej]]]]]].
  replace ((1 - t) * apq + t * bpq) with
    ((coord a i + t * (coord b i - coord a i) - coord q i) * (coord p j - coord q j) - (coord a j + t * (coord b j - coord a j) - coord q j) * (coord p i - coord q i))
    by (unfold apq, bpq, orient2d, flat; cbn [fst snd]; ring).
  rewrite Ei, Ej. replace u with (1 - v - w) by lra. unfold d, orient2d, flat. cbn [fst snd]. ring.
Qed.
Lemma mix_u : (1 - t) * aqr + t * bqr = u * d.
Proof.
  destruct X as [Hs [Hu [Hv [Hw [E [Ei Ej]]]]]].
  replace ((1 - t) * aqr + t * bqr) with
    ((coord a i + t * (coord b i - coord a i) - coord r i) * (coord q j - coord r j) - (coord a j + t * (coord b j - coord a j) - coord r j) * (coord q i - coord r i))
    by (unfold aqr, bqr, orient2d, flat; cbn [fst snd]; ring).
  rewrite Ei, Ej. replace w with (1 - u - v) by lra. unfold d, orient2d, flat. cbn [fst snd]. ring.
Qed.
Lemma mix_v : (1 - t) * arp + t * brp = v * d.
Proof.
  destruct X as [Hs [Hu [Hv [Hw [E [Ei Ej]]]]]].
  replace ((1 - t) * arp + t * brp) with
    ((coord a i + t * (coord b i - coord a i) - coord p i) * (coord r j - coord p j) - (coord a j + t * (coord b j - coord a j) - coord p j) * (coord r i - coord p i))
    by (unfold arp, brp, orient2d, flat; cbn [fst snd]; ring).
  rewrite Ei, Ej. replace w with (1 - u - v) by lra. unfold d, orient2d, flat. cbn [fst snd]. ring.
Qed.

(** The projected triangle is a line: up and down from the common point. *)
Lemma no_line : d = 0 -> False.
Proof.
  intros D0. destruct X as [Hs [Hu [Hv [Hw [E [Ei Ej]]]]]].
  assert (M : exists m1 m2 m3, (m1 <> 0 \/ m2 <> 0 \/ m3 <> 0) /\ m1 + m2 + m3 = 0 /\
    m1 * coord p i + m2 * coord q i + m3 * coord r i = 0 /\ m1 * coord p j + m2 * coord q j + m3 * coord r j = 0).
  { unfold d, orient2d, flat in D0. cbn [fst snd] in D0.
    destruct (Req_EM_T (coord p i) (coord q i)) as [E1|E1]; [destruct (Req_EM_T (coord q i) (coord r i)) as [E2|E2]; [destruct (Req_EM_T (coord p j) (coord q j)) as [E3|E3]; [destruct (Req_EM_T (coord q j) (coord r j)) as [E4|E4]|]|]|].
    - exfalso. clear - E1 E2 E3 E4 Am. unfold apq, aqr, arp, orient2d, flat in Am. cbn [fst snd] in Am. rewrite E1, E2, E3, E4 in Am. lra.
    - exists (coord q j - coord r j), (coord r j - coord p j), (coord p j - coord q j). repeat split; [left; lra|lra|lra|lra].
    - exists (coord q j - coord r j), (coord r j - coord p j), (coord p j - coord q j). repeat split; [right; right; lra|lra|lra|lra].
    - exists (coord q i - coord r i), (coord r i - coord p i), (coord p i - coord q i). repeat split; [left; lra|lra|lra|lra].
    - exists (coord q i - coord r i), (coord r i - coord p i), (coord p i - coord q i). repeat split; [right; right; lra|lra|lra|lra]. }
  destruct M as [m1 [m2 [m3 [Mn [Ms [Mi Mj]]]]]].
  assert (walk : forall n1 n2 n3, (n1 <> 0 \/ n2 <> 0 \/ n3 <> 0) -> n1 + n2 + n3 = 0 -> exists z, 0 <= z /\
    0 <= u + z * n1 /\ 0 <= v + z * n2 /\ 0 <= w + z * n3 /\
    ((n1 < 0 /\ u + z * n1 = 0) \/ (n2 < 0 /\ v + z * n2 = 0) \/ (n3 < 0 /\ w + z * n3 = 0))).
  { intros n1 n2 n3 Nn Ns.
    assert (Z : exists z, 0 <= z /\ (u + z * n1 < 0 \/ v + z * n2 < 0 \/ w + z * n3 < 0)).
    { assert (C : n1 < 0 \/ n2 < 0 \/ n3 < 0) by lra.
      assert (Q : forall c n, 0 <= c -> n < 0 -> 0 <= (c + 1) / - n /\ c + (c + 1) / - n * n < 0).
      { intros c n Hc Hn. assert ((c + 1) / - n * n = - (c + 1)) by (field; lra). split; [|lra].
        apply Rmult_le_pos; [lra|]. left. apply Rinv_0_lt_compat. lra. }
      destruct C as [C|[C|C]]; [destruct (Q u n1 Hu C)|destruct (Q v n2 Hv C)|destruct (Q w n3 Hw C)]; eexists; split; eauto. }
    destruct Z as [z [Z0 Z1]].
    destruct (exit3 (u + z * n1) u (v + z * n2) v (w + z * n3) w Hu Hv Hw Z1) as [m [Hm [G1 [G2 [G3 G]]]]].
    exists ((1 - m) * z). split; [apply Rmult_le_pos; lra|].
    replace (u + (1 - m) * z * n1) with (u + z * n1 + m * (u - (u + z * n1))) by ring.
    replace (v + (1 - m) * z * n2) with (v + z * n2 + m * (v - (v + z * n2))) by ring.
    replace (w + (1 - m) * z * n3) with (w + z * n3 + m * (w - (w + z * n3))) by ring.
    repeat split; try assumption.
    destruct G as [[G G']|[[G G']|[G G']]]; [left|right; left|right; right]; (split; [|assumption]); clear - G Hu Hv Hw Z0; nra. }
  destruct (walk m1 m2 m3 Mn Ms) as [z [Z0 [P1 [P2 [P3 P4]]]]].
  destruct (walk (- m1) (- m2) (- m3)) as [y [Y0 [Q1 [Q2 [Q3 Q4]]]]]; [lra|lra|].
  apply (two_exits t (u + z * m1) (v + z * m2) (w + z * m3) t (u + y * - m1) (v + y * - m2) (w + y * - m3)).
  - repeat split; try assumption; try lra.
    + replace (u + z * m1 + (v + z * m2) + (w + z * m3)) with (u + v + w + z * (m1 + m2 + m3)) by ring. rewrite Ms. lra.
    + rewrite Ei. replace ((u + z * m1) * coord p i + (v + z * m2) * coord q i + (w + z * m3) * coord r i) with (u * coord p i + v * coord q i + w * coord r i + z * (m1 * coord p i + m2 * coord q i + m3 * coord r i)) by ring. rewrite Mi. lra.
    + rewrite Ej. replace ((u + z * m1) * coord p j + (v + z * m2) * coord q j + (w + z * m3) * coord r j) with (u * coord p j + v * coord q j + w * coord r j + z * (m1 * coord p j + m2 * coord q j + m3 * coord r j)) by ring. rewrite Mj. lra.
  - repeat split; try assumption; try lra.
    + replace (u + y * - m1 + (v + y * - m2) + (w + y * - m3)) with (u + v + w - y * (m1 + m2 + m3)) by ring. rewrite Ms. lra.
    + rewrite Ei. replace ((u + y * - m1) * coord p i + (v + y * - m2) * coord q i + (w + y * - m3) * coord r i) with (u * coord p i + v * coord q i + w * coord r i - y * (m1 * coord p i + m2 * coord q i + m3 * coord r i)) by ring. rewrite Mi. lra.
    + rewrite Ej. replace ((u + y * - m1) * coord p j + (v + y * - m2) * coord q j + (w + y * - m3) * coord r j) with (u * coord p j + v * coord q j + w * coord r j - y * (m1 * coord p j + m2 * coord q j + m3 * coord r j)) by ring. rewrite Mj. lra.
  - set (h := m1 * coord p k + m2 * coord q k + m3 * coord r k).
    replace (gap t (u + z * m1) (v + z * m2) (w + z * m3)) with (gap t u v w - z * h) by (unfold gap, h; ring).
    replace (gap t (u + y * - m1) (v + y * - m2) (w + y * - m3)) with (gap t u v w + y * h) by (unfold gap, h; ring).
    rewrite X0. assert (0 <= z * y) by (apply Rmult_le_pos; assumption). pose proof (Rle_0_sqr h) as Sq. unfold Rsqr in Sq. replace ((0 - z * h) * (0 + y * h)) with (- (z * y * (h * h))) by ring. assert (0 <= z * y * (h * h)) by (apply Rmult_le_pos; assumption). lra.
  - clear - P4 Q4. destruct P4 as [[g g']|[[g g']|[g g']]]; destruct Q4 as [[h h']|[[h h']|[h h']]]; try tauto; exfalso; lra.
Qed.

(** The projected triangle is a triangle: to both sides along the segment. *)
Lemma no_triangle : d <> 0 -> False.
Proof.
  intros Dn. destruct X as [Hs [Hu [Hv [Hw [E [Ei Ej]]]]]].
  set (sg := if Rlt_dec 0 d then 1 else -1). set (e := sg * d).
  assert (He : 0 < e) by (unfold e, sg; destruct (Rlt_dec 0 d); lra).
  assert (He' : e <> 0) by lra.
  assert (Hsg : sg * sg = 1) by (unfold sg; destruct (Rlt_dec 0 d); lra).
  assert (N1 : sg * aqr < 0 \/ sg * arp < 0 \/ sg * apq < 0) by (unfold sg; destruct (Rlt_dec 0 d); lra).
  assert (N2 : sg * bqr < 0 \/ sg * brp < 0 \/ sg * bpq < 0) by (unfold sg; destruct (Rlt_dec 0 d); lra).
  assert (Pu : 0 <= u * e) by (apply Rmult_le_pos; lra). assert (Pv : 0 <= v * e) by (apply Rmult_le_pos; lra). assert (Pw : 0 <= w * e) by (apply Rmult_le_pos; lra).
  destruct (exit3 _ _ _ _ _ _ Pu Pv Pw N1) as [m [Hm [G1 [G2 [G3 G]]]]].
  destruct (exit3 _ _ _ _ _ _ Pu Pv Pw N2) as [n [Hn [K1 [K2 [K3 K]]]]].
  pose proof mix_u as Mu. pose proof mix_v as Mv. pose proof mix_w as Mw.
  pose proof sum_a as Sa. pose proof sum_b as Sb.
  (* barycentric coordinates of a and b *)
  set (ua := sg * aqr / e). set (va := sg * arp / e). set (wa := sg * apq / e).
  set (ub := sg * bqr / e). set (vb := sg * brp / e). set (wb := sg * bpq / e).
  assert (Eua : ua * e = sg * aqr) by (unfold ua; field; exact He'). assert (Eva : va * e = sg * arp) by (unfold va; field; exact He'). assert (Ewa : wa * e = sg * apq) by (unfold wa; field; exact He').
  assert (Eub : ub * e = sg * bqr) by (unfold ub; field; exact He'). assert (Evb : vb * e = sg * brp) by (unfold vb; field; exact He'). assert (Ewb : wb * e = sg * bpq) by (unfold wb; field; exact He').
  assert (Sua : ua + va + wa = 1) by (apply (Rmult_eq_reg_r e); [|exact He']; replace ((ua + va + wa) * e) with (ua * e + va * e + wa * e) by ring; rewrite Eua, Eva, Ewa; unfold e; rewrite <- Sa; ring).
  assert (Sub : ub + vb + wb = 1) by (apply (Rmult_eq_reg_r e); [|exact He']; replace ((ub + vb + wb) * e) with (ub * e + vb * e + wb * e) by ring; rewrite Eub, Evb, Ewb; unfold e; rewrite <- Sb; ring).
  assert (Mu' : (1 - t) * ua + t * ub = u) by (apply (Rmult_eq_reg_r e); [|exact He']; replace (((1 - t) * ua + t * ub) * e) with ((1 - t) * (ua * e) + t * (ub * e)) by ring; rewrite Eua, Eub; unfold e; replace (u * (sg * d)) with (sg * (u * d)) by ring; rewrite <- Mu; ring).
  assert (Mv' : (1 - t) * va + t * vb = v) by (apply (Rmult_eq_reg_r e); [|exact He']; replace (((1 - t) * va + t * vb) * e) with ((1 - t) * (va * e) + t * (vb * e)) by ring; rewrite Eva, Evb; unfold e; replace (v * (sg * d)) with (sg * (v * d)) by ring; rewrite <- Mv; ring).
  assert (Mw' : (1 - t) * wa + t * wb = w) by (apply (Rmult_eq_reg_r e); [|exact He']; replace (((1 - t) * wa + t * wb) * e) with ((1 - t) * (wa * e) + t * (wb * e)) by ring; rewrite Ewa, Ewb; unfold e; replace (w * (sg * d)) with (sg * (w * d)) by ring; rewrite <- Mw; ring).
  assert (Bai : coord a i = ua * coord p i + va * coord q i + wa * coord r i).
  { apply (Rmult_eq_reg_r e); [|exact He']. replace ((ua * coord p i + va * coord q i + wa * coord r i) * e) with (ua * e * coord p i + va * e * coord q i + wa * e * coord r i) by ring.
    rewrite Eua, Eva, Ewa. unfold e, aqr, arp, apq, d, orient2d, flat. cbn [fst snd]. ring. }
  assert (Baj : coord a j = ua * coord p j + va * coord q j + wa * coord r j).
  { apply (Rmult_eq_reg_r e); [|exact He']. replace ((ua * coord p j + va * coord q j + wa * coord r j) * e) with (ua * e * coord p j + va * e * coord q j + wa * e * coord r j) by ring.
    rewrite Eua, Eva, Ewa. unfold e, aqr, arp, apq, d, orient2d, flat. cbn [fst snd]. ring. }
  assert (Bbi : coord b i = ub * coord p i + vb * coord q i + wb * coord r i).
  { apply (Rmult_eq_reg_r e); [|exact He']. replace ((ub * coord p i + vb * coord q i + wb * coord r i) * e) with (ub * e * coord p i + vb * e * coord q i + wb * e * coord r i) by ring.
    rewrite Eub, Evb, Ewb. unfold e, bqr, brp, bpq, d, orient2d, flat. cbn [fst snd]. ring. }
  assert (Bbj : coord b j = ub * coord p j + vb * coord q j + wb * coord r j).
  { apply (Rmult_eq_reg_r e); [|exact He']. replace ((ub * coord p j + vb * coord q j + wb * coord r j) * e) with (ub * e * coord p j + vb * e * coord q j + wb * e * coord r j) by ring.
    rewrite Eub, Evb, Ewb. unfold e, bqr, brp, bpq, d, orient2d, flat. cbn [fst snd]. ring. }
  (* the exits in these coordinates *)
  assert (sc : forall x y z o, o * e = y -> y + z * (x * e - y) = (o + z * (x - o)) * e) by (intros x y z o <-; ring).
  rewrite (sc u _ m ua Eua) in G1, G. rewrite (sc v _ m va Eva) in G2, G. rewrite (sc w _ m wa Ewa) in G3, G.
  rewrite (sc u _ n ub Eub) in K1, K. rewrite (sc v _ n vb Evb) in K2, K. rewrite (sc w _ n wb Ewb) in K3, K.
  rewrite <- Eua, <- Eva, <- Ewa in G. rewrite <- Eub, <- Evb, <- Ewb in K.
  assert (pos : forall x, 0 <= x * e -> 0 <= x) by (intros x Hx; clear - Hx He; nra).
  assert (neg : forall x, x * e < 0 -> x < 0) by (intros x Hx; clear - Hx He; nra).
  assert (zero : forall x, x * e = 0 -> x = 0) by (intros x Hx; apply Rmult_integral in Hx; destruct Hx as [Hx|Hx]; [exact Hx|exfalso; clear - Hx He; lra]).
  apply pos in G1, G2, G3, K1, K2, K3.
  assert (G' : (ua < 0 /\ ua + m * (u - ua) = 0) \/ (va < 0 /\ va + m * (v - va) = 0) \/ (wa < 0 /\ wa + m * (w - wa) = 0))
    by (destruct G as [[g1 g2]|[[g1 g2]|[g1 g2]]]; [left|right; left|right; right]; split; auto).
  assert (K' : (ub < 0 /\ ub + n * (u - ub) = 0) \/ (vb < 0 /\ vb + n * (v - vb) = 0) \/ (wb < 0 /\ wb + n * (w - wb) = 0))
    by (destruct K as [[g1 g2]|[[g1 g2]|[g1 g2]]]; [left|right; left|right; right]; split; auto).
  clear G K sc pos neg zero Eua Eva Ewa Eub Evb Ewb.
  set (ga := coord a k - (ua * coord p k + va * coord q k + wa * coord r k)).
  set (gb := coord b k - (ub * coord p k + vb * coord q k + wb * coord r k)).
  assert (Zg : (1 - t) * ga + t * gb = 0).
  { rewrite <- X0. unfold gap, ga, gb. rewrite <- Mu', <- Mv', <- Mw'. ring. }
  apply (two_exits (m * t) (ua + m * (u - ua)) (va + m * (v - va)) (wa + m * (w - wa))
                   (1 - n * (1 - t)) (ub + n * (u - ub)) (vb + n * (v - vb)) (wb + n * (w - wb))).
  - split; [clear - Hm Hs; nra|]. repeat split; try assumption.
    + replace (ua + m * (u - ua) + (va + m * (v - va)) + (wa + m * (w - wa))) with ((1 - m) * (ua + va + wa) + m * (u + v + w)) by ring. rewrite Sua, E. ring.
    + replace (coord a i + m * t * (coord b i - coord a i)) with ((1 - m) * coord a i + m * (coord a i + t * (coord b i - coord a i))) by ring. rewrite Ei. rewrite Bai. ring.
    + replace (coord a j + m * t * (coord b j - coord a j)) with ((1 - m) * coord a j + m * (coord a j + t * (coord b j - coord a j))) by ring. rewrite Ej. rewrite Baj. ring.
  - split; [clear - Hn Hs; nra|]. repeat split; try assumption.
    + replace (ub + n * (u - ub) + (vb + n * (v - vb)) + (wb + n * (w - wb))) with ((1 - n) * (ub + vb + wb) + n * (u + v + w)) by ring. rewrite Sub, E. ring.
    + replace (coord a i + (1 - n * (1 - t)) * (coord b i - coord a i)) with ((1 - n) * coord b i + n * (coord a i + t * (coord b i - coord a i))) by ring. rewrite Ei. rewrite Bbi. ring.
    + replace (coord a j + (1 - n * (1 - t)) * (coord b j - coord a j)) with ((1 - n) * coord b j + n * (coord a j + t * (coord b j - coord a j))) by ring. rewrite Ej. rewrite Bbj. ring.
  - assert (H1 : gap (m * t) (ua + m * (u - ua)) (va + m * (v - va)) (wa + m * (w - wa)) = (1 - m) * ga + m * gap t u v w) by (unfold gap, ga; ring).
    assert (H2 : gap (1 - n * (1 - t)) (ub + n * (u - ub)) (vb + n * (v - vb)) (wb + n * (w - wb)) = (1 - n) * gb + n * gap t u v w) by (unfold gap, gb; ring).
    rewrite H1, H2, X0. assert (Pg : ga * gb <= 0).
    { clear - Zg Hs. destruct (Rle_lt_dec (ga * gb) 0) as [L|L]; [exact L|exfalso]. assert (C : (0 < ga /\ 0 < gb) \/ (ga < 0 /\ gb < 0)) by (destruct (Rle_lt_dec ga 0); destruct (Rle_lt_dec gb 0); nra). destruct C as [[C1 C2]|[C1 C2]]; nra. }
    assert (Pm : 0 <= (1 - m) * (1 - n)) by (apply Rmult_le_pos; lra).
    replace (((1 - m) * ga + m * 0) * ((1 - n) * gb + n * 0)) with ((1 - m) * (1 - n) * (ga * gb)) by ring. clear - Pg Pm. nra.
  - clear - G' K' Mu' Mv' Mw' Hu Hv Hw Hs.
    assert (C : forall x y z, (1 - t) * x + t * y = z -> 0 <= z -> x < 0 -> y < 0 -> False) by (intros x y z Q Z0 Q1 Q2; nra).
    destruct G' as [[g g']|[[g g']|[g g']]]; destruct K' as [[h h']|[[h h']|[h h']]]; try tauto; exfalso; eauto.
Qed.
End Segment.
End Axes.
