From Coq Require Import Reals List ZArith Lra.
From Verif Require Import Proofs.PrimitiveLattice.
From Verif Require Import Model.Clip Model.PointTriangle Model.Predicates Model.Solver Model.Lattice Model.PrimitiveLattice Model.SeedTracking Model.SeedGradient Spec.PrimitiveLattice Spec.Lattice Spec.SeedTracking Spec.SeedGradient.
Import ListNotations.
Local Open Scope R_scope.

Lemma cramer : forall u v w a b c, Predicates.det3 u v w <> 0 ->
  a * px u + b * px v + c * px w = 0 -> a * py u + b * py v + c * py w = 0 -> a * pz u + b * pz v + c * pz w = 0 -> a = 0 /\ b = 0 /\ c = 0.
Proof.
  intros u v w a b c D X Y Z.
  assert (H : a * Predicates.det3 u v w = 0 /\ b * Predicates.det3 u v w = 0 /\ c * Predicates.det3 u v w = 0).
  { unfold Predicates.det3. split; [|split].
    - transitivity ((a * px u + b * px v + c * px w) * (py v * pz w - pz v * py w) - (a * py u + b * py v + c * py w) * (px v * pz w - pz v * px w) + (a * pz u + b * pz v + c * pz w) * (px v * py w - py v * px w)); [ring|rewrite X, Y, Z; ring].
    - transitivity (- (a * px u + b * px v + c * px w) * (py u * pz w - pz u * py w) + (a * py u + b * py v + c * py w) * (px u * pz w - pz u * px w) - (a * pz u + b * pz v + c * pz w) * (px u * py w - py u * px w)); [ring|rewrite X, Y, Z; ring].
    - transitivity ((a * px u + b * px v + c * px w) * (py u * pz v - pz u * py v) - (a * py u + b * py v + c * py w) * (px u * pz v - pz u * px v) + (a * pz u + b * pz v + c * pz w) * (px u * py v - py u * px v)); [ring|rewrite X, Y, Z; ring]. }
  destruct H as (A & B & C). split; [|split]; [destruct (Rmult_integral _ _ A)|destruct (Rmult_integral _ _ B)|destruct (Rmult_integral _ _ C)]; tauto.
Qed.
(** Seven points in opposite pairs around one of them. *)
Lemma fit_seven : forall p u v w b0 bu bv bw cu cv cw g h, Predicates.det3 u v w <> 0 ->
  let l := [(p, b0); (add3 p u, bu); (add3 p v, bv); (add3 p w, bw); (sub3 p u, cu); (sub3 p v, cv); (sub3 p w, cw)] in
  (forall i, (i < 4)%nat -> normal_matrix l i 0 * px g + normal_matrix l i 1 * py g + normal_matrix l i 2 * pz g + normal_matrix l i 3 * h = normal_rhs l i) ->
  dot3 g u = (bu - cu) / 2 /\ dot3 g v = (bv - cv) / 2 /\ dot3 g w = (bw - cw) / 2.
Proof.
  intros p u v w b0 bu bv bw cu cv cw g h D l H.
  pose proof (H 0%nat ltac:(auto)) as H0. pose proof (H 1%nat ltac:(auto)) as H1. pose proof (H 2%nat ltac:(auto)) as H2. pose proof (H 3%nat ltac:(auto)) as H3. clear H.
  unfold normal_matrix, normal_rhs, sum_over, l in *. cbn [fold_right fst snd grow] in *. unfold add3, sub3, dot3 in *. destruct p as [[p0 p1] p2], g as [[g0 g1] g2].
  destruct u as [[u0 u1] u2], v as [[v0 v1] v2], w as [[w0 w1] w2]. unfold px, py, pz in *. cbn [fst snd] in *.
  set (cU := 2 * (g0 * u0 + g1 * u1 + g2 * u2) - (bu - cu)). set (cV := 2 * (g0 * v0 + g1 * v1 + g2 * v2) - (bv - cv)). set (cW := 2 * (g0 * w0 + g1 * w1 + g2 * w2) - (bw - cw)).
  destruct (cramer (u0, u1, u2) (v0, v1, v2) (w0, w1, w2) cU cV cW D) as (A & B & C); unfold px, py, pz, cU, cV, cW; cbn [fst snd].
  - apply (f_equal (fun t => t * p0)) in H3. lra.
  - apply (f_equal (fun t => t * p1)) in H3. lra.
  - apply (f_equal (fun t => t * p2)) in H3. lra.
  - unfold cU, cV, cW in A, B, C. split; [|split]; lra.
Qed.
Section Position.
Variables (lo hi : pt) (basis : triangle).
Notation pos := (position lo hi basis).
Lemma position_add : forall x d, pos (lc_add x d) = add3 (pos x) (comb (of_lc d) basis).
Proof.
  intros [[x0 x1] x2] [[d0 d1] d2]. unfold PrimitiveLattice.position. destruct basis as [[r0 r1] r2]. unfold lc_add, of_lc, comb, add3, scale3. generalize (origin lo hi (r0, r1, r2)). intros o.
  unfold px, py, pz. cbn [fst snd]. rewrite !plus_IZR. f_equal; [f_equal|]; ring.
Qed.
Lemma position_sub : forall x d0 d1 d2, pos (lc_add x (- d0, - d1, - d2)%Z) = sub3 (pos x) (comb (of_lc (d0, d1, d2)) basis).
Proof.
  intros x d0 d1 d2. rewrite position_add. unfold of_lc. rewrite !opp_IZR. destruct basis as [[r0 r1] r2]. unfold comb, add3, sub3, scale3, px, py, pz. cbn [fst snd].
  f_equal; [f_equal|]; ring.
Qed.
Theorem gradient_spec : forall solve val x, det basis <> 0 -> solved solve (normal_matrix (samples pos val x)) (normal_rhs (samples pos val x)) ->
  forall e, In e [1; 3; 5]%nat ->
  dot3 (gradient solve pos val x) (sub3 (pos (neighbor x e)) (pos x)) = (Rabs (val (neighbor x e)) - Rabs (val (neighbor x (opposite e)))) / 2.
Proof.
  intros solve val x D S e E.
  set (u := comb (of_lc (1, 0, 1)%Z) basis). set (v := comb (of_lc (1, 1, 0)%Z) basis). set (w := comb (of_lc (0, 1, 1)%Z) basis).
  assert (D3 : Predicates.det3 u v w <> 0).
  { replace (Predicates.det3 u v w) with (2 * det basis); [lra|]. unfold u, v, w, det, of_lc. destruct basis as [[r0 r1] r2]. unfold comb, Predicates.det3, add3, scale3, px, py, pz. cbn [fst snd]. ring. }
  assert (L : samples pos val x = [(pos x, Rabs (val x)); (add3 (pos x) u, Rabs (val (neighbor x 1))); (add3 (pos x) v, Rabs (val (neighbor x 3))); (add3 (pos x) w, Rabs (val (neighbor x 5)));
    (sub3 (pos x) u, Rabs (val (neighbor x 8))); (sub3 (pos x) v, Rabs (val (neighbor x 10))); (sub3 (pos x) w, Rabs (val (neighbor x 12)))]).
  { unfold samples, gradient_nodes. cbn [map]. unfold u, v, w. rewrite <- !position_add, <- !position_sub. reflexivity. }
  unfold gradient. cbv zeta. rewrite L in *. set (l := _ :: _) in *. set (s := solve (normal_matrix l) (normal_rhs l)) in *.
  destruct (fit_seven (pos x) u v w (Rabs (val x)) (Rabs (val (neighbor x 1))) (Rabs (val (neighbor x 3))) (Rabs (val (neighbor x 5))) (Rabs (val (neighbor x 8))) (Rabs (val (neighbor x 10))) (Rabs (val (neighbor x 12)))
    (s 0%nat, s 1%nat, s 2%nat) (s 3%nat) D3) as (A & B & C).
  { intros i I0. exact (S i I0). }
  assert (Q : forall d, sub3 (pos (lc_add x d)) (pos x) = comb (of_lc d) basis).
  { intros d. rewrite position_add. unfold add3, sub3. generalize (comb (of_lc d) basis). intros [[c0 c1] c2]. unfold px, py, pz. cbn [fst snd]. f_equal; [f_equal|]; ring. }
  unfold neighbor at 1. rewrite Q. destruct E as [<-|[<-|[<-|[]]]]; [exact A|exact B|exact C].
Qed.
End Position.

Lemma corrected_spec : forall c g v w, dot3 g g = 1 -> corrected (Some c) (Some g) v = Some w ->
  dot3 (sub3 w c) g = 0 /\ v = add3 (sub3 w c) (scale3 (dot3 v g) g).
Proof.
  intros [[c0 c1] c2] [[g0 g1] g2] [[v0 v1] v2] w U H. injection H as <-. unfold dot3, add3, sub3, scale3, px, py, pz in *. cbn [fst snd] in *. split.
  - transitivity ((v0 * g0 + v1 * g1 + v2 * g2) * (1 - (g0 * g0 + g1 * g1 + g2 * g2))); [ring|]. rewrite U. ring.
  - f_equal; [f_equal|]; ring.
Qed.
Lemma shorter_spec : forall a b c g, shorter (corrected (Some c) (Some g) a) (corrected (Some c) (Some g) b) = true <->
  forall x y, length_of (Some c) (Some g) a x -> length_of (Some c) (Some g) b y -> x < y.
Proof.
  intros a b c g. unfold length_of, shorter. cbn [corrected]. destruct (Rlt_dec _ _) as [L|L]; split; try discriminate; auto.
  - intros _ x y (w1 & [= <-] & ->) (w2 & [= <-] & ->). exact L.
  - intros H. exfalso. apply L. apply H; eexists; split; reflexivity.
Qed.
Theorem nearest_spec : forall pos c g x ys y0, let y := nearest pos (Some c) (Some g) x y0 ys in
  In y (y0 :: ys) /\ forall z d d', In z (y0 :: ys) -> length_of (Some c) (Some g) (sub3 (pos y) (pos x)) d -> length_of (Some c) (Some g) (sub3 (pos z) (pos x)) d' -> d <= d'.
Proof.
  intros pos c g x. unfold nearest. cbv zeta. induction ys as [|y ys IH]; intros y0; cbn [fold_left].
  - split; [left; auto|]. intros z d d' [<-|[]] (w1 & E1 & ->) (w2 & E2 & ->). rewrite E1 in E2. injection E2 as <-. apply Rle_refl.
  - match goal with |- context [fold_left ?f ys ?b] => specialize (IH b); set (best := b) in *; set (r := fold_left f ys best) in * end.
    destruct IH as [I1 I2].
    assert (L : forall v, exists d, length_of (Some c) (Some g) v d) by (intros v; eexists; eexists; split; reflexivity).
    assert (BB : (best = y0 \/ best = y) /\ (forall d d', length_of (Some c) (Some g) (sub3 (pos best) (pos x)) d -> length_of (Some c) (Some g) (sub3 (pos y0) (pos x)) d' -> d <= d') /\
                 forall d d', length_of (Some c) (Some g) (sub3 (pos best) (pos x)) d -> length_of (Some c) (Some g) (sub3 (pos y) (pos x)) d' -> d <= d').
    { assert (U : forall v d d', length_of (Some c) (Some g) v d -> length_of (Some c) (Some g) v d' -> d <= d').
      { intros v d d' (w1 & E1 & ->) (w2 & E2 & ->). rewrite E1 in E2. injection E2 as <-. apply Rle_refl. }
      unfold best. destruct (shorter _ _) eqn:SH.
      - split; auto. split; [|eauto]. intros d d' A B. rewrite shorter_spec in SH. left. apply SH; auto.
      - split; auto. split; [eauto|]. intros d d' A B. destruct (Rle_dec d d') as [Q|Q]; auto. exfalso. assert (T : forall P : bool, P = false -> P <> true) by congruence. apply (T _ SH).
        apply shorter_spec. intros e e' A' B'. pose proof (U _ _ _ A' B). pose proof (U _ _ _ A B'). lra. }
    destruct BB as (B1 & B2 & B3). split.
    + destruct I1 as [I1|I1]; [rewrite <- I1; destruct B1 as [-> | ->]; [left|right; left]; auto|right; right; auto].
    + intros z d d' [<-|[<-|Z]] A B.
      * destruct (L (sub3 (pos best) (pos x))) as [m M]. apply Rle_trans with m; [apply (I2 best d m (or_introl eq_refl) A M)|eauto].
      * destruct (L (sub3 (pos best) (pos x))) as [m M]. apply Rle_trans with m; [apply (I2 best d m (or_introl eq_refl) A M)|eauto].
      * apply (I2 z d d'); auto. right. auto.
Qed.
