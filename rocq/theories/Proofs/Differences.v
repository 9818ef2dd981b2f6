From Coq Require Import Reals List Arith Lia Lra.
From Verif Require Import Proofs.LinAlg Proofs.Calculus Proofs.Rbfs Proofs.PositiveDefinite Model.LinAlg Model.Rbfs.
Local Open Scope R_scope.

(** * Limits of difference quotients *)
Definition tends (f : R -> R) (l : R) : Prop := forall eps, 0 < eps -> exists delta, 0 < delta /\ forall h, 0 < h < delta -> Rabs (f h - l) <= eps.
Lemma tends_cv : forall f l, tends f l -> Un_cv (fun n => f (/ INR (S n))) l.
Proof.
  intros f l T eps E. destruct (T (eps / 2) ltac:(lra)) as (delta & D & H).
  destruct (archimed (/ delta)) as [A _]. assert (DI : 0 < / delta) by (apply Rinv_0_lt_compat; auto).
  exists (Z.to_nat (up (/ delta))). intros n N. unfold R_dist.
  assert (NP : 0 < INR (S n)) by (apply lt_0_INR; lia).
  assert (L : / delta < INR (S n)).
  { assert (IZR (up (/ delta)) <= INR n). { rewrite INR_IZR_INZ. apply IZR_le. lia. } rewrite S_INR. lra. }
  assert (H2 : 0 < / INR (S n) < delta).
  { split; [apply Rinv_0_lt_compat; auto|]. rewrite <- (Rinv_inv delta). apply Rinv_lt_contravar; auto. apply Rmult_lt_0_compat; auto. }
  specialize (H (/ INR (S n)) H2). lra.
Qed.
Lemma tends_const : forall f l, (forall h, 0 < h -> f h = l) -> tends f l.
Proof. intros f l H eps E. exists 1. split; [lra|]. intros h L. rewrite H by lra. rewrite Rminus_eq_0, Rabs_R0. lra. Qed.
Lemma tends_ext : forall f g l, (forall h, 0 < h -> f h = g h) -> tends f l -> tends g l.
Proof. intros f g l H T eps E. destruct (T eps E) as (delta & D & B). exists delta. split; auto. intros h L. rewrite <- H by lra. auto. Qed.
Lemma tends_opp : forall f l, tends f l -> tends (fun h => - f h) (- l).
Proof.
  intros f l T eps E. destruct (T eps E) as (delta & D & B). exists delta. split; auto. intros h L. specialize (B h L).
  replace (- f h - - l) with (- (f h - l)) by ring. rewrite Rabs_Ropp. auto.
Qed.
Lemma tends_central : forall f l, derivable_pt_lim f 0 l -> tends (fun h => (f h - f (- h)) / (2 * h)) l.
Proof.
  intros f l D eps E. destruct (D eps E) as [delta H]. exists delta. split; [apply cond_pos|]. intros h L.
  pose proof (H h ltac:(lra) ltac:(rewrite Rabs_right; lra)) as A. pose proof (H (- h) ltac:(lra) ltac:(rewrite Rabs_Ropp, Rabs_right; lra)) as B.
  rewrite Rplus_0_l in A, B.
  replace ((f h - f (- h)) / (2 * h) - l) with (/ 2 * ((f h - f 0) / h - l) + / 2 * ((f (- h) - f 0) / - h - l)) by (field; lra).
  eapply Rle_trans; [apply Rabs_triang|]. rewrite !Rabs_mult, (Rabs_right (/ 2)) by lra. lra.
Qed.
(** A function of two variables that is differentiable at the origin. *)
Definition smooth2 (g : R -> R -> R) (a b : R) : Prop := forall eps, 0 < eps -> exists delta, 0 < delta /\ forall eta s r, 0 < eta < delta ->
  Rabs s <= eta -> Rabs r <= eta -> Rabs (g s r - g 0 0 - (s * a + r * b)) <= eps * eta.
Lemma tends_second : forall (f g : R -> R -> R) a b, (forall s r, derivable_pt_lim (f s) r (g s r)) -> smooth2 g a b ->
  tends (fun h => (f h h - f h (- h) - f (- h) h + f (- h) (- h)) / (4 * (h * h))) a.
Proof.
  intros f g a b D G eps E. destruct (G eps E) as (delta & DP & H). exists delta. split; auto. intros h L.
  assert (DF : forall r, derivable_pt_lim (fun r => f h r - f (- h) r) r (g h r - g (- h) r)).
  { intros r. apply (D_minus (f h) (f (- h))); auto. }
  destruct (MVT_cor2 (fun r => f h r - f (- h) r) (fun r => g h r - g (- h) r) (- h) h) as (xi & X & XI); [lra|intros; apply DF|].
  replace (f h h - f h (- h) - f (- h) h + f (- h) (- h)) with (f h h - f (- h) h - (f h (- h) - f (- h) (- h))) by ring. rewrite X.
  pose proof (H h h xi ltac:(lra) ltac:(rewrite Rabs_right; lra) ltac:(apply Rabs_le; lra)) as A.
  pose proof (H h (- h) xi ltac:(lra) ltac:(rewrite Rabs_Ropp, Rabs_right; lra) ltac:(apply Rabs_le; lra)) as B.
  replace ((g h xi - g (- h) xi) * (h - - h) / (4 * (h * h)) - a) with
    (/ (2 * h) * ((g h xi - g 0 0 - (h * a + xi * b)) - (g (- h) xi - g 0 0 - (- h * a + xi * b)))) by (field; lra).
  rewrite Rabs_mult, Rabs_right by (apply Rle_ge; left; apply Rinv_0_lt_compat; lra).
  apply Rmult_le_reg_l with (2 * h); [lra|]. rewrite <- Rmult_assoc, Rinv_r, Rmult_1_l by lra.
  pose proof (Rabs_triang (g h xi - g 0 0 - (h * a + xi * b)) (- (g (- h) xi - g 0 0 - (- h * a + xi * b)))) as T. rewrite Rabs_Ropp in T. unfold Rminus in *. lra.
Qed.

(** A radial coefficient times a linear function. *)
Section Radial.
Variable c : R -> R.
Variables q0 l0 ms mr qs qr a b e : R.
Definition lin2 (s r : R) : R := l0 + s * ms + r * mr.
Definition quad2 (s r : R) : R := q0 + s * qs + r * qr + (s * s * a + s * r * b + r * r * e).
Hypothesis nonneg : forall s r, 0 <= quad2 s r.
Let k := 1 + Rabs l0 + Rabs ms + Rabs mr + Rabs qs + Rabs qr + Rabs a + Rabs b + Rabs e.
Lemma k_pos : 1 <= k.
Proof.
  unfold k. pose proof (Rabs_pos l0). pose proof (Rabs_pos ms). pose proof (Rabs_pos mr). pose proof (Rabs_pos qs). pose proof (Rabs_pos qr).
  pose proof (Rabs_pos a). pose proof (Rabs_pos b). pose proof (Rabs_pos e). lra.
Qed.
Lemma abs_scale : forall s t x, Rabs s <= t -> Rabs (s * x) <= t * Rabs x.
Proof. intros. rewrite Rabs_mult. apply Rmult_le_compat_r; auto. apply Rabs_pos. Qed.
Lemma lin2_bound : forall eta s r, 0 < eta -> Rabs s <= eta -> Rabs r <= eta -> Rabs (s * ms + r * mr) <= k * eta.
Proof.
  intros eta s r E S0 R0. pose proof (abs_scale s eta ms S0). pose proof (abs_scale r eta mr R0). pose proof (Rabs_triang (s * ms) (r * mr)).
  assert (Rabs ms + Rabs mr <= k).
  { unfold k. pose proof (Rabs_pos l0). pose proof (Rabs_pos qs). pose proof (Rabs_pos qr). pose proof (Rabs_pos a). pose proof (Rabs_pos b). pose proof (Rabs_pos e). lra. }
  nra.
Qed.
Lemma quad2_bound : forall eta s r, 0 < eta <= 1 -> Rabs s <= eta -> Rabs r <= eta ->
  Rabs (s * s * a + s * r * b + r * r * e) <= k * (eta * eta) /\ Rabs (quad2 s r - q0) <= k * eta.
Proof.
  intros eta s r E S0 R0.
  assert (X : forall y z w, Rabs y <= eta -> Rabs z <= eta -> Rabs (y * z * w) <= eta * eta * Rabs w).
  { intros y z w Y Z. apply abs_scale. rewrite Rabs_mult. apply Rmult_le_compat; auto; apply Rabs_pos. }
  pose proof (X s s a S0 S0) as X1. pose proof (X s r b S0 R0) as X2. pose proof (X r r e R0 R0) as X3.
  pose proof (Rabs_triang (s * s * a + s * r * b) (r * r * e)) as T1. pose proof (Rabs_triang (s * s * a) (s * r * b)) as T2.
  assert (EE : 0 < eta * eta <= eta) by nra.
  pose proof (Rabs_pos l0). pose proof (Rabs_pos ms). pose proof (Rabs_pos mr). pose proof (Rabs_pos qs). pose proof (Rabs_pos qr).
  pose proof (Rabs_pos a). pose proof (Rabs_pos b). pose proof (Rabs_pos e).
  assert (B : Rabs (s * s * a + s * r * b + r * r * e) <= eta * eta * (Rabs a + Rabs b + Rabs e)) by nra. split.
  - eapply Rle_trans; [exact B|]. rewrite Rmult_comm. apply Rmult_le_compat_r; [lra|]. unfold k. lra.
  - unfold quad2. replace (q0 + s * qs + r * qr + (s * s * a + s * r * b + r * r * e) - q0) with (s * qs + r * qr + (s * s * a + s * r * b + r * r * e)) by ring.
    pose proof (abs_scale s eta qs S0) as Y1. pose proof (abs_scale r eta qr R0) as Y2.
    pose proof (Rabs_triang (s * qs + r * qr) (s * s * a + s * r * b + r * r * e)) as T3. pose proof (Rabs_triang (s * qs) (r * qr)) as T4.
    assert (eta * eta * (Rabs a + Rabs b + Rabs e) <= eta * (Rabs a + Rabs b + Rabs e)) by (apply Rmult_le_compat_r; lra).
    apply Rle_trans with (eta * (Rabs qs + Rabs qr + (Rabs a + Rabs b + Rabs e))); [lra|]. rewrite Rmult_comm. apply Rmult_le_compat_r; [lra|]. unfold k. lra.
Qed.
Lemma radial_smooth : forall beta, (exists g, agrees c g q0 /\ derivable_pt_lim g q0 beta) ->
  smooth2 (fun s r => c (quad2 s r) * lin2 s r) (c q0 * ms + beta * l0 * qs) (c q0 * mr + beta * l0 * qr).
Proof using nonneg.
  intros beta (g & (da & DA & AG) & DG) eps E. pose proof k_pos as K. pose proof (Rabs_pos beta) as BP.
  set (K2 := 4 * (k * k) * (1 + Rabs beta)). assert (KK : 1 <= k * k) by nra. assert (K2P : 0 < K2) by (unfold K2; nra).
  set (e' := Rmin 1 (eps / K2)). assert (EK : 0 < eps / K2) by (apply Rdiv_lt_0_compat; auto). assert (E' : 0 < e') by (apply Rmin_pos; lra).
  destruct (DG e' E') as [dg HG]. pose proof (cond_pos dg) as DGP.
  set (d0 := Rmin 1 (Rmin (da / k) (Rmin (dg / k) (eps / K2)))).
  assert (D0 : 0 < d0). { repeat apply Rmin_pos; try lra; apply Rdiv_lt_0_compat; lra. }
  assert (DL : d0 <= 1 /\ d0 <= da / k /\ d0 <= dg / k /\ d0 <= eps / K2).
  { unfold d0. pose proof (Rmin_l 1 (Rmin (da / k) (Rmin (dg / k) (eps / K2)))). pose proof (Rmin_r 1 (Rmin (da / k) (Rmin (dg / k) (eps / K2)))).
    pose proof (Rmin_l (da / k) (Rmin (dg / k) (eps / K2))). pose proof (Rmin_r (da / k) (Rmin (dg / k) (eps / K2))).
    pose proof (Rmin_l (dg / k) (eps / K2)). pose proof (Rmin_r (dg / k) (eps / K2)). lra. }
  exists d0. split; auto. intros eta s r H S0 R0. destruct DL as (L1 & L2 & L3 & L4).
  destruct (quad2_bound eta s r ltac:(lra) S0 R0) as [Q1 Q2]. pose proof (lin2_bound eta s r ltac:(lra) S0 R0) as Q3.
  set (y := quad2 s r - q0) in *. assert (QE : quad2 s r = q0 + y) by (unfold y; ring).
  assert (KE : k * eta < da /\ k * eta < dg).
  { split; apply Rmult_lt_reg_r with (/ k); try (apply Rinv_0_lt_compat; lra); replace (k * eta * / k) with eta by (field; lra); unfold Rdiv in *; lra. }
  assert (Q00 : 0 <= q0). { specialize (nonneg 0 0). unfold quad2 in nonneg. lra. }
  assert (C0 : c q0 = g q0). { apply AG; auto. rewrite Rminus_eq_0, Rabs_R0; auto. }
  assert (CQ : c (quad2 s r) = g (q0 + y)). { rewrite <- QE. apply AG; auto. fold y. lra. }
  assert (DD : Rabs (g (q0 + y) - g q0 - beta * y) <= e' * Rabs y).
  { destruct (Req_EM_T y 0) as [Z|Z].
    - rewrite Z, Rplus_0_r, Rabs_R0. replace (g q0 - g q0 - beta * 0) with 0 by ring. rewrite Rabs_R0. lra.
    - specialize (HG y Z ltac:(lra)). replace (g (q0 + y) - g q0 - beta * y) with (((g (q0 + y) - g q0) / y - beta) * y) by (field; auto).
      rewrite Rabs_mult. apply Rmult_le_compat_r; [apply Rabs_pos|lra]. }
  assert (Z00 : quad2 0 0 = q0 /\ lin2 0 0 = l0) by (unfold quad2, lin2; split; ring). destruct Z00 as [-> ->]. rewrite CQ, C0.
  set (m := s * s * a + s * r * b + r * r * e) in *. set (l := s * ms + r * mr) in *.
  replace (g (q0 + y) * lin2 s r - g q0 * l0 - (s * (g q0 * ms + beta * l0 * qs) + r * (g q0 * mr + beta * l0 * qr))) with
    ((g (q0 + y) - g q0 - beta * y) * l0 + (g (q0 + y) - g q0) * l + beta * l0 * m) by (unfold lin2, l, y, quad2; fold m; ring).
  assert (L0 : Rabs l0 <= k).
  { unfold k. pose proof (Rabs_pos ms). pose proof (Rabs_pos mr). pose proof (Rabs_pos qs). pose proof (Rabs_pos qr). pose proof (Rabs_pos a). pose proof (Rabs_pos b). pose proof (Rabs_pos e). lra. }
  assert (EL : e' <= 1 /\ e' <= eps / K2) by (split; [apply Rmin_l|apply Rmin_r]).
  assert (B1 : Rabs (g (q0 + y) - g q0 - beta * y) <= e' * (k * eta)). { eapply Rle_trans; [exact DD|]. apply Rmult_le_compat_l; lra. }
  assert (B2 : Rabs (g (q0 + y) - g q0) <= (1 + Rabs beta) * (k * eta)).
  { replace (g (q0 + y) - g q0) with ((g (q0 + y) - g q0 - beta * y) + beta * y) by ring. eapply Rle_trans; [apply Rabs_triang|]. rewrite (Rabs_mult beta).
    assert (Rabs beta * Rabs y <= Rabs beta * (k * eta)) by (apply Rmult_le_compat_l; auto). assert (0 <= k * eta) by nra. nra. }
  assert (B3 : Rabs (beta * l0 * m) <= Rabs beta * k * (k * (eta * eta))).
  { rewrite !Rabs_mult. apply Rmult_le_compat; auto; try apply Rabs_pos. { apply Rmult_le_pos; apply Rabs_pos. } apply Rmult_le_compat_l; auto. }
  assert (A1 : Rabs ((g (q0 + y) - g q0 - beta * y) * l0) <= e' * (k * eta) * k).
  { rewrite Rabs_mult. apply Rmult_le_compat; auto; apply Rabs_pos. }
  assert (A2 : Rabs ((g (q0 + y) - g q0) * l) <= (1 + Rabs beta) * (k * eta) * (k * eta)).
  { rewrite Rabs_mult. apply Rmult_le_compat; auto; apply Rabs_pos. }
  eapply Rle_trans; [apply Rabs_triang|]. eapply Rle_trans; [apply Rplus_le_compat_r, Rabs_triang|].
  apply Rle_trans with (e' * (k * eta) * k + (1 + Rabs beta) * (k * eta) * (k * eta) + Rabs beta * k * (k * (eta * eta))); [lra|].
  apply Rle_trans with (K2 * (eps / K2) * eta). 2:{ right. field. lra. }
  assert (EE : eta <= eps / K2) by lra. set (q := eps / K2) in *. clearbody q. unfold K2.
  assert (X1 : e' * (k * eta) * k <= k * k * q * eta). { replace (e' * (k * eta) * k) with (k * k * e' * eta) by ring. apply Rmult_le_compat_r; [lra|]. apply Rmult_le_compat_l; lra. }
  assert (X2 : k * k * eta * eta <= k * k * q * eta). { apply Rmult_le_compat_r; [lra|]. apply Rmult_le_compat_l; lra. }
  assert (X3 : 0 <= k * k * q * eta) by (repeat apply Rmult_le_pos; lra).
  replace ((1 + Rabs beta) * (k * eta) * (k * eta)) with ((1 + Rabs beta) * (k * k * eta * eta)) by ring.
  replace (Rabs beta * k * (k * (eta * eta))) with (Rabs beta * (k * k * eta * eta)) by ring.
  replace (4 * (k * k) * (1 + Rabs beta) * q * eta) with (4 * (1 + Rabs beta) * (k * k * q * eta)) by ring.
  set (w := k * k * eta * eta) in *. set (z := k * k * q * eta) in *. clearbody w z. clear - X1 X2 X3 BP. nra.
Qed.
Lemma radial_vanishing : vanishing c -> q0 = 0 -> l0 = 0 -> smooth2 (fun s r => c (quad2 s r) * lin2 s r) 0 0.
Proof using nonneg.
  intros V Q0 L0 eps E. pose proof k_pos as K. destruct (V (eps / k)) as (d & D & B); [apply Rdiv_lt_0_compat; lra|].
  set (d0 := Rmin 1 (d * d / k)). assert (D0 : 0 < d0). { apply Rmin_pos; [lra|]. apply Rdiv_lt_0_compat; [|lra]. apply Rmult_lt_0_compat; auto. }
  exists d0. split; auto. intros eta s r H S0 R0. assert (L1 : d0 <= 1) by apply Rmin_l. assert (L2 : d0 <= d * d / k) by apply Rmin_r.
  destruct (quad2_bound eta s r ltac:(lra) S0 R0) as [_ Q2]. pose proof (lin2_bound eta s r ltac:(lra) S0 R0) as Q3.
  replace (lin2 0 0) with 0 by (unfold lin2; rewrite L0; ring). replace (s * 0 + r * 0) with 0 by ring. rewrite Rmult_0_r, !Rminus_0_r.
  replace (lin2 s r) with (s * ms + r * mr) by (unfold lin2; rewrite L0; ring). rewrite Q0, Rminus_0_r, Rabs_right in Q2 by (apply Rle_ge; auto).
  assert (SQ : sqrt (quad2 s r) < d).
  { apply sqrt_below; auto. assert (k * eta < d * d); [|lra].
    apply Rmult_lt_reg_r with (/ k); [apply Rinv_0_lt_compat; lra|]. replace (k * eta * / k) with eta by (field; lra). unfold Rdiv in L2. lra. }
  specialize (B _ (nonneg s r) SQ). rewrite Rabs_mult.
  apply Rle_trans with (eps / k * (k * eta)). 2:{ right. field. lra. } apply Rmult_le_compat; auto; apply Rabs_pos.
Qed.
End Radial.
