From Coq Require Import Reals List Arith ZArith Lia Lra Psatz.
From Verif Require Import Model.LinAlg Model.Rbfs Spec.MonomialBasis Spec.Rbfs Proofs.LinAlg Proofs.MonomialBasis Proofs.Calculus Proofs.Rbfs.
Import ListNotations.
Local Open Scope R_scope.

Lemma sqrt_rr : forall r, 0 <= r -> sqrt (r * r) = r.
Proof. intros. apply sqrt_square. auto. Qed.
Lemma rho_mono : forall r r' p1, 0 < p1 -> r <= r' -> r / p1 <= r' / p1.
Proof. intros. apply Rmult_le_compat_r; auto. left. apply Rinv_0_lt_compat. auto. Qed.
Lemma rho_pos : forall r p1, 0 < p1 -> 0 <= r -> 0 <= r / p1.
Proof. intros. apply Rmult_le_pos; auto. left. apply Rinv_0_lt_compat. auto. Qed.
Lemma rho_lt1 : forall r p1, 0 < p1 -> r < p1 -> r / p1 < 1.
Proof. intros. apply (Rmult_lt_reg_r p1); auto. unfold Rdiv. rewrite Rmult_assoc, Rinv_l; lra. Qed.
Lemma sqrt_pow_mono : forall m x y, 0 <= x -> x <= y -> sqrt_pow m x <= sqrt_pow m y.
Proof.
  intros m x y X Y. unfold sqrt_pow. apply Rmult_le_compat; [apply pow_le; auto|apply sqrt_pos|apply pow_incr; auto|apply sqrt_le_1_alt; auto].
Qed.
Lemma sqrt_pow_1 : forall m, sqrt_pow m 1 = 1.
Proof. intros. unfold sqrt_pow. rewrite pow1, sqrt_1. lra. Qed.
Lemma exp_mono : forall x y, x <= y -> exp x <= exp y.
Proof. intros x y [L|E]; [left; apply exp_increasing; auto|subst; lra]. Qed.
Lemma inv_mono : forall x y, 0 < x -> x <= y -> / y <= / x.
Proof. intros. apply Rinv_le_contravar; auto. Qed.

(** Non-increasing, between 0 and [f 0]. *)
Definition decreasing (f : R -> R) : Prop := forall x y, 0 <= x -> x <= y -> f y <= f x.
Definition cub_p (x : R) : R := 1 + x * x * (-7 + x * (8.75 + x * x * (-3.5 + 0.75 * (x * x)))).
Lemma cub_p_mono : forall x y, 0 <= x -> x <= y -> y <= 1 -> cub_p y <= cub_p x.
Proof.
  intros x y X XY Y. destruct XY as [L|E]; [|subst; lra].
  destruct (MVT_cor2 cub_p (fun c => - (7 / 4) * c * ((1 - c) * (1 - c) * (1 - c)) * (8 + 9 * c + 3 * (c * c))) x y L) as (c & E & C).
  { intros c C. unfold cub_p. decimals. eapply D_val; [der|]. cbv beta. field. }
  assert (0 <= (7 / 4) * c * ((1 - c) * (1 - c) * (1 - c)) * (8 + 9 * c + 3 * (c * c))).
  { repeat apply Rmult_le_pos; try lra. nra. }
  nra.
Qed.
Definition sph_p (x : R) : R := 1 + x * (-1.5 + 0.5 * x * x).
Lemma sph_p_mono : forall x y, 0 <= x -> x <= y -> y <= 1 -> sph_p y <= sph_p x.
Proof.
  intros x y X XY Y. unfold sph_p. decimals. assert (E : 1 + x * (- 3 / 2 + 1 / 2 * x * x) - (1 + y * (- 3 / 2 + 1 / 2 * y * y)) = (y - x) * (3 / 2 - 1 / 2 * (x * x + x * y + y * y))) by field.
  assert (x * x + x * y + y * y <= 3) by nra. assert (0 <= (y - x) * (3 / 2 - 1 / 2 * (x * x + x * y + y * y))) by (apply Rmult_le_pos; lra). lra.
Qed.
Lemma compact_decreasing : forall (p : R -> R) p0 p1, 0 <= p0 -> 0 < p1 -> (forall x y, 0 <= x -> x <= y -> y <= 1 -> p y <= p x) -> p 1 = 0 ->
  decreasing (fun r => if lt_dec_b r p1 then p0 * p (r / p1) else 0).
Proof.
  intros p p0 p1 P0 P1 M Z x y X XY. destruct (Rlt_dec y p1) as [L|L].
  - rewrite !lt_true by lra. apply Rmult_le_compat_l; auto. apply M; [apply rho_pos; auto|apply rho_mono; auto|left; apply rho_lt1; auto].
  - rewrite (lt_false y) by lra. destruct (Rlt_dec x p1) as [L'|L'].
    + rewrite lt_true by auto. apply Rmult_le_pos; auto. rewrite <- Z. apply M; [apply rho_pos; auto|left; apply rho_lt1; auto|lra].
    + rewrite lt_false; lra.
Qed.
Lemma imq_decreasing : forall m K c p1, 0 <= K -> 0 <= c -> 0 < p1 -> decreasing (fun r => c * / sqrt_pow m (1 + K * (r / p1) * (r / p1))).
Proof.
  intros m K c p1 K0 C P x y X XY. apply Rmult_le_compat_l; auto. pose proof (rho_pos x p1 P X). pose proof (rho_mono x y p1 P XY).
  set (u := x / p1) in *. set (w := y / p1) in *. assert (0 <= K * u * u) by (apply Rmult_le_pos; [apply Rmult_le_pos|]; lra). apply inv_mono; [apply sqrt_pow_pos; lra|]. apply sqrt_pow_mono; [lra|].
  rewrite !Rmult_assoc. apply Rplus_le_compat_l. apply Rmult_le_compat_l; auto. nra.
Qed.
Lemma decreasing_ext : forall f g, (forall r, 0 <= r -> f r = g r) -> decreasing g -> decreasing f.
Proof. intros f g E D x y X XY. rewrite !E by lra. apply D; auto. Qed.
Theorem monotone : forall k p0 p1, covariance k -> ~ spheroidal k -> 0 <= p0 -> 0 < p1 -> decreasing (at_distance k p0 p1).
Proof.
  intros k p0 p1 C NS P0 P1. assert (GC : forall m, decreasing (fun r => gc_value m (gc_constant m) p0 p1 (r * r))).
  { intros m. pose proof (gc_constant_pos m). eapply decreasing_ext; [|apply (imq_decreasing m (gc_constant m) p0 p1); lra]. intros r R0. unfold gc_value. cbv zeta. rewrite sqrt_rr by auto. auto. }
  destruct k; cbn [covariance spheroidal] in *; try contradiction; unfold at_distance; cbn [value].
  - eapply decreasing_ext; [|apply (compact_decreasing cub_p p0 p1 P0 P1 cub_p_mono); unfold cub_p; lra]. intros r R0. unfold cub_value. cbv zeta. rewrite sqrt_rr by auto. auto.
  - intros x y X XY. unfold exp_value. cbv zeta. rewrite !sqrt_rr by lra. apply Rmult_le_compat_l; auto. apply exp_mono. pose proof (rho_mono x y p1 P1 XY). lra.
  - intros x y X XY. unfold gau_value. cbv zeta. rewrite !sqrt_rr by lra. apply Rmult_le_compat_l; auto. apply exp_mono. pose proof (rho_mono x y p1 P1 XY). pose proof (rho_pos x p1 P1 X). nra.
  - apply (GC 1%nat).
  - apply (GC 2%nat).
  - apply (GC 3%nat).
  - apply (GC 4%nat).
  - eapply decreasing_ext; [|apply (compact_decreasing sph_p p0 p1 P0 P1 sph_p_mono); unfold sph_p; lra]. intros r R0. unfold sph_value. cbv zeta. rewrite sqrt_rr by auto. auto.
Qed.

(** ** Spheroidal functions *)
Definition imq_at (sp : spheroid) (x : R) : R := kB sp * / sqrt_pow (sm sp) (1 + kC sp * x * x).
Lemma root_bounds : forall x lo hi, 0 <= lo -> 0 <= hi -> lo * lo <= x -> x <= hi * hi -> lo <= sqrt x <= hi.
Proof. intros x lo hi L H A B. split; [rewrite <- (sqrt_square lo) by auto|rewrite <- (sqrt_square hi) by auto]; apply sqrt_le_1_alt; auto. Qed.
Lemma bracket : forall B y lo hi v e, 0 < lo -> lo <= y <= hi -> B <= (v + e) * lo -> (v - e) * hi <= B -> 0 <= v - e -> 0 <= B -> Rabs (v - B * / y) <= e.
Proof.
  intros B y lo hi v e L [A C] U D VE B0. assert (Y : 0 < y) by lra. assert (Q : B = B * / y * y) by (field; lra). set (z := B * / y) in *.
  assert (Z0 : 0 <= z). { unfold z. apply Rmult_le_pos; auto. left. apply Rinv_0_lt_compat. auto. }
  apply Rabs_le. split.
  - assert (z * y <= (v + e) * y) by nra. assert (z <= v + e) by (apply (Rmult_le_reg_r y); auto). lra.
  - assert ((v - e) * y <= z * y) by nra. assert (v - e <= z) by (apply (Rmult_le_reg_r y); auto). lra.
Qed.
Lemma spheroid_facts : forall sp, In sp spheroids -> 0 < kRho0 sp /\ 0 < kA sp /\ kA sp * kRho0 sp < 1 /\ 0 < kB sp < 1 /\ 0 < kC sp /\
  Rabs (1 - kA sp * kRho0 sp - imq_at sp (kRho0 sp)) <= junction /\
  Rabs (kA sp - kD sp * kRho0 sp * / sqrt_pow (sm sp + 1) (1 + kC sp * kRho0 sp * kRho0 sp)) <= 2 * junction.
Proof.
  intros sp I. unfold spheroids in I. cbn [In] in I. unfold imq_at, sqrt_pow, junction.
  destruct I as [<-|[<-|[<-|[<-|[]]]]]; cbn [sp3 sp5 sp7 sp9 sm kRho0 kA kB kC kD kE Nat.add pow].
  - assert (RB : 1.118033988749894844893 <= sqrt (1 + 7.181510581693163 * 0.18657871684006438 * 0.18657871684006438) <= 1.118033988749894844894) by (apply root_bounds; lra).
    set (q := sqrt _) in *. clearbody q. set (x := 1 + 7.181510581693163 * 0.18657871684006438 * 0.18657871684006438) in *. repeat split; try lra.
    + apply (bracket _ _ ((x * 1) * 1.118033988749894844893) ((x * 1) * 1.118033988749894844894)); try split; try (apply Rmult_le_compat_l; [unfold x; lra|lra]); unfold x; lra.
    + apply (bracket _ _ ((x * (x * 1)) * 1.118033988749894844893) ((x * (x * 1)) * 1.118033988749894844894)); try split; try (apply Rmult_le_compat_l; [unfold x; lra|lra]); unfold x; lra.
  - assert (RB : 1.080123449734643374218 <= sqrt (1 + 2.5036086535164204 * 0.2580127411803573 * 0.2580127411803573) <= 1.080123449734643374219) by (apply root_bounds; lra).
    set (q := sqrt _) in *. clearbody q. set (x := 1 + 2.5036086535164204 * 0.2580127411803573 * 0.2580127411803573) in *. repeat split; try lra.
    + apply (bracket _ _ ((x * (x * 1)) * 1.080123449734643374218) ((x * (x * 1)) * 1.080123449734643374219)); try split; try (apply Rmult_le_compat_l; [unfold x; lra|lra]); unfold x; lra.
    + apply (bracket _ _ ((x * (x * (x * 1))) * 1.080123449734643374218) ((x * (x * (x * 1))) * 1.080123449734643374219)); try split; try (apply Rmult_le_compat_l; [unfold x; lra|lra]); unfold x; lra.
  - assert (RB : 1.060660171779821276648 <= sqrt (1 + 1.44208314742683 * 0.2944149476843637 * 0.2944149476843637) <= 1.060660171779821276649) by (apply root_bounds; lra).
    set (q := sqrt _) in *. clearbody q. set (x := 1 + 1.44208314742683 * 0.2944149476843637 * 0.2944149476843637) in *. repeat split; try lra.
    + apply (bracket _ _ ((x * (x * (x * 1))) * 1.060660171779821276648) ((x * (x * (x * 1))) * 1.060660171779821276649)); try split; try (apply Rmult_le_compat_l; [unfold x; lra|lra]); unfold x; lra.
    + apply (bracket _ _ ((x * (x * (x * (x * 1)))) * 1.060660171779821276648) ((x * (x * (x * (x * 1)))) * 1.060660171779821276649)); try split; try (apply Rmult_le_compat_l; [unfold x; lra|lra]); unfold x; lra.
  - assert (RB : 1.048808848170151549041 <= sqrt (1 + 1 * 0.31622776601683794 * 0.31622776601683794) <= 1.048808848170151549042) by (apply root_bounds; lra).
    set (q := sqrt _) in *. clearbody q. set (x := 1 + 1 * 0.31622776601683794 * 0.31622776601683794) in *. repeat split; try lra.
    + apply (bracket _ _ ((x * (x * (x * (x * 1)))) * 1.048808848170151549041) ((x * (x * (x * (x * 1)))) * 1.048808848170151549042)); try split; try (apply Rmult_le_compat_l; [unfold x; lra|lra]); unfold x; lra.
    + apply (bracket _ _ ((x * (x * (x * (x * (x * 1))))) * 1.048808848170151549041) ((x * (x * (x * (x * (x * 1))))) * 1.048808848170151549042)); try split; try (apply Rmult_le_compat_l; [unfold x; lra|lra]); unfold x; lra.
Qed.
Lemma at_full : forall sp p0 p1 r, 0 < p1 -> 0 <= r ->
  at_distance (Sp sp Full) p0 p1 r = if lt_dec_b (r / p1) (kRho0 sp) then p0 * (1 - kA sp * (r / p1)) else p0 * imq_at sp (r / p1).
Proof. intros sp p0 p1 r P R0. unfold at_distance. cbn [value sp_value]. unfold lin_value, imq_value, imq_at. rewrite sqrt_rr by auto. destruct (lt_dec_b _ _); auto. unfold Rdiv. ring. Qed.
Lemma imq_at_decreasing : forall sp, 0 <= kC sp -> 0 <= kB sp -> decreasing (imq_at sp).
Proof.
  intros sp C B x y X XY. unfold imq_at. apply Rmult_le_compat_l; auto. assert (0 <= kC sp * x * x) by (apply Rmult_le_pos; [apply Rmult_le_pos|]; lra).
  apply inv_mono; [apply sqrt_pow_pos; lra|]. apply sqrt_pow_mono; [lra|]. rewrite !Rmult_assoc. apply Rplus_le_compat_l. apply Rmult_le_compat_l; auto. nra.
Qed.
Theorem spheroidal_monotone : forall sp p0 p1 r r', In sp spheroids -> 0 <= p0 -> 0 < p1 -> 0 <= r -> r <= r' ->
  at_distance (Sp sp Full) p0 p1 r' <= at_distance (Sp sp Full) p0 p1 r + junction * p0.
Proof.
  intros sp p0 p1 r r' I P0 P1 R0 RR. destruct (spheroid_facts sp I) as (S1 & S2 & S3 & S4 & S5 & S6 & _). rewrite !at_full by lra.
  pose proof (rho_pos r p1 P1 R0) as X. pose proof (rho_mono r r' p1 P1 RR) as XY. set (x := r / p1) in *. set (y := r' / p1) in *.
  assert (J : 0 <= junction * p0) by (unfold junction; lra). pose proof (imq_at_decreasing sp ltac:(lra) ltac:(lra)) as M.
  destruct (Rlt_dec y (kRho0 sp)) as [L|L].
  - rewrite !lt_true by lra. assert (p0 * (1 - kA sp * y) <= p0 * (1 - kA sp * x)) by (apply Rmult_le_compat_l; nra). lra.
  - rewrite (lt_false y) by lra. destruct (Rlt_dec x (kRho0 sp)) as [L'|L'].
    + rewrite lt_true by auto. pose proof (M (kRho0 sp) y ltac:(lra) ltac:(lra)) as M1.
      assert (S6' : imq_at sp (kRho0 sp) <= 1 - kA sp * kRho0 sp + junction). { pose proof (Rle_abs (- (1 - kA sp * kRho0 sp - imq_at sp (kRho0 sp)))). rewrite Rabs_Ropp in H. lra. }
      assert (p0 * imq_at sp y <= p0 * (1 - kA sp * x + junction)) by (apply Rmult_le_compat_l; nra). lra.
    + rewrite lt_false by lra. assert (p0 * imq_at sp y <= p0 * imq_at sp x) by (apply Rmult_le_compat_l; auto; apply M; lra). lra.
Qed.
Theorem junctions : forall sp p0 p1, In sp spheroids -> 0 <= p0 -> 0 < p1 ->
  let s := (kRho0 sp * p1) * (kRho0 sp * p1) in
  Rabs (lin_value sp p0 p1 s - imq_value sp p0 p1 s) <= junction * p0 /\
  Rabs ((lin_coeff sp p0 p1 s - imq_coeff sp p0 p1 s) * (kRho0 sp * p1)) <= 2 * junction * (p0 / p1).
Proof.
  intros sp p0 p1 I P0 P1 s. destruct (spheroid_facts sp I) as (S1 & S2 & S3 & S4 & S5 & S6 & S7).
  assert (Q : sqrt s = kRho0 sp * p1) by (apply sqrt_square; nra). assert (RHO : kRho0 sp * p1 / p1 = kRho0 sp) by (field; lra).
  unfold lin_value, imq_value, lin_coeff, imq_coeff. rewrite Q, RHO. split.
  - replace (p0 * (1 - kA sp * kRho0 sp) - p0 * kB sp / sqrt_pow (sm sp) (1 + kC sp * kRho0 sp * kRho0 sp)) with (p0 * (1 - kA sp * kRho0 sp - imq_at sp (kRho0 sp))) by (unfold imq_at, Rdiv; ring).
    rewrite Rabs_mult, (Rabs_right p0) by lra. nra.
  - assert (W : 0 < sqrt_pow (sm sp + 1) (1 + kC sp * kRho0 sp * kRho0 sp)) by (apply sqrt_pow_pos; nra). set (w := sqrt_pow _ _) in *. clearbody w.
    replace ((- p0 * kA sp / (kRho0 sp * p1 * p1) - - p0 * kD sp / (w * p1 * p1)) * (kRho0 sp * p1)) with (- ((p0 / p1) * (kA sp - kD sp * kRho0 sp * / w))) by (field; lra).
    rewrite Rabs_Ropp, Rabs_mult. assert (0 <= p0 / p1) by (apply rho_pos; auto). rewrite (Rabs_right (p0 / p1)) by lra. nra.
Qed.

(** ** The sill and the bounds *)
Theorem sill : forall k p0 p1, covariance k -> 0 < p1 -> at_distance k p0 p1 0 = p0.
Proof.
  intros k p0 p1 C P1. assert (Z : sqrt (0 * 0) = 0) by (apply sqrt_rr; lra). assert (Z' : 0 / p1 = 0) by (unfold Rdiv; ring).
  assert (GC : forall m, gc_value m (gc_constant m) p0 p1 (0 * 0) = p0). { intros m. unfold gc_value. cbv zeta. rewrite Z, Z'. replace (1 + gc_constant m * 0 * 0) with 1 by ring. rewrite sqrt_pow_1. field. }
  destruct k; cbn [covariance] in C; try contradiction; unfold at_distance; cbn [value].
  - unfold cub_value. cbv zeta. rewrite Z, Z', lt_true by auto. ring.
  - unfold exp_value. cbv zeta. rewrite Z, Z'. replace (-3 * 0) with 0 by ring. rewrite exp_0. ring.
  - unfold gau_value. cbv zeta. rewrite Z, Z'. replace (-3 * 0 * 0) with 0 by ring. rewrite exp_0. ring.
  - apply (GC 1%nat).
  - apply (GC 2%nat).
  - apply (GC 3%nat).
  - apply (GC 4%nat).
  - unfold sph_value. cbv zeta. rewrite Z, Z', lt_true by auto. ring.
  - destruct C as [I ->]. destruct (spheroid_facts sp I) as (S1 & _). unfold sp_value, lin_value. rewrite Z, Z', lt_true by auto. ring.
Qed.
Lemma nonneg : forall k p0 p1 r, covariance k -> 0 <= p0 -> 0 < p1 -> 0 <= r -> 0 <= at_distance k p0 p1 r.
Proof.
  intros k p0 p1 r C P0 P1 R0. pose proof (rho_pos r p1 P1 R0) as X.
  assert (IM : forall m K c, 0 <= K -> 0 <= c -> 0 <= c / sqrt_pow m (1 + K * (r / p1) * (r / p1))).
  { intros m K c K0 C0. apply Rmult_le_pos; auto. left. apply Rinv_0_lt_compat, sqrt_pow_pos. assert (0 <= K * (r / p1) * (r / p1)) by (apply Rmult_le_pos; [apply Rmult_le_pos|]; lra). lra. }
  destruct k; cbn [covariance] in C; try contradiction; unfold at_distance; cbn [value].
  - unfold cub_value. cbv zeta. rewrite sqrt_rr by auto. destruct (Rlt_dec r p1) as [L|L]; [rewrite lt_true by auto|rewrite lt_false by lra; lra].
    apply Rmult_le_pos; auto. pose proof (cub_p_mono (r / p1) 1 X ltac:(left; apply rho_lt1; auto) ltac:(lra)) as M. unfold cub_p in M. lra.
  - unfold exp_value. cbv zeta. apply Rmult_le_pos; auto. left. apply exp_pos.
  - unfold gau_value. cbv zeta. apply Rmult_le_pos; auto. left. apply exp_pos.
  - unfold gc_value. cbv zeta. rewrite sqrt_rr by auto. apply IM; auto. left. apply gc_constant_pos.
  - unfold gc_value. cbv zeta. rewrite sqrt_rr by auto. apply IM; auto. left. apply gc_constant_pos.
  - unfold gc_value. cbv zeta. rewrite sqrt_rr by auto. apply IM; auto. left. apply gc_constant_pos.
  - unfold gc_value. cbv zeta. rewrite sqrt_rr by auto. apply IM; auto. left. apply (gc_constant_pos 4).
  - unfold sph_value. cbv zeta. rewrite sqrt_rr by auto. destruct (Rlt_dec r p1) as [L|L]; [rewrite lt_true by auto|rewrite lt_false by lra; lra].
    apply Rmult_le_pos; auto. pose proof (sph_p_mono (r / p1) 1 X ltac:(left; apply rho_lt1; auto) ltac:(lra)) as M. unfold sph_p in M. lra.
  - destruct C as [I ->]. destruct (spheroid_facts sp I) as (S1 & S2 & S3 & S4 & S5 & _). pose proof (at_full sp p0 p1 r P1 R0) as AF. unfold at_distance in AF. cbn [value] in AF. rewrite AF.
    destruct (Rlt_dec (r / p1) (kRho0 sp)) as [L|L]; [rewrite lt_true by auto|rewrite lt_false by lra]; apply Rmult_le_pos; auto; [nra|]. apply (IM (sm sp) (kC sp) (kB sp)); lra.
Qed.
Theorem bounds : forall k p0 p1 r, covariance k -> 0 <= p0 -> 0 < p1 -> 0 <= r -> 0 <= at_distance k p0 p1 r <= p0.
Proof.
  intros k p0 p1 r C P0 P1 R0. split; [apply nonneg; auto|].
  assert (MON : ~ spheroidal k -> at_distance k p0 p1 r <= p0). { intros NS. pose proof (monotone k p0 p1 C NS P0 P1 0 r ltac:(lra) R0) as M. rewrite (sill k p0 p1 C P1) in M. auto. }
  destruct k; try (apply MON; intros []; fail); try (destruct C; fail).
  destruct C as [I ->]. destruct (spheroid_facts sp I) as (S1 & S2 & S3 & S4 & S5 & _). pose proof (rho_pos r p1 P1 R0) as X. rewrite at_full by auto.
  assert (P1' : forall z, z <= 1 -> p0 * z <= p0) by (intros z Z; replace p0 with (p0 * 1) at 2 by ring; apply Rmult_le_compat_l; auto).
  destruct (lt_dec_b (r / p1) (kRho0 sp)); apply P1'.
  - assert (0 <= kA sp * (r / p1)) by (apply Rmult_le_pos; lra). lra.
  - pose proof (imq_at_decreasing sp ltac:(lra) ltac:(lra) 0 (r / p1) ltac:(lra) X) as M. apply Rle_trans with (1 := M). unfold imq_at. replace (1 + kC sp * 0 * 0) with 1 by ring. rewrite sqrt_pow_1, Rinv_1. lra.
Qed.
Theorem support : forall k p0 p1, k = Cub \/ k = Sph -> 0 < p1 ->
  (forall r, p1 <= r -> at_distance k p0 p1 r = 0) /\ derivable_pt_lim (at_distance k p0 p1) p1 0.
Proof.
  intros k p0 p1 K P1. split.
  - intros r L. destruct K as [-> | ->]; unfold at_distance; cbn [value]; unfold cub_value, sph_value; cbv zeta; rewrite sqrt_rr, lt_false by lra; auto.
  - assert (FACT : exists G, agrees (value k p0 p1) G (p1 * p1) /\ derivable_pt_lim G (p1 * p1) (0 / 2)).
    { assert (P2 : 0 < p1 * p1) by nra. assert (L : lt_dec_b (sqrt (p1 * p1)) p1 = false) by (rewrite sqrt_rr by lra; apply lt_false; lra). destruct K as [-> | ->]; cbn [value].
      - pose proof (compact_grad (cub_value p0 p1) (cub_poly p0 p1) (cub_poly' p0 p1) p1 (p1 * p1) P1 P2 ltac:(reflexivity)) as CG. rewrite L in CG. apply CG; [| |intros; apply D_cub; auto].
        + unfold cub_poly. cbv zeta. rewrite sqrt_pp by auto. lra.
        + unfold cub_poly'. cbv zeta. rewrite sqrt_pp by auto. decimals. field. lra.
      - pose proof (compact_grad (sph_value p0 p1) (sph_poly p0 p1) (sph_poly' p0 p1) p1 (p1 * p1) P1 P2 ltac:(reflexivity)) as CG. rewrite L in CG. apply CG; [| |intros; apply D_sph; auto].
        + unfold sph_poly. cbv zeta. rewrite sqrt_pp by auto. lra.
        + unfold sph_poly'. cbv zeta. rewrite sqrt_pp by auto. decimals. field. lra. }
    destruct FACT as (G & (delta & DP & AG) & DG). unfold at_distance.
    assert (SQ : derivable_pt_lim (fun r => r * r) p1 (2 * p1)) by (eapply D_val; [der|lra]).
    destruct (D_continuous (fun r => r * r) p1 _ delta SQ DP) as (d1 & D1 & CC). apply (D_local _ (fun r => G (r * r))).
    + exists d1. split; auto. intros t T. apply AG; [apply Rle_0_sqr|]. apply CC. auto.
    + eapply D_val; [apply (D_comp (fun r => r * r) G); [exact SQ|exact DG]|]. lra.
Qed.
(** The constants of sp5 as written leave a step up of about 6e-17 of the sill. *)
Theorem step_up : exists r r', 0 <= r <= r' /\ at_distance (Sp sp5 Full) 1 1 r < at_distance (Sp sp5 Full) 1 1 r'.
Proof.
  exists (0.2580127411803573 - 0.00000000000000001), 0.2580127411803573. split; [lra|]. rewrite !at_full by lra. unfold Rdiv. rewrite Rinv_1, !Rmult_1_r, !Rmult_1_l.
  cbn [sp5 kRho0 kA]. rewrite lt_true, lt_false by lra. unfold imq_at, sqrt_pow. cbn [sp5 sm kB kC pow]. set (x := 1 + 2.5036086535164204 * 0.2580127411803573 * 0.2580127411803573).
  assert (RB : 1.080123449734643374218 <= sqrt x <= 1.080123449734643374219) by (apply root_bounds; unfold x; lra). set (q := sqrt x) in *. clearbody q.
  assert (X : 0 < x * (x * 1)) by (unfold x; lra). assert (Y : x * (x * 1) * q <= x * (x * 1) * 1.080123449734643374219) by (apply Rmult_le_compat_l; lra).
  assert (Y0 : 0 < x * (x * 1) * q) by (apply Rmult_lt_0_compat; lra). apply (Rmult_lt_reg_r (x * (x * 1) * q)); auto. rewrite (Rmult_assoc 0.8575980168032007), Rinv_l by lra. rewrite Rmult_1_r.
  apply Rle_lt_trans with ((1 - 1.6149073288415876 * (0.2580127411803573 - 0.00000000000000001)) * (x * (x * 1) * 1.080123449734643374219)); [apply Rmult_le_compat_l; lra|]. unfold x. lra.
Qed.
