From Coq Require Import Reals List Arith Lia Lra.
From Verif Require Import Proofs.LinAlg Proofs.PositiveDefinite Proofs.PositiveKinds Model.LinAlg Model.Rbfs Spec.PositiveDefinite.
Local Open Scope R_scope.

(** * Functions that dominate Gaussians *)
Definition gauss (t s : R) : R := exp (- t * s).
Definition times (n : nat) (a b : nat -> nat -> R) (c : nat -> R) : R := quad n (fun i j => a i j * b i j) c.
Definition over (f : R -> R) : Prop := exists t1 t2 k, 0 < t1 <= t2 /\ 0 < k /\
  forall n d x b c w, multiplier n b -> 0 <= w -> (forall t, t1 <= t <= t2 -> w <= times n (kern d x (gauss t)) b c) ->
  k * w <= times n (kern d x f) b c.

Lemma over_mult : forall f g, over f -> over g -> cm g -> over (fun s => f s * g s).
Proof.
  intros f g (t1 & t2 & k & T & K & F) (u1 & u2 & l & U & L & G) C.
  exists (t1 + u1), (t2 + u2), (k * l). split; [lra|]. split; [apply Rmult_lt_0_compat; auto|].
  intros n d x b c w B W H.
  unfold times. rewrite (quad_ext n _ (fun i j => kern d x f i j * (kern d x g i j * b i j))) by (intros; unfold kern; ring).
  rewrite Rmult_assoc. apply (F n d x (fun i j => kern d x g i j * b i j) c (l * w)).
  - apply mult_mult; auto.
  - apply Rmult_le_pos; lra.
  - intros t T0. unfold times. rewrite (quad_ext n _ (fun i j => kern d x g i j * (kern d x (gauss t) i j * b i j))) by (intros; ring).
    apply (G n d x (fun i j => kern d x (gauss t) i j * b i j) c w); auto.
    { apply mult_mult; auto. apply (cm_gauss t). lra. }
    intros u U0. eapply Rle_trans; [apply (H (t + u)); lra|]. right. apply quad_ext. intros i j _ _. rewrite <- Rmult_assoc. f_equal.
    unfold kern, gauss. rewrite <- exp_plus. f_equal. ring.
Qed.
Lemma over_scal : forall f g p, 0 < p -> (forall s, 0 <= s -> g s = p * f s) -> over f -> over g.
Proof.
  intros f g p P E (t1 & t2 & k & T & K & F). exists t1, t2, (p * k). split; auto. split; [apply Rmult_lt_0_compat; auto|].
  intros n d x b c w B W H. unfold times. rewrite (quad_ext n _ (fun i j => p * (kern d x f i j * b i j))).
  - rewrite quad_scal, Rmult_assoc. apply Rmult_le_compat_l; [lra|]. apply (F n d x b c w); auto.
  - intros. unfold kern. rewrite E by apply distance2_nonneg. ring.
Qed.
Lemma riem_low_times : forall n d x b g f c low, 0 <= low -> (forall t, 0 < t -> 0 <= times n (kern d x (g t)) b c) ->
  (forall t, 1 <= t <= 2 -> low <= times n (kern d x (g t)) b c) ->
  (forall s, 0 <= s -> Un_cv (fun m => riem m (fun t => g t s)) (f s)) -> low <= times n (kern d x f) b c.
Proof.
  intros n d x b g f c low L P H C.
  assert (V : Un_cv (fun m => times n (kern d x (fun s => riem m (fun t => g t s))) b c) (times n (kern d x f) b c)).
  { apply cv_quad. intros i j _ _. apply (CV_mult (fun m => kern d x (fun s => riem m (fun t => g t s)) i j) (fun _ => b i j)); [|apply cv_const].
    apply C, distance2_nonneg. }
  apply (cv_low _ _ _ 2%nat) with (2 := V). intros m M.
  assert (E : times n (kern d x (fun s => riem m (fun t => g t s))) b c = riem m (fun t => times n (kern d x (g t)) b c)).
  { unfold times, riem. rewrite <- quad_rsum, <- quad_scal. apply quad_ext. intros. unfold kern. rewrite rsum_scal_r. ring. }
  rewrite E. apply riem_above; auto.
Qed.
(** 1 / (a + s), uniformly in a bounded [a]. *)
Lemma over_inv_uniform : forall top a n d x b c w, 0 < a <= top -> multiplier n b -> 0 <= w ->
  (forall t, 1 <= t <= 2 -> w <= times n (kern d x (gauss t)) b c) ->
  exp (- 2 * top) * w <= times n (kern d x (fun s => / (a + s))) b c.
Proof.
  intros top a n d x b c w A B W H. pose proof (exp_pos (- 2 * top)) as E.
  assert (G : forall t, times n (kern d x (fun s => exp (- t * (a + s)))) b c = exp (- t * a) * times n (kern d x (gauss t)) b c).
  { intros t. unfold times. rewrite <- quad_scal. apply quad_ext. intros. unfold kern. rewrite inv_split. unfold gauss. ring. }
  apply (riem_low_times n d x b (fun t s => exp (- t * (a + s)))).
  - apply Rmult_le_pos; lra.
  - intros t T. rewrite G. apply Rmult_le_pos; [left; apply exp_pos|]. apply mult_nonneg. apply mult_mult; auto. apply (cm_gauss t). lra.
  - intros t T. rewrite G. apply Rmult_le_compat; auto; try lra. apply exp_le. nra.
  - intros s S0. apply riem_exp. lra.
Qed.
Lemma over_inv : forall a, 0 < a -> over (fun s => / (a + s)).
Proof.
  intros a A. exists 1, 2, (exp (- 2 * a)). split; [lra|]. split; [apply exp_pos|]. intros n d x b c w B W H. apply over_inv_uniform; auto. lra.
Qed.
Lemma over_invsqrt : forall a, 0 < a -> over (fun s => / sqrt (a + s)).
Proof.
  intros a A. apply (over_scal (fun s => PI / 2 * / sqrt (a + s)) _ (2 / PI)).
  { apply Rdiv_lt_0_compat; [lra|apply PI_RGT_0]. }
  { intros s S0. field. split; [apply Rgt_not_eq, sqrt_lt_R0; lra|apply PI_neq0]. }
  exists 1, 2, (/ 4 * exp (- 2 * (1 + a))). pose proof (exp_pos (- 2 * (1 + a))) as EP. split; [lra|]. split; [lra|].
  intros n d x b c w B W H.
  assert (G : forall t, 0 < t -> times n (kern d x (fun s => / (1 + (a + s) * (t * t)))) b c =
    / (t * t) * times n (kern d x (fun s => / ((/ (t * t) + a) + s))) b c).
  { intros t T. assert (T2 : 0 < t * t) by (apply Rmult_lt_0_compat; auto). assert (T3 : 0 < / (t * t)) by (apply Rinv_0_lt_compat; auto).
    unfold times. rewrite <- quad_scal. apply quad_ext. intros i j _ _. unfold kern. set (s := distance2 d (x i) (x j)).
    assert (0 <= s) by apply distance2_nonneg. rewrite <- (Rmult_assoc (/ (t * t))). f_equal.
    assert (0 < / (t * t) + a + s) by lra. assert (0 < 1 + (a + s) * (t * t)) by nra. rewrite <- Rinv_mult. f_equal. field. lra. }
  apply (riem_low_times n d x b (fun t s => / (1 + (a + s) * (t * t)))).
  - repeat apply Rmult_le_pos; lra.
  - intros t T. rewrite G by auto. assert (T2 : 0 < t * t) by (apply Rmult_lt_0_compat; auto). assert (T3 : 0 < / (t * t)) by (apply Rinv_0_lt_compat; auto).
    apply Rmult_le_pos; [lra|]. apply mult_nonneg. apply mult_mult; auto. apply (cm_inv (/ (t * t) + a)). lra.
  - intros t T. rewrite G by lra. assert (T2 : 1 <= t * t <= 4) by nra. assert (T3 : / 4 <= / (t * t)) by (apply Rinv_le_contravar; lra).
    assert (T4 : 0 < / (t * t) <= 1). { split; [apply Rinv_0_lt_compat; lra|]. rewrite <- Rinv_1. apply Rinv_le_contravar; lra. }
    rewrite Rmult_assoc. apply Rmult_le_compat; try lra.
    + apply Rmult_le_pos; lra.
    + apply over_inv_uniform; auto. lra.
  - intros s S0. apply riem_invsqrt. lra.
Qed.
Lemma over_gc : forall m kA psill range, 0 < kA -> 0 < psill -> 0 < range -> over (gc_value m kA psill range).
Proof.
  intros m kA psill range A P G. set (h := range * range / kA).
  assert (R2 : 0 < range * range) by (apply Rmult_lt_0_compat; auto). assert (H : 0 < h) by (apply Rdiv_lt_0_compat; auto).
  assert (K : 0 < kA / (range * range)) by (apply Rdiv_lt_0_compat; auto). set (q := kA / (range * range)) in *.
  assert (Q0 : 0 < psill / (q ^ m * sqrt q)).
  { apply Rdiv_lt_0_compat; auto. apply Rmult_lt_0_compat; [apply pow_lt; auto|apply sqrt_lt_R0; auto]. }
  apply (over_scal (fun s => (/ (h + s)) ^ m * / sqrt (h + s)) _ (psill / (q ^ m * sqrt q))); auto.
  - intros s S0. unfold gc_value, sqrt_pow.
    assert (E : 1 + kA * (sqrt s / range) * (sqrt s / range) = q * (h + s)).
    { unfold q, h. replace (kA * (sqrt s / range) * (sqrt s / range)) with (kA * (sqrt s * sqrt s) / (range * range)) by (field; lra).
      rewrite sqrt_sqrt by auto. field. lra. }
    assert (HS : 0 < h + s) by lra. rewrite E, sqrt_mult, Rpow_mult_distr, pow_inv by lra.
    assert (0 < (h + s) ^ m) by (apply pow_lt; auto). assert (0 < q ^ m) by (apply pow_lt; auto).
    pose proof (sqrt_lt_R0 q K). pose proof (sqrt_lt_R0 (h + s) HS). field. repeat split; lra.
  - clear Q0. assert (X : over (fun s => (/ (h + s)) ^ m * / sqrt (h + s)) /\ cm (fun s => (/ (h + s)) ^ m * / sqrt (h + s))); [|tauto].
    induction m.
    + split.
      * apply (over_scal (fun s => / sqrt (h + s)) _ 1); [lra|intros; cbn; ring|]. apply over_invsqrt; auto.
      * apply (cm_ext (fun s => / sqrt (h + s))); [intros; cbn; ring|]. apply cm_invsqrt; auto.
    + destruct IHm as [I1 I2]. split.
      * apply (over_scal (fun s => / (h + s) * ((/ (h + s)) ^ m * / sqrt (h + s))) _ 1); [lra|intros; cbn; ring|].
        apply (over_mult (fun s => / (h + s)) (fun s => (/ (h + s)) ^ m * / sqrt (h + s))); auto. apply over_inv; auto.
      * apply (cm_ext (fun s => / (h + s) * ((/ (h + s)) ^ m * / sqrt (h + s)))); [intros; cbn; ring|].
        apply (cm_mult (fun s => / (h + s)) (fun s => (/ (h + s)) ^ m * / sqrt (h + s))); auto. apply cm_inv; auto.
Qed.

(** The same on weights with vanishing moments. *)
Definition above (m : nat) (f : R -> R) : Prop := exists t1 t2 k, 0 < t1 <= t2 /\ 0 < k /\
  forall n d x c w, moments n d x m c -> 0 <= w -> (forall t, t1 <= t <= t2 -> w <= quad n (kern d x (gauss t)) c) ->
  k * w <= quad n (kern d x f) c.
Lemma times_one : forall n a c, times n a (fun _ _ => 1) c = quad n a c.
Proof. intros. apply quad_ext. intros; ring. Qed.
Lemma above_over : forall m f, over f -> above m f.
Proof.
  intros m f (t1 & t2 & k & T & K & F). exists t1, t2, k. split; auto. split; auto. intros n d x c w _ W H.
  rewrite <- times_one. apply (F n d x (fun _ _ => 1) c w); auto; [apply mult_one|]. intros. rewrite times_one. auto.
Qed.
Lemma above_scal : forall m f g p, 0 < p -> (forall s, 0 <= s -> g s = p * f s) -> above m f -> above m g.
Proof.
  intros m f g p P E (t1 & t2 & k & T & K & F). exists t1, t2, (p * k). split; auto. split; [apply Rmult_lt_0_compat; auto|].
  intros n d x c w M W H. rewrite (quad_ext n _ (fun i j => p * kern d x f i j)).
  - rewrite quad_scal, Rmult_assoc. apply Rmult_le_compat_l; [lra|]. apply (F n d x c w); auto.
  - intros. unfold kern. rewrite E by apply distance2_nonneg. ring.
Qed.
Lemma above_cpd : forall m top f, (exists w a q0 q1 q2, (1 <= m)%nat /\
    (forall t, 0 < t -> 0 <= w t /\ 0 < a t /\ ((m < 2)%nat -> q1 t = 0) /\ ((m < 3)%nat -> q2 t = 0)) /\
    (forall t, 1 <= t <= 2 -> 1 <= w t /\ a t <= top) /\
    (forall s, 0 <= s -> Un_cv (fun m => riem m (fun t => w t * / (a t + s) + (q0 t + q1 t * s + q2 t * (s * s)))) (f s))) -> above m f.
Proof.
  intros m top f (w & a & q0 & q1 & q2 & M & P & B & V). exists 1, 2, (exp (- 2 * top)). split; [lra|]. split; [apply exp_pos|].
  intros n d x c u C U H. pose proof (exp_pos (- 2 * top)) as EP.
  assert (G : forall t, 0 < t -> quad n (kern d x (fun s => w t * / (a t + s) + (q0 t + q1 t * s + q2 t * (s * s)))) c =
    w t * quad n (kern d x (fun s => / (a t + s))) c).
  { intros t T. destruct (P t T) as (_ & _ & P1 & P2).
    rewrite (quad_ext n _ (fun i j => w t * kern d x (fun s => / (a t + s)) i j + kern d x (fun s => q0 t + q1 t * s + q2 t * (s * s)) i j)) by reflexivity.
    rewrite quad_plus, quad_scal, (moment_poly n d x m); auto. ring. }
  apply (riem_low n d x (fun t s => w t * / (a t + s) + (q0 t + q1 t * s + q2 t * (s * s)))); auto.
  - apply Rmult_le_pos; lra.
  - intros t T. rewrite G by auto. destruct (P t T) as (W & A & _). apply Rmult_le_pos; auto. apply mult_nonneg. apply cm_inv; auto.
  - intros t T. rewrite G by lra. destruct (B t T) as [W A]. destruct (P t ltac:(lra)) as (_ & A0 & _).
    assert (X : exp (- 2 * top) * u <= quad n (kern d x (fun s => / (a t + s))) c).
    { rewrite <- times_one. apply over_inv_uniform; auto; [apply mult_one|]. intros. rewrite times_one. auto. }
    assert (0 <= exp (- 2 * top) * u) by (apply Rmult_le_pos; lra). nra.
Qed.
Lemma kind_above : forall k m p0 p1, k <> Exp -> definite_order k = Some m -> 0 < p0 -> (m = 0%nat -> 0 < p1) -> above m (value k p0 p1).
Proof.
  intros k m p0 p1 N O P R1. apply (kind_cases (above m) k m p0 p1); auto.
  - intros f g p. apply above_scal.
  - intros; contradiction.
  - intros M t T. exists t, t, 1. split; [lra|]. split; [lra|]. intros n d x c w _ W H. rewrite Rmult_1_l. apply H. lra.
  - intros M j a J A. apply above_over. apply over_gc; auto.
  - intros f H. apply (above_cpd m (p1 * p1 + 4)). exact H.
Qed.

(** * Gaussians against products of linear functions *)
Lemma gauss_test : forall d m a t1 t2, 0 < t1 <= t2 -> exists k, 0 < k /\ forall n x c t, t1 <= t <= t2 ->
  let u := rsum n (fun i => c i * (exp (- t * dot d (x i) (x i)) * rprod m (fun l => dot (S d) (a l) (lift d (x i) 1)))) in
  k * (u * u) <= quad n (kern d x (gauss t)) c.
Proof.
  intros d m a t1 t2 T. set (K := rprod m (fun l => dot (S d) (a l) (a l))).
  assert (K0 : 0 <= K) by (apply rprod_nonneg; intros; apply rsum_pos; intros; apply Rle_0_sqr).
  pose proof (fact_pos m) as F. pose proof (exp_pos (- 2 * t2)) as E2. assert (T2 : 0 < (2 * t1) ^ m) by (apply pow_lt; lra).
  exists (exp (- 2 * t2) * (/ INR (fact m) * (2 * t1) ^ m) / (K + 1)). split.
  { apply Rdiv_lt_0_compat; [|lra]. repeat apply Rmult_lt_0_compat; auto. }
  intros n x c t T0 u. set (v := fun i => exp (- t * dot d (x i) (x i))). set (c' := fun i => c i * v i).
  set (y := fun i => lift d (x i) 1). assert (Y : forall i j, dot (S d) (y i) (y j) = dot d (x i) (x j) + 1) by (intros; unfold y; rewrite dot_lift; ring).
  rewrite (quad_ext n _ (fun i j => (exp (- 2 * t) * exp (2 * t * (dot d (x i) (x j) + 1))) * (v i * v j))).
  2:{ intros i' j' _ _. unfold kern, gauss, v. rewrite <- !exp_plus. f_equal. rewrite distance2_dot. ring. }
  rewrite quad_twist, quad_scal. fold c'.
  assert (MB : multiplier n (fun i j => 2 * t * (dot d (x i) (x j) + 1))).
  { apply (mult_scal n (2 * t) (fun i j => dot d (x i) (x j) + 1)); [lra|].
    apply (mult_plus n (fun i j => dot d (x i) (x j)) (fun _ _ => 1)); [apply mult_dot|apply mult_one]. }
  pose proof (mult_nonneg n _ c' (mult_exp_above n (fun i j => 2 * t * (dot d (x i) (x j) + 1)) m MB)) as M.
  rewrite (quad_ext n _ (fun i j => exp (2 * t * (dot d (x i) (x j) + 1)) + (- (/ INR (fact m) * (2 * t) ^ m)) * (dot d (x i) (x j) + 1) ^ m)) in M.
  2:{ intros. rewrite (Rpow_mult_distr (2 * t)). ring. }
  rewrite quad_plus, quad_scal in M.
  pose proof (mult_nonneg n _ c' (mult_powers_above n (S d) y m a)) as B. fold K in B.
  rewrite (quad_ext n _ (fun i j => K * (dot d (x i) (x j) + 1) ^ m + (-1) * (rprod m (fun l => dot (S d) (a l) (y i)) * rprod m (fun l => dot (S d) (a l) (y j))))) in B.
  2:{ intros i j _ _. rewrite Y. ring. }
  rewrite quad_plus, !quad_scal, quad_rank in B.
  set (Q := quad n (fun i j => (dot d (x i) (x j) + 1) ^ m) c') in *. set (X := quad n (fun i j => exp (2 * t * (dot d (x i) (x j) + 1))) c') in *.
  assert (UE : rsum n (fun i => c' i * rprod m (fun l => dot (S d) (a l) (y i))) = u).
  { unfold u. apply rsum_ext. intros. unfold c', v, y. ring. }
  rewrite UE in B.
  assert (Q0 : 0 <= Q).
  { unfold Q. apply mult_nonneg. apply (mult_pow n (fun i j => dot d (x i) (x j) + 1)). apply mult_plus; [apply mult_dot|apply mult_one]. }
  pose proof (Rle_0_sqr u) as U0. unfold Rsqr in U0.
  assert (KQ : u * u / (K + 1) <= Q).
  { apply Rmult_le_reg_l with (K + 1); [lra|]. replace ((K + 1) * (u * u / (K + 1))) with (u * u) by (field; lra). lra. }
  assert (TT : (2 * t1) ^ m <= (2 * t) ^ m) by (apply pow_incr; lra).
  assert (EE : exp (- 2 * t2) <= exp (- 2 * t)) by (apply exp_le; lra).
  assert (D0 : 0 <= u * u / (K + 1)) by (apply Rmult_le_pos; [lra|left; apply Rinv_0_lt_compat; lra]).
  assert (FT : 0 < / INR (fact m) * (2 * t1) ^ m) by (apply Rmult_lt_0_compat; auto).
  replace (exp (- 2 * t2) * (/ INR (fact m) * (2 * t1) ^ m) / (K + 1) * (u * u)) with (exp (- 2 * t2) * (/ INR (fact m) * (2 * t1) ^ m * (u * u / (K + 1)))) by (unfold Rdiv; ring).
  apply Rmult_le_compat; try lra.
  { apply Rmult_le_pos; lra. }
  apply Rle_trans with (/ INR (fact m) * (2 * t) ^ m * Q); [|lra].
  apply Rmult_le_compat; try lra. apply Rmult_le_compat_l; lra.
Qed.
