From Coq Require Import Reals List Arith Lia Lra.
From Verif Require Import Proofs.LinAlg Proofs.PositiveDefinite Model.LinAlg Model.Rbfs Spec.PositiveDefinite.
Local Open Scope R_scope.

(** * Weights with vanishing moments *)
Lemma moment_const : forall n c a, rsum n c = 0 -> quad n (fun _ _ => a) c = 0.
Proof.
  intros n c a H. rewrite (quad_ext n _ (fun i j => (fun _ => a) i * (fun _ => 1) j)) by (intros; ring). rewrite quad_rank.
  rewrite !rsum_scal_r, H. ring.
Qed.
Lemma moment_row : forall n c p, rsum n c = 0 -> quad n (fun i _ => p i) c = 0 /\ quad n (fun _ j => p j) c = 0.
Proof.
  intros n c p H. split.
  - rewrite (quad_ext n _ (fun i j => p i * (fun _ => 1) j)) by (intros; ring). rewrite quad_rank, (rsum_scal_r n 1), H. ring.
  - rewrite (quad_ext n _ (fun i j => (fun _ => 1) i * p j)) by (intros; ring). rewrite quad_rank, (rsum_scal_r n 1), H. ring.
Qed.
Lemma quad_dot : forall n d x p c, quad n (fun i j => p i * dot d (x i) (x j)) c =
  rsum d (fun e => rsum n (fun i => c i * (p i * x i e)) * rsum n (fun i => c i * x i e)).
Proof.
  intros. rewrite (quad_ext n _ (fun i j => rsum d (fun e => (p i * x i e) * x j e))).
  2:{ intros. unfold dot. rewrite <- rsum_scal. apply rsum_ext; intros; ring. }
  rewrite (quad_rsum n d (fun e i j => p i * x i e * x j e)). apply rsum_ext. intros e _. apply (quad_rank n (fun i => p i * x i e) (fun j => x j e)).
Qed.
Lemma quad_sym : forall n a c, quad n (fun i j => a j i) c = quad n a c.
Proof.
  intros. unfold quad. rewrite rsum_swap. apply rsum_ext; intros. apply rsum_ext; intros. ring.
Qed.
Lemma dot_sym : forall d p q, dot d p q = dot d q p.
Proof. intros. apply rsum_ext; intros; ring. Qed.
Lemma moment_distance : forall n d x c, moments n d x 2 c -> quad n (kern d x (fun s => s)) c = 0.
Proof.
  intros n d x c (M1 & M2 & _). specialize (M1 ltac:(lia)). specialize (M2 ltac:(lia)).
  rewrite (quad_ext n _ (fun i j => (dot d (x i) (x i) + dot d (x j) (x j)) + (-2) * (1 * dot d (x i) (x j)))).
  2:{ intros. unfold kern. rewrite distance2_dot. ring. }
  rewrite !quad_plus, quad_scal, (quad_dot n d x (fun _ => 1)). destruct (moment_row n c (fun i => dot d (x i) (x i)) M1) as [A B].
  rewrite A, B. rewrite (rsum_0 d); [ring|]. intros e E. rewrite (M2 e E). ring.
Qed.
Lemma moment_distance2 : forall n d x c, moments n d x 3 c -> quad n (kern d x (fun s => s * s)) c = 0.
Proof.
  intros n d x c (M1 & M2 & M3). specialize (M1 ltac:(lia)). specialize (M2 ltac:(lia)). specialize (M3 ltac:(lia)).
  set (p := fun i => dot d (x i) (x i)).
  rewrite (quad_ext n _ (fun i j => ((p i * p i + p j * p j) + 2 * (p i * p j)) + (4 * (dot d (x i) (x j) * dot d (x i) (x j))
     + (-4) * (p i * dot d (x i) (x j) + p j * dot d (x j) (x i))))).
  2:{ intros. unfold kern. rewrite distance2_dot, (dot_sym d (x j) (x i)). unfold p. ring. }
  rewrite !quad_plus, !quad_scal, !quad_plus. destruct (moment_row n c (fun i => p i * p i) M1) as [A B]. rewrite A, B.
  rewrite (quad_rank n p p), (quad_sym n (fun i j => p i * dot d (x i) (x j))), (quad_dot n d x p).
  assert (P : rsum n (fun i => c i * p i) = 0).
  { rewrite (rsum_ext n _ (fun i => rsum d (fun e => c i * (x i e * x i e)))).
    2:{ intros. unfold p, dot. rewrite <- rsum_scal. reflexivity. }
    rewrite rsum_swap. apply rsum_0. intros e E. apply M3; auto. }
  rewrite P. rewrite (rsum_0 d). 2:{ intros e E. rewrite (M2 e E). ring. }
  rewrite (quad_ext n _ (fun i j => rsum d (fun e => rsum d (fun f => (x i e * x i f) * (x j e * x j f))))).
  2:{ intros i j _ _. unfold dot. rewrite <- rsum_scal_r. apply rsum_ext; intros e _. rewrite <- rsum_scal. apply rsum_ext; intros; ring. }
  rewrite (quad_rsum n d (fun e i j => rsum d (fun f => (x i e * x i f) * (x j e * x j f)))). rewrite rsum_0; [ring|]. intros e E.
  rewrite (quad_rsum n d (fun f i j => (x i e * x i f) * (x j e * x j f))). apply rsum_0. intros f F.
  rewrite (quad_rank n (fun i => x i e * x i f) (fun j => x j e * x j f)). rewrite M3; auto. ring.
Qed.
Lemma moments_less : forall n d x m k c, (k <= m)%nat -> moments n d x m c -> moments n d x k c.
Proof. intros n d x m k c L (A & B & C). repeat split; intros; [apply A|apply B|apply C]; auto; lia. Qed.
Lemma moment_poly : forall n d x m c a b e, (1 <= m)%nat -> moments n d x m c -> ((m < 2)%nat -> b = 0) -> ((m < 3)%nat -> e = 0) ->
  quad n (kern d x (fun s => a + b * s + e * (s * s))) c = 0.
Proof.
  intros n d x m c a b e L M B E.
  rewrite (quad_ext n _ (fun i j => (a + b * kern d x (fun s => s) i j) + e * kern d x (fun s => s * s) i j)) by reflexivity.
  rewrite !quad_plus, !quad_scal. rewrite moment_const by (apply M; lia).
  assert (X : b * quad n (kern d x (fun s => s)) c = 0).
  { destruct (le_lt_dec 2 m); [|rewrite B by lia; ring]. rewrite moment_distance; [ring|]. apply (moments_less n d x m); auto. }
  assert (Y : e * quad n (kern d x (fun s => s * s)) c = 0).
  { destruct (le_lt_dec 3 m); [|rewrite E by lia; ring]. rewrite moment_distance2; [ring|]. apply (moments_less n d x m); auto. }
  lra.
Qed.

(** * Conditionally definite functions *)
Lemma cpd_low : forall n d x top, distinct n d x -> exists low, 0 < low /\ forall m c, (1 <= m)%nat -> moments n d x m c ->
  forall (w a p0 p1 p2 : R -> R) f,
  (forall t, 0 < t -> 0 <= w t /\ 0 < a t /\ ((m < 2)%nat -> p1 t = 0) /\ ((m < 3)%nat -> p2 t = 0)) ->
  (forall t, 1 <= t <= 2 -> 1 <= w t /\ a t <= top) ->
  (forall s, 0 <= s -> Un_cv (fun m => riem m (fun t => w t * / (a t + s) + (p0 t + p1 t * s + p2 t * (s * s)))) (f s)) ->
  low * length2 n c <= quad n (kern d x f) c.
Proof.
  intros n d x top D. destruct (inv_low n d x top D) as (low & L & H). exists low. split; auto.
  intros m c M C w a p0 p1 p2 f P B V. pose proof (length2_pos n c) as N.
  assert (G : forall t, 0 < t -> quad n (kern d x (fun s => w t * / (a t + s) + (p0 t + p1 t * s + p2 t * (s * s)))) c =
    w t * quad n (kern d x (fun s => / (a t + s))) c).
  { intros t T. destruct (P t T) as (_ & _ & P1 & P2).
    rewrite (quad_ext n _ (fun i j => w t * kern d x (fun s => / (a t + s)) i j + kern d x (fun s => p0 t + p1 t * s + p2 t * (s * s)) i j)) by reflexivity.
    rewrite quad_plus, quad_scal, (moment_poly n d x m); auto. ring. }
  apply (riem_low n d x (fun t s => w t * / (a t + s) + (p0 t + p1 t * s + p2 t * (s * s)))); auto.
  - apply Rmult_le_pos; lra.
  - intros t T. rewrite G by auto. destruct (P t T) as (W & A & _). apply Rmult_le_pos; auto. apply mult_nonneg. apply cm_inv; auto.
  - intros t T. rewrite G by lra. destruct (B t T) as [W A]. destruct (P t ltac:(lra)) as (_ & A0 & _). specialize (H (a t) c (conj A0 A)).
    assert (0 <= low * length2 n c) by (apply Rmult_le_pos; lra). nra.
Qed.

Section Shift.
Variable k : R.
Hypothesis K : 0 <= k.
(** The multiquadric, its cube, and the thin plate functions, with [sigma = s + k]. *)
Lemma lim_mq : forall s, 0 <= s ->
  Un_cv (fun m => riem m (fun t => t * t * / ((k + t * t) + s) + (- 1 + 0 * s + 0 * (s * s)))) (PI / 2 * - sqrt (s + k)).
Proof using K.
  intros s S0. replace (PI / 2 * - sqrt (s + k)) with (- (PI / 2 * sqrt (s + k))) by ring.
  apply (cv_shift_ext (opp_seq (fun m => riem m (fun t => (s + k) / ((s + k) + t * t)))) _ _ 1%nat); [|apply CV_opp, riem_sqrt; lra].
  intros m M. unfold opp_seq. rewrite <- riem_opp. apply riem_ext; auto. intros t T. assert (0 < t * t) by (apply Rmult_lt_0_compat; auto). field. lra.
Qed.
Lemma lim_mq3 : forall s, 0 <= s ->
  Un_cv (fun m => riem m (fun t => t * t * (t * t) * / ((k + t * t) + s) + ((k - t * t) + 1 * s + 0 * (s * s)))) (PI / 2 * ((s + k) * sqrt (s + k))).
Proof using K.
  intros s S0. replace (PI / 2 * ((s + k) * sqrt (s + k))) with ((s + k) * (PI / 2 * sqrt (s + k))) by ring.
  apply (cv_shift_ext (fun m => (s + k) * riem m (fun t => (s + k) / ((s + k) + t * t))) _ _ 1%nat); [|apply cv_scal, riem_sqrt; lra].
  intros m M. unfold riem. rewrite <- Rmult_assoc, (Rmult_comm (s + k)), Rmult_assoc, <- rsum_scal.
  change (riem m (fun t => (s + k) * ((s + k) / (s + k + t * t))) =
    riem m (fun t => t * t * (t * t) * / ((k + t * t) + s) + ((k - t * t) + 1 * s + 0 * (s * s)))).
  apply riem_ext; auto. intros t T. assert (0 < t * t) by (apply Rmult_lt_0_compat; auto). field. lra.
Qed.
Definition xlog (a : R) : R := if Req_EM_T a 0 then 0 else a * ln a.
Lemma riem_scal : forall m a g, riem m (fun t => a * g t) = a * riem m g.
Proof. intros. unfold riem. rewrite rsum_scal. ring. Qed.
Lemma lim_tp : forall s, 0 <= s ->
  Un_cv (fun m => riem m (fun u => u * / ((k + u) + s) + ((- 1 + k / (1 + u)) + / (1 + u) * s + 0 * (s * s)))) (xlog (s + k)).
Proof using K.
  intros s S0. unfold xlog. destruct (Req_EM_T (s + k) 0) as [Z|Z].
  - apply (cv_shift_ext (fun _ => 0) _ _ 1%nat); [|apply cv_const]. intros m M. symmetry. apply riem_zero; auto. intros t T.
    assert (s = 0) by lra. assert (k = 0) by lra. subst s. rewrite H0. field. lra.
  - apply (cv_shift_ext (fun m => (s + k) * riem m (fun u => / (1 + u) - / ((s + k) + u))) _ _ 1%nat); [|apply cv_scal, riem_ln; lra].
    intros m M. rewrite <- riem_scal. apply riem_ext; auto. intros t T. field. lra.
Qed.
Lemma lim_tp4 : forall s, 0 <= s ->
  Un_cv (fun m => riem m (fun u => u * u * / ((k + u) + s) + ((k - u - k * k / (1 + u)) + (1 - 2 * k / (1 + u)) * s + - / (1 + u) * (s * s)))) (- ((s + k) * xlog (s + k))).
Proof using K.
  intros s S0. unfold xlog. destruct (Req_EM_T (s + k) 0) as [Z|Z].
  - rewrite Rmult_0_r, Ropp_0.
    apply (cv_shift_ext (fun _ => 0) _ _ 1%nat); [|apply cv_const]. intros m M. symmetry. apply riem_zero; auto. intros t T.
    assert (s = 0) by lra. assert (k = 0) by lra. subst s. rewrite H0. field. lra.
  - apply (cv_shift_ext (fun m => (- ((s + k) * (s + k))) * riem m (fun u => / (1 + u) - / ((s + k) + u))) _ _ 1%nat).
    + intros m M. rewrite <- riem_scal. apply riem_ext; auto. intros t T. field. lra.
    + replace (- ((s + k) * ((s + k) * ln (s + k)))) with ((- ((s + k) * (s + k))) * ln (s + k)) by ring. apply cv_scal, riem_ln. lra.
Qed.
End Shift.

(** * The exponential *)
Lemma exp_low : forall n d x k, 0 < k -> distinct n d x -> exists low, 0 < low /\
  forall c, low * length2 n c <= quad n (kern d x (fun s => exp (- k * sqrt s))) c.
Proof.
  intros n d x k K D. destruct (inv_low n d x 4 D) as (low & L & H).
  set (q := k * (2 / PI)). assert (PP := PI_RGT_0). assert (Q : 0 < q) by (apply Rmult_lt_0_compat; auto; apply Rdiv_lt_0_compat; lra).
  assert (QK : forall y, - k * y = - q * (PI / 2 * y)) by (intros; unfold q; field; lra). clearbody q.
  exists (exp (- (2 * q)) * (q * low)). pose proof (exp_pos (- (2 * q))) as E2. split. { repeat apply Rmult_lt_0_compat; auto. }
  intros c. pose proof (length2_pos n c) as N.
  set (J := fun t s => s / (s + t * t)). set (f := fun t s => t * t * / (t * t + s)).
  assert (JF : forall t s, 0 < t -> 0 <= s -> J t s = 1 - f t s).
  { intros t s T S0. unfold J, f. assert (0 < t * t) by (apply Rmult_lt_0_compat; auto). field. lra. }
  assert (FC : forall t, 0 < t -> cm (f t)).
  { intros t T. assert (0 < t * t) by (apply Rmult_lt_0_compat; auto). apply cm_scal; [lra|]. apply cm_inv; auto. }
  assert (LIM : forall s, 0 <= s -> Un_cv (fun m => exp (- q * riem m (fun t => J t s))) (exp (- k * sqrt s))).
  { intros s S0. rewrite QK. apply (continuity_seq exp (fun m => - q * riem m (fun t => J t s))); [apply derivable_continuous_pt, derivable_pt_exp|].
    apply cv_scal, riem_sqrt; auto. }
  apply (cv_low _ _ _ 2%nat) with (2 := cv_kern n d x (fun m s => exp (- q * riem m (fun t => J t s))) (fun s => exp (- k * sqrt s)) c LIM).
  intros m M. assert (MP : 0 < INR m) by (apply lt_0_INR; lia). assert (MI : 0 < / INR m) by (apply Rinv_0_lt_compat; auto).
  set (tt := fun j => INR (S j) / INR m).
  assert (TP : forall j, 0 < tt j). { intros. apply Rdiv_lt_0_compat; auto. apply lt_0_INR; lia. }
  set (mid := fun j => tt (m - 1 + j)%nat). set (far := fun j => tt (m - 1 + (m + 1 + j))%nat). set (rest := (m * m - 2 * m)%nat).
  assert (R0 : forall s, riem m (fun t => J t s) =
    / INR m * (rsum (m + 1) (fun j => J (mid j) s) + (rsum (m - 1) (fun j => J (tt j) s) + rsum rest (fun j => J (far j) s)))).
  { intros s. unfold riem. replace (m * m)%nat with ((m - 1) + ((m + 1) + rest))%nat by (unfold rest; nia).
    rewrite (rsum_app (m - 1)), (rsum_app (m + 1)). unfold mid, far, tt. f_equal. ring. }
  assert (SUM : forall j g s, (forall i, 0 < g i) -> 0 <= s -> rsum j (fun i => J (g i) s) = INR j - rsum j (fun i => f (g i) s)).
  { intros j g s G S0. induction j; [cbn; ring|]. rewrite S_INR. cbn [rsum]. rewrite IHj, JF; auto. ring. }
  set (A := fun s => exp (q * / INR m * rsum (m + 1) (fun j => f (mid j) s))).
  set (B := fun s => exp (- q * / INR m * rsum (m - 1) (fun j => J (tt j) s) + - q * / INR m * rsum rest (fun j => J (far j) s))).
  rewrite (quad_ext n _ (fun i j => exp (- q * / INR m * INR (m + 1)) * (kern d x A i j * kern d x B i j))).
  2:{ intros i j _ _. unfold kern. set (s := distance2 d (x i) (x j)). assert (S0 : 0 <= s) by apply distance2_nonneg.
      unfold A, B. rewrite <- !exp_plus. f_equal. rewrite R0, (SUM (m + 1)%nat mid s); auto. 2:{ intros; apply TP. } ring. }
  rewrite quad_scal.
  assert (BM : cm B).
  { apply (cm_ext (fun s => exp (- q * / INR m * (INR (m - 1) + INR rest)) *
      exp (q * / INR m * (rsum (m - 1) (fun j => f (tt j) s) + rsum rest (fun j => f (far j) s))))).
    { intros s S0. unfold B. rewrite <- exp_plus. f_equal. rewrite !SUM; auto. 2:{ intros; apply TP. } ring. }
    apply cm_scal; [left; apply exp_pos|]. apply cm_exp. apply cm_scal; [left; apply Rmult_lt_0_compat; auto|].
    apply cm_plus; apply cm_rsum; intros; apply FC, TP. }
  assert (AL : forall c, q * low * length2 n c <= quad n (kern d x A) c).
  { intros c'. pose proof (length2_pos n c') as N'.
    assert (CF : cm (fun s => q * / INR m * rsum (m + 1) (fun j => f (mid j) s))).
    { apply cm_scal; [left; apply Rmult_lt_0_compat; auto|]. apply cm_rsum; intros; apply FC, TP. }
    pose proof (mult_nonneg n _ c' (mult_exp_above n (kern d x (fun s => q * / INR m * rsum (m + 1) (fun j => f (mid j) s))) 1 (CF n d x))) as G.
    rewrite (quad_ext n _ (fun i j => kern d x A i j + (-1) * (q * / INR m * rsum (m + 1) (fun l => kern d x (f (mid l)) i j)))) in G.
    2:{ intros. unfold A, kern. cbn [fact Nat.mul INR pow]. cbn. field. lra. }
    rewrite quad_plus, !quad_scal, (quad_rsum n (m + 1) (fun l => kern d x (f (mid l)))) in G.
    assert (F1 : rsum (m + 1) (fun _ => low * length2 n c') <= rsum (m + 1) (fun l => quad n (kern d x (f (mid l))) c')).
    { apply rsum_le. intros j J0. assert (T : 1 <= mid j <= 2).
      { unfold mid, tt. replace (S (m - 1 + j)) with (m + j)%nat by lia. rewrite plus_INR.
        assert (INR j <= INR m) by (apply le_INR; lia). pose proof (pos_INR j).
        replace ((INR m + INR j) / INR m) with (1 + INR j / INR m) by (field; lra).
        assert (0 <= INR j / INR m) by (apply Rmult_le_pos; lra).
        assert (INR j / INR m <= 1). { apply Rmult_le_reg_r with (INR m); auto. replace (INR j / INR m * INR m) with (INR j) by (field; lra). lra. } lra. }
      assert (1 <= mid j * mid j <= 4) by nra.
      rewrite (quad_ext n _ (fun i l => mid j * mid j * kern d x (fun s => / (mid j * mid j + s)) i l)) by reflexivity.
      rewrite quad_scal. specialize (H (mid j * mid j) c' ltac:(lra)). assert (0 <= low * length2 n c') by (apply Rmult_le_pos; lra). nra. }
    assert (F2 : forall v j, rsum j (fun _ => v) = INR j * v).
    { clear. intros v. induction j; [cbn; ring|]. rewrite S_INR. cbn [rsum]. rewrite IHj. ring. }
    rewrite F2, plus_INR in F1. change (INR 1) with 1 in F1.
    apply Rle_trans with (q * / INR m * ((INR m + 1) * (low * length2 n c'))).
    - replace (q * / INR m * ((INR m + 1) * (low * length2 n c'))) with (q * low * length2 n c' + q * / INR m * (low * length2 n c')) by (field; lra).
      assert (0 <= q * / INR m * (low * length2 n c')); [|lra]. repeat apply Rmult_le_pos; lra.
    - eapply Rle_trans; [apply Rmult_le_compat_l; [|exact F1]; apply Rmult_le_pos; lra|lra]. }
  pose proof (mult_low n (kern d x A) (kern d x B) (q * low) 1 (BM n d x) AL ltac:(apply Rmult_le_pos; lra)) as F.
  rewrite (Rmult_assoc (exp (- (2 * q)))). 
  assert (BD : forall i, (i < n)%nat -> 1 <= kern d x B i i).
  { intros i _. unfold kern. rewrite distance2_same. unfold B. assert (Z : forall j g, rsum j (fun i => J (g i) 0) = 0).
    { intros. apply rsum_0. intros. unfold J, Rdiv. ring. }
    rewrite !Z. rewrite !Rmult_0_r, Rplus_0_r, exp_0. lra. }
  specialize (F BD c). rewrite Rmult_1_r in F.
  apply Rmult_le_compat; try lra.
  - repeat apply Rmult_le_pos; lra.
  - apply exp_le. rewrite plus_INR. change (INR 1) with 1.
    replace (- q * / INR m * (INR m + 1)) with (- (q * (1 + / INR m))) by (field; lra).
    assert (/ INR m <= 1). { rewrite <- Rinv_1. apply Rinv_le_contravar; [lra|]. change 1 with (INR 1). apply le_INR. lia. } nra.
Qed.

(** * The functions of the library *)
Lemma gauss_any : forall n d x t, 0 < t -> distinct n d x -> exists low, 0 < low /\
  forall c, low * length2 n c <= quad n (kern d x (fun s => exp (- t * s))) c.
Proof.
  intros n d x t T D. pose proof (sqrt_lt_R0 t T) as Q.
  destruct (gauss_low n d (fun i e => sqrt t * x i e)) as (low & L & H).
  { intros i j I J N. destruct (D i j I J N) as (e & E & X). exists e. split; auto. intros F. apply X. apply Rmult_eq_reg_l in F; lra. }
  exists low. split; auto. intros c. specialize (H 1 c ltac:(lra)).
  rewrite (quad_ext n (kern d x (fun s => exp (- t * s))) (kern d (fun i e => sqrt t * x i e) (fun s => exp (- (1) * s)))); auto.
  intros i j _ _. unfold kern. f_equal. unfold distance2.
  rewrite (rsum_ext d (fun e => (sqrt t * x i e - sqrt t * x j e) * (sqrt t * x i e - sqrt t * x j e)) (fun e => t * ((x i e - x j e) * (x i e - x j e)))).
  - rewrite rsum_scal. ring.
  - intros e _. rewrite <- (sqrt_sqrt t) at 5 by lra. ring.
Qed.
Lemma scaled_low : forall n d x (W : (nat -> R) -> Prop) f g p, 0 < p -> (forall s, 0 <= s -> g s = p * f s) ->
  (exists low, 0 < low /\ forall c, W c -> low * length2 n c <= quad n (kern d x f) c) ->
  exists low, 0 < low /\ forall c, W c -> low * length2 n c <= quad n (kern d x g) c.
Proof.
  intros n d x W f g p P E (low & L & H). exists (p * low). split; [apply Rmult_lt_0_compat; auto|]. intros c C.
  rewrite (quad_ext n (kern d x g) (fun i j => p * kern d x f i j)). 2:{ intros. unfold kern. apply E. apply distance2_nonneg. }
  rewrite quad_scal, Rmult_assoc. apply Rmult_le_compat_l; [lra|]. auto.
Qed.
Lemma gc_low : forall n d x m kA psill range, (1 <= m)%nat -> 0 < kA -> 0 < psill -> 0 < range -> distinct n d x -> exists low, 0 < low /\
  forall c, low * length2 n c <= quad n (kern d x (gc_value m kA psill range)) c.
Proof.
  intros n d x m kA psill range M A P G D. set (h := range * range / kA).
  assert (R2 : 0 < range * range) by (apply Rmult_lt_0_compat; auto). assert (H : 0 < h) by (apply Rdiv_lt_0_compat; auto).
  assert (K : 0 < kA / (range * range)) by (apply Rdiv_lt_0_compat; auto). set (q := kA / (range * range)) in *.
  destruct (scaled_low n d x (fun _ => True) (fun s => / (h + s) * ((/ (h + s)) ^ (m - 1) * / sqrt (h + s))) (gc_value m kA psill range)
     (psill / (q ^ m * sqrt q))) as (low & L & B).
  - apply Rdiv_lt_0_compat; auto. apply Rmult_lt_0_compat; [apply pow_lt; auto|apply sqrt_lt_R0; auto].
  - intros s S0. unfold gc_value, sqrt_pow.
    assert (E : 1 + kA * (sqrt s / range) * (sqrt s / range) = q * (h + s)).
    { unfold q, h. replace (kA * (sqrt s / range) * (sqrt s / range)) with (kA * (sqrt s * sqrt s) / (range * range)) by (field; lra).
      rewrite sqrt_sqrt by auto. field. lra. }
    assert (HS : 0 < h + s) by lra. rewrite E, sqrt_mult, Rpow_mult_distr by lra.
    replace m with (S (m - 1)) at 2 by lia. cbn [pow]. rewrite pow_inv.
    assert (0 < (h + s) ^ (m - 1)) by (apply pow_lt; auto). assert (0 < q ^ m) by (apply pow_lt; auto).
    pose proof (sqrt_lt_R0 q K). pose proof (sqrt_lt_R0 (h + s) HS). field. repeat split; lra.
  - destruct (inv_low n d x h D) as (low & L & B).
    set (g := fun s => (/ (h + s)) ^ (m - 1) * / sqrt (h + s)).
    assert (C : cm g). { apply cm_mult; [|apply cm_invsqrt; auto]. apply (cm_pow (fun s => / (h + s))). apply cm_inv; auto. }
    assert (G0 : 0 < g 0).
    { unfold g. rewrite Rplus_0_r. assert (0 < / h) by (apply Rinv_0_lt_compat; auto).
      apply Rmult_lt_0_compat; [apply pow_lt; auto|apply Rinv_0_lt_compat, sqrt_lt_R0; auto]. }
    exists (low * g 0). split; [apply Rmult_lt_0_compat; auto|]. intros c _.
    apply (mult_low n (kern d x (fun s => / (h + s))) (kern d x g) low (g 0)); [apply C|intros; apply B; lra|lra|].
    intros i _. unfold kern. rewrite distance2_same. lra.
  - exists low. split; auto.
Qed.
Lemma ln_sqrt : forall y, 0 < y -> ln (sqrt y) = ln y / 2.
Proof.
  intros y Y. pose proof (sqrt_lt_R0 y Y) as Q. rewrite <- (sqrt_sqrt y) at 2 by lra. rewrite ln_mult by auto. field.
Qed.
Lemma kind_cases : forall (B : (R -> R) -> Prop) k m p0 p1, definite_order k = Some m -> 0 < p0 -> (m = 0%nat -> 0 < p1) ->
  (forall f g p, 0 < p -> (forall s, 0 <= s -> g s = p * f s) -> B f -> B g) ->
  (k = Exp -> m = 0%nat -> forall t, 0 < t -> B (fun s => exp (- t * sqrt s))) -> (m = 0%nat -> forall t, 0 < t -> B (fun s => exp (- t * s))) ->
  (m = 0%nat -> forall j a, (1 <= j)%nat -> 0 < a -> B (gc_value j a p0 p1)) ->
  (forall f, (exists w a q0 q1 q2, (1 <= m)%nat /\
    (forall t, 0 < t -> 0 <= w t /\ 0 < a t /\ ((m < 2)%nat -> q1 t = 0) /\ ((m < 3)%nat -> q2 t = 0)) /\
    (forall t, 1 <= t <= 2 -> 1 <= w t /\ a t <= p1 * p1 + 4) /\
    (forall s, 0 <= s -> Un_cv (fun m => riem m (fun t => w t * / (a t + s) + (q0 t + q1 t * s + q2 t * (s * s)))) (f s))) -> B f) ->
  B (value k p0 p1).
Proof.
  intros B k m p0 p1 O P R1 SC EX GA GCL CP.
  assert (CC : 0 <= p1 * p1) by apply Rle_0_sqr.
  assert (GC : forall j, (1 <= j)%nat -> 0 < gc_constant j).
  { intros j J. unfold gc_constant. destruct j as [|[|[|[|j]]]]; lra. }
  assert (T1 : forall t, 1 <= t <= 2 -> 1 <= t * t <= 4) by (intros; nra).
  destruct k; cbn in O; try discriminate; injection O as <-; cbn [value].
  - (* Bh2 *)
    apply (SC (fun s => xlog (s + p1 * p1)) _ (p0 / 2)); [lra| |].
    + intros s S0. unfold even_value, is_zero, xlog. set (y := s + p1 * p1). assert (Y : 0 <= y) by (unfold y; lra).
      destruct (Req_EM_T y 0) as [Z|Z].
      * rewrite Z, sqrt_0. destruct (Req_EM_T 0 0); [ring|lra].
      * assert (0 < y) by lra. pose proof (sqrt_lt_R0 y H). destruct (Req_EM_T (sqrt y) 0); [lra|]. rewrite ln_sqrt by auto.
        unfold even_sign. cbn [Nat.div Nat.modulo Nat.eqb Nat.add]. replace (sqrt y ^ 2) with y by (rewrite pow2_sqrt; auto). cbn. field.
    + apply CP. do 5 eexists. split; [lia|]. split; [|split; [|apply lim_tp; auto]]; cbn beta.
      * intros t T. repeat split; intros; try lra; lia.
      * intros t T. lra.
  - (* Th2 *)
    apply (SC (fun s => - ((s + p1 * p1) * xlog (s + p1 * p1))) _ (p0 / 2)); [lra| |].
    + intros s S0. unfold even_value, is_zero, xlog. set (y := s + p1 * p1). assert (Y : 0 <= y) by (unfold y; lra).
      destruct (Req_EM_T y 0) as [Z|Z].
      * rewrite Z, sqrt_0. destruct (Req_EM_T 0 0); [ring|lra].
      * assert (0 < y) by lra. pose proof (sqrt_lt_R0 y H). destruct (Req_EM_T (sqrt y) 0); [lra|]. rewrite ln_sqrt by auto.
        replace (sqrt y ^ 4) with (y * y). 2:{ rewrite <- (pow2_sqrt y) by auto. rewrite (sqrt_pow2 (sqrt y)) by lra. ring. } unfold even_sign. cbn. field.
    + apply CP. do 5 eexists. split; [lia|]. split; [|split; [|apply lim_tp4; auto]]; cbn beta.
      * intros t T. repeat split; intros; try lra; try lia. apply Rle_0_sqr.
      * intros t T. specialize (T1 t T). lra.
  - (* Bh3 *)
    apply (SC (fun s => PI / 2 * - sqrt (s + p1 * p1)) _ (p0 * (2 / PI))).
    + apply Rmult_lt_0_compat; auto. apply Rdiv_lt_0_compat; [lra|apply PI_RGT_0].
    + intros s S0. unfold odd_value, odd_sign. cbn. field. apply PI_neq0.
    + apply CP. do 5 eexists. split; [lia|]. split; [|split; [|apply lim_mq; auto]]; cbn beta.
      * intros t T. assert (0 < t * t) by (apply Rmult_lt_0_compat; auto). repeat split; intros; try lra; lia.
      * intros t T. specialize (T1 t T). lra.
  - (* Th3 *)
    apply (SC (fun s => PI / 2 * ((s + p1 * p1) * sqrt (s + p1 * p1))) _ (p0 * (2 / PI))).
    + apply Rmult_lt_0_compat; auto. apply Rdiv_lt_0_compat; [lra|apply PI_RGT_0].
    + intros s S0. unfold odd_value, odd_sign. set (y := s + p1 * p1).
      replace (sqrt y ^ 3) with (y * sqrt y). 2:{ rewrite <- (pow2_sqrt y) at 1 by (unfold y; lra). ring. } cbn. field. apply PI_neq0.
    + apply CP. do 5 eexists. split; [lia|]. split; [|split; [|apply lim_mq3; auto]]; cbn beta.
      * intros t T. assert (0 < t * t) by (apply Rmult_lt_0_compat; auto). repeat split; intros; try lra; try lia. apply Rle_0_sqr.
      * intros t T. specialize (T1 t T). split; [nra|lra].
  - (* Exp *)
    specialize (R1 eq_refl). apply (SC (fun s => exp (- (3 / p1) * sqrt s)) _ p0); auto.
    + intros s S0. unfold exp_value. do 2 f_equal. field. lra.
    + apply EX; auto. apply Rdiv_lt_0_compat; lra.
  - (* Gau *)
    specialize (R1 eq_refl). apply (SC (fun s => exp (- (3 / (p1 * p1)) * s)) _ p0); auto.
    + intros s S0. unfold gau_value. do 2 f_equal. rewrite <- (sqrt_sqrt s) at 3 by auto. field. lra.
    + apply GA; auto. apply Rdiv_lt_0_compat; [lra|]. apply Rmult_lt_0_compat; auto.
  - apply GCL; auto.
  - apply GCL; auto.
  - apply GCL; auto.
  - apply GCL; auto.
Qed.

Lemma kind_low : forall n d x k m p0 p1, distinct n d x -> definite_order k = Some m -> 0 < p0 -> (m = 0%nat -> 0 < p1) ->
  exists low, 0 < low /\ forall c, moments n d x m c -> low * length2 n c <= quad n (kern d x (value k p0 p1)) c.
Proof.
  intros n d x k m p0 p1 D O P R1.
  assert (WK : forall f, (exists low, 0 < low /\ forall c, low * length2 n c <= quad n (kern d x f) c) ->
    exists low, 0 < low /\ forall c, moments n d x m c -> low * length2 n c <= quad n (kern d x f) c).
  { intros f (low & L & H). exists low. split; auto. }
  apply (kind_cases (fun f => exists low, 0 < low /\ forall c, moments n d x m c -> low * length2 n c <= quad n (kern d x f) c) k m); auto.
  - intros f g p. apply scaled_low.
  - intros. apply WK, exp_low; auto.
  - intros. apply WK, gauss_any; auto.
  - intros. apply WK, gc_low; auto.
  - intros f (w & a & q0 & q1 & q2 & M & A & B & C). destruct (cpd_low n d x (p1 * p1 + 4) D) as (low & L & H). exists low. split; auto.
    intros c MC. apply (H m c M MC w a q0 q1 q2); auto.
Qed.

(** Without the points being distinct the form is still not negative. *)
Lemma cm_expsqrt : forall k, 0 < k -> cm (fun s => exp (- k * sqrt s)).
Proof.
  intros k K. assert (PP := PI_RGT_0). set (q := k * (2 / PI)).
  assert (Q : 0 < q) by (apply Rmult_lt_0_compat; auto; apply Rdiv_lt_0_compat; lra).
  apply (cm_lim (fun m s => exp (- q * riem (S m) (fun t => s / (s + t * t))))).
  - intros m. assert (MP : 0 < INR (S m)) by (apply lt_0_INR; lia).
    apply (cm_ext (fun s => exp (- q * / INR (S m) * INR (S m * S m)) *
      exp (q * / INR (S m) * rsum (S m * S m) (fun j => (INR (S j) / INR (S m)) * (INR (S j) / INR (S m)) * / ((INR (S j) / INR (S m)) * (INR (S j) / INR (S m)) + s))))).
    + intros s S0. rewrite <- exp_plus. f_equal. unfold riem.
      rewrite (rsum_ext (S m * S m) (fun k0 => s / (s + INR (S k0) / INR (S m) * (INR (S k0) / INR (S m))))
        (fun j => 1 - (INR (S j) / INR (S m)) * (INR (S j) / INR (S m)) * / ((INR (S j) / INR (S m)) * (INR (S j) / INR (S m)) + s))).
      2:{ intros j _. assert (0 < INR (S j) / INR (S m)) by (apply Rdiv_lt_0_compat; auto; apply lt_0_INR; lia).
          set (t := INR (S j) / INR (S m)) in *. assert (0 < t * t) by (apply Rmult_lt_0_compat; auto). field. lra. }
      rewrite rsum_minus. assert (F : forall j, rsum j (fun _ => 1) = INR j). { induction j; [reflexivity|]. rewrite S_INR. cbn [rsum]. rewrite IHj. reflexivity. }
      rewrite F. ring.
    + apply cm_scal; [left; apply exp_pos|]. apply cm_exp. apply cm_scal; [left; apply Rmult_lt_0_compat; auto; apply Rinv_0_lt_compat; auto|].
      apply (cm_rsum (S m * S m) (fun j s => (INR (S j) / INR (S m)) * (INR (S j) / INR (S m)) * / ((INR (S j) / INR (S m)) * (INR (S j) / INR (S m)) + s))).
      intros j _. assert (0 < INR (S j) / INR (S m)) by (apply Rdiv_lt_0_compat; auto; apply lt_0_INR; lia).
      assert (0 < INR (S j) / INR (S m) * (INR (S j) / INR (S m))) by (apply Rmult_lt_0_compat; auto). apply cm_scal; [lra|]. apply cm_inv; auto.
  - intros s S0. replace (- k * sqrt s) with (- q * (PI / 2 * sqrt s)) by (unfold q; field; lra).
    apply (cv_S (fun m => exp (- q * riem m (fun t => s / (s + t * t))))).
    apply (continuity_seq exp (fun m => - q * riem m (fun t => s / (s + t * t)))); [apply derivable_continuous_pt, derivable_pt_exp|].
    apply cv_scal, riem_sqrt; auto.
Qed.
Lemma cm_gc : forall m kA psill range, (1 <= m)%nat -> 0 < kA -> 0 < psill -> 0 < range -> cm (gc_value m kA psill range).
Proof.
  intros m kA psill range M A P G. set (h := range * range / kA).
  assert (R2 : 0 < range * range) by (apply Rmult_lt_0_compat; auto). assert (H : 0 < h) by (apply Rdiv_lt_0_compat; auto).
  assert (K : 0 < kA / (range * range)) by (apply Rdiv_lt_0_compat; auto). set (q := kA / (range * range)) in *.
  assert (Q0 : 0 < psill / (q ^ m * sqrt q)).
  { apply Rdiv_lt_0_compat; auto. apply Rmult_lt_0_compat; [apply pow_lt; auto|apply sqrt_lt_R0; auto]. }
  apply (cm_ext (fun s => (psill / (q ^ m * sqrt q)) * ((/ (h + s)) ^ m * / sqrt (h + s)))).
  - intros s S0. unfold gc_value, sqrt_pow.
    assert (E : 1 + kA * (sqrt s / range) * (sqrt s / range) = q * (h + s)).
    { unfold q, h. replace (kA * (sqrt s / range) * (sqrt s / range)) with (kA * (sqrt s * sqrt s) / (range * range)) by (field; lra).
      rewrite sqrt_sqrt by auto. field. lra. }
    assert (HS : 0 < h + s) by lra. rewrite E, sqrt_mult, Rpow_mult_distr, pow_inv by lra.
    assert (0 < (h + s) ^ m) by (apply pow_lt; auto). assert (0 < q ^ m) by (apply pow_lt; auto).
    pose proof (sqrt_lt_R0 q K). pose proof (sqrt_lt_R0 (h + s) HS). field. repeat split; lra.
  - apply cm_scal; [lra|]. apply cm_mult; [|apply cm_invsqrt; auto]. apply (cm_pow (fun s => / (h + s))). apply cm_inv; auto.
Qed.
Lemma kind_nonneg : forall n d x k m p0 p1, definite_order k = Some m -> 0 <= p0 -> (m = 0%nat -> 0 < p1) ->
  forall c, moments n d x m c -> 0 <= quad n (kern d x (value k p0 p1)) c.
Proof.
  intros n d x k m p0 p1 O [P| <-] R1.
  2:{ intros c _. rewrite (quad_ext n _ (fun _ _ => 0)); [rewrite quad_zero; lra|]. intros i j _ _. unfold kern.
      destruct k; cbn in O; try discriminate; cbn; unfold even_value, odd_value, exp_value, gau_value, gc_value; try (unfold Rdiv; ring).
      - destruct (is_zero _); ring. - destruct (is_zero _); ring. }
  apply (kind_cases (fun f => forall c, moments n d x m c -> 0 <= quad n (kern d x f) c) k m p0 p1); auto.
  - intros f g p P0 E H c C. rewrite (quad_ext n (kern d x g) (fun i j => p * kern d x f i j)).
    2:{ intros. unfold kern. apply E. apply distance2_nonneg. } rewrite quad_scal. apply Rmult_le_pos; [lra|auto].
  - intros. apply mult_nonneg. apply cm_expsqrt; auto.
  - intros. apply mult_nonneg. apply (cm_gauss t). lra.
  - intros. apply mult_nonneg. apply cm_gc; auto.
  - intros f (w & a & q0 & q1 & q2 & M & A & B & C) c MC.
    assert (G : forall t, 0 < t -> 0 <= quad n (kern d x (fun s => w t * / (a t + s) + (q0 t + q1 t * s + q2 t * (s * s)))) c).
    { intros t T. destruct (A t T) as (W & A0 & P1 & P2).
      rewrite (quad_ext n _ (fun i j => w t * kern d x (fun s => / (a t + s)) i j + kern d x (fun s => q0 t + q1 t * s + q2 t * (s * s)) i j)) by reflexivity.
      rewrite quad_plus, quad_scal, (moment_poly n d x m); auto. rewrite Rplus_0_r. apply Rmult_le_pos; auto. apply mult_nonneg. apply cm_inv; auto. }
    apply (riem_low n d x (fun t s => w t * / (a t + s) + (q0 t + q1 t * s + q2 t * (s * s)))); auto; try lra. intros; apply G; lra.
Qed.
