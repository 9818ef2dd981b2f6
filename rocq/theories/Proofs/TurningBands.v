From Coq Require Import Reals List Bool Arith Lia Lra.
From Verif Require Import Proofs.LinAlg Proofs.PositiveDefinite Proofs.SphereMoments Model.LinAlg Spec.PositiveDefinite.
Local Open Scope R_scope.

(** * Polynomials *)
Definition peval (n : nat) (a : nat -> R) (s : R) : R := rsum n (fun k => a k * s ^ k).
Definition poly (g : R -> R) : Prop := exists n a, forall s, g s = peval n a s.
Lemma poly_ext : forall g h, (forall s, g s = h s) -> poly g -> poly h.
Proof. intros g h E (n & a & H). exists n, a. intros s. rewrite <- E. auto. Qed.
Lemma poly_zero : poly (fun _ => 0). Proof. exists 0%nat, (fun _ => 0). reflexivity. Qed.
Lemma poly_const : forall c, poly (fun _ => c). Proof. intros c. exists 1%nat, (fun _ => c). intros s. unfold peval. cbn. ring. Qed.
Lemma rsum_pad : forall n k f, (forall i, (n <= i)%nat -> f i = 0) -> rsum (n + k) f = rsum n f.
Proof. intros n k f H. rewrite rsum_app, (rsum_0 k); [ring|]. intros i _. apply H. lia. Qed.
Lemma poly_plus : forall g h, poly g -> poly h -> poly (fun s => g s + h s).
Proof.
  intros g h (n & a & A) (m & b & B). set (cut := fun (n : nat) (a : nat -> R) k => if (k <? n)%nat then a k else 0).
  exists (n + m)%nat, (fun k => cut n a k + cut m b k). intros s. rewrite A, B. unfold peval.
  rewrite (rsum_ext (n + m) _ (fun k => cut n a k * s ^ k + cut m b k * s ^ k)) by (intros; ring). rewrite rsum_plus.
  rewrite (rsum_pad n m (fun k => cut n a k * s ^ k)). 2:{ intros i I0. unfold cut. destruct (Nat.ltb_spec i n); [lia|ring]. }
  rewrite (Nat.add_comm n m), (rsum_pad m n (fun k => cut m b k * s ^ k)). 2:{ intros i I0. unfold cut. destruct (Nat.ltb_spec i m); [lia|ring]. }
  f_equal; apply rsum_ext; intros i I0; unfold cut; [destruct (Nat.ltb_spec i n)|destruct (Nat.ltb_spec i m)]; auto; lia.
Qed.
Lemma poly_scal : forall c g, poly g -> poly (fun s => c * g s).
Proof. intros c g (n & a & A). exists n, (fun k => c * a k). intros s. rewrite A. unfold peval. rewrite <- rsum_scal. apply rsum_ext. intros; ring. Qed.
Lemma poly_shift : forall g, poly g -> poly (fun s => s * g s).
Proof.
  intros g (n & a & A). exists (1 + n)%nat, (fun k => match k with O => 0 | S i => a i end). intros s. rewrite A. unfold peval. rewrite rsum_app. cbn [rsum pow Nat.add].
  rewrite <- rsum_scal, Rmult_0_l, Rplus_0_l, Rplus_0_l. apply rsum_ext. intros; cbn [pow]; ring.
Qed.
Lemma poly_pows : forall g n, poly g -> poly (fun s => s ^ n * g s).
Proof.
  intros g n G. induction n as [|n IH]; [apply (poly_ext g); [intros; cbn; ring|auto]|].
  apply (poly_ext (fun s => s * (s ^ n * g s))); [intros; cbn; ring|]. apply poly_shift. auto.
Qed.
Lemma poly_mult : forall g h, poly g -> poly h -> poly (fun s => g s * h s).
Proof.
  intros g h G (n & a & A). apply (poly_ext (fun s => g s * peval n a s)); [intros; rewrite A; auto|]. clear h A.
  induction n as [|n IH]; [apply (poly_ext (fun _ => 0)); [intros; unfold peval; cbn; ring|apply poly_zero]|].
  apply (poly_ext (fun s => g s * peval n a s + a n * (s ^ n * g s))); [intros; unfold peval; cbn [rsum]; ring|]. apply poly_plus; auto. apply poly_scal, poly_pows. auto.
Qed.
Lemma poly_pow : forall g n, poly g -> poly (fun s => g s ^ n).
Proof. intros g n G. induction n; cbn [pow]; [apply poly_const|apply poly_mult; auto]. Qed.
Lemma poly_id : poly (fun s => s).
Proof. apply (poly_ext (fun s => s * 1)); [intros; ring|apply (poly_shift (fun _ => 1)), poly_const]. Qed.
Lemma poly_comp : forall g h, poly g -> poly h -> poly (fun s => g (h s)).
Proof.
  intros g h (n & a & A) H. apply (poly_ext (fun s => peval n a (h s))); [intros; rewrite A; auto|]. clear g A.
  induction n as [|n IH]; [apply poly_zero|]. apply (poly_ext (fun s => peval n a (h s) + a n * h s ^ n)); [intros; unfold peval; cbn [rsum]; ring|].
  apply poly_plus; auto. apply poly_scal, poly_pow. auto.
Qed.
Lemma poly_bound : forall g r, poly g -> exists B, 0 <= B /\ forall s, Rabs s <= r -> Rabs (g s) <= B.
Proof.
  intros g r (n & a & A). exists (rsum n (fun k => Rabs (a k) * Rabs r ^ k)). split.
  - apply rsum_pos. intros i _. apply Rmult_le_pos; [apply Rabs_pos|apply pow_le, Rabs_pos].
  - intros s S0. rewrite A. unfold peval. eapply Rle_trans; [apply rsum_abs|]. apply rsum_le. intros i _. rewrite Rabs_mult, <- RPow_abs. apply Rmult_le_compat_l; [apply Rabs_pos|].
    apply pow_incr. split; [apply Rabs_pos|]. pose proof (Rle_abs r). lra.
Qed.

(** * Functions that polynomials approach uniformly on every interval *)
Definition near (g : R -> R) : Prop := forall r e, 0 < e -> exists p, poly p /\ forall s, Rabs s <= r -> Rabs (g s - p s) <= e.
Lemma near_ext : forall g h, (forall s, g s = h s) -> near g -> near h.
Proof. intros g h E N r e P. destruct (N r e P) as (p & A & B). exists p. split; auto. intros s S0. rewrite <- E. auto. Qed.
Lemma near_poly : forall g, poly g -> near g.
Proof. intros g G r e E. exists g. split; auto. intros s _. rewrite Rminus_eq_0, Rabs_R0. lra. Qed.
Lemma near_bound : forall g r, near g -> exists B, 0 <= B /\ forall s, Rabs s <= r -> Rabs (g s) <= B.
Proof.
  intros g r N. destruct (N r 1 ltac:(lra)) as (p & P & H). destruct (poly_bound p r P) as (B & B0 & HB). exists (B + 1). split; [lra|]. intros s S0.
  specialize (H s S0). specialize (HB s S0). pose proof (Rabs_triang (g s - p s) (p s)) as T. replace (g s - p s + p s) with (g s) in T by ring. lra.
Qed.
Lemma near_plus : forall g h, near g -> near h -> near (fun s => g s + h s).
Proof.
  intros g h G H r e E. destruct (G r (e / 2) ltac:(lra)) as (p & P & A). destruct (H r (e / 2) ltac:(lra)) as (q & Q & B). exists (fun s => p s + q s). split; [apply poly_plus; auto|].
  intros s S0. specialize (A s S0). specialize (B s S0). replace (g s + h s - (p s + q s)) with ((g s - p s) + (h s - q s)) by ring. eapply Rle_trans; [apply Rabs_triang|]. lra.
Qed.
Lemma near_mult : forall g h, near g -> near h -> near (fun s => g s * h s).
Proof.
  intros g h G H r e E. destruct (near_bound g r G) as (B & B0 & HB). destruct (near_bound h r H) as (D & D0 & HD).
  set (d := Rmin 1 (e / (B + D + 1))). assert (DP : 0 < d) by (unfold d; apply Rmin_glb_lt; [lra|apply Rdiv_lt_0_compat; lra]).
  assert (D1 : d <= 1) by apply Rmin_l. assert (D2 : d * (B + D + 1) <= e).
  { apply Rle_trans with (e / (B + D + 1) * (B + D + 1)); [apply Rmult_le_compat_r; [lra|apply Rmin_r]|right; field; lra]. }
  destruct (G r d DP) as (p & P & A). destruct (H r d DP) as (q & Q & A'). exists (fun s => p s * q s). split; [apply poly_mult; auto|].
  intros s S0. specialize (A s S0). specialize (A' s S0). specialize (HB s S0). specialize (HD s S0).
  replace (g s * h s - p s * q s) with (g s * (h s - q s) + (g s - p s) * (h s - (h s - q s))) by ring.
  eapply Rle_trans; [apply Rabs_triang|]. rewrite !Rabs_mult. pose proof (Rabs_pos (g s)). pose proof (Rabs_pos (h s - q s)). pose proof (Rabs_pos (g s - p s)).
  assert (QB : Rabs (h s - (h s - q s)) <= D + 1). { eapply Rle_trans; [apply Rabs_triang|]. rewrite Rabs_Ropp. lra. } pose proof (Rabs_pos (h s - (h s - q s))).
  assert (Rabs (g s) * Rabs (h s - q s) <= B * d) by (apply Rmult_le_compat; auto). assert (Rabs (g s - p s) * Rabs (h s - (h s - q s)) <= d * (D + 1)) by (apply Rmult_le_compat; auto). lra.
Qed.
Lemma near_scal : forall c g, near g -> near (fun s => c * g s).
Proof. intros c g G. apply (near_mult (fun _ => c) g); auto. apply near_poly, poly_const. Qed.
(** The absolute value on [-1, 1]. *)
Fixpoint root (k : nat) (x : R) : R := match k with O => 0 | S n => root n x + (x * x - root n x * root n x) / 2 end.
Lemma root_poly : forall k, poly (root k).
Proof.
  induction k as [|k IH]; cbn [root]; [apply poly_zero|]. apply poly_plus; auto.
  apply (poly_ext (fun s => / 2 * (s * s + -1 * (root k s * root k s)))); [intros; field|]. apply poly_scal, poly_plus; [apply poly_mult; apply poly_id|apply poly_scal, poly_mult; auto].
Qed.
Lemma root_near : forall k x, Rabs x <= 1 -> 0 <= root k x <= Rabs x /\ (Rabs x - root k x) * (1 + INR k * (Rabs x / 2)) <= Rabs x.
Proof.
  intros k x X. set (y := Rabs x) in *. assert (Y0 : 0 <= y) by apply Rabs_pos. assert (XX : x * x = y * y) by (unfold y; rewrite <- Rabs_mult, Rabs_right; [reflexivity|pose proof (Rle_0_sqr x); unfold Rsqr in *; lra]).
  induction k as [|k [IH1 IH2]]; [cbn; lra|]. cbn [root]. rewrite S_INR, XX. set (q := root k x) in *. pose proof (pos_INR k) as K0. set (m := INR k) in *. clearbody y q m. clear XX.
  assert (E : y - (q + (y * y - q * q) / 2) = (y - q) * (1 - (y + q) / 2)) by field.
  assert (F1 : 0 <= 1 - (y + q) / 2 <= 1 - y / 2) by (split; lra).
  split.
  - assert (0 <= (y - q) * (y + q)) by (apply Rmult_le_pos; lra). split; [lra|]. assert (0 <= (y - q) * (1 - (y + q) / 2)) by (apply Rmult_le_pos; lra). lra.
  - rewrite E. apply Rle_trans with ((y - q) * (1 - y / 2) * (1 + (m + 1) * (y / 2))).
    + apply Rmult_le_compat_r; [nra|]. apply Rmult_le_compat_l; lra.
    + apply Rle_trans with ((y - q) * (1 + m * (y / 2))); [|lra]. rewrite Rmult_assoc. apply Rmult_le_compat_l; [lra|].
      assert (0 <= m * (y * y)) by (apply Rmult_le_pos; nra). nra.
Qed.
Lemma root_error : forall k x, Rabs x <= 1 -> (0 < k)%nat -> Rabs (Rabs x - root k x) <= 2 * / INR k.
Proof.
  intros k x X K. destruct (root_near k x X) as [A B]. assert (K0 : 0 < INR k) by (apply lt_0_INR; auto). rewrite Rabs_right by lra.
  apply Rmult_le_reg_r with (INR k); auto. rewrite Rmult_assoc, Rinv_l, Rmult_1_r by lra. set (y := Rabs x) in *. set (q := root k x) in *. set (m := INR k) in *.
  pose proof (Rabs_pos x). fold y in H. destruct (Req_dec y 0) as [Z|Z]; [replace (y - q) with 0 by lra; lra|]. clearbody y q m. apply Rmult_le_reg_r with (y / 2); [lra|]. nra.
Qed.
Lemma near_abs_id : near Rabs.
Proof.
  intros r e E. set (w := Rabs r + 1). assert (W : 0 < w) by (unfold w; pose proof (Rabs_pos r); lra).
  destruct (cv_inv (2 * w) e E) as [m M]. specialize (M (S m) ltac:(lia)). unfold R_dist in M. rewrite Rminus_0_r in M. pose proof (Rle_abs (2 * w * / INR (S m))) as M'.
  exists (fun s => w * root (S m) (/ w * s)). split.
  - apply poly_scal. apply (poly_comp (root (S m)) (fun s => / w * s)); [apply root_poly|apply poly_scal, poly_id].
  - intros s S0. assert (I0 : 0 < / w) by (apply Rinv_0_lt_compat; auto).
    assert (X : Rabs (/ w * s) <= 1). { rewrite Rabs_mult, (Rabs_right (/ w)) by lra. apply Rmult_le_reg_l with w; auto. rewrite <- Rmult_assoc, Rinv_r, Rmult_1_l, Rmult_1_r by lra. pose proof (Rle_abs r). unfold w. lra. }
    pose proof (root_error (S m) _ X ltac:(lia)) as RE.
    replace (Rabs s) with (w * Rabs (/ w * s)). 2:{ rewrite Rabs_mult, (Rabs_right (/ w)) by lra. rewrite <- Rmult_assoc, Rinv_r by lra. ring. }
    rewrite <- Rmult_minus_distr_l, Rabs_mult, (Rabs_right w) by lra. apply Rle_trans with (w * (2 * / INR (S m))); [apply Rmult_le_compat_l; lra|]. lra.
Qed.
Lemma near_abs : forall g, near g -> near (fun s => Rabs (g s)).
Proof.
  intros g G r e E. destruct (near_bound g r G) as (B & B0 & HB). set (d := Rmin 1 (e / 2)).
  assert (DP : 0 < d) by (unfold d; apply Rmin_glb_lt; lra). assert (D1 : d <= 1) by apply Rmin_l. assert (D2 : d <= e / 2) by apply Rmin_r.
  destruct (G r d DP) as (p & P & A). destruct (near_abs_id (B + 1) (e / 2) ltac:(lra)) as (q & Q & H). exists (fun s => q (p s)). split; [apply poly_comp; auto|].
  intros s S0. specialize (A s S0). specialize (HB s S0).
  assert (PB : Rabs (p s) <= B + 1). { pose proof (Rabs_triang (g s) (- (g s - p s))) as T. rewrite Rabs_Ropp in T. replace (g s + - (g s - p s)) with (p s) in T by ring. lra. }
  specialize (H (p s) PB). replace (Rabs (g s) - q (p s)) with ((Rabs (g s) - Rabs (p s)) + (Rabs (p s) - q (p s))) by ring.
  eapply Rle_trans; [apply Rabs_triang|]. pose proof (Rabs_triang_inv2 (g s) (p s)). lra.
Qed.
Lemma near_comp : forall g h, poly g -> near h -> near (fun s => g (h s)).
Proof.
  intros g h (n & a & A) H. apply (near_ext (fun s => peval n a (h s))); [intros; rewrite A; auto|]. clear g A.
  assert (PW : forall k, near (fun s => h s ^ k)). { induction k; cbn [pow]; [apply near_poly, poly_const|apply near_mult; auto]. }
  induction n as [|n IH]; [apply near_poly, poly_zero|]. apply (near_ext (fun s => peval n a (h s) + a n * h s ^ n)); [intros; unfold peval; cbn [rsum]; ring|].
  apply near_plus; auto. apply near_scal. auto.
Qed.
(** The distance from 0, at most 1. *)
Definition capped (s : R) : R := Rmin (Rabs s) 1.
Lemma near_capped : near capped.
Proof.
  apply (near_ext (fun s => / 2 * (Rabs s + 1 + -1 * Rabs (Rabs s + -1)))).
  - intros s. unfold capped, Rmin. destruct (Rle_dec (Rabs s) 1); [rewrite (Rabs_left1 (Rabs s + -1)) by lra|rewrite (Rabs_right (Rabs s + -1)) by lra]; lra.
  - apply near_scal, near_plus.
    + apply near_plus; [apply near_abs, near_poly, poly_id|apply near_poly, poly_const].
    + apply near_scal, near_abs, near_plus; [apply near_abs, near_poly, poly_id|apply near_poly, poly_const].
Qed.

(** * From the line to the space *)
Lemma ball_plus : forall N g h z0 z1 z2, ball N (fun s => g s + h s) z0 z1 z2 = ball N g z0 z1 z2 + ball N h z0 z1 z2.
Proof. intros. unfold ball. rewrite <- avg_plus. apply avg_ext; [lra|]. intros t _. rewrite avg_plus. reflexivity. Qed.
Lemma ball_scal : forall N c g z0 z1 z2, ball N (fun s => c * g s) z0 z1 z2 = c * ball N g z0 z1 z2.
Proof. intros. unfold ball. rewrite <- avg_scal. apply avg_ext; [lra|]. intros t _. rewrite avg_scal. reflexivity. Qed.
Lemma ball_ext : forall N g h z0 z1 z2, (forall s, g s = h s) -> ball N g z0 z1 z2 = ball N h z0 z1 z2.
Proof. intros N g h z0 z1 z2 H. unfold ball. apply avg_ext; [lra|]. intros t _. apply avg_ext; [apply two_pi|]. intros; apply H. Qed.
Definition mean_of (n : nat) (a : nat -> R) (d2 : R) : R := rsum n (fun k => a k * moment k d2).
Lemma ball_poly : forall n a z0 z1 z2, Un_cv (fun N => ball N (peval n a) z0 z1 z2) (mean_of n a (z0 * z0 + z1 * z1 + z2 * z2)).
Proof.
  intros n a z0 z1 z2. apply (cv_ext (fun N => rsum n (fun k => a k * ball N (fun s => s ^ k) z0 z1 z2))).
  - intros N. induction n as [|n IH].
    + cbn [rsum]. rewrite (ball_ext N _ (fun s => 0 * s)); [rewrite ball_scal; ring|]. intros; unfold peval; cbn; ring.
    + cbn [rsum]. rewrite IH, <- ball_scal, <- ball_plus. apply ball_ext. intros; reflexivity.
  - apply (cv_rsum n). intros k _. apply cv_scal, ball_cv.
Qed.
Lemma aim_bound : forall z0 z1 z2 t th, -1 <= t <= 1 -> Rabs (aim z0 z1 z2 t th) <= sqrt (z0 * z0 + z1 * z1 + z2 * z2).
Proof.
  intros z0 z1 z2 t th T. rewrite <- sqrt_Rsqr_abs. apply sqrt_le_1_alt. unfold Rsqr, aim, wave. set (r := sqrt (1 - t * t)).
  assert (R2 : r * r = 1 - t * t) by (apply sqrt_sqrt; nra). pose proof (sin2_cos2 th) as SC. unfold Rsqr in SC. set (x := cos th) in *. set (y := sin th) in *.
  assert (U : r * x * (r * x) + r * y * (r * y) + t * t = 1). { replace (r * x * (r * x) + r * y * (r * y) + t * t) with (r * r * (y * y + x * x) + t * t) by ring. rewrite SC, R2. ring. }
  set (p := r * x) in *. set (q := r * y) in *. replace (r * (z0 * x + z1 * y) + t * z2) with (z0 * p + z1 * q + z2 * t) by (unfold p, q; ring). clearbody p q. clear - U.
  assert (0 <= (z0 * q - z1 * p) * (z0 * q - z1 * p) + (z0 * t - z2 * p) * (z0 * t - z2 * p) + (z1 * t - z2 * q) * (z1 * t - z2 * q)).
  { pose proof (Rle_0_sqr (z0 * q - z1 * p)). pose proof (Rle_0_sqr (z0 * t - z2 * p)). pose proof (Rle_0_sqr (z1 * t - z2 * q)). unfold Rsqr in *. lra. }
  replace (z0 * z0 + z1 * z1 + z2 * z2) with ((z0 * z0 + z1 * z1 + z2 * z2) * (p * p + q * q + t * t)) by (rewrite U; ring). lra.
Qed.
Lemma ball_near : forall N g h z0 z1 z2 e, (0 < N)%nat -> (forall s, Rabs s <= sqrt (z0 * z0 + z1 * z1 + z2 * z2) -> Rabs (g s - h s) <= e) ->
  Rabs (ball N g z0 z1 z2 - ball N h z0 z1 z2) <= e.
Proof.
  intros N g h z0 z1 z2 e NP H. replace (ball N g z0 z1 z2 - ball N h z0 z1 z2) with (ball N (fun s => g s + -1 * h s) z0 z1 z2) by (rewrite ball_plus, ball_scal; ring).
  unfold ball. apply avg_abs; [lra|auto|]. intros t T. apply avg_abs; [apply two_pi|auto|]. intros th _. replace (g (aim z0 z1 z2 t th) + -1 * h (aim z0 z1 z2 t th)) with (g (aim z0 z1 z2 t th) - h (aim z0 z1 z2 t th)) by ring.
  apply H. apply aim_bound. auto.
Qed.
(** [f] is to [c] as the mean over the sphere demands. *)
Definition transform (c f : R -> R) : Prop := forall n a d2 e, 0 <= d2 -> 0 <= e -> (forall s, Rabs s <= sqrt d2 -> Rabs (c s - peval n a s) <= e) -> Rabs (f d2 - mean_of n a d2) <= e.
Lemma bands_cv : forall c f, near c -> transform c f -> forall z0 z1 z2, Un_cv (fun N => ball N c z0 z1 z2) (f (z0 * z0 + z1 * z1 + z2 * z2)).
Proof.
  intros c f NC TR z0 z1 z2 e E. set (d2 := z0 * z0 + z1 * z1 + z2 * z2). assert (D0 : 0 <= d2) by (unfold d2; pose proof (Rle_0_sqr z0); pose proof (Rle_0_sqr z1); pose proof (Rle_0_sqr z2); unfold Rsqr in *; lra).
  destruct (NC (sqrt d2) (e / 3) ltac:(lra)) as (p & (n & a & P) & H).
  assert (H' : forall s, Rabs s <= sqrt d2 -> Rabs (c s - peval n a s) <= e / 3) by (intros s S0; rewrite <- P; auto).
  pose proof (TR n a d2 (e / 3) D0 ltac:(lra) H') as T. destruct (ball_poly n a z0 z1 z2 (e / 3) ltac:(lra)) as [m M]. exists (S m). intros N NM. specialize (M N ltac:(lia)).
  pose proof (ball_near N c (peval n a) z0 z1 z2 (e / 3) ltac:(lia) H') as B. unfold R_dist in *. fold d2 in M.
  replace (ball N c z0 z1 z2 - f d2) with ((ball N c z0 z1 z2 - ball N (peval n a) z0 z1 z2) + ((ball N (peval n a) z0 z1 z2 - mean_of n a d2) + - (f d2 - mean_of n a d2))) by ring.
  eapply Rle_lt_trans; [apply Rabs_triang|]. pose proof (Rabs_triang (ball N (peval n a) z0 z1 z2 - mean_of n a d2) (- (f d2 - mean_of n a d2))) as T2. rewrite Rabs_Ropp in T2. lra.
Qed.
Definition line_psd (c : R -> R) : Prop := forall n s w, 0 <= quad n (fun i j => c (s i - s j)) w.
Lemma avg_quad : forall n N a b g w, quad n (fun i j => avg N a b (fun t => g t i j)) w = avg N a b (fun t => quad n (g t) w).
Proof.
  intros n N a b g w. unfold avg. rewrite quad_scal, (quad_rsum n N (fun k i j => g (node a b N k) i j)). reflexivity.
Qed.
Lemma distance2_3 : forall p q, distance2 3 p q = (p 0%nat - q 0%nat) * (p 0%nat - q 0%nat) + (p 1%nat - q 1%nat) * (p 1%nat - q 1%nat) + (p 2%nat - q 2%nat) * (p 2%nat - q 2%nat).
Proof. intros. unfold distance2. cbn [rsum]. ring. Qed.
Lemma space_psd : forall c f, near c -> transform c f -> line_psd c -> forall n x w, 0 <= quad n (kern 3 x f) w.
Proof.
  intros c f NC TR LP n x w.
  set (u := fun N i j => ball N c (x i 0%nat - x j 0%nat) (x i 1%nat - x j 1%nat) (x i 2%nat - x j 2%nat)).
  apply (cv_low (fun N => quad n (u N) w) _ 0 0).
  - intros N _. unfold u, ball. rewrite (avg_quad n N (-1) 1 (fun t i j => avg N 0 (2 * PI) (fun th => c (aim (x i 0%nat - x j 0%nat) (x i 1%nat - x j 1%nat) (x i 2%nat - x j 2%nat) t th)))).
    apply avg_pos; [lra|]. intros t _. rewrite (avg_quad n N 0 (2 * PI) (fun th i j => c (aim (x i 0%nat - x j 0%nat) (x i 1%nat - x j 1%nat) (x i 2%nat - x j 2%nat) t th))).
    apply avg_pos; [apply two_pi|]. intros th _. rewrite (quad_ext n _ (fun i j => c (aim (x i 0%nat) (x i 1%nat) (x i 2%nat) t th - aim (x j 0%nat) (x j 1%nat) (x j 2%nat) t th))).
    + apply (LP n (fun i => aim (x i 0%nat) (x i 1%nat) (x i 2%nat) t th)).
    + intros i j _ _. f_equal. unfold aim, wave. ring.
  - apply cv_quad. intros i j _ _. unfold u, kern. rewrite distance2_3. apply bands_cv; auto.
Qed.
