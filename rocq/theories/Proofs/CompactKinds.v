From Coq Require Import Reals List Arith Lia Lra.
From Verif Require Import Proofs.LinAlg Proofs.PositiveDefinite Proofs.PositiveKinds Proofs.SphereMoments Proofs.TurningBands Proofs.CompactSupport.
From Verif Require Import Model.LinAlg Model.Rbfs Spec.PositiveDefinite.
Import ListNotations.
Local Open Scope R_scope.

(** * Polynomials and their antiderivatives *)
Definition prim (n : nat) (a : nat -> R) (t : R) : R := rsum n (fun k => a k * (t ^ S k * / (INR k + 1))).
Lemma succ_pos : forall k, 0 < INR k + 1. Proof. intros. pose proof (pos_INR k). lra. Qed.
Lemma prim_lim : forall n a t, derivable_pt_lim (prim n a) t (peval n a t).
Proof.
  intros n a t. induction n as [|n IH]; [unfold prim, peval; cbn [rsum]; apply derivable_pt_lim_const|].
  unfold prim, peval. cbn [rsum]. fold (prim n a). fold (peval n a).
  apply (derivable_pt_lim_plus (prim n a) (fun t => a n * (t ^ S n * / (INR n + 1)))); auto.
  replace (a n * t ^ n) with (a n * / (INR n + 1) * (INR (S n) * t ^ pred (S n))).
  2:{ rewrite S_INR. cbn [pred]. field. pose proof (succ_pos n). lra. }
  intros e E. destruct (derivable_pt_lim_scal (fun t => t ^ S n) (a n * / (INR n + 1)) t _ (derivable_pt_lim_pow t (S n)) e E) as [d D]. exists d. intros h H0 H1. specialize (D h H0 H1).
  unfold mult_real_fct in D. replace (a n * ((t + h) ^ S n * / (INR n + 1))) with (a n * / (INR n + 1) * (t + h) ^ S n) by ring. replace (a n * (t ^ S n * / (INR n + 1))) with (a n * / (INR n + 1) * t ^ S n) by ring. exact D.
Qed.
Lemma peval_lim : forall n a t, exists l, derivable_pt_lim (peval n a) t l.
Proof.
  intros n a t. induction n as [|n [l IH]]; [exists 0; unfold peval; cbn [rsum]; apply derivable_pt_lim_const|].
  exists (l + a n * (INR n * t ^ pred n)). apply (derivable_pt_lim_plus (peval n a) (fun t => a n * t ^ n)); auto.
  apply (derivable_pt_lim_scal (fun t => t ^ n)). apply derivable_pt_lim_pow.
Qed.
Lemma shift_lim : forall f m t l, derivable_pt_lim f (t - m) l -> derivable_pt_lim (fun v => f (v - m)) t l.
Proof.
  intros f m t l H e E. destruct (H e E) as [d D]. exists d. intros h H0 H1. replace (t + h - m) with (t - m + h) by ring. auto.
Qed.
Lemma flat : forall F F' e lo hi, lo <= hi -> (forall t, lo <= t <= hi -> derivable_pt_lim F t (F' t)) -> (forall t, lo <= t <= hi -> Rabs (F' t) <= e) -> Rabs (F hi - F lo) <= e * (hi - lo).
Proof.
  intros F F' e lo hi [L|L] D B; [|rewrite L, !Rminus_eq_0, Rabs_R0; lra].
  destruct (MVT_cor2 F F' lo hi L D) as (c & E & C). rewrite E, Rabs_mult, (Rabs_right (hi - lo)) by lra. apply Rmult_le_compat_r; [lra|]. apply B. lra.
Qed.

(** * The mean over the directions *)
Lemma capped_in : forall t, 0 <= t <= 1 -> capped t = t.
Proof. intros t T. unfold capped. rewrite Rabs_right by lra. apply Rmin_left. lra. Qed.
Lemma capped_out : forall t, 1 <= t -> capped t = 1.
Proof. intros t T. unfold capped. rewrite Rabs_right by lra. apply Rmin_right. lra. Qed.
Lemma capped_opp : forall t, capped (- t) = capped t.
Proof. intros. unfold capped. rewrite Rabs_Ropp. reflexivity. Qed.
Definition evens (a : nat -> R) (k : nat) : R := if Nat.even k then a k else 0.
Lemma pow_opp : forall t k, (- t) ^ k = if Nat.even k then t ^ k else - t ^ k.
Proof. intros t. induction k as [|k IH]; [reflexivity|]. rewrite Nat.even_succ, <- Nat.negb_even. cbn [pow]. rewrite IH. destruct (Nat.even k); cbn [negb]; ring. Qed.
Lemma peval_evens : forall n a t, peval n (evens a) t = (peval n a t + peval n a (- t)) / 2.
Proof.
  intros n a t. unfold peval. induction n as [|n IH]; cbn [rsum]; [lra|]. rewrite IH, pow_opp. unfold evens. destruct (Nat.even n); field.
Qed.
Lemma mean_prim : forall n a r, r * mean_of n a (r * r) = prim n (evens a) r.
Proof.
  intros n a r. unfold mean_of, prim. rewrite <- rsum_scal. apply rsum_ext. intros k _. unfold moment, evens. destruct (Nat.even k) eqn:E; [|ring].
  replace (r ^ S k) with (r * (r * r) ^ (k / 2)); [unfold Rdiv; ring|]. cbn [pow]. f_equal. replace (r * r) with (r ^ 2) by ring. rewrite <- pow_mult, <- (half_even k E). reflexivity.
Qed.
Lemma mean_zero : forall n a, mean_of n a 0 = peval n a 0.
Proof.
  intros n a. unfold mean_of, peval. apply rsum_ext. intros k _. f_equal. unfold moment. destruct k as [|k]; [cbn; field|]. rewrite (pow_i (S k)) by lia. destruct (Nat.even (S k)) eqn:E; auto.
  rewrite pow_i; [unfold Rdiv; ring|]. pose proof (half_even _ E) as HE. destruct (S k / 2)%nat; lia.
Qed.
Lemma transform_of : forall P G f, (forall t, derivable_pt_lim G t (P t)) -> G 0 = 0 -> P 1 = 0 ->
  (forall r, 0 <= r -> r * f (r * r) = G (capped r)) -> f 0 = P 0 -> transform (fun s => P (capped s)) f.
Proof.
  intros P G f DG G0 P1 FR F0 n a d2 e D0 E0 H. set (r := sqrt d2) in *. assert (R0 : 0 <= r) by apply sqrt_pos. assert (RR : d2 = r * r) by (symmetry; apply sqrt_sqrt; auto).
  destruct R0 as [R0|R0].
  2:{ rewrite RR, <- R0, Rmult_0_r, F0, mean_zero. specialize (H 0). rewrite capped_in in H by lra. apply H. rewrite Rabs_R0. lra. }
  assert (HE : forall t, 0 <= t <= r -> Rabs (P (capped t) - peval n (evens a) t) <= e).
  { intros t T. rewrite peval_evens. pose proof (H t) as H1. pose proof (H (- t)) as H2. rewrite Rabs_Ropp, capped_opp in H2. rewrite Rabs_right in H1, H2 by lra. specialize (H1 ltac:(lra)). specialize (H2 ltac:(lra)).
    apply Rabs_le in H1 || idtac. apply Rabs_le. pose proof (Rle_trans _ _ _ (Rle_abs _) H1). pose proof (Rle_trans _ _ _ (Rle_abs _) H2). rewrite <- Rabs_Ropp in H1, H2. pose proof (Rle_trans _ _ _ (Rle_abs _) H1). pose proof (Rle_trans _ _ _ (Rle_abs _) H2). lra. }
  assert (ZERO : prim n (evens a) 0 = 0). { unfold prim. apply rsum_0. intros k _. rewrite pow_i by lia. ring. }
  apply Rmult_le_reg_l with r; auto. rewrite <- (Rabs_right r) at 1 by lra. rewrite <- Rabs_mult, Rmult_minus_distr_l, RR, FR, mean_prim by lra.
  assert (IN : forall m, 0 <= m <= r -> m <= 1 -> Rabs (G m - prim n (evens a) m) <= e * m).
  { intros m M M1. pose proof (flat (fun t => G t - prim n (evens a) t) (fun t => P t - peval n (evens a) t) e 0 m ltac:(lra)) as X. cbv beta in X. rewrite G0, ZERO, !Rminus_0_r in X. apply X.
    - intros t T. apply (derivable_pt_lim_minus G (prim n (evens a))); [apply DG|apply prim_lim].
    - intros t T. rewrite <- (capped_in t) at 1 by lra. apply HE. lra. }
  destruct (Rle_dec r 1) as [L|L].
  - rewrite capped_in by lra. rewrite (Rmult_comm r). apply IN; lra.
  - rewrite capped_out by lra. pose proof (IN 1 ltac:(lra) ltac:(lra)) as A.
    assert (B : Rabs (prim n (evens a) r - prim n (evens a) 1) <= e * (r - 1)).
    { apply (flat (prim n (evens a)) (peval n (evens a))); [lra|intros; apply prim_lim|]. intros t T. specialize (HE t ltac:(lra)). rewrite capped_out, P1 in HE by lra. replace (0 - peval n (evens a) t) with (- peval n (evens a) t) in HE by ring. rewrite Rabs_Ropp in HE. auto. }
    replace (G 1 - prim n (evens a) r) with ((G 1 - prim n (evens a) 1) + - (prim n (evens a) r - prim n (evens a) 1)) by ring. eapply Rle_trans; [apply Rabs_triang|]. rewrite Rabs_Ropp. lra.
Qed.

(** * Squares of one-sided profiles *)
Definition profile (psi : R -> R) (u : R) : R := if Rle_dec (Rabs u) (/ 2) then psi u else 0.
Lemma in_half : forall u, Rabs u <= / 2 <-> - / 2 <= u <= / 2.
Proof. intros u. unfold Rabs. destruct (Rcase_abs u); lra. Qed.
Lemma line_of : forall P psi K, 0 < K -> P 1 = 0 ->
  (forall s t, s <= t <= s + 1 -> exists n b, (forall v, psi (v - s) * psi (v - t) = peval n b (v - (s + t) / 2)) /\
    K * (prim n b ((1 - (t - s)) / 2) - prim n b (- ((1 - (t - s)) / 2))) = P (t - s)) -> line_psd (fun s => P (capped s)).
Proof.
  intros P psi K K0 P1 H n s w. set (B := rsum n (fun i => Rabs (s i)) + 1).
  assert (SB : forall i, (i < n)%nat -> - B + 1 <= s i <= B - 1).
  { intros i I0. assert (Rabs (s i) <= rsum n (fun i => Rabs (s i))).
    { clear - I0. induction n as [|n IH]; [lia|]. cbn [rsum]. destruct (Nat.eq_dec i n) as [-> |].
      - assert (0 <= rsum n (fun i => Rabs (s i))) by (apply rsum_pos; intros; apply Rabs_pos). lra.
      - specialize (IH ltac:(lia)). pose proof (Rabs_pos (s n)). lra. }
    unfold B. revert H0. unfold Rabs at 1. destruct (Rcase_abs (s i)); lra. }
  assert (B1 : 1 <= B). { unfold B. assert (0 <= rsum n (fun i => Rabs (s i))) by (apply rsum_pos; intros; apply Rabs_pos). lra. }
  set (u := fun (N : nat) i j => avg N (- B) B (fun v => profile psi (v - s i) * profile psi (v - s j))).
  assert (CV0 : forall p q, - B + 1 <= p <= B - 1 -> - B + 1 <= q <= B - 1 -> p <= q -> Un_cv (fun N => avg N (- B) B (fun v => profile psi (v - p) * profile psi (v - q))) (/ (K * (2 * B)) * P (capped (p - q)))).
  { intros p q HP HQ PQ. rewrite <- capped_opp. replace (- (p - q)) with (q - p) by ring. destruct (Rle_dec (q - p) 1) as [L|L].
    - rewrite capped_in by lra. destruct (H p q ltac:(lra)) as (m & b & E & V). rewrite <- V.
      replace (/ (K * (2 * B)) * (K * (prim m b ((1 - (q - p)) / 2) - prim m b (- ((1 - (q - p)) / 2))))) with ((prim m b (p + / 2 - (p + q) / 2) - prim m b (q - / 2 - (p + q) / 2)) / (B - - B)).
      2:{ replace (p + / 2 - (p + q) / 2) with ((1 - (q - p)) / 2) by lra. replace (q - / 2 - (p + q) / 2) with (- ((1 - (q - p)) / 2)) by lra. field. lra. }
      apply (avg_cut (- B) B (q - / 2) (p + / 2) (fun v => prim m b (v - (p + q) / 2)) (fun v => peval m b (v - (p + q) / 2))); try lra.
      + intros t _. apply shift_lim, prim_lim.
      + intros t _. destruct (peval_lim m b (t - (p + q) / 2)) as [l D]. apply (lim_cont _ t l). apply (shift_lim (peval m b)). auto.
      + intros t T. rewrite <- E. unfold profile. destruct (Rle_dec (Rabs (t - p)) (/ 2)) as [_|X]; [|exfalso; apply X, in_half; lra]. destruct (Rle_dec (Rabs (t - q)) (/ 2)) as [_|X]; [reflexivity|exfalso; apply X, in_half; lra].
      + intros t T. unfold profile. destruct (Rle_dec (Rabs (t - p)) (/ 2)) as [X|X]; [|ring]. destruct (Rle_dec (Rabs (t - q)) (/ 2)) as [Y|Y]; [|ring]. apply in_half in X, Y. lra.
    - rewrite capped_out, P1, Rmult_0_r by lra. apply (cv_ext (fun _ => 0)).
      + intros N. symmetry. unfold avg. rewrite rsum_0; [ring|]. intros k _. set (t := node _ _ _ _). unfold profile. destruct (Rle_dec (Rabs (t - p)) (/ 2)) as [X|X]; [|ring]. destruct (Rle_dec (Rabs (t - q)) (/ 2)) as [Y|Y]; [|ring]. apply in_half in X, Y. lra.
      + intros e E. exists 0%nat. intros N _. unfold R_dist. rewrite Rminus_eq_0, Rabs_R0. auto. }
  assert (CV : forall i j, (i < n)%nat -> (j < n)%nat -> Un_cv (fun N => u N i j) (/ (K * (2 * B)) * P (capped (s i - s j)))).
  { intros i j I0 J0. unfold u. destruct (Rle_dec (s i) (s j)) as [L|L]; [apply CV0; auto|]. rewrite <- capped_opp. replace (- (s i - s j)) with (s j - s i) by ring.
    apply (cv_ext (fun N => avg N (- B) B (fun v => profile psi (v - s j) * profile psi (v - s i)))); [|apply CV0; auto; lra]. intros N. apply avg_ext; [lra|]. intros t _. ring. }
  assert (Q : 0 <= quad n (fun i j => / (K * (2 * B)) * P (capped (s i - s j))) w).
  { apply (cv_low (fun N => quad n (u N) w) _ 0 0); [|apply cv_quad; intros; apply CV; auto].
    intros N _. unfold u. rewrite (avg_quad n N (- B) B (fun v i j => profile psi (v - s i) * profile psi (v - s j))). apply avg_pos; [lra|]. intros t _. rewrite quad_rank. apply Rle_0_sqr. }
  rewrite quad_scal in Q. assert (0 < K * (2 * B)) by (apply Rmult_lt_0_compat; lra). apply Rmult_le_reg_l with (/ (K * (2 * B))); [apply Rinv_0_lt_compat; auto|]. lra.
Qed.

(** * The spherical and the cubic function *)
Definition sph_curve (t : R) : R := 1 - 3 * t + 2 * t ^ 3.
Definition cub_curve (t : R) : R := 1 - 21 * t ^ 2 + 35 * t ^ 3 - 21 * t ^ 5 + 6 * t ^ 7.
Definition sph_coeffs (k : nat) : R := nth k [1; -3; 0; 2] 0.
Definition cub_coeffs (k : nat) : R := nth k [1; 0; -21; 35; 0; -21; 0; 6] 0.
Lemma lim_of_eq : forall F G t l m, (forall t, F t = G t) -> l = m -> derivable_pt_lim F t l -> derivable_pt_lim G t m.
Proof. intros F G t l m E -> H e P. destruct (H e P) as [d D]. exists d. intros h H0 H1. rewrite <- !E. auto. Qed.
Lemma lt_dec_b_true : forall a b, a < b -> lt_dec_b a b = true.
Proof. intros. unfold lt_dec_b. destruct (Rlt_dec a b); [reflexivity|contradiction]. Qed.
Lemma lt_dec_b_false : forall a b, b <= a -> lt_dec_b a b = false.
Proof. intros. unfold lt_dec_b. destruct (Rlt_dec a b); auto. lra. Qed.

Lemma sph_psd : forall n x w, 0 <= quad n (kern 3 x (sph_value 1 1)) w.
Proof.
  apply (space_psd (fun s => sph_curve (capped s))).
  - apply near_comp; [|apply near_capped]. exists 4%nat, sph_coeffs. intros s. unfold peval, sph_coeffs, sph_curve. cbn [rsum nth]. ring.
  - apply (transform_of sph_curve (fun t => t - 3 / 2 * t ^ 2 + / 2 * t ^ 4)).
    + intros t. apply (lim_of_eq (prim 4 sph_coeffs) _ t (peval 4 sph_coeffs t)).
      * intros s. unfold prim, sph_coeffs. cbn [rsum nth INR]. field.
      * unfold peval, sph_coeffs, sph_curve. cbn [rsum nth]. ring.
      * apply prim_lim.
    + lra.
    + unfold sph_curve. lra.
    + intros r R0. unfold sph_value. rewrite sqrt_square by auto. unfold Rdiv. rewrite Rinv_1, !Rmult_1_r. destruct (Rlt_dec r 1) as [L|L].
      * rewrite lt_dec_b_true, capped_in by lra. lra.
      * rewrite lt_dec_b_false, capped_out by lra. lra.
    + unfold sph_value, sph_curve. rewrite sqrt_0, lt_dec_b_true by lra. unfold Rdiv. rewrite !Rmult_0_l. lra.
  - apply (line_of sph_curve (fun u => u) 12); [lra|unfold sph_curve; lra|]. intros s t _. exists 3%nat, (fun k => nth k [- ((t - s) / 2) ^ 2; 0; 1] 0). split.
    + intros v. unfold peval. cbn [rsum nth]. field.
    + unfold prim, sph_curve. cbn [rsum nth INR]. field.
Qed.
Lemma cub_psd : forall n x w, 0 <= quad n (kern 3 x (cub_value 1 1)) w.
Proof.
  apply (space_psd (fun s => cub_curve (capped s))).
  - apply near_comp; [|apply near_capped]. exists 8%nat, cub_coeffs. intros s. unfold peval, cub_coeffs, cub_curve. cbn [rsum nth]. ring.
  - apply (transform_of cub_curve (fun t => t - 7 * t ^ 3 + 35 / 4 * t ^ 4 - 7 / 2 * t ^ 6 + 3 / 4 * t ^ 8)).
    + intros t. apply (lim_of_eq (prim 8 cub_coeffs) _ t (peval 8 cub_coeffs t)).
      * intros s. unfold prim, cub_coeffs. cbn [rsum nth INR]. field.
      * unfold peval, cub_coeffs, cub_curve. cbn [rsum nth]. ring.
      * apply prim_lim.
    + lra.
    + unfold cub_curve. lra.
    + intros r R0. unfold cub_value. rewrite sqrt_square by auto. unfold Rdiv. rewrite Rinv_1, !Rmult_1_r. destruct (Rlt_dec r 1) as [L|L].
      * rewrite lt_dec_b_true, capped_in by lra. lra.
      * rewrite lt_dec_b_false, capped_out by lra. lra.
    + unfold cub_value, cub_curve. rewrite sqrt_0, lt_dec_b_true by lra. unfold Rdiv. rewrite !Rmult_0_l. lra.
  - apply (line_of cub_curve (fun u => u * (/ 4 - u * u)) 840); [lra|unfold cub_curve; lra|]. intros s t _. set (h := (t - s) / 2).
    exists 7%nat, (fun k => nth k [- (h * h) * ((/ 4 - h * h) * (/ 4 - h * h)); 0; (/ 4 - h * h) * (/ 4 - h * h) + h * h * (/ 2 + 2 * (h * h)); 0; - (/ 2 + 3 * (h * h)); 0; 1] 0). split.
    + intros v. unfold peval, h. cbn [rsum nth]. field.
    + unfold prim, cub_curve. replace (t - s) with (2 * h) by (unfold h; field). generalize h. intros g. cbn [rsum nth INR]. field.
Qed.
Lemma root_range : forall s, 0 <= s -> (s < 1 -> 0 <= sqrt s < 1) /\ (1 <= s -> 1 <= sqrt s).
Proof.
  intros s S0. pose proof (sqrt_pos s) as P. pose proof (sqrt_sqrt s S0) as Q. split; intros H.
  - split; auto. apply Rnot_le_lt. intros N. pose proof (Rmult_le_compat 1 (sqrt s) 1 (sqrt s) ltac:(lra) ltac:(lra) N N). lra.
  - apply Rnot_lt_le. intros N. pose proof (Rmult_le_compat (sqrt s) 1 (sqrt s) 1 P P ltac:(lra) ltac:(lra)) as X. assert (s = 1) by lra. subst s. rewrite sqrt_1 in N. lra.
Qed.
Lemma sph_low : forall n x, distinct n 3 x -> exists low, 0 < low /\ forall c, low * length2 n c <= quad n (kern 3 x (sph_value 1 1)) c.
Proof.
  apply compact_low; [exact sph_psd| |].
  - intros s S0. unfold sph_value. rewrite lt_dec_b_false; auto. apply root_range; lra.
  - intros s S0 E. destruct (proj1 (root_range s ltac:(lra)) ltac:(lra)) as [R0 R1]. unfold sph_value in E. rewrite lt_dec_b_true in E by auto. unfold Rdiv in E. rewrite Rinv_1, Rmult_1_r in E. set (r := sqrt s) in *.
    replace (1 * (1 + r * (-1.5 + 0.5 * r * r))) with ((1 - r) * (1 - r) * (1 + 0.5 * r)) in E by lra.
    assert (0 < (1 - r) * (1 - r) * (1 + 0.5 * r)) by (apply Rmult_lt_0_compat; [apply Rmult_lt_0_compat; lra|lra]). lra.
Qed.
Lemma cub_low : forall n x, distinct n 3 x -> exists low, 0 < low /\ forall c, low * length2 n c <= quad n (kern 3 x (cub_value 1 1)) c.
Proof.
  apply compact_low; [exact cub_psd| |].
  - intros s S0. unfold cub_value. rewrite lt_dec_b_false; auto. apply root_range; lra.
  - intros s S0 E. destruct (proj1 (root_range s ltac:(lra)) ltac:(lra)) as [R0 R1]. unfold cub_value in E. rewrite lt_dec_b_true in E by auto. unfold Rdiv in E. rewrite Rinv_1, Rmult_1_r in E. set (r := sqrt s) in *.
    replace (1 * (1 + r * r * (-7 + r * (8.75 + r * r * (-3.5 + 0.75 * (r * r)))))) with ((1 - r) * (1 - r) * ((1 - r) * (1 - r)) * (1 + 4 * r + 3 * (r * r) + 0.75 * (r * (r * r)))) in E by lra.
    assert (Q : 0 < (1 - r) * (1 - r)) by (apply Rmult_lt_0_compat; lra). assert (S1 : 0 <= r * r) by (apply Rmult_le_pos; lra). assert (S2 : 0 <= r * (r * r)) by (apply Rmult_le_pos; lra).
    assert (0 < (1 - r) * (1 - r) * ((1 - r) * (1 - r)) * (1 + 4 * r + 3 * (r * r) + 0.75 * (r * (r * r)))) by (apply Rmult_lt_0_compat; [apply Rmult_lt_0_compat; auto|lra]). lra.
Qed.

(** * Other ranges and fewer coordinates *)
Definition pad (d : nat) (q : R) (x : nat -> nat -> R) (i e : nat) : R := if Nat.ltb e d then x i e / q else 0.
Lemma pad_distance : forall d q x i j, (d <= 3)%nat -> 0 < q -> distance2 3 (pad d q x i) (pad d q x j) = distance2 d (x i) (x j) / (q * q).
Proof.
  intros d q x i j D Q. unfold distance2, pad. destruct d as [|[|[|[|d]]]]; [| | | |lia]; cbn [rsum Nat.ltb Nat.leb]; field; lra.
Qed.
Lemma pad_distinct : forall n d q x, (d <= 3)%nat -> 0 < q -> distinct n d x -> distinct n 3 (pad d q x).
Proof.
  intros n d q x D Q H i j I0 J0 N. destruct (H i j I0 J0 N) as (e & E & X). exists e. split; [lia|]. unfold pad. destruct (Nat.ltb_spec e d); [|lia].
  intros Y. apply X. apply Rmult_eq_reg_r with (/ q); auto. apply Rinv_neq_0_compat. lra.
Qed.
Lemma value_unit : forall k p q s, compact_kind k = true -> 0 < q -> 0 <= s -> value k p q s = p * value k 1 1 (s / (q * q)).
Proof.
  intros k p q s K Q S0. assert (E : sqrt (s / (q * q)) = sqrt s / q). { rewrite sqrt_div_alt, sqrt_square by (try apply Rmult_lt_0_compat; lra). reflexivity. }
  assert (B : lt_dec_b (sqrt s / q) 1 = lt_dec_b (sqrt s) q).
  { destruct (Rlt_dec (sqrt s) q) as [L|L].
    - rewrite (lt_dec_b_true (sqrt s)) by auto. apply lt_dec_b_true. apply Rmult_lt_reg_r with q; auto. unfold Rdiv. rewrite Rmult_assoc, Rinv_l; lra.
    - rewrite (lt_dec_b_false (sqrt s)) by lra. apply lt_dec_b_false. apply Rmult_le_reg_r with q; auto. unfold Rdiv. rewrite Rmult_assoc, Rinv_l; lra. }
  destruct k; try discriminate K; cbn [value].
  - unfold cub_value. rewrite E, B. destruct (lt_dec_b (sqrt s) q); [|ring]. unfold Rdiv. rewrite Rinv_1, !Rmult_1_r. ring.
  - unfold sph_value. rewrite E, B. destruct (lt_dec_b (sqrt s) q); [|ring]. unfold Rdiv. rewrite Rinv_1, !Rmult_1_r. ring.
Qed.
Lemma compact_form : forall n d x k p q c, compact_kind k = true -> (d <= 3)%nat -> 0 < q -> quad n (kern d x (value k p q)) c = p * quad n (kern 3 (pad d q x) (value k 1 1)) c.
Proof.
  intros n d x k p q c K D Q. rewrite <- quad_scal. apply quad_ext. intros i j _ _. unfold kern. rewrite (value_unit k p q) by (auto; apply distance2_nonneg). rewrite pad_distance by auto. reflexivity.
Qed.
Lemma compact_nonneg : forall n d x k p q c, compact_kind k = true -> (d <= 3)%nat -> 0 <= p -> 0 < q -> 0 <= quad n (kern d x (value k p q)) c.
Proof.
  intros n d x k p q c K D P Q. rewrite compact_form by auto. apply Rmult_le_pos; auto. destruct k; try discriminate K; [apply cub_psd|apply sph_psd].
Qed.
Lemma compact_definite : forall n d x k p q, distinct n d x -> compact_kind k = true -> (d <= 3)%nat -> 0 < p -> 0 < q -> definite n (fun _ => True) (kern d x (value k p q)).
Proof.
  intros n d x k p q X K D P Q. assert (L : exists low, 0 < low /\ forall c, low * length2 n c <= quad n (kern 3 (pad d q x) (value k 1 1)) c).
  { pose proof (pad_distinct n d q x D Q X). destruct k; try discriminate K; [apply cub_low|apply sph_low]; auto. }
  destruct L as (low & L & B). exists (p * low). split; [apply Rmult_lt_0_compat; auto|]. intros c _. rewrite compact_form by auto. rewrite Rmult_assoc. apply Rmult_le_compat_l; [lra|apply B].
Qed.

(** * All kinds *)
Lemma kind_cases_in : forall d k m, definite_in d k = Some m -> definite_order k = Some m \/ (compact_kind k = true /\ (d <= 3)%nat /\ m = 0%nat).
Proof.
  intros d k m H. destruct k; cbn [definite_in] in H; auto; right; destruct (Nat.leb_spec d 3); try discriminate H; injection H as <-; auto.
Qed.
Lemma kind_nonneg_in : forall n d x k m p0 p1, definite_in d k = Some m -> 0 <= p0 -> (m = 0%nat -> 0 < p1) ->
  forall c, moments n d x m c -> 0 <= quad n (kern d x (value k p0 p1)) c.
Proof.
  intros n d x k m p0 p1 H P0 P1 c C. destruct (kind_cases_in d k m H) as [O|(K & D & M)]; [apply (kind_nonneg n d x k m p0 p1 O P0 P1 c C)|]. apply compact_nonneg; auto.
Qed.
Lemma kind_low_in : forall n d x k m p0 p1, distinct n d x -> definite_in d k = Some m -> 0 < p0 -> (m = 0%nat -> 0 < p1) ->
  definite n (moments n d x m) (kern d x (value k p0 p1)).
Proof.
  intros n d x k m p0 p1 X H P0 P1. destruct (kind_cases_in d k m H) as [O|(K & D & M)]; [apply (kind_low n d x k m p0 p1 X O P0 P1)|].
  destruct (compact_definite n d x k p0 p1 X K D P0 (P1 M)) as (low & L & B). exists low. split; auto.
Qed.
Lemma compact_correlation : forall d x y k p0 p1, compact_kind k = true -> (d <= 3)%nat -> 0 <= p0 -> 0 < p1 ->
  Rabs (value k p0 p1 (distance2 d x y)) <= value k p0 p1 0.
Proof.
  intros d x y k p0 p1 K D P0 P1. assert (H : forall t, t * t = 1 -> 0 <= 2 * value k p0 p1 0 + 2 * t * value k p0 p1 (distance2 d x y)).
  { intros t T. pose proof (compact_nonneg 2 d (fun i => match i with 0%nat => x | _ => y end) k p0 p1 (fun i => match i with 0%nat => 1 | _ => t end) K D P0 P1) as Q.
    unfold quad, kern in Q. cbn [rsum] in Q. rewrite !distance2_same in Q. replace (distance2 d y x) with (distance2 d x y) in Q by (unfold distance2; apply rsum_ext; intros; ring).
    set (v := value k p0 p1 (distance2 d x y)) in *. set (z := value k p0 p1 0) in *. replace (t * t * z) with z in Q by (rewrite T; ring). lra. }
  pose proof (H 1 ltac:(lra)). pose proof (H (-1) ltac:(lra)). apply Rabs_le. lra.
Qed.
