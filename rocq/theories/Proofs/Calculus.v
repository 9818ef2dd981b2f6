From Coq Require Import Reals List Arith ZArith Lia Lra.
From Verif Require Import Model.LinAlg Spec.MonomialBasis Proofs.LinAlg Proofs.MonomialBasis.
Import ListNotations.
Local Open Scope R_scope.

(** ** Derivatives of combinations, in eta-expanded form *)
Lemma D_val : forall f x d d', derivable_pt_lim f x d -> d = d' -> derivable_pt_lim f x d'.
Proof. intros. subst. auto. Qed.
Lemma D_plus : forall f g x a b, derivable_pt_lim f x a -> derivable_pt_lim g x b -> derivable_pt_lim (fun t => f t + g t) x (a + b).
Proof. intros. apply (derivable_pt_lim_plus f g); auto. Qed.
Lemma D_minus : forall f g x a b, derivable_pt_lim f x a -> derivable_pt_lim g x b -> derivable_pt_lim (fun t => f t - g t) x (a - b).
Proof. intros. apply (derivable_pt_lim_minus f g); auto. Qed.
Lemma D_opp : forall f x a, derivable_pt_lim f x a -> derivable_pt_lim (fun t => - f t) x (- a).
Proof. intros. apply (derivable_pt_lim_opp f); auto. Qed.
Lemma D_mult : forall f g x a b, derivable_pt_lim f x a -> derivable_pt_lim g x b -> derivable_pt_lim (fun t => f t * g t) x (a * g x + f x * b).
Proof. intros. apply (derivable_pt_lim_mult f g); auto. Qed.
Lemma D_comp : forall f g x a b, derivable_pt_lim f x a -> derivable_pt_lim g (f x) b -> derivable_pt_lim (fun t => g (f t)) x (b * a).
Proof. intros. apply (derivable_pt_lim_comp f g); auto. Qed.
Lemma D_inv : forall f x a, derivable_pt_lim f x a -> f x <> 0 -> derivable_pt_lim (fun t => / f t) x (- a / (f x * f x)).
Proof.
  intros f x a F N. pose proof (derivable_pt_lim_div (fct_cte 1) f x 0 a (derivable_pt_lim_const 1 x) F N) as D.
  unfold div_fct, fct_cte in D. replace (- a / (f x * f x)) with ((0 * f x - a * 1) / Rsqr (f x)) by (unfold Rsqr; field; auto).
  intros eps E. destruct (D eps E) as [delta P]. exists delta. intros h H1 H2. specialize (P h H1 H2). unfold Rdiv in P at 2 3. rewrite !Rmult_1_l in P. exact P.
Qed.
Lemma D_div : forall f g x a b, derivable_pt_lim f x a -> derivable_pt_lim g x b -> g x <> 0 ->
  derivable_pt_lim (fun t => f t / g t) x (a * / g x + f x * (- b / (g x * g x))).
Proof. intros. unfold Rdiv at 1. apply (D_mult f (fun t => / g t)); auto. apply D_inv; auto. Qed.
Lemma D_sqrt : forall f x a, derivable_pt_lim f x a -> 0 < f x -> derivable_pt_lim (fun t => sqrt (f t)) x (/ (2 * sqrt (f x)) * a).
Proof. intros. apply (D_comp f sqrt); auto. apply derivable_pt_lim_sqrt; auto. Qed.
Lemma D_ln : forall f x a, derivable_pt_lim f x a -> 0 < f x -> derivable_pt_lim (fun t => ln (f t)) x (/ f x * a).
Proof. intros. apply (D_comp f ln); auto. apply derivable_pt_lim_ln; auto. Qed.
Lemma D_exp : forall f x a, derivable_pt_lim f x a -> derivable_pt_lim (fun t => exp (f t)) x (exp (f x) * a).
Proof. intros. apply (D_comp f exp); auto. apply derivable_pt_lim_exp; auto. Qed.
Lemma D_pow : forall f x a n, derivable_pt_lim f x a -> derivable_pt_lim (fun t => f t ^ n) x (INR n * f x ^ pred n * a).
Proof. intros. apply (D_comp f (fun t => t ^ n)); auto. apply derivable_pt_lim_pow. Qed.
Lemma D_rsum : forall n (f : nat -> R -> R) f' x, (forall i, (i < n)%nat -> derivable_pt_lim (f i) x (f' i)) ->
  derivable_pt_lim (fun t => rsum n (fun i => f i t)) x (rsum n f').
Proof. induction n as [|n IH]; intros f f' x H; cbn [rsum]; [apply d_const|]. apply D_plus; [apply IH; intros; apply H; lia|apply H; lia]. Qed.
Ltac der := lazymatch goal with
  | |- derivable_pt_lim (fun x => x) _ _ => apply d_id
  | |- derivable_pt_lim (fun _ => ?c) _ _ => apply d_const
  | |- derivable_pt_lim (fun x => @?f x + @?g x) _ _ => apply (D_plus f g); der
  | |- derivable_pt_lim (fun x => @?f x - @?g x) _ _ => apply (D_minus f g); der
  | |- derivable_pt_lim (fun x => - @?f x) _ _ => apply (D_opp f); der
  | |- derivable_pt_lim (fun x => @?f x * @?g x) _ _ => apply (D_mult f g); der
  | |- derivable_pt_lim (fun x => @?f x / @?g x) _ _ => apply (D_div f g); [der|der|]
  | |- derivable_pt_lim (fun x => / @?f x) _ _ => apply (D_inv f); [der|]
  | |- derivable_pt_lim (fun x => sqrt (@?f x)) _ _ => apply (D_sqrt f); [der|]
  | |- derivable_pt_lim (fun x => ln (@?f x)) _ _ => apply (D_ln f); [der|]
  | |- derivable_pt_lim (fun x => exp (@?f x)) _ _ => apply (D_exp f); der
  | |- derivable_pt_lim (fun x => @?f x ^ ?n) _ _ => apply (D_pow f); der
  end.
(** Equality near the point. *)
Lemma D_local : forall f g x d, (exists delta, 0 < delta /\ forall t, Rabs (t - x) < delta -> f t = g t) ->
  derivable_pt_lim g x d -> derivable_pt_lim f x d.
Proof.
  intros f g x d (delta & DP & E) G eps EP. destruct (G eps EP) as [d1 P].
  assert (M : 0 < Rmin delta d1) by (apply Rmin_pos; auto; apply cond_pos).
  exists (mkposreal _ M). intros h H0 H1. cbn [pos] in H1.
  assert (Rabs h < delta) by (eapply Rlt_le_trans; [exact H1|apply Rmin_l]). assert (Rabs h < d1) by (eapply Rlt_le_trans; [exact H1|apply Rmin_r]).
  rewrite !E; [apply P; auto| |]; [replace (x - x) with 0 by lra; rewrite Rabs_R0; auto|replace (x + h - x) with h by lra; auto].
Qed.
Lemma D_ext : forall f g x d, (forall t, f t = g t) -> derivable_pt_lim g x d -> derivable_pt_lim f x d.
Proof. intros f g x d E G. apply (D_local f g); auto. exists 1. split; [lra|auto]. Qed.
(** A function between 0 and one with derivative 0 and value 0. *)
Lemma D_squeeze : forall f g x, f x = 0 -> g x = 0 -> (forall t, f t = 0 \/ f t = g t) -> derivable_pt_lim g x 0 -> derivable_pt_lim f x 0.
Proof.
  intros f g x F0 G0 E G eps EP. destruct (G eps EP) as [d1 P]. exists d1. intros h H0 H1. specialize (P h H0 H1).
  rewrite F0. rewrite G0 in P. destruct (E (x + h)) as [-> | ->]; auto. replace ((0 - 0) / h - 0) with 0 by (field; auto). rewrite Rabs_R0. auto.
Qed.
Lemma D_continuous : forall f x d eps, derivable_pt_lim f x d -> 0 < eps -> exists delta, 0 < delta /\ forall t, Rabs (t - x) < delta -> Rabs (f t - f x) < eps.
Proof.
  intros f x d eps D EP. assert (C : continuity_pt f x) by (apply derivable_continuous_pt; exists d; exact D).
  destruct (C eps EP) as (delta & DP & H). exists delta. split; [exact DP|]. intros t T. destruct (Req_dec t x) as [-> |N]; [replace (f x - f x) with 0 by lra; rewrite Rabs_R0; auto|].
  apply (H t). split; [split; [exact I|auto]|exact T].
Qed.

(** ** The line through a point in direction [e] after a linear map *)
Section Line.
Variable n : nat.
Variable a : nat -> nat -> R.
Variable d : nat -> R.
Variable e : nat.
Hypothesis En : (e < n)%nat.
Let v := mat_vec n a d.
Lemma line : forall t i, mat_vec n a (with_coord d e t) i = v i + (t - d e) * a i e.
Proof.
  intros t i. unfold v, mat_vec. rewrite (rsum_ext n _ (fun j => a i j * d j + (if Nat.eqb j e then (t - d e) * a i e else 0))).
  - rewrite rsum_plus. f_equal. rewrite (rsum_single n e); [rewrite Nat.eqb_refl; auto|auto|]. intros j J N. apply Nat.eqb_neq in N. rewrite N. auto.
  - intros j J. unfold with_coord. destruct (Nat.eqb_spec j e) as [-> |N]; lra.
Qed.
Lemma at_point : forall i, mat_vec n a (with_coord d e (d e)) i = v i.
Proof. intros. rewrite line. lra. Qed.
Lemma D_line : forall i, derivable_pt_lim (fun t => mat_vec n a (with_coord d e t) i) (d e) (a i e).
Proof. intros i. apply (D_ext _ (fun t => v i + (t - d e) * a i e)); [intros; apply line|]. eapply D_val; [der|]. lra. Qed.
Definition sq (t : R) : R := dot n (mat_vec n a (with_coord d e t)) (mat_vec n a (with_coord d e t)).
Lemma sq_point : sq (d e) = dot n v v.
Proof. unfold sq, dot. apply rsum_ext. intros. rewrite at_point. auto. Qed.
Lemma sq_pos : forall t, 0 <= sq t.
Proof. intros. apply rsum_pos. intros i I. apply Rle_0_sqr. Qed.
Lemma D_sq_line : derivable_pt_lim sq (d e) (2 * rsum n (fun i => v i * a i e)).
Proof.
  unfold sq, dot. eapply D_val; [apply (D_rsum n (fun i t => mat_vec n a (with_coord d e t) i * mat_vec n a (with_coord d e t) i)); intros i I;
    apply (D_mult (fun t => mat_vec n a (with_coord d e t) i) (fun t => mat_vec n a (with_coord d e t) i)); apply D_line|].
  rewrite <- rsum_scal. apply rsum_ext. intros i I. rewrite at_point. lra.
Qed.
(** A function of the squared norm that agrees near the point with a differentiable one. *)
Definition agrees (F G : R -> R) (s : R) : Prop := exists delta, 0 < delta /\ forall s', 0 <= s' -> Rabs (s' - s) < delta -> F s' = G s'.
Lemma D_radial : forall F G l, agrees F G (dot n v v) -> derivable_pt_lim G (dot n v v) (l / 2) ->
  derivable_pt_lim (fun t => F (sq t)) (d e) (l * rsum n (fun i => v i * a i e)).
Proof.
  intros F G l (delta & DP & AG) DG. destruct (D_continuous sq (d e) _ delta D_sq_line DP) as (d1 & D1 & C).
  apply (D_local _ (fun t => G (sq t))).
  - exists d1. split; auto. intros t T. apply AG; [apply sq_pos|]. rewrite <- sq_point. auto.
  - eapply D_val; [apply (D_comp sq G); [apply D_sq_line|rewrite sq_point; exact DG]|]. lra.
Qed.
Lemma radial_gradient : forall F G l, agrees F G (dot n v v) -> derivable_pt_lim G (dot n v v) (l / 2) ->
  partial (fun x => F (dot n (mat_vec n a x) (mat_vec n a x))) e d (rsum n (fun i => l * v i * a i e)).
Proof.
  intros F G l AG DG. unfold partial. eapply D_val; [exact (D_radial F G l AG DG)|].
  rewrite <- rsum_scal. apply rsum_ext. intros. lra.
Qed.
Lemma radial_hessian : forall F G l c, agrees F G (dot n v v) -> derivable_pt_lim G (dot n v v) (l / 2) ->
  partial (fun x => rsum n (fun i => F (dot n (mat_vec n a x) (mat_vec n a x)) * mat_vec n a x i * a i c)) e d
    (rsum n (fun j => rsum n (fun i => a i c * (F (dot n v v) * (if Nat.eqb i j then 1 else 0) + l * (v i * v j))) * a j e)).
Proof.
  intros F G l c AG DG. unfold partial.
  apply (D_ext _ (fun t => F (sq t) * rsum n (fun i => mat_vec n a (with_coord d e t) i * a i c))).
  - intros t. unfold sq. rewrite <- rsum_scal. apply rsum_ext. intros. lra.
  - eapply D_val.
    + apply (D_mult (fun t => F (sq t)) (fun t => rsum n (fun i => mat_vec n a (with_coord d e t) i * a i c))).
      * exact (D_radial F G l AG DG).
      * apply (D_rsum n (fun i t => mat_vec n a (with_coord d e t) i * a i c)). intros i I.
        apply (D_mult (fun t => mat_vec n a (with_coord d e t) i) (fun _ => a i c)); [apply D_line|apply d_const].
    + cbv beta. rewrite sq_point. rewrite (rsum_ext n (fun i => mat_vec n a (with_coord d e (d e)) i * a i c) (fun i => v i * a i c)) by (intros; rewrite at_point; auto).
      rewrite (rsum_ext n (fun i => a i e * a i c + mat_vec n a (with_coord d e (d e)) i * 0) (fun i => a i e * a i c)) by (intros; lra).
      symmetry. rewrite (rsum_ext n _ (fun j => F (dot n v v) * (a j e * a j c) + l * (rsum n (fun i => v i * a i c)) * (v j * a j e))).
      * rewrite rsum_plus, !rsum_scal. ring.
      * intros j J. rewrite (rsum_ext n _ (fun i => (if Nat.eqb i j then F (dot n v v) * a j c else 0) + (l * v j) * (v i * a i c))).
        { rewrite rsum_plus, rsum_scal, (rsum_single n j); auto; [rewrite Nat.eqb_refl; ring|]. intros i I N. apply Nat.eqb_neq in N. rewrite N. auto. }
        intros i I. destruct (Nat.eqb_spec i j) as [-> |N]; lra.
Qed.
(** At the origin, a function smaller than any multiple of the norm. *)
Lemma D_origin : forall F : (nat -> R) -> R, (forall u w, (forall i, (i < n)%nat -> u i = w i) -> F u = F w) -> F (fun _ => 0) = 0 ->
  (forall eps, 0 < eps -> exists delta, 0 < delta /\ forall u, sqrt (dot n u u) < delta -> Rabs (F u) <= eps * sqrt (dot n u u)) ->
  (forall i, (i < n)%nat -> v i = 0) -> partial (fun x => F (mat_vec n a x)) e d 0.
Proof.
  intros F FE F0 SM Z. unfold partial. intros eps EP.
  set (m := sqrt (dot n (fun i => a i e) (fun i => a i e))). assert (M0 : 0 <= m) by apply sqrt_pos.
  assert (NT : forall t, sqrt (dot n (mat_vec n a (with_coord d e t)) (mat_vec n a (with_coord d e t))) = Rabs (t - d e) * m).
  { intros t. unfold m. rewrite <- sqrt_Rsqr_abs, <- sqrt_mult; [|apply Rle_0_sqr|apply rsum_pos; intros; apply Rle_0_sqr]. f_equal. unfold dot.
    rewrite <- rsum_scal. apply rsum_ext. intros i I. rewrite line, Z by auto. unfold Rsqr. ring. }
  destruct (SM (eps / (m + 1))) as (delta & DP & B); [apply Rdiv_lt_0_compat; lra|].
  assert (M : 0 < delta / (m + 1)) by (apply Rdiv_lt_0_compat; lra). exists (mkposreal _ M). intros h H0 H1. cbn [pos] in H1.
  rewrite (FE (mat_vec n a (with_coord d e (d e))) (fun _ => 0)) by (intros; rewrite at_point; auto). rewrite F0.
  set (u := mat_vec n a (with_coord d e (d e + h))). assert (NU : sqrt (dot n u u) = Rabs h * m).
  { unfold u. rewrite NT. f_equal. f_equal. lra. }
  assert (HP : 0 < Rabs h) by (apply Rabs_pos_lt; auto).
  assert (LT : Rabs h * (m + 1) < delta). { apply (Rmult_lt_compat_r (m + 1)) in H1; [|lra]. unfold Rdiv in H1. rewrite Rmult_assoc, Rinv_l, Rmult_1_r in H1 by lra. auto. }
  assert (BU : Rabs (F u) <= eps / (m + 1) * (Rabs h * m)). { rewrite <- NU. apply B. rewrite NU. nra. }
  replace ((F u - 0) / h - 0) with (F u * / h) by (field; auto). rewrite Rabs_mult, Rabs_inv.
  apply (Rmult_lt_reg_r (Rabs h)); auto. rewrite Rmult_assoc, Rinv_l, Rmult_1_r by lra. eapply Rle_lt_trans; [exact BU|].
  replace (eps / (m + 1) * (Rabs h * m)) with (eps * Rabs h * (m / (m + 1))) by (field; lra).
  assert (Q : m / (m + 1) < 1). { apply (Rmult_lt_reg_r (m + 1)); [lra|]. unfold Rdiv. rewrite Rmult_assoc, Rinv_l by lra. lra. }
  assert (0 < eps * Rabs h) by (apply Rmult_lt_0_compat; auto). nra.
Qed.
End Line.
