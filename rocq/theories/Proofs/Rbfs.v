From Coq Require Import Reals List Arith ZArith Lia Lra Psatz.
From Verif Require Import Model.LinAlg Model.Rbfs Spec.MonomialBasis Spec.Rbfs Proofs.LinAlg Proofs.MonomialBasis Proofs.Calculus.
Import ListNotations.
Local Open Scope R_scope.

(** ** Booleans *)
Lemma is_zero_spec : forall x, (is_zero x = true /\ x = 0) \/ (is_zero x = false /\ x <> 0).
Proof. intros. unfold is_zero. destruct (Req_EM_T x 0); auto. Qed.
Lemma is_zero_false : forall x, x <> 0 -> is_zero x = false.
Proof. intros. destruct (is_zero_spec x) as [[E ?]|[E ?]]; [contradiction|auto]. Qed.
Lemma is_zero_0 : is_zero 0 = true.
Proof. unfold is_zero. destruct (Req_EM_T 0 0) as [E|N]; [auto|elim N; auto]. Qed.
Lemma lt_true : forall x y, x < y -> lt_dec_b x y = true.
Proof. intros. unfold lt_dec_b. destruct (Rlt_dec x y); [auto|contradiction]. Qed.
Lemma lt_false : forall x y, y <= x -> lt_dec_b x y = false.
Proof. intros. unfold lt_dec_b. destruct (Rlt_dec x y); [lra|auto]. Qed.
Lemma sqrt_sq : forall s, 0 <= s -> sqrt s * sqrt s = s.
Proof. intros. apply sqrt_sqrt. auto. Qed.
Lemma sqrt_below : forall s b, 0 <= s -> 0 < b -> (sqrt s < b <-> s < b * b).
Proof.
  intros s b S B. pose proof (sqrt_pos s). pose proof (sqrt_sq s S). split; intros L; [nra|].
  destruct (Rlt_dec (sqrt s) b); auto. nra.
Qed.
Lemma rho_below : forall s p1 q, 0 <= s -> 0 < p1 -> 0 < q -> (sqrt s / p1 < q <-> s < (q * p1) * (q * p1)).
Proof.
  intros s p1 q S P Q. rewrite <- sqrt_below by (auto; apply Rmult_lt_0_compat; auto). split; intros L.
  - apply (Rmult_lt_compat_r p1) in L; auto. unfold Rdiv in L. rewrite Rmult_assoc, Rinv_l in L by lra. lra.
  - apply (Rmult_lt_reg_r p1); auto. unfold Rdiv. rewrite Rmult_assoc, Rinv_l by lra. lra.
Qed.
Lemma rho_sq : forall s p1, 0 <= s -> p1 <> 0 -> sqrt s / p1 * (sqrt s / p1) = s / (p1 * p1).
Proof. intros s p1 S P. rewrite <- (sqrt_sq s S) at 3. field. auto. Qed.

(** ** Smallness at the origin *)
Definition small (F : R -> R) : Prop := forall eps, 0 < eps -> exists delta, 0 < delta /\ forall s, 0 <= s -> sqrt s < delta -> Rabs (F s) <= eps * sqrt s.
Definition vanishing (F : R -> R) : Prop := forall eps, 0 < eps -> exists delta, 0 < delta /\ forall s, 0 <= s -> sqrt s < delta -> Rabs (F s) <= eps.
Lemma small_quad : forall F K R0, 0 <= K -> 0 < R0 -> (forall s, 0 <= s -> sqrt s < R0 -> Rabs (F s) <= K * s) -> small F.
Proof.
  intros F K R0 K0 RP H eps E. assert (Q : 0 < eps / (K + 1)) by (apply Rdiv_lt_0_compat; lra).
  exists (Rmin R0 (eps / (K + 1))). split; [apply Rmin_pos; auto|]. intros s S L.
  assert (L1 : sqrt s < R0) by (eapply Rlt_le_trans; [exact L|apply Rmin_l]). assert (L2 : sqrt s < eps / (K + 1)) by (eapply Rlt_le_trans; [exact L|apply Rmin_r]).
  eapply Rle_trans; [apply H; auto|]. rewrite <- (sqrt_sq s S) at 1. pose proof (sqrt_pos s).
  apply (Rmult_lt_compat_r (K + 1)) in L2; [|lra]. unfold Rdiv in L2. rewrite Rmult_assoc, Rinv_l in L2 by lra. nra.
Qed.
Lemma small_of_vanishing : forall F G, vanishing G -> (forall s, 0 <= s -> F s = G s * sqrt s) -> small F.
Proof.
  intros F G V E eps EP. destruct (V eps EP) as (delta & DP & B). exists delta. split; auto. intros s S L. rewrite E, Rabs_mult by auto.
  rewrite (Rabs_right (sqrt s)) by (apply Rle_ge, sqrt_pos). apply Rmult_le_compat_r; [apply sqrt_pos|auto].
Qed.
Lemma vanishing_scal : forall c F, vanishing F -> vanishing (fun s => c * F s).
Proof.
  intros c F V eps E. destruct (V (eps / (Rabs c + 1))) as (delta & DP & B); [apply Rdiv_lt_0_compat; auto; pose proof (Rabs_pos c); lra|].
  exists delta. split; auto. intros s S L. rewrite Rabs_mult. specialize (B s S L). pose proof (Rabs_pos c). pose proof (Rabs_pos (F s)).
  apply (Rmult_le_compat_r (Rabs c + 1)) in B; [|lra]. unfold Rdiv in B. rewrite Rmult_assoc, Rinv_l in B by lra. nra.
Qed.
Lemma vanishing_plus : forall F G, vanishing F -> vanishing G -> vanishing (fun s => F s + G s).
Proof.
  intros F G V W eps E. destruct (V (eps / 2)) as (d1 & D1 & B1); [lra|]. destruct (W (eps / 2)) as (d2 & D2 & B2); [lra|].
  exists (Rmin d1 d2). split; [apply Rmin_pos; auto|]. intros s S L. pose proof (Rmin_l d1 d2). pose proof (Rmin_r d1 d2).
  specialize (B1 s S ltac:(lra)). specialize (B2 s S ltac:(lra)). eapply Rle_trans; [apply Rabs_triang|]. lra.
Qed.
Lemma vanishing_sqrt : vanishing sqrt.
Proof. intros eps E. exists eps. split; auto. intros s S L. rewrite Rabs_right by (apply Rle_ge, sqrt_pos). lra. Qed.
Lemma vanishing_mult_sqrt : forall F, vanishing F -> vanishing (fun s => sqrt s * F s).
Proof.
  intros F V eps E. destruct (V eps E) as (d & D & B). exists (Rmin d 1). split; [apply Rmin_pos; lra|]. intros s S L. pose proof (Rmin_l d 1). pose proof (Rmin_r d 1).
  specialize (B s S ltac:(lra)). rewrite Rabs_mult. pose proof (sqrt_pos s). rewrite (Rabs_right (sqrt s)) by lra. pose proof (Rabs_pos (F s)). nra.
Qed.
(** [r ln r] goes to 0. *)
Lemma ln_bound : forall r, 0 < r -> r < 1 -> Rabs (r * ln r) <= 2 * sqrt r.
Proof.
  intros r P L. assert (N : ln r < 0) by (rewrite <- ln_1; apply ln_increasing; auto).
  assert (Q : 0 < sqrt r) by (apply sqrt_lt_R0; auto).
  assert (B : - ln (sqrt r) <= / sqrt r).
  { rewrite <- ln_Rinv by auto. assert (0 < / sqrt r) by (apply Rinv_0_lt_compat; auto). pose proof (exp_ineq1_le (ln (/ sqrt r))). rewrite exp_ln in H0 by auto. lra. }
  assert (LR : ln r = 2 * ln (sqrt r)). { rewrite <- (sqrt_sq r) at 1 by lra. rewrite ln_mult by auto. lra. }
  rewrite Rabs_left by nra. rewrite LR. pose proof (sqrt_sq r ltac:(lra)) as SS.
  assert (r * / sqrt r = sqrt r). { rewrite <- SS at 1. field. lra. }
  apply (Rmult_le_compat_l r) in B; [|lra]. lra.
Qed.
Definition rlnr (s : R) : R := if is_zero (sqrt s) then 0 else sqrt s * ln (sqrt s).
Lemma vanishing_rlnr : vanishing rlnr.
Proof.
  intros eps E. exists (Rmin 1 (eps * eps / 4)). split; [apply Rmin_pos; nra|]. intros s S L. pose proof (Rmin_l 1 (eps * eps / 4)). pose proof (Rmin_r 1 (eps * eps / 4)).
  unfold rlnr. destruct (is_zero_spec (sqrt s)) as [[-> Z]|[-> Z]]; [rewrite Rabs_R0; lra|]. pose proof (sqrt_pos s).
  eapply Rle_trans; [apply ln_bound; lra|]. set (r := sqrt s) in *. pose proof (sqrt_pos r). pose proof (sqrt_sq r ltac:(lra)).
  destruct (Rle_dec (2 * sqrt r) eps); auto. nra.
Qed.

(** ** Inverse half-integer powers *)
Lemma sqrt_pow_pos : forall m x, 0 < x -> 0 < sqrt_pow m x.
Proof. intros. unfold sqrt_pow. apply Rmult_lt_0_compat; [apply pow_lt; auto|apply sqrt_lt_R0; auto]. Qed.
Lemma D_isp : forall m A K s, 0 < 1 + K * s ->
  derivable_pt_lim (fun t => A * / sqrt_pow m (1 + K * t)) s (A * (- ((2 * INR m + 1) / 2) * K * / sqrt_pow (m + 1) (1 + K * s))).
Proof.
  intros m A K s P. pose proof (sqrt_pow_pos m _ P) as Q. unfold sqrt_pow in *. eapply D_val; [der; [lra|nra]|].
  cbv beta. replace (m + 1)%nat with (S m) by lia. rewrite <- tech_pow_Rmult. set (x := 1 + K * s) in *. set (q := sqrt x) in *.
  assert (QP : 0 < q) by (apply sqrt_lt_R0; auto). assert (X : x = q * q) by (symmetry; apply sqrt_sq; lra).
  assert (XM : 0 < x ^ m) by (apply pow_lt; auto).
  assert (PR : INR m * x ^ pred m * x = INR m * x ^ m). { destruct m; [cbn [INR]; lra|]. cbn [pred]. rewrite <- (tech_pow_Rmult x m). ring. }
  assert (PR' : INR m * x ^ pred m = INR m * x ^ m / x). { rewrite <- PR. field. lra. }
  rewrite PR'. set (xm := x ^ m) in *. clearbody xm. clear PR PR'. rewrite X. clearbody q. field. repeat split; lra.
Qed.

(** ** Values and coefficients of every function near a squared distance *)
Definition coeff (k : kind) (p0 p1 s : R) : R := match gradient k p0 p1 s with Num a => a | _ => 0 end.
Definition grad_fact (k : kind) (p0 p1 s a : R) : Prop :=
  (exists G, agrees (value k p0 p1) G s /\ derivable_pt_lim G s (a / 2)) \/
  (s = 0 /\ small (fun s' => value k p0 p1 s' - value k p0 p1 0)).
Definition hess_fact (k : kind) (p0 p1 s : R) (ab : hess) : Prop :=
  fst ab = coeff k p0 p1 s /\
  ((exists G, agrees (coeff k p0 p1) G s /\ derivable_pt_lim G s (snd ab / 2)) \/
   (s = 0 /\ ab = (0, 0) /\ vanishing (coeff k p0 p1))).
Lemma agrees_all : forall F G s, (forall s', 0 <= s' -> F s' = G s') -> agrees F G s.
Proof. intros. exists 1. split; [lra|auto]. Qed.
Lemma agrees_pos : forall F G s, 0 < s -> (forall s', 0 < s' -> F s' = G s') -> agrees F G s.
Proof. intros F G s P H. exists s. split; auto. intros s' S' L. apply H. apply Rabs_def2 in L. lra. Qed.
Lemma agrees_below : forall F G s b, s < b -> (forall s', 0 <= s' -> s' < b -> F s' = G s') -> agrees F G s.
Proof. intros F G s b P H. exists (b - s). split; [lra|]. intros s' S' L. apply H; auto. apply Rabs_def2 in L. lra. Qed.
Lemma agrees_between : forall F G s b, 0 < s -> s < b -> (forall s', 0 < s' -> s' < b -> F s' = G s') -> agrees F G s.
Proof.
  intros F G s b P Q H. exists (Rmin s (b - s)). split; [apply Rmin_pos; lra|]. pose proof (Rmin_l s (b - s)). pose proof (Rmin_r s (b - s)).
  intros s' S' L. apply Rabs_def2 in L. apply H; lra.
Qed.
Lemma agrees_above : forall F G s b, b < s -> (forall s', 0 <= s' -> b < s' -> F s' = G s') -> agrees F G s.
Proof. intros F G s b P H. exists (s - b). split; [lra|]. intros s' S' L. apply H; auto. apply Rabs_def2 in L. lra. Qed.

(** *** Polyharmonic functions *)
Lemma u_nonzero : forall s c, 0 < s + c * c -> sqrt (s + c * c) <> 0.
Proof. intros s c P. pose proof (sqrt_lt_R0 _ P). lra. Qed.
Lemma shifted : forall F G s c, 0 < s + c * c -> (forall s', 0 < s' + c * c -> F s' = G s') -> agrees F G s.
Proof. intros F G s c P H. exists (s + c * c). split; auto. intros s' S' L. apply H. apply Rabs_def2 in L. lra. Qed.
Lemma ss2 : even_sign 2 = 1. Proof. unfold even_sign. cbn. auto. Qed.
Lemma ss4 : even_sign 4 = -1. Proof. unfold even_sign. cbn. auto. Qed.
Lemma so1 : odd_sign 1 = -1. Proof. unfold odd_sign. cbn. auto. Qed.
Lemma so3 : odd_sign 3 = 1. Proof. unfold odd_sign. cbn. auto. Qed.
Lemma origin_c : forall s c, 0 <= s -> ~ 0 < s + c * c -> s = 0 /\ c = 0.
Proof. intros s c S N. assert (s = 0) by nra. split; auto. nra. Qed.
Lemma u_zero : forall s, 0 <= s -> sqrt (s + 0 * 0) = sqrt s.
Proof. intros. f_equal. lra. Qed.

Ltac shifted_formula := intros s' P'; rewrite ?is_zero_false by (apply u_nonzero; auto); reflexivity.
Lemma even2_grad : forall p0 p1 s, 0 < s + p1 * p1 -> exists G, agrees (even_value 2 p0 p1) G s /\ derivable_pt_lim G s (even_coeff 2 p0 (sqrt (s + p1 * p1)) / 2).
Proof.
  intros p0 p1 s P. exists (fun s' => even_sign 2 * p0 * sqrt (s' + p1 * p1) ^ 2 * ln (sqrt (s' + p1 * p1))). split.
  - apply (shifted _ _ _ p1 P). unfold even_value. cbv zeta. shifted_formula.
  - pose proof (sqrt_lt_R0 _ P). eapply D_val; [der; auto|]. unfold even_coeff. cbn [Nat.sub INR pow pred]. set (q := sqrt (s + p1 * p1)) in *. field. lra.
Qed.
Lemma even4_grad : forall p0 p1 s, 0 < s + p1 * p1 -> exists G, agrees (even_value 4 p0 p1) G s /\ derivable_pt_lim G s (even_coeff 4 p0 (sqrt (s + p1 * p1)) / 2).
Proof.
  intros p0 p1 s P. exists (fun s' => even_sign 4 * p0 * sqrt (s' + p1 * p1) ^ 4 * ln (sqrt (s' + p1 * p1))). split.
  - apply (shifted _ _ _ p1 P). unfold even_value. cbv zeta. shifted_formula.
  - pose proof (sqrt_lt_R0 _ P). eapply D_val; [der; auto|]. unfold even_coeff. cbn [Nat.sub INR pow pred]. set (q := sqrt (s + p1 * p1)) in *. field. lra.
Qed.
Lemma pw1 : forall q, powerRZ q (Z.of_nat 1 - 2) = / q.
Proof. intros. change (Z.of_nat 1 - 2)%Z with (-1)%Z. unfold powerRZ. change (Pos.to_nat 1) with 1%nat. rewrite pow_1. auto. Qed.
Lemma pw3 : forall q, powerRZ q (Z.of_nat 3 - 2) = q.
Proof. intros. change (Z.of_nat 3 - 2)%Z with 1%Z. apply powerRZ_1. Qed.
Lemma odd1_grad : forall p0 p1 s, 0 < s + p1 * p1 -> exists G, agrees (odd_value 1 p0 p1) G s /\ derivable_pt_lim G s (odd_coeff 1 p0 (sqrt (s + p1 * p1)) / 2).
Proof.
  intros p0 p1 s P. exists (fun s' => odd_sign 1 * p0 * sqrt (s' + p1 * p1) ^ 1). split.
  - apply agrees_all. intros s' S'. reflexivity.
  - pose proof (sqrt_lt_R0 _ P). eapply D_val; [der; auto|]. unfold odd_coeff. rewrite pw1. cbn [INR pow pred]. set (q := sqrt (s + p1 * p1)) in *. field. lra.
Qed.
Lemma odd3_grad : forall p0 p1 s, 0 < s + p1 * p1 -> exists G, agrees (odd_value 3 p0 p1) G s /\ derivable_pt_lim G s (odd_coeff 3 p0 (sqrt (s + p1 * p1)) / 2).
Proof.
  intros p0 p1 s P. exists (fun s' => odd_sign 3 * p0 * sqrt (s' + p1 * p1) ^ 3). split.
  - apply agrees_all. intros s' S'. reflexivity.
  - pose proof (sqrt_lt_R0 _ P). eapply D_val; [der; auto|]. unfold odd_coeff. rewrite pw3. cbn [INR pow pred]. set (q := sqrt (s + p1 * p1)) in *. field. lra.
Qed.

Lemma coeff_even2 : forall p0 p1 s, 0 < s + p1 * p1 -> coeff Bh2 p0 p1 s = even_coeff 2 p0 (sqrt (s + p1 * p1)).
Proof. intros p0 p1 s P. unfold coeff, gradient, even_gradient. cbv zeta. rewrite is_zero_false by (apply u_nonzero; auto). auto. Qed.
Lemma coeff_even4 : forall p0 p1 s, 0 < s + p1 * p1 -> coeff Th2 p0 p1 s = even_coeff 4 p0 (sqrt (s + p1 * p1)).
Proof. intros p0 p1 s P. unfold coeff, gradient, even_gradient. cbv zeta. rewrite is_zero_false by (apply u_nonzero; auto). auto. Qed.
Lemma coeff_odd1 : forall p0 p1 s, 0 < s + p1 * p1 -> coeff Bh3 p0 p1 s = odd_coeff 1 p0 (sqrt (s + p1 * p1)).
Proof. intros p0 p1 s P. unfold coeff, gradient, odd_gradient. cbv zeta. rewrite is_zero_false by (apply u_nonzero; auto). auto. Qed.
Lemma coeff_odd3 : forall p0 p1 s, 0 < s + p1 * p1 -> coeff Th3 p0 p1 s = odd_coeff 3 p0 (sqrt (s + p1 * p1)).
Proof. intros p0 p1 s P. unfold coeff, gradient, odd_gradient. cbv zeta. rewrite is_zero_false by (apply u_nonzero; auto). auto. Qed.
Ltac poly_hess C := intros p0 p1 s ab P H; pose proof (sqrt_lt_R0 _ P) as QP; pose proof (sqrt_sq (s + p1 * p1) ltac:(lra)) as QQ.
Lemma even2_hess : forall p0 p1 s ab, 0 < s + p1 * p1 -> even_hessian 2 p0 p1 s = Num ab -> hess_fact Bh2 p0 p1 s ab.
Proof.
  poly_hess tt. unfold even_hessian in H. cbv zeta in H. rewrite is_zero_false in H by (apply u_nonzero; auto).
  destruct (is_zero_spec (1 + INR 2 * ln (sqrt (s + p1 * p1)))) as [[Z E]|[Z N]]; rewrite Z in H; [discriminate|]. injection H as <-.
  split; [rewrite coeff_even2; auto|]. left. exists (fun s' => even_coeff 2 p0 (sqrt (s' + p1 * p1))). split.
  - apply (shifted _ _ _ p1 P). intros. apply coeff_even2. auto.
  - unfold even_coeff. cbn [snd]. eapply D_val; [der; cbv beta; auto|]. cbv beta. cbn [Nat.sub INR pow pred] in *.
    set (q := sqrt (s + p1 * p1)) in *. clearbody q. rewrite <- QQ. clear - QP N. field. split; lra.
Qed.
Lemma even4_hess : forall p0 p1 s ab, 0 < s + p1 * p1 -> even_hessian 4 p0 p1 s = Num ab -> hess_fact Th2 p0 p1 s ab.
Proof.
  poly_hess tt. unfold even_hessian in H. cbv zeta in H. rewrite is_zero_false in H by (apply u_nonzero; auto).
  destruct (is_zero_spec (1 + INR 4 * ln (sqrt (s + p1 * p1)))) as [[Z E]|[Z N]]; rewrite Z in H; [discriminate|]. injection H as <-.
  split; [rewrite coeff_even4; auto|]. left. exists (fun s' => even_coeff 4 p0 (sqrt (s' + p1 * p1))). split.
  - apply (shifted _ _ _ p1 P). intros. apply coeff_even4. auto.
  - unfold even_coeff. cbn [snd]. eapply D_val; [der; cbv beta; auto|]. cbv beta. cbn [Nat.sub INR pow pred] in *.
    set (q := sqrt (s + p1 * p1)) in *. clearbody q. rewrite <- QQ. clear - QP N. field. split; lra.
Qed.
Lemma odd1_hess : forall p0 p1 s ab, 0 < s + p1 * p1 -> odd_hessian 1 p0 p1 s = Num ab -> hess_fact Bh3 p0 p1 s ab.
Proof.
  poly_hess tt. unfold odd_hessian in H. cbv zeta in H. rewrite is_zero_false in H by (apply u_nonzero; auto). injection H as <-.
  split; [rewrite coeff_odd1; auto|]. left. exists (fun s' => odd_sign 1 * INR 1 * p0 * / sqrt (s' + p1 * p1)). split.
  - apply (shifted _ _ _ p1 P). intros. rewrite coeff_odd1 by auto. unfold odd_coeff. rewrite pw1. auto.
  - unfold odd_coeff. cbn [snd]. rewrite pw1. eapply D_val; [der; cbv beta; auto; lra|]. cbv beta. cbn [INR] in *.
    set (q := sqrt (s + p1 * p1)) in *. clearbody q. rewrite <- QQ. clear - QP. field. lra.
Qed.
Lemma odd3_hess : forall p0 p1 s ab, 0 < s + p1 * p1 -> odd_hessian 3 p0 p1 s = Num ab -> hess_fact Th3 p0 p1 s ab.
Proof.
  poly_hess tt. unfold odd_hessian in H. cbv zeta in H. rewrite is_zero_false in H by (apply u_nonzero; auto). injection H as <-.
  split; [rewrite coeff_odd3; auto|]. left. exists (fun s' => odd_sign 3 * INR 3 * p0 * sqrt (s' + p1 * p1)). split.
  - apply (shifted _ _ _ p1 P). intros. rewrite coeff_odd3 by auto. unfold odd_coeff. rewrite pw3. auto.
  - unfold odd_coeff. cbn [snd]. rewrite pw3. eapply D_val; [der; cbv beta; auto; lra|]. cbv beta. cbn [INR] in *.
    set (q := sqrt (s + p1 * p1)) in *. clearbody q. rewrite <- QQ. clear - QP. field. lra.
Qed.
(** At the origin without smoothing. *)
Lemma is_zero_u : forall s, 0 <= s -> is_zero (sqrt (s + 0 * 0)) = is_zero (sqrt s).
Proof. intros. rewrite u_zero; auto. Qed.
Lemma even_value_0 : forall k p0, even_value k p0 0 0 = 0.
Proof. intros. unfold even_value. cbv zeta. rewrite u_zero, sqrt_0, is_zero_0 by lra. auto. Qed.
Lemma even2_origin : forall p0, small (fun s' => even_value 2 p0 0 s' - even_value 2 p0 0 0).
Proof.
  intros p0. apply (small_of_vanishing _ (fun s => p0 * rlnr s)); [apply vanishing_scal, vanishing_rlnr|]. intros s S. rewrite even_value_0. unfold even_value, rlnr. cbv zeta.
  rewrite u_zero by auto. destruct (is_zero_spec (sqrt s)) as [[-> E]|[-> N]]; [lra|]. rewrite ss2. ring.
Qed.
Lemma even4_origin : forall p0, small (fun s' => even_value 4 p0 0 s' - even_value 4 p0 0 0).
Proof.
  intros p0. apply (small_of_vanishing _ (fun s => - p0 * (sqrt s * (sqrt s * rlnr s)))); [apply vanishing_scal, vanishing_mult_sqrt, vanishing_mult_sqrt, vanishing_rlnr|]. intros s S. rewrite even_value_0. unfold even_value, rlnr. cbv zeta.
  rewrite u_zero by auto. destruct (is_zero_spec (sqrt s)) as [[-> E]|[-> N]]; [lra|]. rewrite ss4. ring.
Qed.
Lemma odd3_origin : forall p0, small (fun s' => odd_value 3 p0 0 s' - odd_value 3 p0 0 0).
Proof.
  intros p0. apply (small_of_vanishing _ (fun s => p0 * (sqrt s * sqrt s))); [apply vanishing_scal, vanishing_mult_sqrt, vanishing_sqrt|]. intros s S. unfold odd_value. cbv zeta.
  rewrite !u_zero, sqrt_0, so3 by lra. ring.
Qed.
Lemma vanishing_ext : forall F G, vanishing G -> (forall s, 0 <= s -> F s = G s) -> vanishing F.
Proof. intros F G V E eps EP. destruct (V eps EP) as (d & D & B). exists d. split; auto. intros s S L. rewrite E by auto. auto. Qed.
Lemma even4_coeff_origin : forall p0, vanishing (coeff Th2 p0 0).
Proof.
  intros p0. apply (vanishing_ext _ (fun s => - p0 * (sqrt s * sqrt s) + - (4 * p0) * (sqrt s * rlnr s))).
  - apply vanishing_plus; apply vanishing_scal; apply vanishing_mult_sqrt; [apply vanishing_sqrt|apply vanishing_rlnr].
  - intros s S. unfold coeff, gradient, even_gradient, rlnr, even_coeff. cbv zeta. rewrite u_zero by auto.
    destruct (is_zero_spec (sqrt s)) as [[-> E]|[-> N]]; [rewrite E; ring|]. rewrite ss4. cbn [Nat.sub INR]. ring.
Qed.
Lemma odd3_coeff_origin : forall p0, vanishing (coeff Th3 p0 0).
Proof.
  intros p0. apply (vanishing_ext _ (fun s => 3 * p0 * sqrt s)).
  - apply vanishing_scal, vanishing_sqrt.
  - intros s S. unfold coeff, gradient, odd_gradient, odd_coeff. cbv zeta. rewrite u_zero by auto.
    destruct (is_zero_spec (sqrt s)) as [[-> E]|[-> N]]; [rewrite E; ring|]. rewrite so3, pw3. cbn [INR]. ring.
Qed.

(** *** Compactly supported functions *)
Definition cub_poly (p0 p1 s : R) : R := let r := sqrt s in let rho := r / p1 in let rho2 := rho * rho in p0 * (1 + rho2 * (-7 + rho * (8.75 + rho2 * (-3.5 + 0.75 * rho2)))).
Definition cub_poly' (p0 p1 s : R) : R := let r := sqrt s in let rho := r / p1 in let rho2 := rho * rho in p0 * (-14 + rho * (26.25 + rho2 * (-17.5 + 5.25 * rho2))) / (p1 * p1).
Definition sph_poly (p0 p1 s : R) : R := let r := sqrt s in let rho := r / p1 in p0 * (1 + rho * (-1.5 + 0.5 * rho * rho)).
Definition sph_poly' (p0 p1 s : R) : R := let r := sqrt s in let rho := r / p1 in p0 * (-1.5 / rho + 1.5 * rho) / (p1 * p1).
Lemma decs : 8.75 = 35 / 4 /\ -3.5 = - 7 / 2 /\ 0.75 = 3 / 4 /\ 26.25 = 105 / 4 /\ -17.5 = - 35 / 2 /\ 5.25 = 21 / 4 /\ -1.5 = - 3 / 2 /\ 1.5 = 3 / 2 /\ 0.5 = 1 / 2.
Proof. repeat split; lra. Qed.
Ltac decimals := let H := fresh in pose proof decs as H; decompose [and] H; clear H; repeat match goal with E : ?d = ?f |- _ => rewrite ?E in *; clear E end.
Lemma D_cub : forall p0 p1 s, 0 < p1 -> 0 < s -> derivable_pt_lim (cub_poly p0 p1) s (cub_poly' p0 p1 s / 2).
Proof.
  intros p0 p1 s P S. unfold cub_poly, cub_poly'. cbv zeta. decimals. pose proof (sqrt_lt_R0 _ S). eapply D_val; [der; cbv beta; auto; lra|]. cbv beta. set (q := sqrt s) in *. clearbody q. field. lra.
Qed.
Lemma D_sph : forall p0 p1 s, 0 < p1 -> 0 < s -> derivable_pt_lim (sph_poly p0 p1) s (sph_poly' p0 p1 s / 2).
Proof.
  intros p0 p1 s P S. unfold sph_poly, sph_poly'. cbv zeta. decimals. pose proof (sqrt_lt_R0 _ S). eapply D_val; [der; cbv beta; auto; lra|]. cbv beta. set (q := sqrt s) in *. clearbody q. field. lra.
Qed.
Lemma compact_grad : forall (f poly poly' : R -> R) p1 s, 0 < p1 -> 0 < s ->
  (forall s', f s' = if lt_dec_b (sqrt s') p1 then poly s' else 0) -> poly (p1 * p1) = 0 -> poly' (p1 * p1) = 0 ->
  (forall s', 0 < s' -> derivable_pt_lim poly s' (poly' s' / 2)) ->
  exists G, agrees f G s /\ derivable_pt_lim G s ((if lt_dec_b (sqrt s) p1 then poly' s else 0) / 2).
Proof.
  intros f poly poly' p1 s P S F Z Z' D. destruct (Rtotal_order s (p1 * p1)) as [L|[E|L]].
  - rewrite lt_true by (apply sqrt_below; auto; lra). exists poly. split; [|apply D; auto].
    apply (agrees_below _ _ _ (p1 * p1)); auto. intros s' S' L'. rewrite F, lt_true; auto. apply sqrt_below; auto.
  - assert (N : sqrt s = p1) by (rewrite E; apply sqrt_square; lra). rewrite lt_false by lra. exists f. split; [apply agrees_all; auto|].
    replace (0 / 2) with 0 by lra. apply (D_squeeze f poly).
    + rewrite F, lt_false; auto. lra.
    + rewrite E. auto.
    + intros t. rewrite F. destruct (lt_dec_b (sqrt t) p1); auto.
    + eapply D_val; [apply D; auto|]. rewrite E, Z'. lra.
  - rewrite lt_false. 2: { destruct (Rlt_dec (sqrt s) p1) as [Q|]; [apply sqrt_below in Q; lra|lra]. }
    exists (fun _ => 0). split; [|eapply D_val; [der|lra]]. apply (agrees_above _ _ _ (p1 * p1)); auto. intros s' S' L'. rewrite F, lt_false; auto.
    destruct (Rlt_dec (sqrt s') p1) as [Q|]; [apply sqrt_below in Q; lra|lra].
Qed.
Lemma sqrt_pp : forall p, 0 < p -> sqrt (p * p) / p = 1.
Proof. intros. rewrite sqrt_square by lra. field. lra. Qed.
Lemma cub_grad : forall p0 p1 s a, 0 < p1 -> 0 <= s -> cub_gradient p0 p1 s = Num a -> grad_fact Cub p0 p1 s a.
Proof.
  intros p0 p1 s a P S H. destruct (Req_dec s 0) as [Z|N].
  - right. split; auto. assert (V0 : cub_value p0 p1 0 = p0).
    { unfold cub_value. cbv zeta. rewrite sqrt_0, lt_true by auto. field. lra. }
    unfold value. rewrite V0. apply (small_quad _ (20 * Rabs p0 / (p1 * p1)) p1); auto.
    { apply Rmult_le_pos; [pose proof (Rabs_pos p0); lra|]. left. apply Rinv_0_lt_compat. nra. }
    intros s' S' L. unfold cub_value. cbv zeta. rewrite lt_true by auto. rewrite rho_sq by (auto; lra).
    replace (p0 * _ - p0) with (p0 * (s' / (p1 * p1)) * (-7 + sqrt s' / p1 * (8.75 + s' / (p1 * p1) * (-3.5 + 0.75 * (s' / (p1 * p1)))))) by ring.
    rewrite !Rabs_mult. assert (R1 : 0 <= sqrt s' / p1 <= 1).
    { pose proof (sqrt_pos s'). split; [apply Rmult_le_pos; [auto|left; apply Rinv_0_lt_compat; auto]|].
      apply (Rmult_le_reg_r p1); auto. unfold Rdiv. rewrite Rmult_assoc, Rinv_l by lra. lra. }
    assert (R2 : 0 <= s' / (p1 * p1) <= 1). { rewrite <- rho_sq by (auto; lra). nra. }
    set (x := sqrt s' / p1) in *. set (y := s' / (p1 * p1)) in *. replace (20 * Rabs p0 / (p1 * p1) * s') with (Rabs p0 * y * 20) by (unfold y; field; lra).
    rewrite (Rabs_right y) by lra. apply Rmult_le_compat_l; [apply Rmult_le_pos; [apply Rabs_pos|lra]|].
    apply Rabs_le. split; [assert (-4 <= -3.5 + 0.75 * y <= 0) by lra|assert (-4 <= -3.5 + 0.75 * y <= 0) by lra];
      assert (-4 <= y * (-3.5 + 0.75 * y) <= 0) by nra; nra.
  - left. unfold cub_gradient in H. cbv zeta in H. injection H as <-.
    apply (compact_grad (cub_value p0 p1) (cub_poly p0 p1) (cub_poly' p0 p1)); auto; try lra.
    + unfold cub_poly. cbv zeta. rewrite sqrt_pp by auto. lra.
    + unfold cub_poly'. cbv zeta. rewrite sqrt_pp by auto. decimals. field. lra.
    + intros. apply D_cub; auto.
Qed.
Lemma sph_grad : forall p0 p1 s a, 0 < p1 -> 0 <= s -> sph_gradient p0 p1 s = Num a -> grad_fact Sph p0 p1 s a.
Proof.
  intros p0 p1 s a P S H. left. destruct (Req_dec s 0) as [Z|N].
  - exfalso. subst s. unfold sph_gradient in H. cbv zeta in H. rewrite sqrt_0, lt_true in H by auto. replace (0 / p1) with 0 in H by (field; lra). rewrite is_zero_0 in H. discriminate.
  - assert (A : a = if lt_dec_b (sqrt s) p1 then sph_poly' p0 p1 s else 0).
    { unfold sph_gradient in H. cbv zeta in H. destruct (lt_dec_b (sqrt s) p1); [|injection H; auto].
      destruct (is_zero (sqrt s / p1)); [discriminate|]. injection H. auto. }
    rewrite A. apply (compact_grad (sph_value p0 p1) (sph_poly p0 p1) (sph_poly' p0 p1)); auto; try lra.
    + unfold sph_poly. cbv zeta. rewrite sqrt_pp by auto. lra.
    + unfold sph_poly'. cbv zeta. rewrite sqrt_pp by auto. decimals. field. lra.
    + intros. apply D_sph; auto.
Qed.

(** *** Exponential, Gaussian, generalized Cauchy *)
Lemma exp_grad : forall p0 p1 s a, 0 < p1 -> 0 <= s -> exp_gradient p0 p1 s = Num a -> 0 < s /\ grad_fact Exp p0 p1 s a.
Proof.
  intros p0 p1 s a P S H. unfold exp_gradient in H. cbv zeta in H. destruct (is_zero_spec (sqrt s)) as [[Z E]|[Z N]]; rewrite Z in H; [discriminate|]. injection H as <-.
  assert (SP : 0 < s). { destruct S; auto. subst s. rewrite sqrt_0 in N. lra. } split; auto. left. exists (exp_value p0 p1). split; [apply agrees_all; auto|].
  pose proof (sqrt_lt_R0 _ SP). unfold exp_value. cbv zeta. eapply D_val; [der; cbv beta; auto; lra|]. cbv beta. set (q := sqrt s) in *. field. lra.
Qed.
Lemma coeff_exp : forall p0 p1 s, 0 < s -> coeff Exp p0 p1 s = -3 * p0 * exp (-3 * (sqrt s / p1)) / (p1 * sqrt s).
Proof. intros. pose proof (sqrt_lt_R0 _ H). unfold coeff, gradient, exp_gradient. cbv zeta. rewrite is_zero_false by lra. auto. Qed.
Lemma exp_hess : forall p0 p1 s ab, 0 < p1 -> 0 <= s -> exp_hessian p0 p1 s = Num ab -> hess_fact Exp p0 p1 s ab.
Proof.
  intros p0 p1 s ab P S H. unfold exp_hessian in H. cbv zeta in H. destruct (is_zero_spec (sqrt s)) as [[Z E]|[Z N]]; rewrite Z in H; [discriminate|]. injection H as <-.
  assert (SP : 0 < s). { destruct S; auto. subst s. rewrite sqrt_0 in N. lra. } split; [rewrite coeff_exp; auto|]. left.
  exists (fun s' => -3 * p0 * exp (-3 * (sqrt s' / p1)) / (p1 * sqrt s')). split; [apply agrees_pos; auto; intros; apply coeff_exp; auto|].
  pose proof (sqrt_lt_R0 _ SP). cbn [snd]. eapply D_val; [der; cbv beta; auto; nra|]. cbv beta. set (q := sqrt s) in *. field. lra.
Qed.
Lemma gau_formula : forall s p1, 0 <= s -> 0 < p1 -> -3 * (sqrt s / p1) * (sqrt s / p1) = -3 * (s / (p1 * p1)).
Proof. intros. rewrite Rmult_assoc, rho_sq by lra. auto. Qed.
Lemma gau_grad : forall p0 p1 s a, 0 < p1 -> 0 <= s -> gau_gradient p0 p1 s = Num a -> grad_fact Gau p0 p1 s a.
Proof.
  intros p0 p1 s a P S H. unfold gau_gradient in H. cbv zeta in H. injection H as <-. left. exists (fun s' => p0 * exp (-3 * (s' / (p1 * p1)))). split.
  - apply agrees_all. intros s' S'. unfold value, gau_value. cbv zeta. rewrite gau_formula; auto.
  - rewrite gau_formula by auto. eapply D_val; [der; cbv beta; nra|]. cbv beta. field. lra.
Qed.
Lemma gau_hess : forall p0 p1 s ab, 0 < p1 -> 0 <= s -> gau_hessian p0 p1 s = Num ab -> hess_fact Gau p0 p1 s ab.
Proof.
  intros p0 p1 s ab P S H. unfold gau_hessian in H. cbv zeta in H. injection H as <-. split; [reflexivity|]. left. exists (fun s' => -6 * p0 * exp (-3 * (s' / (p1 * p1))) / (p1 * p1)). split.
  - apply agrees_all. intros s' S'. unfold coeff, gradient, gau_gradient. cbv zeta. rewrite gau_formula; auto.
  - cbn [snd]. rewrite gau_formula by auto. eapply D_val; [der; cbv beta; nra|]. cbv beta. field. lra.
Qed.
(** [1 + kA rho rho] as a function of the squared distance. *)
Lemma base_formula : forall K s p1, 0 <= s -> 0 < p1 -> 1 + K * (sqrt s / p1) * (sqrt s / p1) = 1 + K / (p1 * p1) * s.
Proof. intros. rewrite Rmult_assoc, rho_sq by lra. field. lra. Qed.
Lemma base_pos : forall K s p1, 0 <= K -> 0 <= s -> 0 < p1 -> 0 < 1 + K / (p1 * p1) * s.
Proof. intros. assert (0 <= K / (p1 * p1)) by (apply Rmult_le_pos; auto; left; apply Rinv_0_lt_compat; nra). nra. Qed.
Section Cauchy.
Variable m : nat.
Variable K : R.
Hypothesis K0 : 0 < K.
Lemma gc_coeff_formula : forall p0 p1 s, 0 < p1 -> 0 <= s -> gc_coeff m K p0 p1 (sqrt s / p1) = - K * (2 * INR m + 1) * p0 / (p1 * p1) * / sqrt_pow (m + 1) (1 + K / (p1 * p1) * s).
Proof.
  intros p0 p1 s P S. unfold gc_coeff. rewrite base_formula by auto. pose proof (sqrt_pow_pos (m + 1) _ (base_pos K s p1 ltac:(lra) S P)). field. lra.
Qed.
Lemma gc_grad : forall p0 p1 s, 0 < p1 -> 0 <= s ->
  exists G, agrees (gc_value m K p0 p1) G s /\ derivable_pt_lim G s (gc_coeff m K p0 p1 (sqrt s / p1) / 2).
Proof.
  intros p0 p1 s P S. exists (fun s' => p0 * / sqrt_pow m (1 + K / (p1 * p1) * s')). split.
  - apply agrees_all. intros s' S'. unfold gc_value. cbv zeta. rewrite base_formula; auto.
  - rewrite gc_coeff_formula by auto. eapply D_val; [apply D_isp; apply base_pos; lra|]. pose proof (sqrt_pow_pos (m + 1) _ (base_pos K s p1 ltac:(lra) S P)). field. lra.
Qed.
Lemma gc_hess : forall p0 p1 s, 0 < p1 -> 0 <= s ->
  exists G, agrees (fun s' => gc_coeff m K p0 p1 (sqrt s' / p1)) G s /\
    derivable_pt_lim G s (- gc_coeff m K p0 p1 (sqrt s / p1) * (K * (2 * INR m + 3) / (K * sqrt s * sqrt s + p1 * p1)) / 2).
Proof.
  intros p0 p1 s P S. exists (fun s' => - K * (2 * INR m + 1) * p0 / (p1 * p1) * / sqrt_pow (m + 1) (1 + K / (p1 * p1) * s')). split.
  - apply agrees_all. intros s' S'. apply gc_coeff_formula; auto.
  - rewrite gc_coeff_formula by auto. pose proof (base_pos K s p1 ltac:(lra) S P) as B. eapply D_val; [apply D_isp; auto|].
    rewrite plus_INR. cbn [INR]. rewrite (Rmult_assoc K), sqrt_sq by auto. pose proof (sqrt_pow_pos (m + 1) _ B) as Q. replace (sqrt_pow (m + 1 + 1) (1 + K / (p1 * p1) * s)) with ((1 + K / (p1 * p1) * s) * sqrt_pow (m + 1) (1 + K / (p1 * p1) * s)).
    2: { unfold sqrt_pow. replace (m + 1 + 1)%nat with (Datatypes.S (m + 1)) by lia. rewrite <- tech_pow_Rmult. ring. }
    set (q := sqrt_pow (m + 1) _) in *. clearbody q. assert (0 < K * s + p1 * p1) by nra. field. repeat split; lra.
Qed.
End Cauchy.

(** *** Spheroidal functions *)
Section Spheroidals.
Variable sp : spheroid.
Hypothesis EX : exact_constants sp.
Variables p0 p1 : R.
Hypothesis P : 0 < p1.
Let K := kC sp / (p1 * p1).
Definition imq_g (s : R) : R := p0 * kB sp * / sqrt_pow (sm sp) (1 + K * s).
Definition imq_g' (s : R) : R := - p0 * kD sp / (p1 * p1) * / sqrt_pow (sm sp + 1) (1 + K * s).
Lemma imq_is : forall s, 0 <= s -> imq_value sp p0 p1 s = imq_g s.
Proof. intros s H. unfold imq_value, imq_g, K. rewrite base_formula; auto. Qed.
Lemma kpos : forall s, 0 <= s -> 0 < 1 + K * s.
Proof. intros. destruct EX as (_ & C & _). apply base_pos; lra. Qed.
Lemma imq_coeff_is : forall s, 0 <= s -> imq_coeff sp p0 p1 s = imq_g' s.
Proof. intros s H. unfold imq_coeff, imq_g', K. rewrite base_formula by auto. pose proof (sqrt_pow_pos (sm sp + 1) _ (kpos s H)) as Q. unfold K in Q. field. lra. Qed.
Lemma D_imq : forall s, 0 <= s -> derivable_pt_lim imq_g s (imq_coeff sp p0 p1 s / 2).
Proof.
  intros s H. rewrite imq_coeff_is by auto. unfold imq_g, imq_g'. eapply D_val; [apply D_isp; apply kpos; auto|].
  pose proof (sqrt_pow_pos (sm sp + 1) _ (kpos s H)) as Q. destruct EX as (_ & C & -> & _). unfold K at 1. field. lra.
Qed.
Lemma D_imq' : forall s, 0 <= s -> derivable_pt_lim imq_g' s (- imq_coeff sp p0 p1 s * ((2 * INR (sm sp) + 3) / (sqrt s * sqrt s + kE sp * p1 * p1)) / 2).
Proof.
  intros s H. rewrite imq_coeff_is by auto. unfold imq_g'. eapply D_val; [apply D_isp; apply kpos; auto|].
  pose proof (kpos s H) as B. pose proof (sqrt_pow_pos (sm sp + 1) _ B) as Q. destruct EX as (_ & C & _ & ->).
  rewrite plus_INR. cbn [INR]. rewrite sqrt_sq by auto. replace (sqrt_pow (sm sp + 1 + 1) (1 + K * s)) with ((1 + K * s) * sqrt_pow (sm sp + 1) (1 + K * s)).
  2: { unfold sqrt_pow. replace (sm sp + 1 + 1)%nat with (S (sm sp + 1)) by lia. rewrite <- tech_pow_Rmult. ring. }
  set (q := sqrt_pow (sm sp + 1) _) in *. clearbody q. assert (KS : K * (p1 * p1) = kC sp) by (unfold K; field; lra).
  assert (KP : 0 < K). { unfold K. apply Rdiv_lt_0_compat; auto. nra. }
  replace (s + / kC sp * p1 * p1) with ((1 + K * s) / K). 2: { rewrite <- KS. field. lra. }
  field. repeat split; lra.
Qed.
Lemma D_lin : forall s, 0 < s -> derivable_pt_lim (lin_value sp p0 p1) s (lin_coeff sp p0 p1 s / 2).
Proof.
  intros s H. pose proof (sqrt_lt_R0 _ H). unfold lin_value, lin_coeff. eapply D_val; [der; cbv beta; auto; lra|]. cbv beta. set (q := sqrt s) in *. field. lra.
Qed.
Lemma D_lin' : forall s, 0 < s -> derivable_pt_lim (lin_coeff sp p0 p1) s (- lin_coeff sp p0 p1 s * (1 / (sqrt s * sqrt s)) / 2).
Proof.
  intros s H. pose proof (sqrt_lt_R0 _ H). unfold lin_coeff. eapply D_val; [der; cbv beta; auto; nra|]. cbv beta. set (q := sqrt s) in *. field. lra.
Qed.
Let b := (kRho0 sp * p1) * (kRho0 sp * p1).
Lemma below_b : forall s, 0 <= s -> s < b -> lt_dec_b (sqrt s / p1) (kRho0 sp) = true.
Proof. intros. destruct EX as (R0 & _). apply lt_true. apply rho_below; auto. Qed.
Lemma above_b : forall s, 0 <= s -> b <= s -> lt_dec_b (sqrt s / p1) (kRho0 sp) = false.
Proof. intros s H L. destruct EX as (R0 & _). apply lt_false. destruct (Rlt_dec (sqrt s / p1) (kRho0 sp)) as [Q|]; [apply rho_below in Q; auto; unfold b in L; lra|lra]. Qed.
Lemma not_b : forall s, 0 <= s -> sqrt s / p1 <> kRho0 sp -> s <> b.
Proof. intros s H N E. apply N. destruct EX as (R0 & _). rewrite E. unfold b. rewrite sqrt_square by nra. field. lra. Qed.
Lemma sp_grad : forall p s a, 0 <= s -> grad_regular (Sp sp p) p1 s -> sp_gradient sp p0 p1 s p = Num a ->
  exists G, agrees (value (Sp sp p) p0 p1) G s /\ derivable_pt_lim G s (a / 2).
Proof.
  intros p s a H RG E. assert (NZ : is_zero (sqrt s) = false -> 0 < s).
  { intros Z. destruct H as [|H]; auto. subst s. rewrite sqrt_0, is_zero_0 in Z. discriminate. }
  assert (IMQ : exists G, agrees (imq_value sp p0 p1) G s /\ derivable_pt_lim G s (imq_coeff sp p0 p1 s / 2)).
  { exists imq_g. split; [apply agrees_all; intros; apply imq_is; auto|apply D_imq; auto]. }
  unfold value, sp_value. destruct p; cbn [sp_gradient] in E.
  - destruct (Rtotal_order s b) as [L|[Q|L]]; [|destruct (not_b s H RG Q)|].
    + rewrite below_b in E by auto. unfold lin_gradient in E. destruct (is_zero (sqrt s)); [discriminate|]. injection E as <-.
      exists (lin_value sp p0 p1). split; [|apply D_lin; auto]. apply (agrees_below _ _ _ b L). intros. rewrite below_b; auto.
    + rewrite above_b in E by lra. injection E as <-. exists imq_g. split; [|apply D_imq; auto]. apply (agrees_above _ _ _ b L). intros. rewrite above_b by lra. apply imq_is; auto.
  - destruct (Rtotal_order s b) as [L|[Q|L]]; [|destruct (not_b s H RG Q)|].
    + rewrite below_b in E by auto. unfold lin_gradient, imq_gradient in E. destruct (is_zero (sqrt s)); [discriminate|]. injection E as <-.
      exists (fun s' => lin_value sp p0 p1 s' - imq_g s'). split; [apply (agrees_below _ _ _ b L); intros; rewrite below_b, imq_is by auto; auto|].
      eapply D_val; [apply D_minus; [apply D_lin; auto|apply D_imq; auto]|]. lra.
    + rewrite above_b in E by lra. injection E as <-. exists (fun _ => 0). split; [|eapply D_val; [der|lra]]. apply (agrees_above _ _ _ b L). intros. rewrite above_b by lra. auto.
  - injection E as <-. exact IMQ.
Qed.
Lemma coeff_sp_full_below : forall s, 0 < s -> s < b -> coeff (Sp sp Full) p0 p1 s = lin_coeff sp p0 p1 s.
Proof. intros s H L. unfold coeff, gradient. cbn [sp_gradient]. rewrite below_b by lra. unfold lin_gradient. pose proof (sqrt_lt_R0 _ H). rewrite is_zero_false by lra. auto. Qed.
Lemma coeff_sp_full_above : forall s, 0 <= s -> b <= s -> coeff (Sp sp Full) p0 p1 s = imq_g' s.
Proof. intros s H L. unfold coeff, gradient. cbn [sp_gradient]. rewrite above_b by lra. apply imq_coeff_is. auto. Qed.
Lemma coeff_sp_direct_below : forall s, 0 < s -> s < b -> coeff (Sp sp DirectPart) p0 p1 s = lin_coeff sp p0 p1 s - imq_g' s.
Proof. intros s H L. unfold coeff, gradient. cbn [sp_gradient]. rewrite below_b by lra. unfold lin_gradient, imq_gradient. pose proof (sqrt_lt_R0 _ H). rewrite is_zero_false by lra. cbn [res_map2]. rewrite imq_coeff_is by lra. auto. Qed.
Lemma coeff_sp_direct_above : forall s, 0 <= s -> b <= s -> coeff (Sp sp DirectPart) p0 p1 s = 0.
Proof. intros s H L. unfold coeff, gradient. cbn [sp_gradient]. rewrite above_b by lra. auto. Qed.
Lemma sp_hess : forall p s ab, 0 <= s -> grad_regular (Sp sp p) p1 s -> sp_hessian sp p0 p1 s p = Num ab -> hess_fact (Sp sp p) p0 p1 s ab.
Proof.
  intros p s ab H RG E. assert (NZ : is_zero (sqrt s) = false -> 0 < s).
  { intros Z. destruct H as [|H]; auto. subst s. rewrite sqrt_0, is_zero_0 in Z. discriminate. }
  destruct p; cbn [sp_hessian] in E.
  - destruct (Rtotal_order s b) as [L|[Q|L]]; [|destruct (not_b s H RG Q)|].
    + rewrite below_b in E by auto. unfold lin_hessian in E. destruct (is_zero (sqrt s)); [discriminate|]. injection E as <-. split; [rewrite coeff_sp_full_below; auto|]. left.
      exists (lin_coeff sp p0 p1). split; [|apply D_lin'; auto]. apply (agrees_between _ _ _ b); auto. apply coeff_sp_full_below.
    + rewrite above_b in E by lra. injection E as <-. split; [rewrite coeff_sp_full_above by lra; apply imq_coeff_is; auto|]. left. exists imq_g'. split; [|apply D_imq'; auto]. apply (agrees_above _ _ _ b L). intros. apply coeff_sp_full_above; lra.
  - destruct (Rtotal_order s b) as [L|[Q|L]]; [|destruct (not_b s H RG Q)|].
    + rewrite below_b in E by auto. unfold lin_hessian, imq_hessian in E. destruct (is_zero (sqrt s)); [discriminate|]. injection E as <-. split; [rewrite coeff_sp_direct_below by auto; cbn [hess_minus fst]; rewrite imq_coeff_is; auto|]. left.
      exists (fun s' => lin_coeff sp p0 p1 s' - imq_g' s'). split; [apply (agrees_between _ _ _ b); auto; apply coeff_sp_direct_below|]. cbn [hess_minus fst snd].
      eapply D_val; [apply D_minus; [apply D_lin'; auto|apply D_imq'; auto]|]. lra.
    + rewrite above_b in E by lra. injection E as <-. split; [rewrite coeff_sp_direct_above; auto; lra|]. left. exists (fun _ => 0). split; [|eapply D_val; [der|cbn [snd]; lra]]. apply (agrees_above _ _ _ b L). intros. apply coeff_sp_direct_above; lra.
  - injection E as <-. split; [reflexivity|]. left. exists imq_g'. split; [|apply D_imq'; auto]. apply agrees_all. intros. unfold coeff, gradient. cbn [sp_gradient]. apply imq_coeff_is. auto.
Qed.
End Spheroidals.

(** *** All functions *)
Lemma gc_constant_pos : forall m, 0 < gc_constant m.
Proof. intros. unfold gc_constant. destruct m as [|[|[|[|m]]]]; lra. Qed.
Lemma grad_facts : forall k p0 p1 s a, exact_kind k -> range_ok k p1 -> 0 <= s -> grad_regular k p1 s -> gradient k p0 p1 s = Num a -> grad_fact k p0 p1 s a.
Proof.
  intros k p0 p1 s a EX RO S0 RG E. destruct k; cbn [range_ok exact_kind] in *.
  1,2,4: (destruct (Rlt_dec 0 (s + p1 * p1)) as [Q|Q];
    [|destruct (origin_c s p1 S0 Q); subst; right; split; auto; first [apply even2_origin|apply even4_origin|apply odd3_origin]]).
  1,2: (cbn [gradient] in E; unfold even_gradient in E; cbv zeta in E; rewrite is_zero_false in E by (apply u_nonzero; auto); injection E as <-; left; first [apply even2_grad|apply even4_grad]; auto).
  1: (cbn [gradient] in E; unfold odd_gradient in E; cbv zeta in E; rewrite is_zero_false in E by (apply u_nonzero; auto); injection E as <-; left; apply odd3_grad; auto).
  - cbn [gradient grad_regular] in *; unfold odd_gradient in E; cbv zeta in E; rewrite is_zero_false in E by (apply u_nonzero; auto); injection E as <-; left; apply odd1_grad; auto.
  - apply cub_grad; auto.
  - apply exp_grad; auto.
  - apply gau_grad; auto.
  - injection E as <-. left. apply (gc_grad 1 (gc_constant 1)); auto. apply gc_constant_pos.
  - injection E as <-. left. apply (gc_grad 2 (gc_constant 2)); auto. apply gc_constant_pos.
  - injection E as <-. left. apply (gc_grad 3 (gc_constant 3)); auto. apply gc_constant_pos.
  - injection E as <-. left. apply (gc_grad 4 (gc_constant 4)); auto. apply gc_constant_pos.
  - apply sph_grad; auto.
  - left. apply sp_grad; auto.
Qed.
Lemma hess_facts : forall k p0 p1 s ab, exact_kind k -> range_ok k p1 -> 0 <= s -> hess_regular k p1 s -> hessian k p0 p1 s = Num ab -> hess_fact k p0 p1 s ab.
Proof.
  intros k p0 p1 s ab EX RO S0 RG E. destruct k; cbn [range_ok exact_kind] in *.
  - apply even2_hess; auto.
  - destruct (Rlt_dec 0 (s + p1 * p1)) as [Q|Q]; [apply even4_hess; auto|]. destruct (origin_c s p1 S0 Q). subst. cbn [hessian] in E. unfold even_hessian in E. cbv zeta in E.
    rewrite u_zero, sqrt_0, is_zero_0 in E by lra. injection E as <-. split; [|right; split; auto; split; auto; apply even4_coeff_origin].
    unfold coeff, gradient, even_gradient. cbv zeta. rewrite u_zero, sqrt_0, is_zero_0 by lra. auto.
  - apply odd1_hess; auto.
  - destruct (Rlt_dec 0 (s + p1 * p1)) as [Q|Q]; [apply odd3_hess; auto|]. destruct (origin_c s p1 S0 Q). subst. cbn [hessian] in E. unfold odd_hessian in E. cbv zeta in E.
    rewrite u_zero, sqrt_0, is_zero_0 in E by lra. injection E as <-. split; [|right; split; auto; split; auto; apply odd3_coeff_origin].
    unfold coeff, gradient, odd_gradient. cbv zeta. rewrite u_zero, sqrt_0, is_zero_0 by lra. auto.
  - discriminate.
  - apply exp_hess; auto.
  - apply gau_hess; auto.
  - injection E as <-. split; [reflexivity|]. left. apply (gc_hess 1 (gc_constant 1)); auto. apply gc_constant_pos.
  - injection E as <-. split; [reflexivity|]. left. apply (gc_hess 2 (gc_constant 2)); auto. apply gc_constant_pos.
  - injection E as <-. split; [reflexivity|]. left. apply (gc_hess 3 (gc_constant 3)); auto. apply gc_constant_pos.
  - injection E as <-. split; [reflexivity|]. left. apply (gc_hess 4 (gc_constant 4)); auto. apply gc_constant_pos.
  - discriminate.
  - apply sp_hess; auto.
Qed.

(** ** Gradients and Hessians with anisotropy *)
Lemma dot_zero : forall n v, dot n v v = 0 -> forall i, (i < n)%nat -> v i = 0.
Proof.
  induction n as [|n IH]; intros v H i I; [lia|]. unfold dot in *. cbn [rsum] in H.
  assert (0 <= rsum n (fun i => v i * v i)) by (apply rsum_pos; intros; apply Rle_0_sqr). assert (0 <= v n * v n) by apply Rle_0_sqr.
  destruct (Nat.eq_dec i n) as [-> |N]; [nra|]. apply IH; [lra|lia].
Qed.
Lemma dot_nonneg : forall n v, 0 <= dot n v v.
Proof. intros. apply rsum_pos. intros. apply Rle_0_sqr. Qed.
Lemma dot_ext : forall n u w, (forall i, (i < n)%nat -> u i = w i) -> dot n u u = dot n w w.
Proof. intros. unfold dot. apply rsum_ext. intros. rewrite H; auto. Qed.
Lemma component_le : forall n v i, (i < n)%nat -> Rabs (v i) <= sqrt (dot n v v).
Proof.
  intros n v i I. rewrite <- sqrt_Rsqr_abs. apply sqrt_le_1_alt. unfold dot. revert I. induction n as [|n IH]; intros I; [lia|]. cbn [rsum].
  assert (0 <= rsum n (fun i => v i * v i)) by (apply rsum_pos; intros; apply Rle_0_sqr). assert (0 <= v n * v n) by apply Rle_0_sqr.
  destruct (Nat.eq_dec i n) as [-> |N]; [unfold Rsqr; lra|]. specialize (IH ltac:(lia)). lra.
Qed.
Lemma partial_plus_const : forall f c e d x, partial (fun y => f y - c) e d x -> partial f e d x.
Proof.
  intros f c e d x D. unfold partial in *. apply (D_ext _ (fun t => (f (with_coord d e t) - c) + c)); [intros; lra|].
  eapply D_val; [apply (D_plus (fun t => f (with_coord d e t) - c) (fun _ => c)); [exact D|der]|]. lra.
Qed.
Theorem gradient_correct : forall n k p0 p1 a d g, exact_kind k -> range_ok k p1 ->
  grad_regular k p1 (dot n (mat_vec n a d) (mat_vec n a d)) -> evaluate_gradient n k p0 p1 a d = Num g ->
  forall e, (e < n)%nat -> partial (evaluate n k p0 p1 a) e d (g e).
Proof.
  intros n k p0 p1 a d g EX RO RG E e En. unfold evaluate_gradient, gradient_at in E. set (v := mat_vec n a d) in *.
  destruct (gradient k p0 p1 (dot n v v)) as [l| |] eqn:G; try discriminate. injection E as <-.
  destruct (grad_facts k p0 p1 _ l EX RO (dot_nonneg n v) RG G) as [(F & AG & D)|(Z & SM)].
  - exact (radial_gradient n a d e En (value k p0 p1) F l AG D).
  - unfold row_mat. rewrite rsum_0. 2: { intros i I. rewrite (dot_zero n v Z i I). lra. }
    apply (partial_plus_const _ (value k p0 p1 0)). unfold evaluate, value_at.
    apply (D_origin n a d e En (fun u => value k p0 p1 (dot n u u) - value k p0 p1 0)).
    + intros u w H. rewrite (dot_ext n u w) by auto. auto.
    + replace (dot n (fun _ => 0) (fun _ => 0)) with 0; [lra|]. symmetry. apply rsum_0. intros. lra.
    + intros eps EP. destruct (SM eps EP) as (delta & DP & B). exists delta. split; auto. intros u U. apply B; auto. apply dot_nonneg.
    + apply dot_zero. exact Z.
Qed.
Lemma component_coeff : forall n k p0 p1 a x c, component (evaluate_gradient n k p0 p1 a x) c =
  rsum n (fun i => coeff k p0 p1 (dot n (mat_vec n a x) (mat_vec n a x)) * mat_vec n a x i * a i c).
Proof.
  intros. unfold evaluate_gradient, gradient_at, coeff. destruct (gradient k p0 p1 _); cbn [res_map component]; auto; symmetry; apply rsum_0; intros; lra.
Qed.
Theorem hessian_correct : forall n k p0 p1 a d h, exact_kind k -> range_ok k p1 ->
  hess_regular k p1 (dot n (mat_vec n a d) (mat_vec n a d)) -> evaluate_hessian n k p0 p1 a d = Num h ->
  forall c e, (c < n)%nat -> (e < n)%nat -> partial (fun x => component (evaluate_gradient n k p0 p1 a x) c) e d (h c e).
Proof.
  intros n k p0 p1 a d h EX RO RG E c e Cn En. unfold evaluate_hessian, hessian_at in E. set (v := mat_vec n a d) in *.
  destruct (hessian k p0 p1 (dot n v v)) as [[h1 h2]| |] eqn:G; try discriminate. injection E as <-.
  destruct (hess_facts k p0 p1 _ (h1, h2) EX RO (dot_nonneg n v) RG G) as (H1 & H2). cbn [fst snd] in *.
  assert (EQ : forall t, component (evaluate_gradient n k p0 p1 a (with_coord d e t)) c = rsum n (fun i => coeff k p0 p1 (dot n (mat_vec n a (with_coord d e t)) (mat_vec n a (with_coord d e t))) * mat_vec n a (with_coord d e t) i * a i c)) by (intros; apply component_coeff).
  unfold partial. eapply D_ext; [exact EQ|]. clear EQ. unfold sandwich. destruct H2 as [(F & AG & D)|(Z & AB & VA)].
  - rewrite H1. exact (radial_hessian n a d e En (coeff k p0 p1) F h2 c AG D).
  - injection AB as -> ->. rewrite rsum_0. 2: { intros j J. rewrite rsum_0; [lra|]. intros. cbn [fst snd]. lra. }
    apply (D_origin n a d e En (fun u => rsum n (fun i => coeff k p0 p1 (dot n u u) * u i * a i c))).
    + intros u w H. apply rsum_ext. intros i I. rewrite (dot_ext n u w), H by auto. auto.
    + apply rsum_0. intros. lra.
    + intros eps EP. set (M := rsum n (fun i => Rabs (a i c))). assert (M0 : 0 <= M) by (apply rsum_pos; intros; apply Rabs_pos).
      destruct (VA (eps / (M + 1))) as (delta & DP & B); [apply Rdiv_lt_0_compat; lra|]. exists delta. split; auto. intros u U.
      specialize (B _ (dot_nonneg n u) U). set (C := coeff k p0 p1 (dot n u u)) in *. set (q := sqrt (dot n u u)) in *. assert (Q0 : 0 <= q) by apply sqrt_pos.
      rewrite (rsum_ext n _ (fun i => C * (u i * a i c))) by (intros; ring). rewrite rsum_scal, Rabs_mult.
      assert (BS : Rabs (rsum n (fun i => u i * a i c)) <= q * M).
      { unfold M. assert (UB : forall i, (i < n)%nat -> Rabs (u i) <= q) by (intros; apply component_le; auto). clearbody q. clear - UB Q0. induction n as [|m IH]; cbn [rsum]; [rewrite Rabs_R0; lra|].
        eapply Rle_trans; [apply Rabs_triang|]. rewrite Rmult_plus_distr_l. apply Rplus_le_compat; [apply IH; intros; apply UB; lia|]. rewrite Rabs_mult. apply Rmult_le_compat_r; [apply Rabs_pos|]. apply UB. lia. }
      pose proof (Rabs_pos C). apply (Rmult_le_compat_r (M + 1)) in B; [|lra]. unfold Rdiv in B. rewrite Rmult_assoc, Rinv_l in B by lra.
      assert (Rabs C * (q * M) <= Rabs C * (q * (M + 1))) by (apply Rmult_le_compat_l; nra). nra.
    + apply dot_zero. exact Z.
Qed.
