From Coq Require Import Reals List Arith ZArith Lia Lra Psatz FunctionalExtensionality.
From Verif Require Import Model.LinAlg Model.Operator Model.Rbfs Spec.MonomialBasis Spec.Operator Spec.Rbfs Proofs.LinAlg Proofs.MonomialBasis Proofs.Calculus Proofs.Rbfs.
Import ListNotations.
Local Open Scope R_scope.

(** ** Where the results are numbers *)
Lemma rho_zero : forall s p1, 0 <= s -> 0 < p1 -> (sqrt s / p1 = 0 <-> s = 0).
Proof.
  intros s p1 H P. split; intros E.
  - pose proof (rho_sq s p1 H ltac:(lra)) as Q. rewrite E in Q. assert (s = s / (p1 * p1) * (p1 * p1)) by (field; lra). rewrite <- Q in H0. lra.
  - subst. rewrite sqrt_0. field. lra.
Qed.
Lemma sqrt_zero : forall s, 0 <= s -> (sqrt s = 0 <-> s = 0).
Proof. intros s H. split; intros E; [apply sqrt_eq_0; auto|subst; apply sqrt_0]. Qed.
Lemma is_zero_sqrt : forall s, 0 <= s -> (is_zero (sqrt s) = true <-> s = 0).
Proof. intros s H. rewrite <- sqrt_zero by auto. destruct (is_zero_spec (sqrt s)) as [[-> E]|[-> E]]; split; intros; auto; try discriminate; try contradiction. Qed.
Ltac num := split; [discriminate|split; [discriminate|intros [? ?]; contradiction]].
Lemma gradient_kinds : forall k p0 p1 s, range_ok k p1 -> junction_ok k -> 0 <= s ->
  gradient k p0 p1 s <> Raised /\ (gradient k p0 p1 s = Nan <-> cusp k /\ s = 0).
Proof.
  intros k p0 p1 s RO JO H. destruct k; cbn [gradient cusp range_ok junction_ok] in *.
  1,2: unfold even_gradient; cbv zeta; destruct (is_zero _); num.
  1,2: unfold odd_gradient; cbv zeta; destruct (is_zero _); num.
  1: unfold cub_gradient; num.
  - unfold exp_gradient. cbv zeta. pose proof (is_zero_sqrt s H) as Z. destruct (is_zero (sqrt s)); (split; [discriminate|]); split; auto; try discriminate.
    + intros _. split; auto. apply Z. auto.
    + intros [_ E]. apply Z in E. discriminate.
  - unfold gau_gradient; num.
  - unfold gc_gradient; num.
  - unfold gc_gradient; num.
  - unfold gc_gradient; num.
  - unfold gc_gradient; num.
  - unfold sph_gradient. cbv zeta. pose proof (rho_zero s p1 H RO) as Z. destruct (lt_dec_b (sqrt s) p1) eqn:L.
    + destruct (is_zero_spec (sqrt s / p1)) as [[-> E]|[-> E]]; (split; [discriminate|]); split; auto; try discriminate.
      * intros _. split; auto. apply Z. auto.
      * intros [_ E']. apply Z in E'. contradiction.
    + split; [discriminate|]. split; [discriminate|]. intros [_ E]. subst. rewrite sqrt_0, lt_true in L by auto. discriminate.
  - pose proof (is_zero_sqrt s H) as Z.
    assert (BL : s = 0 -> lt_dec_b (sqrt s / p1) (kRho0 sp) = true). { intros ->. rewrite sqrt_0. apply lt_true. unfold Rdiv. rewrite Rmult_0_l. auto. }
    destruct p; cbn [sp_gradient].
    + destruct (lt_dec_b (sqrt s / p1) (kRho0 sp)).
      * unfold lin_gradient. destruct (is_zero (sqrt s)); (split; [discriminate|]); split; auto; try discriminate; [intros _; split; auto; apply Z; auto|intros [_ E]; apply Z in E; discriminate].
      * split; [discriminate|]. split; [discriminate|]. intros [_ E]. specialize (BL E). discriminate.
    + destruct (lt_dec_b (sqrt s / p1) (kRho0 sp)).
      * unfold lin_gradient, imq_gradient. destruct (is_zero (sqrt s)); cbn [res_map2]; (split; [discriminate|]); split; auto; try discriminate; [intros _; split; auto; apply Z; auto|intros [_ E]; apply Z in E; discriminate].
      * split; [discriminate|]. split; [discriminate|]. intros [_ E]. specialize (BL E). discriminate.
    + unfold imq_gradient. num.
Qed.
Theorem gradient_defined : forall n k p0 p1 a d, range_ok k p1 -> junction_ok k ->
  evaluate_gradient n k p0 p1 a d <> Raised /\
  (evaluate_gradient n k p0 p1 a d = Nan <-> cusp k /\ forall i, (i < n)%nat -> mat_vec n a d i = 0).
Proof.
  intros n k p0 p1 a d RO JO. set (v := mat_vec n a d). destruct (gradient_kinds k p0 p1 (dot n v v) RO JO (dot_nonneg n v)) as [A B].
  assert (Z : dot n v v = 0 <-> forall i, (i < n)%nat -> v i = 0).
  { split; [apply dot_zero|]. intros E. apply rsum_0. intros i I. rewrite E by auto. lra. }
  rewrite Z in B. unfold evaluate_gradient, gradient_at. fold v. destruct (gradient k p0 p1 (dot n v v)); cbn [res_map].
  - split; [discriminate|]. split; [discriminate|]. intros Q. apply B in Q. discriminate.
  - split; [discriminate|]. split; [intros _; apply B|]; auto.
  - exfalso. apply A. auto.
Qed.
Theorem hessian_defined : forall n k p0 p1 a d, range_ok k p1 -> junction_ok k ->
  let u := dot n (mat_vec n a d) (mat_vec n a d) in
  (evaluate_hessian n k p0 p1 a d = Raised <-> no_hessian k) /\
  (evaluate_hessian n k p0 p1 a d = Nan <->
     (cusp k /\ ~ no_hessian k /\ u = 0) \/
     (exists K, log_degree k = Some K /\ 0 < u + p1 * p1 /\ 1 + INR K * ln (sqrt (u + p1 * p1)) = 0)).
Proof.
  intros n k p0 p1 a d RO JO u. assert (H : 0 <= u) by apply dot_nonneg. unfold evaluate_hessian, hessian_at. fold u.
  set (P := (cusp k /\ ~ no_hessian k /\ u = 0) \/ (exists K, log_degree k = Some K /\ 0 < u + p1 * p1 /\ 1 + INR K * ln (sqrt (u + p1 * p1)) = 0)).
  enough ((hessian k p0 p1 u = Raised <-> no_hessian k) /\ (hessian k p0 p1 u = Nan <-> P)) as [A B].
  { destruct (hessian k p0 p1 u); cbn [res_map]; (split; [rewrite <- A|rewrite <- B]); (split; intros; auto; discriminate). }
  pose proof (is_zero_sqrt u H) as Z. subst P. clearbody u. clear n a d.
  assert (EV : forall K, let rho := sqrt (u + p1 * p1) in (if is_zero rho then False else is_zero (1 + INR K * ln rho) = true) <-> (0 < u + p1 * p1 /\ 1 + INR K * ln rho = 0)).
  { intros K rho. unfold rho. destruct (is_zero_spec (sqrt (u + p1 * p1))) as [[-> E]|[-> E]].
    - split; [contradiction|]. intros [Q _]. pose proof (sqrt_lt_R0 _ Q). lra.
    - assert (Q : 0 < u + p1 * p1). { destruct (Rlt_dec 0 (u + p1 * p1)); auto. exfalso. apply E. apply sqrt_neg_0. lra. }
      destruct (is_zero_spec (1 + INR K * ln (sqrt (u + p1 * p1)))) as [[-> E2]|[-> E2]]; split; auto; [discriminate|]. intros [_ ?]; contradiction. }
  destruct k; cbn [hessian cusp no_hessian log_degree range_ok junction_ok] in *.
  1,2: (unfold even_hessian; cbv zeta; split; [repeat match goal with |- context [if is_zero ?x then _ else _] => destruct (is_zero x) end; (split; [discriminate|contradiction])|];
    match goal with |- context [Some ?K = Some _] => specialize (EV K) end; cbv zeta in EV; split;
    [intros N; right; eexists; split; [reflexivity|]; apply EV; revert N; clear; destruct (is_zero (sqrt _)); [discriminate|]; destruct (is_zero (1 + _)); auto; discriminate
    |intros [[[] _]|(K & E & Q)]; injection E as <-; apply EV in Q; revert Q; clear; destruct (is_zero (sqrt _)); [contradiction|]; intros ->; auto]).
  1,2: (unfold odd_hessian; cbv zeta; destruct (is_zero (sqrt (u + p1 * p1))); split; split; try discriminate; try contradiction; intros [[[] _]|(K & E & _)]; discriminate).
  1: (unfold cub_hessian; split; split; auto; try discriminate; intros [[[] _]|(K & E & _)]; discriminate).
  1: (unfold exp_hessian; cbv zeta; destruct (is_zero (sqrt u)); split; split; try discriminate; try contradiction; auto;
      [intros _; left; split; auto; split; auto; apply Z; auto|intros [(_ & _ & E)|(K & E & _)]; [apply Z in E|]; discriminate]).
  1: (unfold gau_hessian; split; split; try discriminate; try contradiction; intros [[[] _]|(K & E & _)]; discriminate).
  1,2,3,4: (unfold gc_hessian; split; split; try discriminate; try contradiction; intros [[[] _]|(K & E & _)]; discriminate).
  1: (unfold sph_hessian; split; split; auto; try discriminate; intros [(_ & N & _)|(K & E & _)]; [elim N; auto|discriminate]).
  assert (BL : u = 0 -> lt_dec_b (sqrt u / p1) (kRho0 sp) = true). { intros ->. rewrite sqrt_0. apply lt_true. unfold Rdiv. rewrite Rmult_0_l. auto. }
  destruct p; cbn [sp_hessian].
  - destruct (lt_dec_b (sqrt u / p1) (kRho0 sp)).
    + unfold lin_hessian. destruct (is_zero (sqrt u)); split; split; try discriminate; try contradiction; auto;
       [intros _; left; split; auto; split; auto; apply Z; auto|intros [(_ & _ & E)|(K & E & _)]; [apply Z in E|]; discriminate].
    + split; split; try discriminate; try contradiction; auto. intros [(_ & _ & E)|(K & E & _)]; [specialize (BL E)|]; discriminate.
  - destruct (lt_dec_b (sqrt u / p1) (kRho0 sp)).
    + unfold lin_hessian, imq_hessian. destruct (is_zero (sqrt u)); cbn [res_map2]; split; split; try discriminate; try contradiction; auto;
       [intros _; left; split; auto; split; auto; apply Z; auto|intros [(_ & _ & E)|(K & E & _)]; [apply Z in E|]; discriminate].
    + split; split; try discriminate; try contradiction; auto. intros [(_ & _ & E)|(K & E & _)]; [specialize (BL E)|]; discriminate.
  - unfold imq_hessian; split; split; try discriminate; try contradiction; intros [[[] _]|(K & E & _)]; discriminate.
Qed.

(** ** Rounded constants *)
Theorem constants_close : forall sp, In sp spheroids ->
  exact_constants (exact_version sp) /\ close (kD sp) (kD (exact_version sp)) /\ close (kE sp) (kE (exact_version sp)).
Proof.
  intros sp I. assert (C : 0 < kRho0 sp /\ 0 < kC sp /\ 0 < kB sp /\ Rabs (kD sp - (2 * INR (sm sp) + 1) * kB sp * kC sp) <= 0.0000000000000002 * ((2 * INR (sm sp) + 1) * kB sp * kC sp) /\ Rabs (kE sp * kC sp - 1) <= 0.0000000000000002).
  { unfold spheroids in I. cbn [In] in I. destruct I as [<-|[<-|[<-|[<-|[]]]]]; cbn [sp3 sp5 sp7 sp9 sm kRho0 kA kB kC kD kE INR];
      (split; [lra|]); (split; [lra|]); (split; [lra|]); (split; apply Rabs_le; split; lra). }
  destruct C as (R0 & C & B & D & E). unfold exact_constants, exact_version, close. cbn [sm kRho0 kA kB kC kD kE].
  assert (M : 0 < 2 * INR (sm sp) + 1) by (pose proof (pos_INR (sm sp)); lra). split; [auto|]. split.
  - rewrite (Rabs_right ((2 * INR (sm sp) + 1) * kB sp * kC sp)); auto. apply Rle_ge, Rmult_le_pos; [apply Rmult_le_pos|]; lra.
  - assert (IC : 0 < / kC sp) by (apply Rinv_0_lt_compat; auto). replace (kE sp - / kC sp) with ((kE sp * kC sp - 1) * / kC sp) by (field; lra).
    rewrite Rabs_mult. apply Rmult_le_compat_r; [apply Rabs_pos|auto].
Qed.
Theorem spheroidal_gradient : forall n sp p p0 p1 a d g, In sp spheroids -> 0 < p1 -> evaluate_gradient n (Sp sp p) p0 p1 a d = Num g ->
  exists g' f, evaluate_gradient n (Sp (exact_version sp) p) p0 p1 a d = Num g' /\
    evaluate_gradient n (Sp (exact_version sp) FastPart) p0 p1 a d = Num f /\
    forall e, Rabs (g e - g' e) <= 0.0000000000000002 * Rabs (f e).
Proof.
  intros n sp p p0 p1 a d g I P E. destruct (constants_close sp I) as ((_ & C & _) & CD & _). cbn [exact_version kC] in C.
  unfold evaluate_gradient, gradient_at in *. set (v := mat_vec n a d) in *. set (s := dot n v v) in *. assert (S0 : 0 <= s) by apply dot_nonneg.
  set (sx := exact_version sp) in *.
  assert (LG : lin_gradient sx p0 p1 s = lin_gradient sp p0 p1 s) by reflexivity.
  assert (IQ : Rabs (imq_coeff sp p0 p1 s - imq_coeff sx p0 p1 s) <= 0.0000000000000002 * Rabs (imq_coeff sx p0 p1 s)).
  { unfold imq_coeff. cbn [sx exact_version sm kC]. rewrite base_formula by auto. pose proof (sqrt_pow_pos (sm sp + 1) _ (base_pos (kC sp) s p1 ltac:(lra) S0 P)) as Q.
    set (w := sqrt_pow (sm sp + 1) _) in *. clearbody w. unfold close in CD. unfold Rdiv. set (z := / (w * p1 * p1)).
    replace (- p0 * kD sp * z - - p0 * kD sx * z) with ((- p0 * z) * (kD sp - kD sx)) by ring. replace (- p0 * kD sx * z) with ((- p0 * z) * kD sx) by ring.
    rewrite !Rabs_mult. pose proof (Rabs_pos (- p0)). pose proof (Rabs_pos z). assert (0 <= Rabs (- p0) * Rabs z) by (apply Rmult_le_pos; auto). nra. }
  assert (FIN : forall l l' f, Rabs (l - l') <= 0.0000000000000002 * Rabs f ->
    forall e, Rabs (row_mat n a (fun i => l * v i) e - row_mat n a (fun i => l' * v i) e) <= 0.0000000000000002 * Rabs (row_mat n a (fun i => f * v i) e)).
  { intros l l' f H e. assert (RM : forall c, row_mat n a (fun i => c * v i) e = c * row_mat n a v e).
    { intros c. unfold row_mat. rewrite <- rsum_scal. apply rsum_ext. intros. ring. }
    rewrite !RM. replace (l * row_mat n a v e - l' * row_mat n a v e) with ((l - l') * row_mat n a v e) by ring. rewrite !Rabs_mult. pose proof (Rabs_pos (row_mat n a v e)). nra. }
  cbn [gradient] in *. change (sp_gradient sx p0 p1 s FastPart) with (Num (imq_coeff sx p0 p1 s)). cbn [res_map].
  assert (IX : Rabs (imq_coeff sx p0 p1 s) >= 0) by (apply Rle_ge, Rabs_pos).
  destruct p; unfold sp_gradient in *; change (kRho0 sx) with (kRho0 sp); try rewrite LG.
  - destruct (lt_dec_b (sqrt s / p1) (kRho0 sp)).
    + destruct (lin_gradient sp p0 p1 s) as [l| |]; try discriminate. injection E as <-. eexists. eexists. split; [reflexivity|]. split; [reflexivity|]. apply FIN. replace (l - l) with 0 by lra. rewrite Rabs_R0. lra.
    + unfold imq_gradient in *. injection E as <-. eexists. eexists. split; [reflexivity|]. split; [reflexivity|]. apply FIN. auto.
  - destruct (lt_dec_b (sqrt s / p1) (kRho0 sp)).
    + unfold imq_gradient in *. destruct (lin_gradient sp p0 p1 s) as [l| |]; try discriminate. injection E as <-. eexists. eexists. split; [reflexivity|]. split; [reflexivity|]. apply FIN.
      replace (l - imq_coeff sp p0 p1 s - (l - imq_coeff sx p0 p1 s)) with (- (imq_coeff sp p0 p1 s - imq_coeff sx p0 p1 s)) by lra. rewrite Rabs_Ropp. auto.
    + injection E as <-. eexists. eexists. split; [reflexivity|]. split; [reflexivity|]. apply FIN. replace (0 - 0) with 0 by lra. rewrite Rabs_R0. lra.
  - unfold imq_gradient in *. injection E as <-. eexists. eexists. split; [reflexivity|]. split; [reflexivity|]. apply FIN. auto.
Qed.

(** ** Symmetry *)
Theorem symmetric : forall n k p0 p1 a,
  even_rbf (nat -> R) difference n (Rbf (nat -> R) (evaluate n k p0 p1 a) (fun x => component (evaluate_gradient n k p0 p1 a x)) (fun x => entry (evaluate_hessian n k p0 p1 a x))).
Proof.
  intros n k p0 p1 a x y. cbn [ev gr he].
  assert (OP : forall i, mat_vec n a (difference x y) i = - mat_vec n a (difference y x) i).
  { intros i. unfold mat_vec, difference. rewrite <- rsum_opp. apply rsum_ext. intros. ring. }
  assert (SQ : dot n (mat_vec n a (difference x y)) (mat_vec n a (difference x y)) = dot n (mat_vec n a (difference y x)) (mat_vec n a (difference y x))).
  { unfold dot. apply rsum_ext. intros. rewrite !OP. ring. }
  set (u := mat_vec n a (difference x y)) in *. set (w := mat_vec n a (difference y x)) in *. split; [|split].
  - unfold evaluate, value_at. fold u w. rewrite SQ. auto.
  - intros e En. unfold evaluate_gradient, gradient_at. fold u w. rewrite SQ. destruct (gradient k p0 p1 _); cbn [res_map component]; try lra.
    unfold row_mat. rewrite <- rsum_opp. apply rsum_ext. intros. rewrite OP. ring.
  - intros c e Cn En. unfold evaluate_hessian, hessian_at. fold u w. rewrite SQ. destruct (hessian k p0 p1 _) as [[h1 h2]| |]; cbn [res_map entry fst snd]; auto. split.
    + unfold sandwich. apply rsum_ext. intros. f_equal. apply rsum_ext. intros. rewrite !OP. f_equal. ring.
    + unfold sandwich. rewrite (rsum_ext n _ (fun j => rsum n (fun i => a i c * (h1 * (if Nat.eqb i j then 1 else 0) + h2 * (u i * u j)) * a j e))) by (intros; rewrite rsum_scal_r; auto).
      rewrite rsum_swap. apply rsum_ext. intros i I. rewrite <- rsum_scal_r. apply rsum_ext. intros j J. rewrite (Nat.eqb_sym i j). ring.
Qed.

(** ** Where the code is wrong at the origin *)
Lemma one_line : forall t i, mat_vec 1 identity_matrix (with_coord (fun _ => 0) 0 t) i = if Nat.eqb i 0 then t else 0.
Proof. intros. unfold mat_vec, identity_matrix, with_coord. cbn [rsum]. destruct (Nat.eqb i 0); cbn; lra. Qed.
Lemma one_sq : forall t, dot 1 (mat_vec 1 identity_matrix (with_coord (fun _ => 0) 0 t)) (mat_vec 1 identity_matrix (with_coord (fun _ => 0) 0 t)) = t * t.
Proof. intros. unfold dot. cbn [rsum]. rewrite one_line. cbn [Nat.eqb]. lra. Qed.
Lemma at0 : forall e i, with_coord (fun _ => 0) e 0 i = 0.
Proof. intros. unfold with_coord. destruct (Nat.eqb i e); auto. Qed.
Theorem bh3_origin : (exists g, evaluate_gradient 1 Bh3 1 0 identity_matrix (fun _ => 0) = Num g /\ g 0%nat = 0) /\
  forall x, ~ partial (evaluate 1 Bh3 1 0 identity_matrix) 0 (fun _ => 0) x.
Proof.
  split.
  - unfold evaluate_gradient, gradient_at. replace (dot 1 _ _) with 0 by (unfold dot, mat_vec; cbn [rsum]; lra). cbn [gradient]. unfold odd_gradient. cbv zeta. rewrite u_zero, sqrt_0, is_zero_0 by lra.
    cbn [res_map]. eexists. split; [reflexivity|]. unfold row_mat. cbn [rsum]. lra.
  - intros x D. unfold partial in D. assert (F : forall t, evaluate 1 Bh3 1 0 identity_matrix (with_coord (fun _ => 0) 0 t) = - Rabs t).
    { intros t. unfold evaluate, value_at. rewrite one_sq. cbn [value]. unfold odd_value. cbv zeta. rewrite so1. replace (t * t + 0 * 0) with (Rsqr t) by (unfold Rsqr; ring). rewrite sqrt_Rsqr_abs. cbn [pow]. ring. }
    apply (D_ext (fun t => - Rabs t)) in D; [|intros; rewrite F; auto]. destruct (D (1 / 2) ltac:(lra)) as [delta B]. pose proof (cond_pos delta) as DP.
    pose proof (B (delta / 2) ltac:(lra)) as B1. pose proof (B (- (delta / 2)) ltac:(lra)) as B2. rewrite Rabs_Ropp in B2. rewrite (Rabs_right (delta / 2)) in B1, B2 by lra.
    specialize (B1 ltac:(lra)). specialize (B2 ltac:(lra)). rewrite Rplus_0_l, Rabs_R0 in B1, B2. rewrite Rabs_Ropp in B2. rewrite (Rabs_right (delta / 2)) in B1, B2 by lra.
    replace ((- (delta / 2) - - 0) / (delta / 2) - x) with (- 1 - x) in B1 by (field; lra). replace ((- (delta / 2) - - 0) / - (delta / 2) - x) with (1 - x) in B2 by (field; lra).
    apply Rabs_def2 in B1. apply Rabs_def2 in B2. lra.
Qed.
Theorem bh2_origin : (exists h, evaluate_hessian 1 Bh2 1 0 identity_matrix (fun _ => 0) = Num h /\ h 0%nat 0%nat = 0) /\
  forall x, ~ partial (fun y => component (evaluate_gradient 1 Bh2 1 0 identity_matrix y) 0) 0 (fun _ => 0) x.
Proof.
  split.
  - unfold evaluate_hessian, hessian_at. replace (dot 1 _ _) with 0 by (unfold dot, mat_vec; cbn [rsum]; lra). cbn [hessian]. unfold even_hessian. cbv zeta. rewrite u_zero, sqrt_0, is_zero_0 by lra.
    cbn [res_map]. eexists. split; [reflexivity|]. unfold sandwich. cbn [rsum fst snd]. lra.
  - intros x D. unfold partial in D. assert (F : forall t, t <> 0 -> component (evaluate_gradient 1 Bh2 1 0 identity_matrix (with_coord (fun _ => 0) 0 t)) 0 = (1 + 2 * ln (Rabs t)) * t).
    { intros t N. rewrite component_coeff, one_sq. assert (0 < t * t) by nra. rewrite coeff_even2 by lra. unfold even_coeff. rewrite ss2. replace (t * t + 0 * 0) with (Rsqr t) by (unfold Rsqr; ring). rewrite sqrt_Rsqr_abs.
      cbn [rsum]. rewrite one_line. unfold identity_matrix. cbn [Nat.eqb Nat.sub pow INR]. ring. }
    assert (F0 : component (evaluate_gradient 1 Bh2 1 0 identity_matrix (with_coord (fun _ => 0) 0 0)) 0 = 0).
    { rewrite component_coeff, one_sq. cbn [rsum]. rewrite one_line. cbn [Nat.eqb]. lra. }
    destruct (D 1 ltac:(lra)) as [delta B]. pose proof (cond_pos delta) as DP. set (h := Rmin (delta / 2) (exp (x - 2))).
    assert (HP : 0 < h) by (apply Rmin_pos; [lra|apply exp_pos]). assert (H1 : h <= delta / 2) by apply Rmin_l. assert (H2 : h <= exp (x - 2)) by apply Rmin_r.
    assert (LH : ln h <= x - 2). { rewrite <- (ln_exp (x - 2)). destruct H2 as [H2|H2]; [left; apply ln_increasing; auto|rewrite H2; lra]. }
    set (h' := Rmin h (exp (- Rabs x - 2))). assert (HP' : 0 < h') by (apply Rmin_pos; [lra|apply exp_pos]). assert (H1' : h' <= h) by apply Rmin_l. assert (H2' : h' <= exp (- Rabs x - 2)) by apply Rmin_r.
    assert (LH' : ln h' <= - Rabs x - 2). { rewrite <- (ln_exp (- Rabs x - 2)). destruct H2' as [H2'|H2']; [left; apply ln_increasing; auto|rewrite H2'; lra]. }
    specialize (B h' ltac:(lra)). rewrite (Rabs_right h') in B by lra. specialize (B ltac:(lra)). cbv beta in B. rewrite F0, Rplus_0_l, F in B by lra. rewrite (Rabs_right h') in B by lra.
    replace (((1 + 2 * ln h') * h' - 0) / h' - x) with (1 + 2 * ln h' - x) in B by (field; lra). apply Rabs_def2 in B. pose proof (Rle_abs x). pose proof (Rle_abs (- x)). rewrite Rabs_Ropp in *. lra.
Qed.
(** [1 + 2 log(rho) = 0]: not a number although the second derivative exists. *)
Theorem bh2_nan : evaluate_hessian 1 Bh2 1 0 identity_matrix (fun _ => exp (- (1 / 2))) = Nan /\
  exists x, partial (fun y => component (evaluate_gradient 1 Bh2 1 0 identity_matrix y) 0) 0 (fun _ => exp (- (1 / 2))) x.
Proof.
  set (d := fun _ : nat => exp (- (1 / 2))). assert (V : mat_vec 1 identity_matrix d 0%nat = exp (- (1 / 2))) by (unfold mat_vec, identity_matrix, d; cbn [rsum Nat.eqb]; lra).
  assert (Q : dot 1 (mat_vec 1 identity_matrix d) (mat_vec 1 identity_matrix d) = exp (- (1 / 2)) * exp (- (1 / 2))) by (unfold dot; cbn [rsum]; rewrite V; lra).
  assert (E0 : 0 < exp (- (1 / 2))) by apply exp_pos. split.
  - apply (hessian_defined 1 Bh2 1 0 identity_matrix d I I). right. exists 2%nat. split; auto. rewrite Q. split; [nra|].
    replace (exp (- (1 / 2)) * exp (- (1 / 2)) + 0 * 0) with (exp (- (1 / 2)) * exp (- (1 / 2))) by ring. rewrite sqrt_square, ln_exp by lra. cbn [INR]. lra.
  - eexists. unfold partial. eapply D_ext; [intros t; apply component_coeff|].
    apply (radial_hessian 1 identity_matrix d 0 ltac:(lia) (coeff Bh2 1 0) (fun s' => even_coeff 2 1 (sqrt (s' + 0 * 0))) (2 * / exp (- (1 / 2)) * / exp (- (1 / 2))) 0%nat).
    + apply (shifted _ _ _ 0); [rewrite Q; nra|]. intros. apply coeff_even2. auto.
    + rewrite Q. assert (P : 0 < exp (- (1 / 2)) * exp (- (1 / 2)) + 0 * 0) by nra. pose proof (sqrt_lt_R0 _ P). unfold even_coeff. eapply D_val; [der; cbv beta; auto|]. cbv beta. rewrite ss2. cbn [Nat.sub INR pow pred].
      replace (exp (- (1 / 2)) * exp (- (1 / 2)) + 0 * 0) with (exp (- (1 / 2)) * exp (- (1 / 2))) by ring. rewrite sqrt_square by lra. field. lra.
Qed.
