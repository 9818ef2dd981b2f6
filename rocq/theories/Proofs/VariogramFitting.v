From Coq Require Import Reals ZArith List Arith Bool Lia Lra.
From Verif Require Import Proofs.LinAlg Proofs.Covariance.
From Verif Require Import Model.Outcome Model.LinAlg Model.Rbfs Model.VariogramFitting Spec.Rbfs Spec.VariogramFitting.
Import ListNotations.
Local Open Scope R_scope.

(** Weights. *)
Lemma power_pos : forall x y, 0 < x -> power x y = Some (Rpower x y).
Proof. intros x y H. unfold power, lt_dec_b. destruct (Rlt_dec 0 x); [reflexivity|contradiction]. Qed.
Lemma half_square : forall x y, 0 < x -> Rpower x (0.5 * y) * Rpower x (0.5 * y) = Rpower x y.
Proof. intros x y _. rewrite <- Rpower_plus. f_equal. lra. Qed.
Lemma power_zero_exponent : forall x, power x 0 = Some 1.
Proof.
  intros x. unfold power, lt_dec_b, is_zero. destruct (Rlt_dec 0 x) as [L|L]; [rewrite Rpower_O by exact L; reflexivity|].
  destruct (Req_EM_T x 0); [destruct (Req_EM_T 0 0); [reflexivity|contradiction]|].
  assert (I : Int_part 0 = 0%Z).
  { unfold Int_part. rewrite <- (tech_up 0 1); [reflexivity|simpl; lra|simpl; lra]. }
  rewrite I. cbn [IZR]. destruct (Req_EM_T (0 - 0) 0); [reflexivity|lra].
Qed.
Theorem weight_spec : forall w d g np, 0 < d -> 0 < g -> (0 < np)%nat ->
  exists x, weight w d g np = Some x /\ 0 < x /\ x * x = squared_weight w d g np.
Proof.
  intros w d g np D G N. assert (P : 0 < INR np) by (apply lt_0_INR; exact N). unfold weight. rewrite !power_pos by assumption. cbn [times].
  eexists. split; [reflexivity|]. split; [repeat apply Rmult_lt_0_compat; apply exp_pos|]. unfold squared_weight.
  rewrite <- (half_square d (exp_distance w)) by exact D. rewrite <- (half_square g (exp_model_gamma w)) by exact G.
  rewrite <- (half_square (INR np) (exp_num_pairs w)) by exact P. ring.
Qed.
Lemma rpower_m2 : forall x, 0 < x -> Rpower x (-2) = / (x * x).
Proof.
  intros x H. replace (-2) with (- (2)) by lra. rewrite Rpower_Ropp. replace 2 with (1 + 1) by lra. rewrite Rpower_plus, Rpower_1 by exact H. reflexivity.
Qed.
Theorem weight_names : forall d g np, 0 < d -> 0 < g -> (0 < np)%nat ->
  squared_weight kNumPairs d g np = INR np /\ squared_weight kNumPairsOverDistanceSquared d g np = INR np / (d * d) /\
  squared_weight kNumPairsOverModelGammaSquared d g np = INR np / (g * g) /\ squared_weight kOne d g np = 1 /\
  squared_weight kOneOverDistanceSquared d g np = 1 / (d * d) /\ squared_weight kOneOverModelGammaSquared d g np = 1 / (g * g).
Proof.
  intros d g np D G N. assert (P : 0 < INR np) by (apply lt_0_INR; exact N).
  unfold squared_weight, kNumPairs, kNumPairsOverDistanceSquared, kNumPairsOverModelGammaSquared, kOne, kOneOverDistanceSquared, kOneOverModelGammaSquared.
  cbn [exp_distance exp_model_gamma exp_num_pairs]. rewrite !rpower_m2 by assumption. rewrite !Rpower_O by assumption. rewrite !Rpower_1 by assumption.
  unfold Rdiv. repeat split; ring.
Qed.

(** The model's gamma. *)
Definition part_of (n : nat) (diff : nat -> R) (f : function) : R :=
  evaluate n (f_kind f) (f_p0 f) (f_p1 f) (f_aniso f) (fun _ => 0) - evaluate n (f_kind f) (f_p0 f) (f_p1 f) (f_aniso f) diff.
Lemma gamma_total : forall n m diff, model_gamma n m diff = m_nugget m + total (part_of n diff) (m_rbfs m).
Proof.
  intros n [c fs] diff. unfold model_gamma. cbn [m_nugget m_rbfs]. revert c.
  induction fs as [|f fs IH]; intros c; cbn [fold_left total]; [lra|]. rewrite IH. unfold part_of at 2. lra.
Qed.
Lemma dot_nonneg : forall n v, 0 <= dot n v v.
Proof. intros. apply rsum_pos. intros i _. pose proof (Rle_0_sqr (v i)). unfold Rsqr in *. lra. Qed.
Lemma evaluate_distance : forall n k p0 p1 a d, evaluate n k p0 p1 a d = at_distance k p0 p1 (sqrt (dot n (mat_vec n a d) (mat_vec n a d))).
Proof. intros. unfold evaluate, value_at, at_distance. rewrite sqrt_sqrt by apply dot_nonneg. reflexivity. Qed.
Lemma evaluate_zero : forall n k p0 p1 a, evaluate n k p0 p1 a (fun _ => 0) = at_distance k p0 p1 0.
Proof.
  intros. unfold evaluate, value_at, at_distance. f_equal. rewrite Rmult_0_l. unfold dot. apply rsum_0. intros i _.
  unfold mat_vec. rewrite rsum_0; [ring|intros j _; ring].
Qed.
Lemma part_bounds : forall n diff f, proper f -> 0 <= part_of n diff f <= f_p0 f.
Proof.
  intros n diff f (C & P & Q). unfold part_of. rewrite evaluate_zero, sill by assumption. rewrite evaluate_distance.
  pose proof (bounds (f_kind f) (f_p0 f) (f_p1 f) (sqrt (dot n (mat_vec n (f_aniso f) diff) (mat_vec n (f_aniso f) diff))) C P Q (sqrt_pos _)). lra.
Qed.
Lemma total_le : forall g h fs, Forall (fun f => g f <= h f) fs -> total g fs <= total h fs.
Proof. intros g h fs F. induction F; cbn [total]; lra. Qed.
Lemma total_zero : forall fs, total (fun _ => 0) fs = 0.
Proof. induction fs; cbn [total]; lra. Qed.
Theorem gamma_bounds : forall n m diff, proper_model m -> m_nugget m <= model_gamma n m diff <= total_sill m.
Proof.
  intros n m diff [N F]. rewrite gamma_total. unfold total_sill. split.
  - rewrite <- Rplus_0_r at 1. apply Rplus_le_compat_l. rewrite <- (total_zero (m_rbfs m)). apply total_le.
    eapply Forall_impl; [|exact F]. intros f P. apply part_bounds. exact P.
  - apply Rplus_le_compat_l. apply total_le. eapply Forall_impl; [|exact F]. intros f P. apply part_bounds. exact P.
Qed.
Theorem gamma_zero : forall n m, model_gamma n m (fun _ => 0) = m_nugget m.
Proof.
  intros n m. rewrite gamma_total. replace (total _ _) with 0; [lra|]. induction (m_rbfs m) as [|f fs IH]; cbn [total]; [reflexivity|]. rewrite <- IH. unfold part_of. lra.
Qed.
Lemma along_direction : forall n a dir h, 0 <= h ->
  sqrt (dot n (mat_vec n a (fun e => h * dir e)) (mat_vec n a (fun e => h * dir e))) = h * sqrt (dot n (mat_vec n a dir) (mat_vec n a dir)).
Proof.
  intros n a dir h H. replace (dot n (mat_vec n a (fun e => h * dir e)) _) with (h * h * dot n (mat_vec n a dir) (mat_vec n a dir)).
  - rewrite sqrt_mult by (try apply dot_nonneg; nra). rewrite sqrt_square by exact H. reflexivity.
  - unfold dot. rewrite <- rsum_scal. apply rsum_ext. intros i _. assert (E : mat_vec n a (fun e => h * dir e) i = h * mat_vec n a dir i).
    { unfold mat_vec. rewrite <- rsum_scal. apply rsum_ext. intros; ring. } rewrite E. ring.
Qed.
Theorem gamma_increasing : forall n m dir h h', proper_model m -> Forall plain (m_rbfs m) -> 0 <= h -> h <= h' ->
  model_gamma n m (fun e => h * dir e) <= model_gamma n m (fun e => h' * dir e).
Proof.
  intros n m dir h h' [N F] P H L. rewrite !gamma_total. apply Rplus_le_compat_l. apply total_le. rewrite Forall_forall in *. intros f I.
  destruct (F f I) as (C & P0 & P1). unfold part_of. rewrite !(evaluate_distance _ _ _ _ _ (fun e => _ * dir e)). rewrite !along_direction by lra.
  pose proof (sqrt_pos (dot n (mat_vec n (f_aniso f) dir) (mat_vec n (f_aniso f) dir))) as S.
  pose proof (monotone (f_kind f) (f_p0 f) (f_p1 f) C (P f I) P0 P1 (h * sqrt (dot n (mat_vec n (f_aniso f) dir) (mat_vec n (f_aniso f) dir)))
    (h' * sqrt (dot n (mat_vec n (f_aniso f) dir) (mat_vec n (f_aniso f) dir)))) as M. specialize (M ltac:(nra) ltac:(nra)). lra.
Qed.

(** Ranges along the axes. *)
Lemma range_scaling : forall k p0 p1 h s, covariance k -> 0 < p1 -> 0 < s -> 0 <= h -> at_distance k p0 p1 (h * s) = at_distance k p0 (p1 / s) h.
Proof.
  intros k p0 p1 h s C P S H. assert (HS : 0 <= h * s) by nra. assert (Q : 0 < p1 / s) by (apply Rdiv_lt_0_compat; lra).
  assert (E : h * s / p1 = h / (p1 / s)) by (field; lra).
  assert (B : lt_dec_b (h * s) p1 = lt_dec_b h (p1 / s)).
  { unfold lt_dec_b. destruct (Rlt_dec (h * s) p1) as [L|L], (Rlt_dec h (p1 / s)) as [M|M]; try reflexivity; exfalso.
    - apply M. apply Rmult_lt_reg_r with s; [exact S|]. unfold Rdiv. rewrite Rmult_assoc, Rinv_l by lra. lra.
    - apply L. apply Rmult_lt_compat_r with (r := s) in M; [|exact S]. unfold Rdiv in M. rewrite Rmult_assoc, Rinv_l in M by lra. lra. }
  unfold at_distance. destruct k as [| | | | | | | | | | | |sp part]; try contradiction; cbn [value];
    unfold cub_value, exp_value, gau_value, gc_value, sph_value, sp_value, lin_value, imq_value; cbv zeta; rewrite !sqrt_square by assumption; rewrite ?E, ?B; reflexivity.
Qed.
Theorem axis_range : forall n k p0 p1 rot s i h, covariance k -> 0 < p1 -> (i < n)%nat -> rotation n rot -> 0 < s i -> 0 <= h ->
  evaluate n k p0 p1 (scaled rot s) (fun e => h * rot i e) = at_distance k p0 (p1 / s i) h.
Proof.
  intros n k p0 p1 rot s i h C P I [O _] S H. rewrite <- range_scaling by assumption. unfold evaluate, value_at, at_distance. f_equal.
  assert (V : forall e, (e < n)%nat -> mat_vec n (scaled rot s) (fun e => h * rot i e) e = s e * h * identity e i).
  { intros e L. rewrite <- (O e i L I). unfold mat_vec, scaled, dot. rewrite <- rsum_scal. apply rsum_ext. intros; ring. }
  unfold dot. rewrite (rsum_single n i); [|exact I|].
  - rewrite V by exact I. unfold identity. rewrite Nat.eqb_refl. ring.
  - intros e L N. rewrite V by exact L. unfold identity. rewrite (proj2 (Nat.eqb_neq e i) N). ring.
Qed.

(** Rotations. *)
Theorem rotation2_spec : forall a, rotation 2 (rotation2 a).
Proof.
  intros a. pose proof (sin2_cos2 a) as E. unfold Rsqr in E. split.
  - intros [|[|i]] [|[|j]] A B; try lia; unfold dot, identity; cbn [rsum rotation2 Nat.eqb]; lra.
  - unfold det. cbn [rotation2]. lra.
Qed.
Lemma quaternion_rotation : forall x y z w, x * x + y * y + z * z + w * w = 1 -> rotation 3 (quaternion_matrix x y z w).
Proof.
  intros x y z w E. assert (W : w * w = 1 - x * x - y * y - z * z) by lra. split.
  - intros [|[|[|i]]] [|[|[|j]]] A B; try lia; unfold dot, identity; cbn [rsum quaternion_matrix Nat.eqb]; ring_simplify; replace (w ^ 2) with (1 - x * x - y * y - z * z) by (rewrite <- W; ring); ring.
  - unfold det. cbn [quaternion_matrix]. ring_simplify. replace (w ^ 2) with (1 - x * x - y * y - z * z) by (rewrite <- W; ring). ring.
Qed.
Theorem rotation3_spec : forall x y z w, rotation 3 (rotation3 x y z w).
Proof.
  intros x y z w. unfold rotation3, lt_dec_b. set (s := x * x + y * y + z * z + w * w). destruct (Rlt_dec 0 s) as [L|L].
  - apply quaternion_rotation. pose proof (sqrt_lt_R0 s L) as Q. pose proof (sqrt_sqrt s (Rlt_le _ _ L)) as E.
    assert (F : forall q, q <> 0 -> x / q * (x / q) + y / q * (y / q) + z / q * (z / q) + w / q * (w / q) = s / (q * q)) by (intros q N; unfold s; field; exact N).
    rewrite F by lra.
    rewrite E. field. lra.
  - assert (X : x = 0 /\ y = 0 /\ z = 0).
    { unfold s in L. pose proof (Rle_0_sqr x). pose proof (Rle_0_sqr y). pose proof (Rle_0_sqr z). pose proof (Rle_0_sqr w). unfold Rsqr in *.
      repeat split; apply Rsqr_0_uniq; unfold Rsqr; lra. }
    destruct X as (-> & -> & ->). split.
    + intros [|[|[|i]]] [|[|[|j]]] A B; try lia; unfold dot, identity; cbn [rsum quaternion_matrix Nat.eqb]; ring.
    + unfold det. cbn [quaternion_matrix]. ring.
Qed.

(** Residuals. *)
Lemma weight_any : forall w d g np, 0 < d -> (0 < np)%nat -> 0 < g \/ exp_model_gamma w = 0 ->
  exists x, weight w d g np = Some x /\ 0 < x /\ x * x = squared_weight w d g np.
Proof.
  intros w d g np D N [G|E]; [apply weight_spec; assumption|]. assert (P : 0 < INR np) by (apply lt_0_INR; exact N).
  unfold weight. rewrite (power_pos d), (power_pos (INR np)) by assumption. rewrite E, Rmult_0_r, power_zero_exponent. cbn [times].
  eexists. split; [reflexivity|]. split; [repeat apply Rmult_lt_0_compat; try apply exp_pos; lra|]. unfold squared_weight. rewrite E.
  replace (Rpower g 0) with 1 by (unfold Rpower; rewrite Rmult_0_l, exp_0; reflexivity).
  rewrite <- (half_square d (exp_distance w)) by exact D. rewrite <- (half_square (INR np) (exp_num_pairs w)) by exact P. ring.
Qed.
Theorem residual_spec : forall n m dir w d gamma np, 0 < d -> (0 < np)%nat ->
  0 < model_gamma n m (fun e => d * dir e) \/ exp_model_gamma w = 0 ->
  exists r, residual n m dir w (d, gamma, np) = Some r /\
    r * r = squared_weight w d (model_gamma n m (fun e => d * dir e)) np * ((gamma - model_gamma n m (fun e => d * dir e)) * (gamma - model_gamma n m (fun e => d * dir e))) /\
    (r = 0 <-> gamma = model_gamma n m (fun e => d * dir e)).
Proof.
  intros n m dir w d gamma np D N G. unfold residual. cbv zeta. set (g := model_gamma n m (fun e => d * dir e)) in *.
  destruct (weight_any w d g np D N G) as (x & -> & X & Q). cbn [times]. eexists. split; [reflexivity|]. split.
  - rewrite <- Q. ring.
  - split; [intros E; apply Rmult_integral in E; lra|intros ->; ring].
Qed.

(** Parameters. *)
Lemma flat_repeat : forall (A : Type) (a : A) (fs : list function), flat_map (fun _ => [a; a]) fs = repeat a (2 * length fs).
Proof.
  intros A a fs. induction fs as [|f fs IH]; [reflexivity|]. cbn [flat_map length app]. replace (2 * S (length fs))%nat with (S (S (2 * length fs))) by lia.
  cbn [repeat]. rewrite IH. reflexivity.
Qed.
Lemma parameters_length : forall m, length (parameters m) = S (2 * length (m_rbfs m)).
Proof. intros [c fs]. unfold parameters. cbn [m_nugget m_rbfs length]. f_equal. induction fs as [|f fs IH]; [reflexivity|]. cbn [flat_map app length]. rewrite IH. lia. Qed.
Lemma clamp_zero : forall x, clamp 0 None x = Rmax 0 x.
Proof. intros x. unfold clamp, lt_dec_b, Rmax. destruct (Rlt_dec x 0), (Rle_dec 0 x); try reflexivity; lra. Qed.
Lemma clamp_repeat : forall k ps, length ps = k -> clamp_all (repeat 0 k) (repeat None k) k ps = Ok (map (Rmax 0) ps).
Proof.
  induction k as [|k IH]; intros [|x ps] L; try discriminate; [reflexivity|]. cbn [repeat clamp_all]. rewrite IH by (injection L; auto). cbn [bind map].
  rewrite clamp_zero. reflexivity.
Qed.
Lemma clamp_parameters_spec : forall m ps, length ps = length (parameters m) -> clamp_parameters m ps = Ok (map (Rmax 0) ps).
Proof.
  intros m ps L. unfold clamp_parameters, lower_bounds, upper_bounds. rewrite !flat_repeat. rewrite parameters_length in *.
  apply (clamp_repeat (S (2 * length (m_rbfs m))) ps L).
Qed.
Lemma with_parameters_spec : forall fs ps, length ps = (2 * length fs)%nat ->
  exists gs, with_parameters fs ps = Ok gs /\ flat_map (fun f => [f_p0 f; f_p1 f]) gs = ps /\ map f_kind gs = map f_kind fs /\ map f_aniso gs = map f_aniso fs.
Proof.
  induction fs as [|f fs IH]; intros ps L.
  - destruct ps; [|discriminate]. exists []. auto.
  - destruct ps as [|a [|b ps]]; [discriminate|cbn [length] in L; lia|]. destruct (IH ps) as (gs & E & P & K & A); [cbn [length] in L; lia|].
    cbn [with_parameters]. rewrite E. cbn [bind]. eexists. split; [reflexivity|]. cbn [flat_map map app f_p0 f_p1 f_kind f_aniso]. rewrite P, K, A. auto.
Qed.
Lemma set_parameters_spec : forall m ps, length ps = length (parameters m) -> Forall (fun x => 0 <= x) ps ->
  exists m', set_parameters m ps = Ok m' /\ parameters m' = ps /\ map f_kind (m_rbfs m') = map f_kind (m_rbfs m) /\ map f_aniso (m_rbfs m') = map f_aniso (m_rbfs m).
Proof.
  intros m ps L F. pose proof (parameters_length m) as PL. destruct ps as [|c ps]; [cbn [length] in L; lia|].
  destruct (with_parameters_spec (m_rbfs m) ps) as (gs & E & P & K & A); [cbn [length] in L; lia|].
  unfold set_parameters. rewrite (proj2 (Nat.eqb_eq _ _) L). cbn [negb]. inversion F as [|x l C F']; subst x l. destruct (Rle_dec 0 c); [|contradiction]. cbn [negb].
  rewrite E. cbn [bind]. eexists. split; [reflexivity|]. unfold parameters. cbn [m_nugget m_rbfs]. rewrite P. auto.
Qed.

(** Anisotropies. *)
Lemma det_scaled : forall n rot s, (1 <= n <= 3)%nat -> det n rot = 1 -> (forall j, (j < n)%nat -> 0 < s j) -> 0 < det n (scaled rot s).
Proof.
  intros n rot s N D S. destruct n as [|[|[|[|n]]]]; try lia; unfold det in *; unfold scaled.
  - rewrite D. pose proof (S 0%nat ltac:(lia)). lra.
  - pose proof (Rmult_lt_0_compat _ _ (S 0%nat ltac:(lia)) (S 1%nat ltac:(lia))) as P.
    match goal with |- 0 < ?e => replace e with (s 0%nat * s 1%nat * (rot 0%nat 0%nat * rot 1%nat 1%nat - rot 0%nat 1%nat * rot 1%nat 0%nat)) by ring end. rewrite D. lra.
  - pose proof (Rmult_lt_0_compat _ _ (Rmult_lt_0_compat _ _ (S 0%nat ltac:(lia)) (S 1%nat ltac:(lia))) (S 2%nat ltac:(lia))) as P.
    match type of D with ?e = 1 => match goal with |- 0 < ?f => replace f with (s 0%nat * s 1%nat * s 2%nat * e) by ring end end. rewrite D. lra.
Qed.
Lemma each_spec : forall n fs i a, (forall j, (i <= j < i + length fs)%nat -> 0 < det n (a j)) ->
  exists gs, each_anisotropy n fs i a = Ok gs /\ flat_map (fun f => [f_p0 f; f_p1 f]) gs = flat_map (fun f => [f_p0 f; f_p1 f]) fs /\
    map f_kind gs = map f_kind fs /\ map f_aniso gs = map a (seq i (length fs)).
Proof.
  induction fs as [|f fs IH]; intros i a H; [exists []; auto|]. cbn [each_anisotropy]. unfold set_anisotropy, lt_dec_b.
  destruct (Rlt_dec 0 (det n (a i))) as [L|L]; [|exfalso; apply L; apply H; cbn [length]; lia]. cbn [bind].
  destruct (IH (S i) a) as (gs & E & P & K & A); [intros j J; apply H; cbn [length]; lia|]. rewrite E. cbn [bind]. eexists. split; [reflexivity|].
  cbn [flat_map map app f_p0 f_p1 f_kind f_aniso length seq]. rewrite P, K, A. auto.
Qed.
Lemma apply_spec : forall n m fit rot scale, (1 <= n <= 3)%nat -> rotation n rot ->
  (fit = true -> forall i j, (i < length (m_rbfs m))%nat -> (j < n)%nat -> 0 < scale i j) ->
  exists m', apply_anisotropy n m fit rot scale = Ok m' /\ parameters m' = parameters m /\ map f_kind (m_rbfs m') = map f_kind (m_rbfs m) /\
    map f_aniso (m_rbfs m') = anisotropies m fit rot scale.
Proof.
  intros n m fit rot scale N [_ D] S. unfold apply_anisotropy, anisotropies. destruct fit; [|exists m; auto].
  destruct (each_spec n (m_rbfs m) 0 (fun i => scaled rot (scale i))) as (gs & E & P & K & A).
  { intros j J. apply det_scaled; auto. intros k L. apply S; auto. lia. }
  rewrite E. cbn [bind]. eexists. split; [reflexivity|]. unfold parameters. cbn [m_nugget m_rbfs]. rewrite P. auto.
Qed.
Theorem final_spec : forall n tmpl fit rot scale ps, (1 <= n <= 3)%nat -> rotation n rot ->
  (fit = true -> forall i j, (i < length (m_rbfs tmpl))%nat -> (j < n)%nat -> 0 < scale i j) ->
  length ps = length (parameters tmpl) -> Forall (fun x => 0 <= x) ps ->
  exists m, final_model n tmpl fit ps rot scale = Ok m /\ parameters m = ps /\ map f_kind (m_rbfs m) = map f_kind (m_rbfs tmpl) /\
    map f_aniso (m_rbfs m) = anisotropies tmpl fit rot scale.
Proof.
  intros n tmpl fit rot scale ps N R S L F. destruct (set_parameters_spec tmpl ps L F) as (m & E & P & K & A). unfold final_model. rewrite E. cbn [bind].
  assert (LL : length (m_rbfs m) = length (m_rbfs tmpl)) by (rewrite <- (map_length f_kind (m_rbfs m)), K; apply map_length).
  destruct (apply_spec n m fit rot scale N R) as (m' & E' & P' & K' & A'); [rewrite LL; exact S|].
  exists m'. split; [exact E'|]. split; [rewrite P'; exact P|]. split; [rewrite K'; exact K|]. rewrite A'. unfold anisotropies. rewrite LL, A. reflexivity.
Qed.
Lemma rmax_id : forall ps, Forall (fun x => 0 <= x) ps -> map (Rmax 0) ps = ps.
Proof. intros ps F. induction F as [|x l P F IH]; [reflexivity|]. cbn [map]. rewrite IH, Rmax_right by exact P. reflexivity. Qed.
Lemma rmax_nonneg : forall ps, Forall (fun x => 0 <= x) (map (Rmax 0) ps).
Proof. intros ps. apply Forall_map. apply Forall_forall. intros x _. apply Rmax_l. Qed.
Theorem cost_spec : forall n tmpl fit v w rot scale ps, (1 <= n <= 3)%nat -> rotation n rot ->
  (fit = true -> forall i j, (i < length (m_rbfs tmpl))%nat -> (j < n)%nat -> 0 < scale i j) -> length ps = length (parameters tmpl) ->
  exists m, final_model n tmpl fit (map (Rmax 0) ps) rot scale = Ok m /\ cost n tmpl fit v w ps rot scale = Ok (compute_residuals n m v w).
Proof.
  intros n tmpl fit v w rot scale ps N R S L.
  destruct (final_spec n tmpl fit rot scale (map (Rmax 0) ps) N R S) as (m & E & _); [rewrite map_length; exact L|apply rmax_nonneg|].
  exists m. split; [exact E|]. unfold cost. rewrite clamp_parameters_spec by exact L. cbn [bind]. unfold final_model in E.
  destruct (set_parameters tmpl (map (Rmax 0) ps)) as [m0| |]; cbn [bind] in *; try discriminate. rewrite E. reflexivity.
Qed.
Lemma residuals_none : forall n m v w, compute_residuals n m v w = None <-> Exists (fun f => f_p1 f = 0) (m_rbfs m).
Proof.
  intros n m v w. unfold compute_residuals. rewrite Exists_exists. destruct (existsb _ _) eqn:E.
  - apply existsb_exists in E. destruct E as (f & I & E). split; [intros _|reflexivity]. exists f. split; [exact I|]. unfold is_zero in E. destruct (Req_EM_T (f_p1 f) 0); [assumption|discriminate].
  - split; [discriminate|]. intros (f & I & Z). exfalso. assert (T : existsb (fun f => is_zero (f_p1 f)) (m_rbfs m) = true); [|congruence].
    apply existsb_exists. exists f. split; [exact I|]. unfold is_zero. destruct (Req_EM_T (f_p1 f) 0); [reflexivity|contradiction].
Qed.
Lemma template_spec : forall n m, (1 <= n <= 3)%nat -> exists t, template n m = Ok t /\ parameters t = parameters m /\
  map f_kind (m_rbfs t) = map f_kind (m_rbfs m) /\ Forall (fun f => f_aniso f = identity) (m_rbfs t).
Proof.
  intros n m N. unfold template. destruct (each_spec n (m_rbfs m) 0 (fun _ => identity)) as (gs & E & P & K & A).
  { intros j _. destruct n as [|[|[|[|n]]]]; try lia; unfold det, identity; cbn [Nat.eqb]; lra. }
  rewrite E. cbn [bind]. eexists. split; [reflexivity|]. unfold parameters. cbn [m_nugget m_rbfs]. rewrite P. repeat split; auto.
  apply Forall_forall. intros f I. apply (in_map f_aniso) in I. rewrite A in I. apply in_map_iff in I. destruct I as (i & <- & _). reflexivity.
Qed.
