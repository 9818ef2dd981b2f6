From Coq Require Import Reals List Arith Lia Lra.
From Verif Require Import Proofs.VariogramFitting.
From Verif Require Import Model.Outcome Model.LinAlg Model.Rbfs Model.VariogramFitting Spec.Rbfs Spec.VariogramFitting.
Import ListNotations.
Local Open Scope R_scope.

(** C58: in a bin of distinct points the squared residual is the squared difference of the two gammas times the weight asked for; so it
    vanishes exactly if the model's gamma is that of the bin. *)
Theorem C58_residual : forall n m dir w d gamma np, 0 < d -> (0 < np)%nat ->
  0 < model_gamma n m (fun e => d * dir e) \/ exp_model_gamma w = 0 ->
  exists r, residual n m dir w (d, gamma, np) = Some r /\
    r * r = squared_weight w d (model_gamma n m (fun e => d * dir e)) np * ((gamma - model_gamma n m (fun e => d * dir e)) * (gamma - model_gamma n m (fun e => d * dir e))) /\
    (r = 0 <-> gamma = model_gamma n m (fun e => d * dir e)).
Proof. exact residual_spec. Qed.
Print Assumptions C58_residual.

(** C58: the named weights are what their names say. *)
Theorem C58_weights : forall d g np, 0 < d -> 0 < g -> (0 < np)%nat ->
  squared_weight kNumPairs d g np = INR np /\ squared_weight kNumPairsOverDistanceSquared d g np = INR np / (d * d) /\
  squared_weight kNumPairsOverModelGammaSquared d g np = INR np / (g * g) /\ squared_weight kOne d g np = 1 /\
  squared_weight kOneOverDistanceSquared d g np = 1 / (d * d) /\ squared_weight kOneOverModelGammaSquared d g np = 1 / (g * g).
Proof. exact weight_names. Qed.
Print Assumptions C58_weights.

(** C58: the gamma of a covariance model starts at the nugget, stays between it and the total sill, and without spheroidal functions never
    falls along a direction. *)
Theorem C58_gamma : forall n m, proper_model m -> model_gamma n m (fun _ => 0) = m_nugget m /\
  (forall diff, m_nugget m <= model_gamma n m diff <= total_sill m) /\
  (Forall plain (m_rbfs m) -> forall dir h h', 0 <= h -> h <= h' -> model_gamma n m (fun e => h * dir e) <= model_gamma n m (fun e => h' * dir e)).
Proof.
  intros n m P. split; [apply gamma_zero|]. split; [intros diff; apply gamma_bounds; exact P|]. intros Q dir h h'. apply gamma_increasing; assumption.
Qed.
Print Assumptions C58_gamma.

(** C58: whatever the solver tries, one parameter per slot, the cost function throws nothing: it takes the nearest admissible parameters. It
    reports failure exactly if one of the ranges is then zero. *)
Theorem C58_cost : forall n tmpl fit v w rot scale ps, (1 <= n <= 3)%nat -> rotation n rot ->
  (fit = true -> forall i j, (i < length (m_rbfs tmpl))%nat -> (j < n)%nat -> 0 < scale i j) -> length ps = length (parameters tmpl) ->
  exists m, final_model n tmpl fit (map (Rmax 0) ps) rot scale = Ok m /\ cost n tmpl fit v w ps rot scale = Ok (compute_residuals n m v w) /\
    (compute_residuals n m v w = None <-> Exists (fun f => f_p1 f = 0) (m_rbfs m)).
Proof.
  intros n tmpl fit v w rot scale ps N R S L. destruct (cost_spec n tmpl fit v w rot scale ps N R S L) as (m & A & B).
  exists m. split; [exact A|]. split; [exact B|]. apply residuals_none.
Qed.
Print Assumptions C58_cost.

(** C58: parameters within the bounds are taken as they are: the cost is that of the model returned for them, which has these parameters, the
    functions of the given model and the fitted anisotropies. *)
Theorem C58_final : forall n tmpl fit v w rot scale ps, (1 <= n <= 3)%nat -> rotation n rot ->
  (fit = true -> forall i j, (i < length (m_rbfs tmpl))%nat -> (j < n)%nat -> 0 < scale i j) -> length ps = length (parameters tmpl) -> Forall (fun x => 0 <= x) ps ->
  exists m, final_model n tmpl fit ps rot scale = Ok m /\ cost n tmpl fit v w ps rot scale = Ok (compute_residuals n m v w) /\
    parameters m = ps /\ map f_kind (m_rbfs m) = map f_kind (m_rbfs tmpl) /\ map f_aniso (m_rbfs m) = anisotropies tmpl fit rot scale.
Proof.
  intros n tmpl fit v w rot scale ps N R S L F. destruct (final_spec n tmpl fit rot scale ps N R S L F) as (m & A & B & C & D).
  destruct (cost_spec n tmpl fit v w rot scale ps N R S L) as (m' & A' & B'). rewrite rmax_id in A' by exact F. rewrite A in A'. injection A' as <-.
  exists m. auto.
Qed.
Print Assumptions C58_final.

(** C58: the matrices the solver's angle and quaternion stand for are rotations, also for a zero quaternion; and along the i-th row of the
    rotation the range of a function is divided by the i-th scale: the axes are orthogonal, and with the bounds set for the scales the first
    range is the longest and the last the shortest. *)
Theorem C58_rotations : (forall a, rotation 2 (rotation2 a)) /\ (forall x y z w, rotation 3 (rotation3 x y z w)).
Proof. split; [exact rotation2_spec|exact rotation3_spec]. Qed.
Print Assumptions C58_rotations.
Theorem C58_axes : forall n k p0 p1 rot s i h, covariance k -> 0 < p1 -> (i < n)%nat -> rotation n rot -> 0 < s i -> 0 <= h ->
  evaluate n k p0 p1 (scaled rot s) (fun e => h * rot i e) = at_distance k p0 (p1 / s i) h.
Proof. exact axis_range. Qed.
Print Assumptions C58_axes.
Theorem C58_order : forall p1 major minor, 0 < p1 -> 1 / 100 <= major <= 1 -> 1 <= minor <= 100 ->
  (forall i, 0 < scale2 minor i) /\ p1 / scale2 minor 1 <= p1 / scale2 minor 0 /\
  (forall i, 0 < scale3 major minor i) /\ p1 / scale3 major minor 2 <= p1 / scale3 major minor 1 <= p1 / scale3 major minor 0.
Proof.
  intros p1 major minor P A B. assert (I : forall x y, 0 < x -> x <= y -> p1 / y <= p1 / x).
  { intros x y X Y. apply Rmult_le_compat_l; [lra|]. apply Rinv_le_contravar; assumption. }
  split; [intros [|i]; cbn; lra|]. split; [apply I; cbn; lra|]. split; [intros [|[|i]]; cbn; lra|]. split; apply I; cbn; lra.
Qed.
Print Assumptions C58_order.

(** C58: the anisotropies of the given model are dropped, and not only for the start: without fitting them the returned model has none,
    whatever was given. *)
Definition stretched : rbf_model := RbfModel 0 [Function Exp 1 1 (fun _ _ => 2)].
Theorem C58_dropped_refuted : exists t m, template 1 stretched = Ok t /\ final_model 1 t false (parameters stretched) (fun _ _ => 1) (fun _ _ => 1) = Ok m /\
  model_gamma 1 m (fun _ => 1) < model_gamma 1 stretched (fun _ => 1).
Proof.
  destruct (template_spec 1 stretched ltac:(lia)) as (t & ET & PT & KT & AT).
  unfold template, stretched in ET. cbn [m_rbfs m_nugget each_anisotropy] in ET. unfold set_anisotropy, lt_dec_b, det, identity in ET. cbn [Nat.eqb] in ET.
  destruct (Rlt_dec 0 1) in ET; [|lra]. cbn [bind] in ET. injection ET as <-. clear PT KT AT. eexists. eexists. split.
  { unfold template, stretched. cbn [m_rbfs m_nugget each_anisotropy]. unfold set_anisotropy, lt_dec_b, det. unfold identity at 1. cbn [Nat.eqb].
    destruct (Rlt_dec 0 1); [|lra]. cbn [bind f_kind f_p0 f_p1]. reflexivity. }
  split.
  { unfold final_model, set_parameters, parameters, stretched. cbn [m_nugget m_rbfs flat_map app f_p0 f_p1 length Nat.eqb negb]. destruct (Rle_dec 0 0); [|lra]. cbn [negb with_parameters bind f_kind f_aniso apply_anisotropy]. reflexivity. }
  unfold model_gamma, stretched. cbn [m_rbfs m_nugget fold_left f_kind f_p0 f_p1 f_aniso]. rewrite !evaluate_zero.
  unfold at_distance, evaluate, value_at, dot, mat_vec, value, exp_value. cbn [rsum identity Nat.eqb]. cbv zeta.
  replace ((0 + 1 * 1) * (0 + 1 * 1)) with (1 * 1) by ring. replace ((0 + 2 * 1) * (0 + 2 * 1)) with (2 * 2) by ring. rewrite !Rplus_0_l, !sqrt_square by lra.
  assert (E : exp (-3 * (2 / 1)) < exp (-3 * (1 / 1))) by (apply exp_increasing; lra). lra.
Qed.
Print Assumptions C58_dropped_refuted.

(** C58: a polyharmonic function has a smoothing constant where the others have the range; with its default 0 the cost function always fails. *)
Theorem C58_polyharmonic_refuted : forall n v w c slope rot scale, (1 <= n <= 3)%nat -> 0 <= c -> 0 <= slope ->
  cost n (RbfModel c [Function Bh3 slope 0 identity]) false v w [c; slope; 0] rot scale = Ok None.
Proof.
  intros n v w c slope rot scale N C S. unfold cost. rewrite clamp_parameters_spec by reflexivity. cbn [bind map]. rewrite !Rmax_right by lra.
  unfold set_parameters, parameters. cbn [m_nugget m_rbfs flat_map app f_p0 f_p1 length Nat.eqb negb]. destruct (Rle_dec 0 c); [|contradiction]. cbn [negb with_parameters bind f_kind f_aniso apply_anisotropy].
  f_equal. apply residuals_none. cbn [m_rbfs]. constructor. reflexivity.
Qed.
Print Assumptions C58_polyharmonic_refuted.

(** C58: a bin of coincident points only, which the first one may well be, has no finite residual under the default weights. *)
Theorem C58_coincident_refuted : forall n m dir gamma np, residual n m dir kNumPairsOverDistanceSquared (0, gamma, np) = None.
Proof.
  intros n m dir gamma np. unfold residual, weight. cbv zeta. unfold kNumPairsOverDistanceSquared at 1 2 3. cbn [exp_distance].
  assert (E : power 0 (0.5 * -2) = None).
  { unfold power, lt_dec_b, is_zero. destruct (Rlt_dec 0 0); [lra|]. destruct (Req_EM_T 0 0); [|lra]. destruct (Req_EM_T (0.5 * -2) 0); [lra|]. destruct (Rlt_dec 0 (0.5 * -2)); [lra|reflexivity]. }
  rewrite E. reflexivity.
Qed.
Print Assumptions C58_coincident_refuted.

(** An exponential model of sill 1 and range 3 against a bin at distance 1 of 4 pairs: the default weight is 2. *)
Example C58_example : residual 1 (RbfModel 0 [Function Exp 1 3 identity]) (fun _ => 1) kNumPairsOverDistanceSquared (1, 1, 4%nat) = Some (2 * exp (-1)).
Proof.
  unfold residual. cbv zeta. assert (G : model_gamma 1 (RbfModel 0 [Function Exp 1 3 identity]) (fun e => 1 * 1) = 1 - exp (-1)).
  { unfold model_gamma. cbn [m_rbfs m_nugget fold_left f_kind f_p0 f_p1 f_aniso]. rewrite evaluate_zero.
    unfold at_distance, evaluate, value_at, dot, mat_vec, value, exp_value. cbn [rsum identity Nat.eqb]. cbv zeta.
    replace (0 * 0) with 0 by ring. rewrite sqrt_0. replace (0 + (0 + 1 * (1 * 1)) * (0 + 1 * (1 * 1))) with 1 by ring. rewrite sqrt_1.
    replace (-3 * (0 / 3)) with 0 by lra. replace (-3 * (1 / 3)) with (-1) by lra. rewrite exp_0. lra. }
  rewrite G. assert (L : exp (-1) < 1) by (rewrite <- exp_0; apply exp_increasing; lra).
  unfold weight, kNumPairsOverDistanceSquared. cbn [exp_distance exp_model_gamma exp_num_pairs]. rewrite !power_pos; [|apply lt_0_INR; lia|lra|lra]. cbn [times]. f_equal.
  replace (0.5 * 0) with 0 by lra. rewrite Rpower_O by lra. replace (0.5 * -2) with (-1) by lra. replace (0.5 * 1) with (/ 2) by lra. rewrite Rpower_sqrt by (apply lt_0_INR; lia).
  replace (INR 4) with (2 * 2) by (cbn; lra). rewrite sqrt_square by lra. replace (Rpower 1 (-1)) with 1; [lra|]. unfold Rpower. rewrite ln_1, Rmult_0_r, exp_0. reflexivity.
Qed.
