From Coq Require Import List Arith ZArith Bool Reals Lra Lia Permutation.
From Verif Require Import Proofs.PrimitiveLattice Proofs.Commands.
From Verif Require Import Model.Outcome Model.PrimitiveLattice Model.Commands Spec.Commands.
Import ListNotations.

(** C62: the commands read and write the columns that they document. *)

(** Concatenation succeeds exactly for equal heights (widths); then every entry is at its place, whatever the memory contained. *)
Theorem C62_cols : forall {D : Type} junk (m : mat D) ms,
  (exists r, concatenate_cols junk m ms = Ok r /\ side_by_side (m :: ms) r) \/
  (concatenate_cols junk m ms = Throw ExInvalidArgument /\ exists x, In x ms /\ rows x <> rows m).
Proof. exact @concatenate_cols_spec. Qed.
Theorem C62_rows : forall {D : Type} junk (m : mat D) ms,
  (exists r, concatenate_rows junk m ms = Ok r /\ stacked (m :: ms) r) \/
  (concatenate_rows junk m ms = Throw ExInvalidArgument /\ exists x, In x ms /\ cols x <> cols m).
Proof. exact @concatenate_rows_spec. Qed.
(** fit: coordinates, value, bounds; the right hand side is the values, then the gradients point by point. *)
Theorem C62_fit : forall {D : Type} junk dim (ineq : bool) (table : mat D) (grad_table : option (mat D)), 0 < dim ->
  dim + (if ineq then 3 else 1) <= cols table -> (forall g, grad_table = Some g -> 2 * dim <= cols g) ->
  exists d, read_fit junk dim ineq table grad_table = Ok d /\
    (rows (fit_points d) = rows table /\ cols (fit_points d) = dim /\ forall i j, entry (fit_points d) i j = entry table i j) /\
    (rows (fit_values d) = rows table /\ cols (fit_values d) = 1 /\ forall i, entry (fit_values d) i 0 = entry table i dim) /\
    match fit_bounds d with
    | None => ineq = false
    | Some (lb, ub) => ineq = true /\ rows lb = rows table /\ rows ub = rows table /\
        forall i, entry lb i 0 = entry table i (dim + 1) /\ entry ub i 0 = entry table i (dim + 2)
    end /\
    match grad_table with
    | None => rows (fit_grad_points d) = 0 /\ rows (fit_rhs d) = rows table
    | Some g => rows (fit_grad_points d) = rows g /\ (forall i j, entry (fit_grad_points d) i j = entry g i j) /\
        rows (fit_rhs d) = rows table + dim * rows g /\
        forall i j, j < dim -> entry (fit_rhs d) (rows table + (dim * i + j)) 0 = entry g i (dim + j)
    end /\
    forall i, i < rows table -> entry (fit_rhs d) i 0 = entry table i dim.
Proof. exact @read_fit_spec. Qed.
(** A missing column is not reported. *)
Theorem C62_missing_column : forall {D : Type} junk dim (ineq : bool) (table : mat D) (grad_table : option (mat D)),
  cols table < dim + (if ineq then 3 else 1) \/ (exists g, grad_table = Some g /\ cols g < 2 * dim) ->
  read_fit junk dim ineq table grad_table = UB.
Proof. exact @read_fit_bad. Qed.
(** evaluate: coordinates, value and gradient of each point in its row. *)
Theorem C62_evaluate : forall {D : Type} junk (eval : mat D -> mat D -> mat D) dim (table : mat D), dim <= cols table ->
  let points := Mat (rows table) dim (fun i j => entry table i j) in
  let values := eval points points in
  cols values = 1 -> rows values = rows table + dim * rows table ->
  exists r, evaluate_table junk eval dim true table = Ok r /\ rows r = rows table /\ cols r = dim + 1 + dim /\
    forall i, i < rows table ->
      (forall j, j < dim -> entry r i j = entry table i j) /\ entry r i dim = entry values i 0 /\
      (forall j, j < dim -> entry r i (dim + 1 + j) = entry values (rows table + (dim * i + j)) 0).
Proof. exact @evaluate_spec. Qed.
Theorem C62_evaluate_values : forall {D : Type} junk (eval : mat D -> mat D -> mat D) dim (table : mat D), dim <= cols table ->
  let points := Mat (rows table) dim (fun i j => entry table i j) in
  let values := eval points (no_rows dim junk) in
  cols values = 1 -> rows values = rows table ->
  exists r, evaluate_table junk eval dim false table = Ok r /\ rows r = rows table /\ cols r = dim + 1 /\
    forall i, i < rows table -> (forall j, j < dim -> entry r i j = entry table i j) /\ entry r i dim = entry values i 0.
Proof. exact @evaluate_values_spec. Qed.
(** fit followed by evaluate: an interpolant that meets its right hand side writes back the values and the gradients that were read. *)
Theorem C62_round_trip : forall {D : Type} junk (eval : mat D -> mat D -> mat D) dim (table grads : mat D) d r,
  0 < dim -> dim + 1 <= cols table -> 2 * dim <= cols grads -> rows grads = rows table ->
  (forall i j, entry grads i j = entry table i j \/ dim <= j) ->
  read_fit junk dim false table (Some grads) = Ok d ->
  (forall p, rows p = rows table -> cols p = dim -> (forall i j, j < dim -> entry p i j = entry table i j) -> eval p p = fit_rhs d) ->
  evaluate_table junk eval dim true table = Ok r ->
  forall i, i < rows table -> entry r i dim = entry table i dim /\ forall j, j < dim -> entry r i (dim + 1 + j) = entry grads i (dim + j).
Proof. exact @round_trip. Qed.
(** normals-to-sdf: for any shuffle exactly round(ratio * n) normals are kept, the others are zeroed. *)
Theorem C62_normals : forall {D : Type} times_zero ratio shuffled (normals : mat D),
  (0 <= ratio <= 1)%R -> Permutation shuffled (seq 0 (rows normals)) ->
  exists r kept, drop_normals times_zero ratio shuffled normals = Ok r /\ rows r = rows normals /\ cols r = cols normals /\
    NoDup kept /\ Z.of_nat (length kept) = normals_to_keep ratio (rows normals) /\ (forall i, In i kept -> i < rows normals) /\
    forall i j, i < rows normals -> (In i kept -> entry r i j = entry normals i j) /\ (~ In i kept -> entry r i j = times_zero (entry normals i j)).
Proof. exact @drop_normals_spec. Qed.
(** Ratios outside: an exception above, all zeroed below. *)
Theorem C62_ratio : forall {D : Type} times_zero ratio shuffled (normals : mat D),
  ((Z.of_nat (rows normals) < normals_to_keep ratio (rows normals))%Z -> drop_normals times_zero ratio shuffled normals = Throw ExLengthError) /\
  ((normals_to_keep ratio (rows normals) <= 0)%Z -> Permutation shuffled (seq 0 (rows normals)) ->
   exists r, drop_normals times_zero ratio shuffled normals = Ok r /\ forall i j, i < rows normals -> entry r i j = times_zero (entry normals i j)).
Proof. intros D tz ratio sh normals. split; [apply drop_normals_above|apply drop_normals_below]. Qed.
(** The options of fit: what is refused and what is called otherwise. *)
Theorem C62_options : forall dim grad_in initial ineq reduce,
  choose_fit dim grad_in initial ineq reduce =
  if (grad_in && ineq) || (initial && reduce) || negb ((1 <=? dim)%Z && (dim <=? 3)%Z) then Throw ExRuntimeError
  else Ok (if ineq then FitInequality initial else if reduce then FitIncrementally else Fit initial).
Proof. exact choose_fit_spec. Qed.
(** "Every accepted --reduce reduces." *)
Theorem C62_reduce_refuted : ~ (forall dim grad_in initial ineq c, choose_fit dim grad_in initial ineq true = Ok c -> c = FitIncrementally).
Proof. intros H. specialize (H 3%Z false false true _ eq_refl). discriminate. Qed.

Definition ex_table : mat nat := Mat 2 3 (fun i j => 10 * i + j).
Definition ex_grads : mat nat := Mat 2 4 (fun i j => if j <? 2 then 10 * i + j else 100 + 10 * i + j).
Definition show {D : Type} (m : mat D) : list (list D) := map (fun i => map (entry m i) (seq 0 (cols m))) (seq 0 (rows m)).
Example C62_tables : exists d, read_fit (fun _ _ => 7) 2 false ex_table (Some ex_grads) = Ok d /\ show (fit_rhs d) = [[2]; [12]; [102]; [103]; [112]; [113]] /\
  exists r, evaluate_table (fun _ _ => 7) (fun _ _ => fit_rhs d) 2 true ex_table = Ok r /\ show r = [[0; 1; 2; 102; 103]; [10; 11; 12; 112; 113]].
Proof. eexists. split; [reflexivity|]. split; [reflexivity|]. eexists. split; reflexivity. Qed.
Example C62_unequal : concatenate_cols (fun _ _ => 7) ex_table [ex_grads; Mat 1 1 (fun _ _ => 0)] = Throw ExInvalidArgument.
Proof. reflexivity. Qed.
Example C62_stacked : exists r, concatenate_rows (fun _ _ => 7) ex_table [Mat 1 3 (fun _ j => j)] = Ok r /\ show r = [[0; 1; 2]; [10; 11; 12]; [0; 1; 2]].
Proof. eexists. split; reflexivity. Qed.
Example C62_half : exists r, drop_normals (fun _ => 0) (1 / 2) [2; 0; 3; 1] (Mat 4 1 (fun i _ => S i)) = Ok r /\ show r = [[0]; [2]; [0]; [4]].
Proof.
  unfold drop_normals, normals_to_keep. cbn [rows]. rewrite (round_unique _ 2).
  - eexists. split; reflexivity.
  - replace (1 / 2 * INR 4 - 2)%R with 0%R by (cbn [INR]; field). rewrite Rabs_R0. lra.
Qed.

(** C63: the best of the trials is saved, and the listed azimuth and elevation are those of the direction. *)
Local Open Scope R_scope.

(** The model given if no cost is finite, otherwise the first model of least finite cost. *)
Theorem C63_best : forall {M : Type} (model : M) trials,
  (best_trial model trials = model /\ forall x m, ~ In (Finite x, m) trials) \/
  (exists pre x m post, trials = pre ++ (Finite x, m) :: post /\ best_trial model trials = m /\
     (forall y m', In (Finite y, m') pre -> x < y) /\ (forall y m', In (Finite y, m') post -> x <= y)).
Proof. exact @best_trial_spec. Qed.
(** Which cost replaces which: as < on doubles, never true of something that is not a number. *)
Theorem C63_comparison : forall a b, cost_lt a b = true <-> exists x, a = Finite x /\ (b = Infinite \/ exists y, b = Finite y /\ x < y).
Proof. exact cost_lt_spec. Qed.
Print Assumptions C63_comparison.
(** A unit vector or its opposite is regained from the listed angles. *)
Theorem C63_direction : forall asin_ atan2_ x y z, is_asin asin_ -> is_atan2 atan2_ -> x * x + y * y + z * z = 1 ->
  exists az elev, listed_direction asin_ atan2_ [x; y; z] = Ok (az, elev) /\ 0 <= elev <= 90 /\ 0 <= az <= 360 /\
    (of_angles az elev = (x, y, z) \/ of_angles az elev = (- x, - y, - z)).
Proof. exact listed_spec. Qed.
(** "The azimuth is below 360." *)
Theorem C63_azimuth_refuted : forall asin_ atan2_, is_asin asin_ -> is_atan2 atan2_ ->
  ~ (forall x y z az elev, x * x + y * y + z * z = 1 -> listed_direction asin_ atan2_ [x; y; z] = Ok (az, elev) -> az < 360).
Proof. intros asin_ atan2_ As At H. destruct (listed_360 asin_ atan2_ As At) as (elev & E). specialize (H 0 (- (4 / 5)) (- (3 / 5)) 360 elev). assert (360 < 360) by (apply H; [lra|exact E]). lra. Qed.
(** Directions of one and two dimensional variograms are read beyond their coordinates. *)
Theorem C63_dimension : forall asin_ atan2_ dir, length dir <> 3%nat -> listed_direction asin_ atan2_ dir = UB.
Proof. exact listed_undefined. Qed.

Example C63_trials : best_trial 0%nat [(NotANumber, 1%nat); (Finite 3, 2%nat); (Infinite, 3%nat); (Finite 1, 4%nat); (Finite 1, 5%nat)] = 4%nat.
Proof. unfold best_trial. cbn. destruct (Rlt_dec 1 3); [|lra]. cbn. destruct (Rlt_dec 1 1); [lra|reflexivity]. Qed.
(** Both functions exist. *)
Example C63_functions : is_asin asin /\ exists f, is_atan2 f.
Proof.
  split.
  - intros z H. split; [apply asin_bound|apply sin_asin, H].
  - exists (fun y x => if Rlt_dec y 0 then - acos (x / sqrt (x * x + y * y)) else acos (x / sqrt (x * x + y * y))).
    intros y x. pose proof PI_RGT_0. set (s := sqrt (x * x + y * y)). pose proof (sqrt_pos (x * x + y * y)) as S0. fold s in S0.
    assert (s * s = x * x + y * y) as SS by (apply sqrt_sqrt; nra). pose proof (acos_bound (x / s)) as B.
    destruct (Req_dec s 0) as [Z|Z].
    + rewrite Z in SS |- *. assert (x = 0) by nra. assert (y = 0) by nra. subst. destruct (Rlt_dec 0 0); [lra|].
      unfold Rdiv. rewrite Rmult_0_l, acos_0. split; [lra|split; ring].
    + assert (-1 <= x / s <= 1) as R.
      { assert (- s <= x) by (destruct (Rle_dec (- s) x); [assumption|nra]). assert (x <= s) by (destruct (Rle_dec x s); [assumption|nra]).
        split; apply (Rmult_le_reg_r s); try lra; unfold Rdiv; rewrite Rmult_assoc, Rinv_l by exact Z; lra. }
      pose proof (cos_acos _ R) as C. pose proof (sin_acos _ R) as Sn.
      assert (sqrt (1 - Rsqr (x / s)) = Rabs y / s) as Q.
      { assert (1 - (x / s)² = (Rabs y / s)²) as ->.
        { unfold Rsqr. pose proof (Rsqr_abs y) as Ay. unfold Rsqr in Ay. field_simplify_eq; [|exact Z]. replace (Rabs y ^ 2) with (y * y) by (rewrite Ay; ring). nra. }
        apply sqrt_Rsqr. pose proof (Rabs_pos y). apply Rmult_le_pos; [assumption|]. apply Rlt_le, Rinv_0_lt_compat. lra. }
      rewrite Q in Sn. destruct (Rlt_dec y 0) as [N|N].
      * rewrite sin_neg, cos_neg, C, Sn. rewrite Rabs_left in Sn by exact N. rewrite Rabs_left by exact N.
        split; [|split; field; exact Z]. split; [|lra].
        destruct (Req_dec (acos (x / s)) PI) as [E|E]; [|lra]. exfalso. rewrite E, sin_PI in Sn.
        assert (0 = - y / s * s) by (rewrite <- Sn; ring). unfold Rdiv in *. rewrite Rmult_assoc, Rinv_l in * by exact Z. lra.
      * rewrite C, Sn, Rabs_right by lra. split; [lra|split; field; exact Z].
Qed.
Example C63_north : listed_direction asin (fun _ _ => 0) [0; 1; 0] = Ok (0, 0).
Proof.
  unfold listed_direction. rewrite asin_0. unfold Rdiv. rewrite Rmult_0_l. destruct (Rlt_dec 0 0); [lra|]. destruct (Rlt_dec 0 0); [lra|reflexivity].
Qed.

Print Assumptions C62_cols.
Print Assumptions C62_rows.
Print Assumptions C62_fit.
Print Assumptions C62_missing_column.
Print Assumptions C62_evaluate.
Print Assumptions C62_evaluate_values.
Print Assumptions C62_round_trip.
Print Assumptions C62_normals.
Print Assumptions C62_ratio.
Print Assumptions C62_options.
Print Assumptions C62_reduce_refuted.
Print Assumptions C63_best.
Print Assumptions C63_direction.
Print Assumptions C63_azimuth_refuted.
Print Assumptions C63_dimension.
