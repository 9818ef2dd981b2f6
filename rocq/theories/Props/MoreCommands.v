From Coq Require Import List Arith ZArith Bool Reals Lia Lra Ascii.
From Verif Require Import Proofs.MoreCommands.
From Verif Require Import Model.Outcome Model.LinAlg Model.Table Model.Bbox Model.Variogram Model.Directions Model.DistanceFilter Model.CrossValidate
  Model.Commands Model.MoreCommands Spec.DistanceFilter Spec.CrossValidate Spec.Directions Spec.Commands Spec.MoreCommands.
Import ListNotations.
Local Open Scope nat_scope.

(** C70: the commands with a dimension work in one, two and three dimensions and refuse any other. *)
Theorem C70_dimension : forall {A : Type} (run : nat -> outcome A) dim,
  (forall d, (1 <= d <= 3) -> dim = Z.of_nat d -> with_dimension run dim = run d) /\
  (~ (1 <= dim <= 3)%Z -> with_dimension run dim = Throw ExRuntimeError).
Proof. exact @dimensions. Qed.
Print Assumptions C70_dimension.

(** C70: unique keeps whole rows, in their order, so that no two of them are near and every other one is near an earlier kept one; a second run
    changes nothing. Tables with too few columns are read out of bounds. *)
Theorem C70_unique : forall {D L : Type} (valid : L -> bool) (search : list (list D) -> list D -> L -> list nat) near,
  search_ok near search -> (forall d p q, near d p q -> near d q p) ->
  forall d (table : mat D) dim, dim <= cols table -> valid d = true ->
  exists r kept, unique valid search d table dim = Ok r /\ thinned (near d) dim table r kept.
Proof. exact @unique_spec. Qed.
Print Assumptions C70_unique.
Theorem C70_unique_again : forall {D L : Type} (valid : L -> bool) (search : list (list D) -> list D -> L -> list nat) near,
  search_ok near search -> (forall d p q, near d p q -> near d q p) ->
  forall d (table r : mat D) dim, unique valid search d table dim = Ok r ->
  exists r', unique valid search d r dim = Ok r' /\ same r r'.
Proof. exact @unique_again. Qed.
Print Assumptions C70_unique_again.
Theorem C70_unique_errors : forall {D L : Type} (valid : L -> bool) (search : list (list D) -> list D -> L -> list nat) d (table : mat D) dim,
  (cols table < dim -> unique valid search d table dim = UB) /\
  (dim <= cols table -> valid d = false -> unique valid search d table dim = Throw ExInvalidArgument).
Proof. exact @unique_errors. Qed.
Print Assumptions C70_unique_errors.

(** C70: cross-validate writes the table with one more column: for every row what a model of the rows of other sets predicts. The sets are the
    whole parts of the column after the values. It succeeds when every set does. *)
Theorem C70_cross_validate : forall {D : Type} junk (zero : D) (to_int : D -> Z) fit_evaluate, one_value_per_point fit_evaluate ->
  forall (table : mat D) dim, dim + 2 <= cols table -> let ids := map to_int (column (dim + 1) table) in
  forall order r, traversal ids order -> cross_validate_table junk zero to_int fit_evaluate order table dim = Ok r ->
  exists p, beside table (Mat (rows table) 1 (fun i _ => p i)) r /\
    forall i, i < rows table -> held_out_prediction [] zero fit_evaluate (points_of dim table) (column dim table) ids i (p i).
Proof. exact @cross_ok. Qed.
Print Assumptions C70_cross_validate.
Theorem C70_cross_validate_defined : forall {D : Type} junk (zero : D) (to_int : D -> Z) fit_evaluate, one_value_per_point fit_evaluate ->
  forall (table : mat D) dim, dim + 2 <= cols table -> let ids := map to_int (column (dim + 1) table) in
  forall order, traversal ids order ->
  ((exists r, cross_validate_table junk zero to_int fit_evaluate order table dim = Ok r) <->
   forall id, In id ids -> exists fitted,
     fit_evaluate (map (fun k => nth k (points_of dim table) []) (rows_out (rows table) ids id))
       (map (fun k => nth k (column dim table) zero) (rows_out (rows table) ids id))
       (map (fun k => nth k (points_of dim table) []) (rows_in (rows table) ids id)) = Ok fitted).
Proof. exact @cross_defined. Qed.
Print Assumptions C70_cross_validate_defined.
Theorem C70_cross_validate_narrow : forall {D : Type} junk (zero : D) to_int fit_evaluate order (table : mat D) dim, cols table < dim + 2 ->
  cross_validate_table junk zero to_int fit_evaluate order table dim = UB.
Proof. exact @cross_narrow. Qed.
Print Assumptions C70_cross_validate_narrow.
Theorem C70_set_ids : forall x, whole_part x (truncate x) /\ forall z, whole_part x z -> truncate x = z.
Proof. exact (fun x => conj (truncate_spec x) (truncate_is x)). Qed.
Print Assumptions C70_set_ids.
(** C70, refuted: rows with different set numbers are in different sets. *)
Theorem C70_set_ids_refuted : (1.2 <> 1.9 /\ -0.5 <> 0.5)%R /\ truncate 1.2 = truncate 1.9 /\ truncate (-0.5) = truncate 0.5.
Proof.
  split; [lra|]. split.
  - rewrite (truncate_is 1.2 1), (truncate_is 1.9 1); [reflexivity| |]; split; lra.
  - rewrite (truncate_is (-0.5) 0), (truncate_is 0.5 0); [reflexivity| |]; split; lra.
Qed.
Print Assumptions C70_set_ids_refuted.

(** C70: estimate-normals refuses two ways of finding neighbours and two ways of orienting; without any it uses 10, 30, 100 and 300 neighbours and
    takes the surface for closed, with 100 neighbours. *)
Theorem C70_estimation : forall {D : Type} (k : option (list Z)) (radius : option (list D)),
  (choose_estimation k radius = Throw ExRuntimeError <-> k <> None /\ radius <> None) /\
  (forall ks, choose_estimation k radius = Ok (Knn ks) <-> radius = None /\ (k = Some ks \/ (k = None /\ ks = [10; 30; 100; 300]%Z))) /\
  (forall rs, choose_estimation k radius = Ok (Radius rs) <-> k = None /\ radius = Some rs).
Proof. exact @estimation_choice. Qed.
Print Assumptions C70_estimation.
Theorem C70_orientation : forall {P : Type} (point direction : option P) (closed : option Z),
  (choose_orientation point direction closed = Throw ExRuntimeError <-> 1 < count point + count direction + count closed) /\
  (forall p, choose_orientation point direction closed = Ok (TowardPoint p) <-> point = Some p /\ direction = None /\ closed = None) /\
  (forall v, choose_orientation point direction closed = Ok (TowardDirection v) <-> point = None /\ direction = Some v /\ closed = None) /\
  (forall k, choose_orientation point direction closed = Ok (ClosedSurface k) <->
     point = None /\ direction = None /\ (closed = Some k \/ (closed = None /\ k = 100%Z))).
Proof. exact @orientation_choice. Qed.
Print Assumptions C70_orientation.
Theorem C70_normals : forall {D : Type} junk (estimate : mat D -> mat D) (table : mat D), 3 <= cols table ->
  (forall p, rows (estimate p) = rows p /\ cols (estimate p) = 3) ->
  exists r points, points = Mat (rows table) 3 (entry table) /\ normals_table junk estimate table = Ok r /\ beside points (estimate points) r.
Proof. exact @normals_spec. Qed.
Print Assumptions C70_normals.

(** C70: isosurface takes the box of the interpolant unless a box that is not empty was given. *)
Theorem C70_box : forall given of_interpolant,
  (is_empty given = false -> mesh_box given of_interpolant = given) /\ (is_empty given = true -> mesh_box given of_interpolant = of_interpolant).
Proof. exact box_choice. Qed.
Print Assumptions C70_box.
Theorem C70_box_default : forall dim of_interpolant, 0 < dim -> mesh_box (empty dim) of_interpolant = of_interpolant.
Proof. exact box_default. Qed.
Print Assumptions C70_box_default.
(** C70, refuted: a box that was given is used or refused. With one pair of bounds the wrong way round it is silently replaced. *)
Theorem C70_box_refuted : forall of_interpolant,
  mesh_box (mk_bbox [Fin 0; Fin 0; Fin 1] [Fin 1; Fin 1; Fin 0])%R of_interpolant = of_interpolant.
Proof.
  intros b. apply C70_box. unfold is_empty. cbn. destruct (Rle_dec 0 1); [|lra]. destruct (Rle_dec 1 0); [lra|]. reflexivity.
Qed.
Print Assumptions C70_box_refuted.

(** C70: if a file of seed points is given and can be read, all of its points are used, and there is at least one; a file of fewer than three columns
    is read out of bounds. Without the option the whole box is searched. *)
Theorem C70_seeds : forall {D : Type} (to_double : list ascii -> D) zero ds file t, read_table to_double ds file = Ok t ->
  (3 <= cols (of_list zero t) -> exists p, choose_start (Some (of_list zero t)) = Ok (FromSeeds p) /\ rows p = length t /\ 0 < length t /\ cols p = 3 /\
     forall i j, entry p i j = nth j (nth i t []) zero) /\
  (cols (of_list zero t) < 3 -> choose_start (Some (of_list zero t)) = UB).
Proof. exact @seeds_used. Qed.
Print Assumptions C70_seeds.
Theorem C70_no_seeds : forall {D : Type}, @choose_start D None = Ok Everywhere.
Proof. reflexivity. Qed.
Print Assumptions C70_no_seeds.
(** C70: the fourth column of the points to snap to is their tolerance; without it there are none. *)
Theorem C70_snap : forall {D : Type} (table : mat D),
  (cols table < 3 -> snap_input table = UB) /\
  (cols table = 3 -> snap_input table = Ok (Mat (rows table) 3 (entry table), [])) /\
  (3 < cols table -> snap_input table = Ok (Mat (rows table) 3 (entry table), column 3 table)).
Proof. exact @snap_spec. Qed.
Print Assumptions C70_snap.
(** C70: the values of --aniso are the matrix row by row. *)
Theorem C70_aniso : forall {D : Type} (zero : D) values,
  (length values <> 9 -> aniso_option zero values = None) /\
  (length values = 9 -> exists m, aniso_option zero values = Some m /\ values = flat_map (fun i => map (m i) (seq 0 3)) (seq 0 3)).
Proof. exact @aniso_spec. Qed.
Print Assumptions C70_aniso.

Local Open Scope R_scope.
(** C70: what variogram makes of its options. *)
Theorem C70_variogram : forall distance lags lag_tol angle_tol aniso dim, (1 <= dim <= 3)%nat ->
  (lag_tol = -1 \/ 0 < lag_tol) -> (degrees angle_tol = -1 \/ 0 < degrees angle_tol) ->
  exists c, variogram_calculator distance lags lag_tol angle_tol aniso dim = Ok c /\ lag_distance c = distance /\ num_lags c = lags /\
    tolerance lag_tol (lag_tolerance c) /\ tolerance (degrees angle_tol) (angle_tolerance c) /\
    (aniso = false -> n_directions c = n_directions (make dim distance lags) /\ directions c = directions (make dim distance lags)) /\
    (aniso = true -> exists c0, set_directions dim (length (anisotropic dim)) (Directions.rows (anisotropic dim)) c0 = Ok c).
Proof. exact calculator_spec. Qed.
Print Assumptions C70_variogram.
Theorem C70_variogram_errors : forall distance lags lag_tol angle_tol aniso dim,
  ~ (lag_tol = -1 \/ 0 < lag_tol) \/ ~ (degrees angle_tol = -1 \/ 0 < degrees angle_tol) ->
  variogram_calculator distance lags lag_tol angle_tol aniso dim = Throw ExInvalidArgument.
Proof. exact calculator_rejects. Qed.
Print Assumptions C70_variogram_errors.
Theorem C70_degrees : forall a, 0 < a -> degrees a = a * (PI / 180) /\ 0 < degrees a.
Proof. exact (fun a H => match degrees_pos a H with conj x y => conj y x end). Qed.
Print Assumptions C70_degrees.
(** C70: with --aniso no pair of points is lost if the angle is between 15 and 90 degrees; with 10 degrees or less some are. *)
Theorem C70_angle_wide : forall distance lags lag_tol angle_tol dim c, (1 <= dim <= 3)%nat -> 15 <= angle_tol <= 90 ->
  variogram_calculator distance lags lag_tol angle_tol true dim = Ok c ->
  forall points i j, exists k, counted dim points c i j k.
Proof. exact degrees_wide. Qed.
Print Assumptions C70_angle_wide.
Theorem C70_angle_narrow : forall distance lags lag_tol angle_tol c, 0 < angle_tol <= 10 ->
  variogram_calculator distance lags lag_tol angle_tol true 3 = Ok c -> forall k, ~ counted 3 hole c 0 1 k.
Proof. exact degrees_narrow. Qed.
Print Assumptions C70_angle_narrow.
(** C70, refuted: negative angles other than -1 are refused. The one that is -1 radian (up to rounding) is taken for the automatic tolerance. *)
Theorem C70_negative_angle_refuted : exists a c, a < 0 /\ a <> -1 /\ variogram_calculator 1 10 (-1) a false 3 = Ok c /\ angle_tolerance c = None.
Proof. exact negative_degrees. Qed.
Print Assumptions C70_negative_angle_refuted.
(** C70: a trend is removed before the normal scores are taken, and only if its degree is not negative. *)
Theorem C70_values : forall {V : Type} (detrend : Z -> V -> V) (transform : V -> V) degree (values : V),
  ((degree < 0)%Z -> variogram_values detrend transform degree false values = values /\
     variogram_values detrend transform degree true values = transform values) /\
  ((0 <= degree)%Z -> variogram_values detrend transform degree false values = detrend degree values /\
     variogram_values detrend transform degree true values = transform (detrend degree values)).
Proof. exact @values_spec. Qed.
Print Assumptions C70_values.

(** The hypotheses can be met: three points on a line with a value each; the second is near the first. *)
Example C70_three : let near := fun (d : nat) (p q : list nat) => (nth 0 p 0 <= nth 0 q 0 + d /\ nth 0 q 0 <= nth 0 p 0 + d)%nat in
  let close := fun (d : nat) (p q : list nat) => ((nth 0 p 0 <=? nth 0 q 0 + d) && (nth 0 q 0 <=? nth 0 p 0 + d))%nat in
  let search := fun ps p d => filter (fun j => match nth_error ps j with Some q => close d p q | None => false end) (seq 0 (length ps)) in
  let table := Mat 3 2 (fun i j => nth j (nth i [[4; 10]; [5; 20]; [7; 30]] []) 0)%nat in
  search_ok near search /\ (forall d p q, near d p q -> near d q p) /\
  exists r, unique (fun _ => true) search 1%nat table 1 = Ok r /\ list_of r = [[4; 10]; [7; 30]]%nat.
Proof.
  cbv zeta. split; [|split].
  - intros ps p d j. rewrite filter_In, in_seq. split.
    + intros [_ H]. destruct (nth_error ps j) as [q|]; [|discriminate]. exists q. split; [reflexivity|].
      apply andb_true_iff in H. destruct H as [A B]. apply Nat.leb_le in A, B. auto.
    + intros (q & E & A & B). rewrite E. apply Nat.leb_le in A, B. rewrite A, B. split; [|reflexivity].
      assert (j < length ps)%nat by (apply nth_error_Some; congruence). lia.
  - tauto.
  - eexists. split; reflexivity.
Qed.
