From Coq Require Import Reals List Arith ZArith Lia Lra.
From Verif Require Import Proofs.Directions Model.Outcome Model.LinAlg Model.Variogram Model.Directions Spec.Variogram Spec.Directions.
Import ListNotations.
Local Open Scope R_scope.

(** C69: the tables have 1, 8 and 46 rows of 1, 2 and 3 coordinates; their lengths are 1 up to 10^-7. *)
Theorem C69_unit : (length (anisotropic 1) = 1%nat /\ length (anisotropic 2) = 8%nat /\ length (anisotropic 3) = 46%nat) /\
  forall dim k, (1 <= dim <= 3)%nat -> (k < length (anisotropic dim))%nat ->
  Rabs (dot dim (rows (anisotropic dim) k) (rows (anisotropic dim) k) - 1) <= / 10000000.
Proof. exact (conj table_size units). Qed.
Print Assumptions C69_unit.

(** C69: no two rows point the same way or opposite ways: their lines are at least about 20 degrees apart. *)
Theorem C69_apart : forall dim k l, (1 <= dim <= 3)%nat -> (k < length (anisotropic dim))%nat -> (l < length (anisotropic dim))%nat -> k <> l ->
  far dim (separation dim) (rows (anisotropic dim) k) (rows (anisotropic dim) l).
Proof. exact separated. Qed.
Print Assumptions C69_apart.

(** C69: every vector is within 13.9 degrees (11.5 in two dimensions) of a row. *)
Theorem C69_cover : forall dim, (1 <= dim <= 3)%nat -> forall u, exists k, (k < length (anisotropic dim))%nat /\
  near dim (coverage dim) u (rows (anisotropic dim) k).
Proof. exact covered. Qed.
Print Assumptions C69_cover.

(** C69: so with the automatic tolerance every pair is counted for a direction that close to it, and with a tolerance of at least that angle
    every pair is counted. *)
Theorem C69_nearest : forall dim points c0 c, (1 <= dim <= 3)%nat -> set_directions dim (length (anisotropic dim)) (rows (anisotropic dim)) c0 = Ok c ->
  angle_tolerance c = None -> forall i j k, counted dim points c i j k -> near dim (coverage dim) (lag points i j) (directions c k).
Proof. exact nearest. Qed.
Print Assumptions C69_nearest.
Theorem C69_wide_enough : forall dim points c0 c, (1 <= dim <= 3)%nat -> set_directions dim (length (anisotropic dim)) (rows (anisotropic dim)) c0 = Ok c ->
  forall a, angle_tolerance c = Some a -> 0 <= cos a <= coverage dim -> forall i j, exists k, counted dim points c i j k.
Proof. exact wide_enough. Qed.
Print Assumptions C69_wide_enough.

(** C69: a tolerance of 13.5 degrees or less is too small for the table of three dimensions: some pairs are counted for no direction. *)
Theorem C69_too_narrow : forall c0 c a, set_directions 3 (length (anisotropic 3)) (rows (anisotropic 3)) c0 = Ok c -> angle_tolerance c = Some a ->
  972 / 1000 <= cos a -> forall k, ~ counted 3 hole c 0 1 k.
Proof. exact too_narrow. Qed.
Print Assumptions C69_too_narrow.

(** C69: a new calculator counts every pair once, whatever its direction. *)
Theorem C69_default : forall dim points distance lags i j k, counted dim points (make dim distance lags) i j k <-> k = 0%nat.
Proof. exact default_all. Qed.
Print Assumptions C69_default.

(** C69: its tolerances are automatic and its one direction is the first axis, exactly. *)
Theorem C69_axis : forall dim distance lags, (let c := make dim distance lags in lag_distance c = distance /\ num_lags c = lags /\ lag_tolerance c = None /\ angle_tolerance c = None /\ n_directions c = 1%nat) /\
  forall e, directions (make dim distance lags) 0 e = if Nat.eqb e 0 then 1 else 0.
Proof. exact default_axis. Qed.
Print Assumptions C69_axis.

(** C69: a pair of coincident points is counted for the first direction, or for all of them if there is a tolerance. *)
Theorem C69_coincident : forall dim points c i j, (forall e, (e < dim)%nat -> points i e = points j e) -> (0 < n_directions c)%nat -> forall k,
  counted dim points c i j k <-> (match angle_tolerance c with None => k = 0%nat | Some _ => (k < n_directions c)%nat end).
Proof. exact coincident. Qed.
Print Assumptions C69_coincident.

(** C69: the setters of the tolerances take -1 and positive numbers only, and change nothing else. *)
Theorem C69_angle : forall t c,
  ((t = -1 \/ 0 < t) -> exists c', set_angle_tolerance t c = Ok c' /\ same_but_angle c c' /\ (t = -1 -> angle_tolerance c' = None) /\ (0 < t -> angle_tolerance c' = Some t)) /\
  (~ (t = -1 \/ 0 < t) -> set_angle_tolerance t c = Throw ExInvalidArgument).
Proof. exact angle_setter. Qed.
Print Assumptions C69_angle.
Theorem C69_lag : forall t c,
  ((t = -1 \/ 0 < t) -> exists c', set_lag_tolerance t c = Ok c' /\ same_but_lag c c' /\ (t = -1 -> lag_tolerance c' = None) /\ (0 < t -> lag_tolerance c' = Some t)) /\
  (~ (t = -1 \/ 0 < t) -> set_lag_tolerance t c = Throw ExInvalidArgument).
Proof. exact lag_setter. Qed.
Print Assumptions C69_lag.

(** C69: directions are made unit vectors; rows of zeros stay, without an error. *)
Theorem C69_directions : forall dim n v c,
  (n = 0%nat -> set_directions dim n v c = Throw ExInvalidArgument) /\
  (n <> 0%nat -> exists c', set_directions dim n v c = Ok c' /\ same_but_directions c c' /\ n_directions c' = n /\
     forall k, (len dim (v k) <> 0 -> len dim (directions c' k) = 1 /\ forall e, len dim (v k) * directions c' k e = v k e) /\
               (len dim (v k) = 0 -> forall e, directions c' k e = v k e)).
Proof. exact directions_setter. Qed.
Print Assumptions C69_directions.

(** C69: the lengths of the directions and which way along their lines they point do not matter. *)
Theorem C69_lines : forall dim n_points points values n v (s : nat -> R) c c1 c2 schedule, (forall k, s k <> 0) ->
  set_directions dim n v c = Ok c1 -> set_directions dim n (fun k e => s k * v k e) c = Ok c2 ->
  run dim n_points points values c1 schedule = run dim n_points points values c2 schedule.
Proof. exact scaled_directions. Qed.
Print Assumptions C69_lines.

(** The hypotheses can be met: the three-dimensional table with a tolerance of 60 degrees (every pair is counted). *)
Example C69_table : exists c1 c, set_angle_tolerance (PI / 3) (make 3 1 10) = Ok c1 /\
  set_directions 3 (length (anisotropic 3)) (rows (anisotropic 3)) c1 = Ok c /\ angle_tolerance c = Some (PI / 3) /\ n_directions c = 46%nat /\
  0 <= cos (PI / 3) <= coverage 3.
Proof.
  pose proof PI_RGT_0 as P. destruct (C69_angle (PI / 3) (make 3 1 10)) as [H _]. destruct H as [c1 [E [_ [_ A]]]]; [right; lra|].
  exists c1. unfold set_directions. change (length (anisotropic 3)) with 46%nat. cbn [Nat.eqb]. eexists. split; [exact E|]. split; [reflexivity|].
  cbn [angle_tolerance n_directions]. split; [apply A; lra|]. split; [reflexivity|]. rewrite cos_PI3. unfold coverage. lra.
Qed.
