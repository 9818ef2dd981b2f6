From Coq Require Import Reals List Arith ZArith Permutation Lia Lra.
From Verif Require Import Model.Outcome Model.LinAlg Model.Variogram Spec.Variogram Proofs.LinAlg Proofs.Variogram.
Import ListNotations.
Local Open Scope R_scope.

(** C41: every bin of every direction is the average over exactly the pairs that belong to it, each counted once; empty bins and
    directions without pairs are left out. *)
Theorem C41_pairs : forall dim n_points points values lag_distance num_lags lag_tolerance n_directions directions angle_tolerance,
  0 < lag_distance -> (0 < n_directions)%nat ->
  (match angle_tolerance with None => True | Some a => 0 <= cos a end) -> forall schedule, divided n_points schedule ->
  exists pairs,
    (forall k b, pairs_of n_points (fun i j => takes dim n_directions points directions angle_tolerance i j k)
                   (in_bin lag_distance (tolerance lag_distance lag_tolerance) b) (dist dim points) (pairs k b)) /\
    calculate dim n_points points values lag_distance num_lags lag_tolerance n_directions directions angle_tolerance schedule =
      Ok (variograms (dist dim points) (gamma values) num_lags n_directions pairs).
Proof. exact calculate_pairs. Qed.
Print Assumptions C41_pairs.

(** C41: what is averaged: the Euclidean distance and half the squared difference; the automatic tolerance is half a lag. *)
Theorem C41_terms : (forall dim points i j, dist dim points i j = sqrt (rsum dim (fun e => (points i e - points j e) ^ 2))) /\
  (forall values i j, gamma values i j = (values i - values j) ^ 2 / 2) /\ (forall lag_distance, tolerance lag_distance None = lag_distance / 2) /\
  (forall lag_distance t, tolerance lag_distance (Some t) = t).
Proof. exact terms. Qed.
Print Assumptions C41_terms.

(** C41: how the rows are divided among threads, and in which order the threads finish, does not matter. *)
Theorem C41_schedule : forall dim n_points points values lag_distance num_lags lag_tolerance n_directions directions angle_tolerance,
  0 < lag_distance -> (0 < n_directions)%nat -> forall s s', divided n_points s -> divided n_points s' ->
  calculate dim n_points points values lag_distance num_lags lag_tolerance n_directions directions angle_tolerance s =
  calculate dim n_points points values lag_distance num_lags lag_tolerance n_directions directions angle_tolerance s'.
Proof. exact schedule_free. Qed.
Print Assumptions C41_schedule.

(** C41: without an angle tolerance every pair goes to one direction. *)
Theorem C41_one_direction : forall dim points n_directions directions angle_tolerance, (0 < n_directions)%nat -> angle_tolerance = None ->
  forall i j, exists! k, takes dim n_directions points directions angle_tolerance i j k.
Proof. exact one_direction. Qed.
Print Assumptions C41_one_direction.

(** C41, refuted for wide angles: the square of a negative cosine is taken, so a tolerance of 180 degrees, which the setter accepts, takes
    no pair across the direction. *)
Definition up_points (i e : nat) : R := match i, e with 1%nat, 1%nat => 1 | _, _ => 0 end.
Definition x_direction (k e : nat) : R := match e with 0%nat => 1 | _ => 0 end.
Lemma up_dist : dist 2 up_points 0 1 = 1.
Proof. unfold dist. replace (dot 2 (lag up_points 0 1) (lag up_points 0 1)) with 1; [apply sqrt_1|]. unfold dot, lag, up_points. cbn. ring. Qed.
Theorem C41_wide_angle_refuted : takes 2 1 up_points x_direction (Some PI) 0 1 0 /\ in_bin 1 (tolerance 1 None) 1 (dist 2 up_points 0 1) /\ divided 2 [[0%nat]] /\
  calculate 2 2 up_points (fun _ => 0) 1 2 None 1 x_direction (Some PI) [[0%nat]] = Ok [].
Proof.
  split; [|split; [|split]].
  - split; [lia|]. cbv beta zeta. rewrite up_dist, cos_PI. pose proof (Rabs_pos (dot 2 (lag up_points 0 1) (x_direction 0))). lra.
  - unfold in_bin, tolerance. rewrite up_dist. cbn [INR]. replace (1 - 1 * 1) with 0 by ring. rewrite Rabs_R0. lra.
  - apply Permutation_refl.
  - rewrite calculate_spec by (lra || lia). f_equal. unfold variograms. cbn [concat app flat_map seq row_pairs Nat.sub map filter].
    assert (sel 2 up_points 1 x_direction (Some PI) 0 (0%nat, 1%nat) = false) as ->; [|reflexivity].
    unfold sel, targets. cbn [seq filter fst snd]. destruct (Rle_dec _ _) as [L|L]; [|reflexivity]. exfalso. revert L.
    unfold squared_dot, dot, lag, up_points, x_direction. cbn. rewrite cos_PI. lra.
Qed.
Print Assumptions C41_wide_angle_refuted.

(** The hypotheses can be met: two points one lag apart give one bin. *)
Example C41_two_points : divided 2 [[]; [0%nat]] /\
  exists d g, calculate 2 2 up_points (fun i => INR i) 1 2 None 1 x_direction None [[]; [0%nat]] = Ok [(0%nat, [(d, g, 1%nat)])] /\ d = 1 /\ g = / 2.
Proof.
  split; [apply Permutation_refl|]. rewrite calculate_spec by (lra || lia). unfold variograms. cbn [concat app flat_map seq row_pairs Nat.sub map filter].
  assert (sel 2 up_points 1 x_direction None 0 (0%nat, 1%nat) = true) as -> by reflexivity. unfold variogram. cbn [flat_map seq filter].
  assert (inb 2 up_points 1 None 0 (0%nat, 1%nat) = false) as ->.
  { unfold inb, tolerance. cbn [fst snd]. rewrite up_dist. destruct (Rle_dec _ _) as [L|L]; auto. exfalso. cbn [INR] in L. replace (1 - 0 * 1) with 1 in L by ring. rewrite Rabs_R1 in L. lra. }
  assert (inb 2 up_points 1 None 1 (0%nat, 1%nat) = true) as ->.
  { unfold inb, tolerance. cbn [fst snd]. rewrite up_dist. destruct (Rle_dec _ _) as [L|L]; auto. exfalso. apply L. cbn [INR]. replace (1 - 1 * 1) with 0 by ring. rewrite Rabs_R0. lra. }
  cbn [app]. unfold averages. do 2 eexists. split; [reflexivity|]. cbn [lsum length fst snd INR]. rewrite up_dist. unfold gamma. cbn [INR]. split; lra.
Qed.
