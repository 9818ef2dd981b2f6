From Coq Require Import Reals ZArith List Arith Lia Lra.
From Verif Require Import Proofs.KdTree.
From Verif Require Import Spec.DistanceFilter Model.DistanceFilter Model.Rbfs.
From Verif Require Import Model.Outcome Model.LinAlg Model.KdTree Spec.KdTree.
Import ListNotations.
Local Open Scope R_scope.

(** C75: the number handed to FLANN is the square of the radius up to half a unit in the last place of a float, in the radius ... *)
Theorem C75_radius : forall r, normal_radius r ->
  exists f, radius_sq r = Some f /\ (1 - half_ulp) * (1 - half_ulp) * (r * r) <= f <= (1 + half_ulp) * (1 + half_ulp) * (r * r).
Proof. exact radius_bounds. Qed.
Print Assumptions C75_radius.

(** C75: ... it is exact for radii of few digits, ... *)
Theorem C75_radius_exact : forall m k, (0 < m < 2 ^ 12)%Z -> (-74 <= k <= 51)%Z -> let r := IZR m * pow2 k in radius_sq r = Some (r * r).
Proof. intros m k M [K1 K2]. exact (radius_exact m k M K1 K2). Qed.
Print Assumptions C75_radius_exact.

(** C75: ... zero for tiny ones, infinite for large ones, and kMinDistance is the least distance at which this cannot go wrong. *)
Theorem C75_radius_ends : (forall r, 0 <= r <= pow2 (-76) -> radius_sq r = Some 0) /\ (forall r, pow2 64 <= r -> radius_sq r = None) /\ min_distance = pow2 (-63).
Proof. exact (conj radius_tiny (conj radius_large min_distance_is)). Qed.
Print Assumptions C75_radius_ends.

(** C75: radius_search refuses negative radii and NaN, leaves the vectors of the caller alone when the tree has no points ... *)
Theorem C75_search_refuses : forall flann pts x before,
  radius_search flann pts x None before = Throw ExInvalidArgument /\ (forall r, r < 0 -> radius_search flann pts x (Some r) before = Throw ExInvalidArgument) /\
  (forall r, 0 <= r -> radius_search flann [] x (Some r) before = Ok before).
Proof.
  intros flann pts x before. split; [reflexivity|]. split; intros r R0; unfold radius_search; destruct (Rle_dec 0 r); auto; exfalso; lra.
Qed.
Print Assumptions C75_search_refuses.

(** C75: ... and otherwise returns each point within the rounded radius once, with its distance, whatever the vectors held before: ... *)
Theorem C75_search : forall d flann, right_radius d flann -> forall pts x r before, pts <> [] -> 0 <= r ->
  exists is ds, radius_search flann pts x (Some r) before = Ok (is, ds) /\ NoDup is /\ length ds = length is /\
  (forall j, In j is <-> exists y, nth_error pts j = Some y /\ less (squared_distance d x y) (radius_sq r)) /\
  forall k j, nth_error is k = Some j -> exists y, nth_error pts j = Some y /\ nth_error ds k = Some (distance d x y).
Proof. exact search_found. Qed.
Print Assumptions C75_search.

(** C75: ... every point nearer than [(1 - 2^-24) r] is found and nothing as far as [(1 + 2^-24) r]. *)
Theorem C75_shell : forall d r, normal_radius r -> forall x y,
  (distance d x y < (1 - half_ulp) * r -> less (squared_distance d x y) (radius_sq r)) /\ (less (squared_distance d x y) (radius_sq r) -> distance d x y < (1 + half_ulp) * r).
Proof. exact radius_shell. Qed.
Print Assumptions C75_shell.

(** C75: knn_search refuses [k <= 0] and returns the nearest points, all of them when there are no more than [k]. *)
Theorem C75_knn : forall d flann, right_knn d flann -> forall pts x k before,
  ((k <= 0)%Z -> knn_search flann pts x k before = Throw ExInvalidArgument) /\ ((0 < k)%Z -> knn_search flann [] x k before = Ok before) /\
  (pts <> [] -> (0 < k)%Z -> exists is ds, knn_search flann pts x k before = Ok (is, ds) /\
     NoDup is /\ length is = Nat.min (Z.to_nat k) (length pts) /\ length ds = length is /\
     (forall q j, nth_error is q = Some j -> exists y, nth_error pts j = Some y /\ nth_error ds q = Some (distance d x y)) /\
     forall i j y z, In j is -> ~ In i is -> nth_error pts j = Some y -> nth_error pts i = Some z -> distance d x y <= distance d x z).
Proof.
  intros d flann RIGHT pts x k before. split; [|split].
  - intros K. unfold knn_search. destruct (Z.leb_spec k 0); [reflexivity|lia].
  - intros K. unfold knn_search. destruct (Z.leb_spec k 0); [lia|reflexivity].
  - intros NE K. exact (knn_found d flann pts x k before RIGHT NE K).
Qed.
Print Assumptions C75_knn.

(** C75: what filter(distance) keeps is at least [(1 - 2^-24) distance] apart and what it drops is nearer than [(1 + 2^-24) distance] to an
    earlier point that is kept. *)
Theorem C75_filter : forall d flann, right_radius d flann -> forall pts dist s, filter_all distance_allowed (filter_search flann) (init pts) dist = Ok (Ok tt, s) -> dist <= pow2 63 ->
  let kept := filtered_indices_ s in
  (forall i j x y, In i kept -> In j kept -> i <> j -> nth_error pts i = Some x -> nth_error pts j = Some y -> (1 - half_ulp) * dist <= distance d x y) /\
  (forall j y, nth_error pts j = Some y -> ~ In j kept -> exists i x, In i kept /\ (i < j)%nat /\ nth_error pts i = Some x /\ distance d x y < (1 + half_ulp) * dist).
Proof. exact filter_distances. Qed.
Print Assumptions C75_filter.

(** C75: the distance itself is not what separates: with the double 0.1 two points nearer than that are both kept, ... *)
Theorem C75_filter_apart_refuted : forall flann, right_radius 1 flann -> exists t s, filter_all distance_allowed (filter_search flann) (init (two_points t)) tenth = Ok (Ok tt, s) /\
  In 0%nat (filtered_indices_ s) /\ In 1%nat (filtered_indices_ s) /\ distance 1 (fun _ => 0) (fun _ => t) < tenth.
Proof. exact filter_tenth. Qed.
Print Assumptions C75_filter_apart_refuted.

(** C75: ... and with the double 0.3 a point farther than that from all others is dropped. *)
Theorem C75_filter_near_refuted : forall flann, right_radius 1 flann -> exists t s, filter_all distance_allowed (filter_search flann) (init (two_points t)) three_tenths = Ok (Ok tt, s) /\
  ~ In 1%nat (filtered_indices_ s) /\ three_tenths < distance 1 (fun _ => 0) (fun _ => t).
Proof. exact filter_three_tenths. Qed.
Print Assumptions C75_filter_near_refuted.

(** C75: the direct evaluators of the spherical and the cubic covariance function miss at most [3/2 2^-48] and [35/4 2^-96] of the sill times
    the absolute weights because of that rounding. *)
Theorem C75_direct : forall d flann, right_radius d flann -> forall k psill range a pts w x before is ds, (k = Sph \/ k = Cub) -> normal_radius range ->
  let points := fun j => nth j pts (fun _ => 0) in
  pts <> [] -> radius_search flann pts x (support_radius k range) before = Ok (is, ds) ->
  exists v, direct_target d k psill range a KValue points w x 0 is = Num v /\
  Rabs (v - rsum (length pts) (fun j => w j * value_at d k psill range (fun e => x e - points j e))) <= edge k * Rabs psill * rsum (length pts) (fun j => Rabs (w j)).
Proof. exact direct_edge. Qed.
Print Assumptions C75_direct.

(** Searches that are right exist, a radius of 1 is searched exactly, and of the points 0 and 1 the filter keeps both at distance 1. *)
Example C75_right : forall d, right_radius d (plain_radius d) /\ right_knn d (plain_knn d).
Proof. intros d. exact (conj (plain_radius_right d) (plain_knn_right d)). Qed.
Example C75_one : radius_sq 1 = Some (1 * 1) /\ exists s, filter_all distance_allowed (filter_search (plain_radius 1)) (init (two_points 1)) 1 = Ok (Ok tt, s) /\
  In 0%nat (filtered_indices_ s) /\ In 1%nat (filtered_indices_ s).
Proof.
  assert (E : radius_sq 1 = Some (1 * 1)). { pose proof (radius_exact 1 0 ltac:(lia) ltac:(lia) ltac:(lia)) as H. replace (1 * pow2 0) with 1 in H by (unfold pow2; cbn; ring). exact H. }
  split; [exact E|]. destruct (filter_two (plain_radius 1) 1 1 _ (plain_radius_right 1) ltac:(lra) E ltac:(lra)) as (s & A & B & C). exists s. split; [exact A|]. split; [exact B|]. apply C. lra.
Qed.
