From Coq Require Import Reals List Arith.
From Verif Require Import Model.Outcome Model.LinAlg Model.NormalEstimator Model.SdfData.
Import ListNotations.
Local Open Scope R_scope.

Definition dist3 (v w : vec3) : R := norm3 (sub3 v w).
Definition distinct (n_points : nat) (points : nat -> vec3) : Prop :=
  forall i j, (i < n_points)%nat -> (j < n_points)%nat -> i <> j -> 0 < dist3 (points i) (points j).
(** Normals are unit vectors or taken for zero. *)
Definition unit_or_none (n_points : nat) (normals : nat -> vec3) : Prop :=
  forall i, (i < n_points)%nat -> is_zero (normals i) = true \/ norm3 (normals i) = 1.
(** The tree answers a nearest row. *)
Definition nearest_row (n_points : nat) (points : nat -> vec3) (nearest : vec3 -> nat) : Prop :=
  forall q, (nearest q < n_points)%nat /\ forall j, (j < n_points)%nat -> dist3 q (points (nearest q)) <= dist3 q (points j).
(** The distances are those to k different rows. *)
Definition knn_rows (n_points : nat) (points : nat -> vec3) (knn : nat -> nat -> list R) : Prop :=
  forall i k, (i < n_points)%nat -> (k <= n_points)%nat -> exists rows, NoDup rows /\ length rows = k /\ (forall j, In j rows -> (j < n_points)%nat) /\
  knn i k = map (fun j => dist3 (points j) (points i)) rows.

(** The rows with a normal. *)
Definition with_normal (n_points : nat) (normals : nat -> vec3) : list nat := filter (fun i => negb (is_zero (normals i))) (seq 0 n_points).
(** An offset point of row i: on its normal at the signed distance given, no farther than asked, nearest to its own row, and moved closer
    only as far as another row is close. *)
Definition offset_ok (n_points : nat) (points normals : nat -> vec3) (sign : R) (most : nat -> R) (i : nat) (x : vec3 * R) : Prop :=
  exists d, snd x = sign * d /\ 0 < d <= most i /\ dist3 (fst x) (points i) = d /\ (forall e, fst x e = points i e + sign * d * normals i e) /\
  (forall j, (j < n_points)%nat -> dist3 (fst x) (points i) <= dist3 (fst x) (points j)) /\
  (d = most i \/ exists j, (j < n_points)%nat /\ j <> i /\ 495 / 1000 * dist3 (points j) (points i) <= d).
Definition data_ok (n_points : nat) (points normals : nat -> vec3) (most : nat -> R) (data : list (vec3 * R)) : Prop :=
  exists inside outside, data = map (fun i => (points i, 0)) (seq 0 n_points) ++ inside ++ outside /\
  Forall2 (offset_ok n_points points normals (-1) most) (with_normal n_points normals) inside /\
  Forall2 (offset_ok n_points points normals 1 most) (with_normal n_points normals) outside.
Definition inverse_of (inverse a : nat -> nat -> R) : Prop :=
  forall i j, (i < 3)%nat -> (j < 3)%nat -> rsum 3 (fun k => inverse i k * a k j) = if Nat.eqb i j then 1 else 0.
(** The distances the offset points begin with: the offset, or the distance of the farthest of the (up to six) nearest rows. *)
Definition first_distance (n_points : nat) (knn : nat -> nat -> list R) (offset : R) (most : nat -> R) : Prop :=
  forall i, (i < n_points)%nat -> (0 < offset -> most i = offset) /\
  (offset <= 0 -> In (most i) (knn i (min 6 n_points)) /\ forall y, In y (knn i (min 6 n_points)) -> y <= most i).
