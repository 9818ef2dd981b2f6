From Coq Require Import Reals List Arith.
From Verif Require Import Model.Outcome Model.LinAlg.
Local Open Scope R_scope.

(** PlaneEstimator (src/point_cloud/plane_estimator.cpp) with real numbers: [p i k] is coordinate [k] of point [i] of [n] points, and the
    singular values [s] and right singular vectors [v] (columns) are what the decomposition of the centered points delivered (plane_estimator.cpp:41-44). *)
Definition barycenter (n : nat) (p : nat -> nat -> R) (k : nat) : R := rsum n (fun i => p i k) / INR n.
(** Within plane_estimator.cpp:41-44. *)
Definition centered (n : nat) (p : nat -> nat -> R) (i k : nat) : R := p i k - barycenter n p k.
(** Within plane_estimator.cpp:41-44. *)
Record estimate := Estimate { point_error : R; line_error : R; plane_error : R; plane_factor : R; plane_normal : nat -> R }.
(** The constructor (plane_estimator.cpp:8-31). With less than three points the third singular value does not exist (the assertion of plane_estimator.cpp:9 vanishes in a
    release build). *)
Definition hypot2 (x y : R) : R := sqrt (x * x + y * y).
(** Within plane_estimator.cpp:8-31, plane_estimator.cpp:9. *)
Definition hypot3 (x y z : R) : R := sqrt (x * x + y * y + z * z).
(** Within plane_estimator.cpp:8-31, plane_estimator.cpp:9. *)
Definition estimator (n : nat) (s : nat -> R) (v : nat -> nat -> R) : outcome estimate :=
  if (n <? 3)%nat then UB
  else
    let point_err := hypot3 (s 0%nat) (s 1%nat) (s 2%nat) / sqrt (INR n) in
    let line_err := hypot2 (s 1%nat) (s 2%nat) / sqrt (INR n) in
    let plane_err := Rabs (s 2%nat) / sqrt (INR n) in
    let point_err := Rmax point_err (/ 10 ^ 10) in
    let line_err := Rmax line_err (/ 10 ^ 10 * point_err) in
    let plane_err := Rmax plane_err (/ 10 ^ 10 * line_err) in
    Ok (Estimate point_err line_err plane_err (line_err * line_err / (plane_err * point_err)) (fun k => v k 2%nat)).
