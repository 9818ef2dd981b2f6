From Coq Require Import Reals List Arith.
From Verif Require Import Model.LinAlg Model.VariogramFitting Model.PlaneEstimator Spec.Description.
Local Open Scope R_scope.

(** The singular value decomposition of the rows [x]: the columns of [v] are orthonormal, their images under the rows are orthogonal with the
    singular values as lengths, and these are not negative and descending. *)
Definition svd (n : nat) (x : nat -> nat -> R) (s : nat -> R) (v : nat -> nat -> R) : Prop :=
  (forall j l, (j < 3)%nat -> (l < 3)%nat -> dot 3 (column v j) (column v l) = identity j l) /\
  (forall j l, (j < 3)%nat -> (l < 3)%nat ->
     rsum n (fun i => dot 3 (x i) (column v j) * dot 3 (x i) (column v l)) = s j * s j * identity j l) /\
  (forall j, (j < 3)%nat -> 0 <= s j) /\ s 2%nat <= s 1%nat <= s 0%nat.

(** Mean squared distances of the points from a point, from the line through [q] along the unit vector [u], and from the plane of the points
    [y] with [w . y = c], [w] a unit vector. *)
Definition minus (x y : nat -> R) (k : nat) : R := x k - y k.
Definition from_point (n : nat) (p : nat -> nat -> R) (q : nat -> R) : R := rsum n (fun i => dot 3 (minus (p i) q) (minus (p i) q)) / INR n.
Definition from_line (n : nat) (p : nat -> nat -> R) (q u : nat -> R) : R :=
  rsum n (fun i => dot 3 (minus (p i) q) (minus (p i) q) - dot 3 u (minus (p i) q) * dot 3 u (minus (p i) q)) / INR n.
Definition from_plane (n : nat) (p : nat -> nat -> R) (w : nat -> R) (c : R) : R :=
  rsum n (fun i => (dot 3 w (p i) - c) * (dot 3 w (p i) - c)) / INR n.
Definition unit3 (u : nat -> R) : Prop := dot 3 u u = 1.
(** [m] is the least value of [f] on the arguments allowed. *)
Definition least {A : Type} (allowed : A -> Prop) (f : A -> R) (m : R) : Prop :=
  (exists a, allowed a /\ f a = m) /\ forall a, allowed a -> m <= f a.
