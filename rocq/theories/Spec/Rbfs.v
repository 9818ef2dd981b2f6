From Coq Require Import Reals List Arith.
From Verif Require Import Model.LinAlg Model.Rbfs.
Import ListNotations.
Local Open Scope R_scope.

(** The parameters under which a function is meant to be used: covariance functions need a positive range. *)
Definition range_ok (k : kind) (p1 : R) : Prop :=
  match k with Bh2 | Th2 | Bh3 | Th3 => True | _ => 0 < p1 end.
(** Constants of a spheroidal function for which its derivative is exactly what the code says; the ones in the code are
    rounded. *)
Definition exact_constants (sp : spheroid) : Prop :=
  0 < kRho0 sp /\ 0 < kC sp /\ kD sp = (2 * INR (sm sp) + 1) * kB sp * kC sp /\ kE sp = / kC sp.
Definition exact_kind (k : kind) : Prop := match k with Sp sp _ => exact_constants sp | _ => True end.
Definition exact_version (sp : spheroid) : spheroid :=
  Spheroid (sm sp) (kRho0 sp) (kA sp) (kB sp) (kC sp) ((2 * INR (sm sp) + 1) * kB sp * kC sp) (/ kC sp).
Definition close (x y : R) : Prop := Rabs (x - y) <= 0.0000000000000002 * Rabs y.
Definition spheroids : list spheroid := [sp3; sp5; sp7; sp9].

(** Squared distances at which the gradient and the Hessian are in question: the polyharmonic functions at the origin without
    a smoothing constant, and the radius where the two branches of a spheroidal function meet. *)
Definition grad_regular (k : kind) (p1 s : R) : Prop :=
  match k with
  | Bh3 => 0 < s + p1 * p1
  | Sp sp Full | Sp sp DirectPart => sqrt s / p1 <> kRho0 sp
  | _ => True
  end.
Definition hess_regular (k : kind) (p1 s : R) : Prop :=
  match k with Bh2 => 0 < s + p1 * p1 | _ => grad_regular k p1 s end.

(** A component of the gradient as a function, 0 where it is not a number. *)
Definition component (g : res (nat -> R)) (c : nat) : R := match g with Num g => g c | _ => 0 end.
Definition entry (h : res (nat -> nat -> R)) (c e : nat) : R := match h with Num h => h c e | _ => 0 end.

(** The functions whose gradient is not a number at the origin, and those without a Hessian. *)
Definition cusp (k : kind) : Prop := match k with Exp | Sph | Sp _ Full | Sp _ DirectPart => True | _ => False end.
Definition no_hessian (k : kind) : Prop := match k with Cub | Sph => True | _ => False end.

(** Covariance functions. *)
Definition covariance (k : kind) : Prop :=
  match k with Bh2 | Th2 | Bh3 | Th3 => False | Sp sp p => In sp spheroids /\ p = Full | _ => True end.
Definition spheroidal (k : kind) : Prop := match k with Sp _ _ => True | _ => False end.
Definition at_distance (k : kind) (p0 p1 r : R) : R := value k p0 p1 (r * r).

(** Degree of the polyharmonic functions with a logarithm. *)
Definition log_degree (k : kind) : option nat := match k with Bh2 => Some 2%nat | Th2 => Some 4%nat | _ => None end.
Definition junction_ok (k : kind) : Prop := match k with Sp sp _ => 0 < kRho0 sp | _ => True end.
Definition junction : R := 0.0000000000000001.
Definition identity_matrix (i j : nat) : R := if Nat.eqb i j then 1 else 0.
Definition difference (x y : nat -> R) (i : nat) : R := x i - y i.

(** What the parts of a spheroidal function, or of a sum, come to: one that is not a number spoils the sum, and an exception
    goes before everything. *)
Definition plus (x y : res R) : res R := res_map2 Rplus x y.
Definition plus_vector (x y : res (nat -> R)) : res (nat -> R) := res_map2 (fun g h e => g e + h e) x y.
Definition plus_matrix (x y : res (nat -> nat -> R)) : res (nat -> nat -> R) := res_map2 (fun g h c e => g c e + h c e) x y.
(** The radius search returns every source nearer than [radius] at most once; it may return farther ones. *)
Definition found_near (n n_points : nat) (points : nat -> nat -> R) (x : nat -> R) (radius : R) (indices : list nat) : Prop :=
  NoDup indices /\ (forall j, In j indices -> (j < n_points)%nat) /\
  forall j, (j < n_points)%nat -> sqrt (dot n (difference x (points j)) (difference x (points j))) < radius -> In j indices.
