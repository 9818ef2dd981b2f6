From Coq Require Import Reals ZArith List Arith.
From Verif Require Import Model.LinAlg Model.Rbfs Model.KdTree.
Import ListNotations.
Local Open Scope R_scope.

Definition distance (d : nat) (x y : nat -> R) : R := sqrt (squared_distance d x y).
(** Less than a number that may be infinite. *)
Definition less (x : R) (y : option R) : Prop := match y with Some y => x < y | None => True end.
(** FLANN finds exactly the points whose squared distance is less than what it is given, each once, with their squared distances... *)
Definition right_radius (d : nat) (flann : list (nat -> R) -> (nat -> R) -> option R -> list (nat * R)) : Prop :=
  forall pts x rho, NoDup (map fst (flann pts x rho)) /\
  forall j s, In (j, s) (flann pts x rho) <-> exists y, nth_error pts j = Some y /\ s = squared_distance d x y /\ less s rho.
(** ... or the [k] nearest points, all if there are no more. *)
Definition right_knn (d : nat) (flann : list (nat -> R) -> (nat -> R) -> nat -> list (nat * R)) : Prop :=
  forall pts x k, NoDup (map fst (flann pts x k)) /\ length (flann pts x k) = Nat.min k (length pts) /\
  (forall j s, In (j, s) (flann pts x k) -> exists y, nth_error pts j = Some y /\ s = squared_distance d x y) /\
  forall i j s y, In (j, s) (flann pts x k) -> nth_error pts i = Some y -> ~ In i (map fst (flann pts x k)) -> s <= squared_distance d x y.
(** The unit of the error: half a unit in the last place of a float. *)
Definition half_ulp : R := pow2 (-24).
(** Radii whose squares are normal floats. *)
Definition normal_radius (r : R) : Prop := pow2 (-63) <= r <= pow2 63.
(** What a source at the edge of the support can contribute, per unit of its weight and of the sill. *)
Definition edge (k : kind) : R := match k with Sph => 3 / 2 * half_ulp ^ 2 | Cub => 35 / 4 * half_ulp ^ 4 | _ => 0 end.
(** The doubles 0.1 and 0.3, and two points on a line. *)
Definition tenth : R := 3602879701896397 / IZR (2 ^ 55).
Definition three_tenths : R := 5404319552844595 / IZR (2 ^ 54).
Definition two_points (t : R) : list (nat -> R) := [fun _ => 0; fun _ => t].
