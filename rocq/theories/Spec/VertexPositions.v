From Coq Require Import Reals ZArith List.
From Verif Require Import Model.Outcome Model.Solver Model.Clip Model.PointTriangle Model.Predicates Model.Lattice Model.PrimitiveLattice Model.VertexPositions.
Import ListNotations.
Local Open Scope R_scope.

(** Four times tiny changes no lattice coordinate by the offset that keeps vertices off the nodes. *)
Definition fine_frame (basis : triangle) (resolution : R) : Prop :=
  let '(r0, r1, r2) := inverse basis in
  forall i, (i < 3)%nat -> 4 * tiny resolution * (Rabs (coord r0 i) + Rabs (coord r1 i) + Rabs (coord r2 i)) < min_offset.

(** No coordinate differs by [d] or more. *)
Definition near (d : R) (p q : pt) : Prop := forall i, (i < 3)%nat -> Rabs (coord p i - coord q i) < d.

(** The rows of kLatticeBasis times the resolution, for the inverse of the identity; [a], [b] are the two constants. *)
Definition scaled_basis (a b resolution : R) : triangle :=
  ((resolution * a, resolution * b, 0), (resolution * - a, 0, resolution * b), (resolution * a, resolution * - b, 0)).
