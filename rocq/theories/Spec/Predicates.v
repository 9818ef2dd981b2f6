From Coq Require Import Reals List Arith.
From Verif Require Import Model.Clip Model.PointTriangle Model.Predicates Spec.PointTriangle.
Import ListNotations.
Local Open Scope R_scope.

(** The points of the segment a-b, in terms of triangles (Spec.PointTriangle). *)
Definition in_segment (a b x : pt) : Prop := in_triangle a b b x.
Definition distinct_corners (t : triangle) : Prop := let '(a, b, c) := t in a <> b /\ b <> c /\ c <> a.
Definition corners (t : triangle) : list pt := let '(a, b, c) := t in [a; b; c].
Definition inside (t : triangle) (x : pt) : Prop := let '(a, b, c) := t in in_triangle a b c x.
(** x is in the simplex spanned by the corners the triangles have in common. *)
Definition in_shared (s t : triangle) (x : pt) : Prop :=
  exists a b c, (forall y, In y [a; b; c] -> In y (corners s) /\ In y (corners t)) /\ in_triangle a b c x.
(** No determinant of the segment a-b and the triangle p, q, r is within the tolerance the code allows for. *)
Definition decisive (a b p q r : pt) : Prop :=
  let scale := norm (extent a [b; p; q; r]) in
  Forall (fun d => kTinyFactor * scale * scale * scale < Rabs d)
    [orient3d a p q r; orient3d b p q r; orient3d a b p q; orient3d a b q r; orient3d a b r p].
