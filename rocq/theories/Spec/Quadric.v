From Coq Require Import Reals List.
From Verif Require Import Model.Clip Model.PointTriangle Model.Predicates Model.PrimitiveLattice Model.Quadric.
Import ListNotations.
Local Open Scope R_scope.

(** The squared distances of a point to the planes of the triangles, each weighted with twice the area; a triangle without area counts
    nothing. *)
Definition facing (t : triangle) : pt := let '(p0, p1, p2) := t in cross (sub3 p1 p0) (sub3 p2 p0).
Definition first (t : triangle) : pt := let '(p0, _, _) := t in p0.
Definition energy (ts : list triangle) (x : pt) : R :=
  fold_right (fun t e => norm (facing t) * (dot3 (facing t) (sub3 x (first t)) / norm (facing t)) ^ 2 + e) 0 ts.

(** An eigendecomposition of the matrix [a], eigenvalues ascending. *)
Definition decomposes (a : triangle) (es : eigen) : Prop :=
  (forall i j, (i < 3)%nat -> (j < 3)%nat -> dot3 (snd (pair_at es i)) (snd (pair_at es j)) = if Nat.eqb i j then 1 else 0) /\
  (forall k, (k < 3)%nat -> apply a (snd (pair_at es k)) = scale3 (fst (pair_at es k)) (snd (pair_at es k))) /\
  fst (pair_at es 0) <= fst (pair_at es 1) <= fst (pair_at es 2).
(** The moves the eigenvalues allow: none for a flat patch, else along the eigenvectors with a large eigenvalue. *)
Definition reach (es : eigen) (d : pt) : Prop :=
  if Rlt_dec (floor_of es) (fst (pair_at es 1)) then forall k, (k < 3)%nat -> fst (pair_at es k) <= floor_of es -> dot3 d (snd (pair_at es k)) = 0
  else d = zero.
Definition distance (x y : pt) : R := norm (sub3 x y).
(** The point is in the plane of the triangle. *)
Definition on_plane (q : pt) (t : triangle) : Prop := dot3 (facing t) (sub3 q (first t)) = 0.
