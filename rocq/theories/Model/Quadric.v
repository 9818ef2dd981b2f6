From Coq Require Import Reals List Bool.
From Verif Require Import Model.Outcome Model.Clip Model.PointTriangle Model.Predicates Model.Lattice Model.PrimitiveLattice.
Import ListNotations.
Local Open Scope R_scope.

(** quadric_position (src/isosurface/quadric_position.hpp) with real numbers. Matrices are triples of rows. [anchor] is not empty; with no
    point the mean divides zero by zero. [es] is what SelfAdjointEigenSolver (quadric_position.hpp:51) found: eigenvalues in ascending order, each with its
    column of eigenvectors. *)

Definition eigen : Type := (R * pt) * (R * pt) * (R * pt).
(** Helper without code of its own. *)
Definition pair_at (es : eigen) (k : nat) : R * pt := let '(x, y, z) := es in match k with 0%nat => x | 1%nat => y | _ => z end.

(** quadric_position.hpp:28-29. *)
Definition mean (ps : list pt) : pt := scale3 (/ INR (length ps)) (fold_right add3 (0, 0, 0) ps).

(** The loop of quadric_position.hpp:34-46 over the transformed triangles. *)
Definition outer (w : R) (n : pt) : triangle := (scale3 (w * px n) n, scale3 (w * py n) n, scale3 (w * pz n) n).
(** Helper without code of its own. *)
Definition madd (a b : triangle) : triangle :=
  let '(a0, a1, a2) := a in let '(b0, b1, b2) := b in (add3 a0 b0, add3 a1 b1, add3 a2 b2).
(** Helper without code of its own. *)
Definition zero : pt := (0, 0, 0).
(** Within quadric_position.hpp:34-46. *)
Definition accumulate (ts : list triangle) : triangle * pt :=
  fold_left (fun (ab : triangle * pt) (t : triangle) =>
    let '(p0, p1, p2) := t in
    let n := cross (sub3 p1 p0) (sub3 p2 p0) in
    let w := norm n in
    if eqb w 0 then ab else
    let n := scale3 (/ w) n in
    (madd (fst ab) (outer w n), add3 (snd ab) (scale3 (w * dot3 n p0) n))) ts ((zero, zero, zero), zero).

(** quadric_position.hpp:51-64. *)
Definition floor_of (es : eigen) : R := / 1000 * fst (pair_at es 2).
(** Within quadric_position.hpp:51-64. *)
Definition along (floor : R) (r : pt) (y : pt) (le : R * pt) : pt :=
  if ltb floor (fst le) then add3 y (scale3 (dot3 r (snd le) / fst le) (snd le)) else y.
(** Within quadric_position.hpp:51-64. *)
Definition offset (c : pt) (a : triangle) (b : pt) (es : eigen) : pt :=
  let floor := floor_of es in
  if ltb floor (fst (pair_at es 1)) then
    let r := sub3 b (comb c a) in
    fold_left (along floor r) [pair_at es 0; pair_at es 1; pair_at es 2] zero
  else zero.
(** Within quadric_position.hpp:51-64. *)
Definition fitted (anchor : list pt) (ts : list triangle) (aniso : triangle) (es : eigen) : pt :=
  let c := mean (map (apply aniso) anchor) in
  let '(a, b) := accumulate (map (transform aniso) ts) in
  add3 c (offset c a b es).
(** quadric_position.hpp:65. [lo], [hi], [basis] make the lattice. *)
Definition quadric_position (lo hi : pt) (basis : triangle) (anchor : list pt) (ts : list triangle) (aniso aniso_inv : triangle) (es : eigen)
    (node : lc) : pt :=
  clamp_to_node lo hi basis (apply aniso_inv (fitted anchor ts aniso es)) node.
(** VertexClusterer::clustered_position (src/isosurface/vertex_clusterer.hpp:203-218); [ts] are the faces at the vertices of the cluster in
    some order. *)
Definition clustered_position (lo hi : pt) (basis : triangle) (res : R) (anchor : list pt) (ts : list triangle) (aniso aniso_inv : triangle)
    (es : eigen) (node : lc) : pt :=
  snap_to_bbox (quadric_position lo hi basis anchor ts aniso aniso_inv es node) lo hi res.
