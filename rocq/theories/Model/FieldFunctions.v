From Coq Require Import Reals List Arith Bool.
From Verif Require Import Model.Outcome Model.Clip Model.PointTriangle Model.Predicates.
Import ListNotations.
Local Open Scope R_scope.

(** The functions whose isosurfaces are drawn: RbfFieldFunction (include/polatory/isosurface/rbf_field_function.hpp), RbfFieldFunction25D
    (include/polatory/isosurface/rbf_field_function_25d.hpp) and that of the example of an offset surface
    (examples/offset_surface/main.cpp), with real numbers. An interpolant is the function it evaluates at each row. *)

(** RbfFieldFunction::operator() (rbf_field_function.hpp:21-23). *)
Definition rbf_field (f : pt -> R) (points : list pt) : list R := map f points.
(** leftCols(2) (rbf_field_function_25d.hpp:22), head<2>() (rbf_field_function_25d.hpp:28). *)
Definition flat (p : pt) : R * R := (px p, py p).
(** Helper without code of its own. *)
Fixpoint minus_all (xs ys : list R) : list R :=
  match xs, ys with x :: xs', y :: ys' => x - y :: minus_all xs' ys' | _, _ => [] end.
(** RbfFieldFunction25D::operator() (rbf_field_function_25d.hpp:21-25). *)
Definition field_25d (f : R * R -> R) (points : list pt) : list R :=
  let points_2d := map flat points in minus_all (map pz points) (map f points_2d).
(** The box handed to the interpolant (rbf_field_function_25d.hpp:27-31). *)
Definition bbox_25d (lo hi : pt) : (R * R) * (R * R) := (flat lo, flat hi).

(** SignedDistanceField (main.cpp:34-122). *)
Definition face := (nat * nat * nat)%type.
(** A directed edge (main.cpp:35). *)
Definition halfedge := (nat * nat)%type.
(** Helper without code of its own. *)
Definition opposite (h : halfedge) : halfedge := (snd h, fst h).
(** Helper without code of its own. *)
Definition same (g h : halfedge) : bool := Nat.eqb (fst g) (fst h) && Nat.eqb (snd g) (snd h).
(** The inner loop of main.cpp:51-63 runs over these. *)
Definition halfedges (f : face) : list halfedge := let '(a, b, c) := f in [(a, b); (b, c); (c, a)].
(** One step (main.cpp:53-61) on the set boundary_, kept as a list without repetition. *)
Definition toggle (s : list halfedge) (h : halfedge) : list halfedge :=
  if existsb (same (opposite h)) s then filter (fun g => negb (same (opposite h) g)) s
  else if existsb (same h) s then s else h :: s.
(** boundary_ after the constructor (main.cpp:51-63). *)
Definition boundary (faces : list face) : list halfedge := fold_left toggle (flat_map halfedges faces) [].
(** boundary_vertices_ (main.cpp:65-68). *)
Definition boundary_vertices (s : list halfedge) : list nat := flat_map (fun h => [fst h; snd h]) s.

(** Helper without code of its own. *)
Definition at3 {A : Type} (x : A * A * A) (i : nat) : A := let '(a, b, c) := x in match i with 0%nat => a | 1%nat => b | _ => c end.
(** The test of main.cpp:90-104 for the barycentric coordinates [l] of the closest point. *)
Definition at_boundary (s : list halfedge) (f : face) (l : R * R * R) : bool :=
  existsb (fun i =>
    let j := ((i + 1) mod 3)%nat in
    let k := ((i + 2) mod 3)%nat in
    (ltb (Rabs (at3 l k)) (/ 10 ^ 10) && existsb (same (at3 f i, at3 f j)) s) ||
    (ltb (Rabs (1 - at3 l i)) (/ 10 ^ 10) && existsb (Nat.eqb (at3 f i)) (boundary_vertices s))) [0; 1; 2]%nat.
(** normalized() (main.cpp:106) leaves the zero vector alone. *)
Definition normalized (v : pt) : pt := if ltb 0 (norm2 v) then scale3 (/ norm v) v else v.
(** std::copysign (main.cpp:110) of a number that is not negative; the sign of a zero is an argument. *)
Definition copysign (minus_zero : bool) (x y : R) : R :=
  if ltb y 0 then - x else if eqb y 0 && minus_zero then - x else x.
(** One row of operator() (main.cpp:76-110): [closest] is what the tree found, the squared distance, the row of the face and the
    point, and [bary] its barycentric coordinates. *)
Definition signed_distance (minus_zero : bool) (vertices : list pt) (faces : list face) (bary : pt -> pt -> pt -> pt -> R * R * R)
    (closest : pt -> R * nat * pt) (p : pt) : outcome (pt * R) :=
  let '(d2, fi, q) := closest p in
  let* f := of_option (nth_error faces fi) in
  let* a := of_option (nth_error vertices (at3 f 0)) in
  let* b := of_option (nth_error vertices (at3 f 1)) in
  let* c := of_option (nth_error vertices (at3 f 2)) in
  let l := bary q a b c in
  let n := normalized (cross (sub3 b a) (sub3 c a)) in
  let d := dot3 n (sub3 p a) in
  Ok (q, if at_boundary (boundary faces) f l then d else copysign minus_zero (sqrt d2) d).
(** OffsetFieldFunction::operator() (main.cpp:132-136), one row. *)
Definition offset_field (sdf : pt -> outcome (pt * R)) (f : pt -> R) (p : pt) : outcome R :=
  let* r := sdf p in Ok (snd r - f (fst r)).
(** The box in which its interpolant is prepared (main.cpp:138-140, interpolant.hpp:205): the hull of the box of the surface and that of the
    centers. *)
Definition evaluation_box (box centers : pt * pt) : pt * pt :=
  let '(lo, hi) := box in let '(clo, chi) := centers in
  ((Rmin (px lo) (px clo), Rmin (py lo) (py clo), Rmin (pz lo) (pz clo)), (Rmax (px hi) (px chi), Rmax (py hi) (py chi), Rmax (pz hi) (pz chi))).
(** The value and the bounds given to fit_inequality for a point with signed distance [d] (main.cpp:168-179); None is NaN, and so may the side be. *)
Definition constraint (side : option R) (d : R) : option R * option R * option R :=
  match side with
  | None => (Some d, None, None)
  | Some s => if ltb s 0 then (None, Some d, None) else if ltb 0 s then (None, None, Some d) else (Some d, None, None)
  end.
