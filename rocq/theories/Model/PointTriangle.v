From Coq Require Import Reals Bool.
From Verif Require Import Model.Clip.
Local Open Scope R_scope.

(** Small geometry of the surface code (src/isosurface/utility.hpp:16-85, 100-104), with real numbers; [leb], [ltb] are the
    comparisons of doubles without NaN. *)

Definition leb (a b : R) : bool := if Rle_dec a b then true else false.
(** Helper without code of its own. *)
Definition add3 (p q : pt) : pt := (px p + px q, py p + py q, pz p + pz q).
(** Helper without code of its own. *)
Definition sub3 (p q : pt) : pt := (px p - px q, py p - py q, pz p - pz q).
(** Helper without code of its own. *)
Definition scale3 (k : R) (p : pt) : pt := (k * px p, k * py p, k * pz p).
(** Helper without code of its own. *)
Definition norm2 (p : pt) : R := dot3 p p.

(** snap_to_bbox (utility.hpp:17-27), one coordinate: the two selects run one after the other. *)
Definition snap1 (tiny lo hi x : R) : R :=
  let x := if ltb (Rabs (x - lo)) tiny then lo else x in
  if ltb (Rabs (x - hi)) tiny then hi else x.
(** snap_to_bbox (utility.hpp:17-27). *)
Definition snap_to_bbox (p lo hi : pt) (resolution : R) : pt :=
  let tiny := / 10 ^ 10 * resolution in
  (snap1 tiny (px lo) (px hi) (px p), snap1 tiny (py lo) (py hi) (py p), snap1 tiny (pz lo) (pz hi) (pz p)).

(** A division; None stands for the infinity or NaN a division by zero gives. *)
Definition quot (x y : R) : option R := if eqb y 0 then None else Some (x / y).
(** point_triangle_closest (utility.hpp:30-79): the closest point, left in the out parameter, and the returned number. None
    if they are not numbers. *)
Definition point_triangle_closest (p a b c : pt) : option (pt * R) :=
  let ab := sub3 b a in
  let ac := sub3 c a in
  let ap := sub3 p a in
  let d1 := dot3 ab ap in
  let d2 := dot3 ac ap in
  if leb d1 0 && leb d2 0 then Some (a, norm2 ap) else
  let bp := sub3 p b in
  let d3 := dot3 ab bp in
  let d4 := dot3 ac bp in
  if leb 0 d3 && leb d4 d3 then Some (b, norm2 bp) else
  let cp := sub3 p c in
  let d5 := dot3 ab cp in
  let d6 := dot3 ac cp in
  if leb 0 d6 && leb d5 d6 then Some (c, norm2 cp) else
  let vc := d1 * d4 - d3 * d2 in
  if leb vc 0 && leb 0 d1 && leb d3 0 then
    match quot d1 (d1 - d3) with
    | None => None
    | Some v => Some (add3 a (scale3 v ab), norm2 (sub3 ap (scale3 v ab)))
    end else
  let vb := d5 * d2 - d1 * d6 in
  if leb vb 0 && leb 0 d2 && leb d6 0 then
    match quot d2 (d2 - d6) with
    | None => None
    | Some w => Some (add3 a (scale3 w ac), norm2 (sub3 ap (scale3 w ac)))
    end else
  let va := d3 * d6 - d5 * d4 in
  if leb va 0 && leb 0 (d4 - d3) && leb 0 (d5 - d6) then
    match quot (d4 - d3) ((d4 - d3) + (d5 - d6)) with
    | None => None
    | Some w => let closest := add3 b (scale3 w (sub3 c b)) in Some (closest, norm2 (sub3 p closest))
    end else
  match quot 1 (va + vb + vc) with
  | None => None
  | Some denom =>
      let v := vb * denom in
      let w := vc * denom in
      let closest := add3 (add3 a (scale3 v ab)) (scale3 w ac) in Some (closest, norm2 (sub3 p closest))
  end.

(** triangle_normal (utility.hpp:101-104). *)
Definition cross (u v : pt) : pt :=
  (py u * pz v - pz u * py v, pz u * px v - px u * pz v, px u * py v - py u * px v).
(** triangle_normal (utility.hpp:101-104). *)
Definition triangle_normal (a b c : pt) : pt := cross (sub3 b a) (sub3 c a).
