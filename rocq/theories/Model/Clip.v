From Coq Require Import Reals List Arith Bool.
Import ListNotations.
Local Open Scope R_scope.

(** MeshClipper (include/polatory/isosurface/clip.hpp:21-240). Numbers are real, except that [intersect] is written over an
    arbitrary arithmetic so that it can also be read with doubles. A triangle is a 3 x 3 matrix, one corner per row. *)

(** intersect (clip.hpp:199-207): where the edge a-b crosses the plane x = threshold. std::lexicographical_compare goes on
    to the next coordinate only if neither is less. *)
Section Arithmetic.
Variable F : Type.
Variable lt : F -> F -> bool.
Variables add sub mul div : F -> F -> F.
(** Within clip.hpp:199-207. *)
Definition lex_less (b a : F * F * F) : bool :=
  let '(b0, b1, b2) := b in let '(a0, a1, a2) := a in
  if lt b0 a0 then true else if lt a0 b0 then false else
  if lt b1 a1 then true else if lt a1 b1 then false else lt b2 a2.
(** Within clip.hpp:199-207. *)
Definition intersect_with (a b : F * F * F) (threshold : F) : F * F * F :=
  let '(a, b) := if lex_less b a then (b, a) else (a, b) in
  let '(a0, a1, a2) := a in let '(b0, b1, b2) := b in
  let t := div (sub threshold a0) (sub b0 a0) in
  (threshold, add a1 (mul t (sub b1 a1)), add a2 (mul t (sub b2 a2))).
End Arithmetic.

(** Helper without code of its own. *)
Definition pt := (R * R * R)%type.
(** Helper without code of its own. *)
Definition triangle := (pt * pt * pt)%type.
(** Helper without code of its own. *)
Definition px (p : pt) : R := fst (fst p).
(** Helper without code of its own. *)
Definition py (p : pt) : R := snd (fst p).
(** Helper without code of its own. *)
Definition pz (p : pt) : R := snd p.
(** Helper without code of its own. *)
Definition ltb (a b : R) : bool := if Rlt_dec a b then true else false.
(** Helper without code of its own. *)
Definition eqb (a b : R) : bool := if Req_EM_T a b then true else false.
(** Helper without code of its own. *)
Definition pt_eqb (p q : pt) : bool := eqb (px p) (px q) && eqb (py p) (py q) && eqb (pz p) (pz q).
(** intersect (clip.hpp:199-207). *)
Definition intersect : pt -> pt -> R -> pt := intersect_with R ltb Rplus Rminus Rmult Rdiv.

(** transform_points<3> (geometry/point3d.hpp:43-46): every row times the transposed matrix. *)
Definition dot3 (p q : pt) : R := px p * px q + py p * py q + pz p * pz q.
(** Within geometry/point3d.hpp:43-46. *)
Definition apply (m : triangle) (p : pt) : pt := let '(r0, r1, r2) := m in (dot3 r0 p, dot3 r1 p, dot3 r2 p).
(** Helper without code of its own. *)
Definition transpose (m : triangle) : triangle :=
  let '(r0, r1, r2) := m in ((px r0, px r1, px r2), (py r0, py r1, py r2), (pz r0, pz r1, pz r2)).
(** Helper without code of its own. *)
Definition transform (m tri : triangle) : triangle := let '(a, b, c) := tri in (apply m a, apply m b, apply m c).

(** clip (clip.hpp:104-190). *)
Definition interior (threshold : R) (v : pt) : bool := ltb (px v) threshold.
(** Within clip.hpp:104-190. *)
Definition boundary (threshold : R) (v : pt) : bool := eqb (px v) threshold.
(** Within clip.hpp:104-190. *)
Definition exterior (threshold : R) (v : pt) : bool := negb (interior threshold v) && negb (boundary threshold v).
(** Within clip.hpp:104-190. *)
Definition count (f : pt -> bool) (tri : triangle) : nat :=
  let '(a, b, c) := tri in ((if f a then 1 else 0) + (if f b then 1 else 0) + (if f c then 1 else 0))%nat.
(** Rows i, i + 1, i + 2 from the first row with [f] (clip.hpp:127-130, 139-142, 157-160). *)
Definition rotate_to (f : pt -> bool) (tri : triangle) : triangle :=
  let '(a, b, c) := tri in if f a then (a, b, c) else if f b then (b, c, a) else (c, a, b).
(** degenerate (clip.hpp:192-194) and append (clip.hpp:120-124). *)
Definition degenerate (tri : triangle) : bool := let '(a, b, c) := tri in pt_eqb a b || pt_eqb b c || pt_eqb c a.
(** Within clip.hpp:192-194, clip.hpp:120-124. *)
Definition append (l : list triangle) : list triangle := filter (fun t => negb (degenerate t)) l.
Section Clip.
(** [incircle(a, b, c, d) < 0.0] for the quadrilateral left of a triangle with one corner cut off (clip.hpp:164-171 with
    plane_basis :209-233): any function of the triangle and the two new points. *)
Variable flip : triangle -> pt -> pt -> bool.
(** The triangles handed to append. *)
Definition pieces (tri : triangle) (threshold : R) : list triangle :=
  match count (interior threshold) tri, count (boundary threshold) tri, count (exterior threshold) tri with
  | 1%nat, 0%nat, 2%nat =>
      let '(v0, v1, v2) := rotate_to (interior threshold) tri in
      [(v0, intersect v0 v1 threshold, intersect v0 v2 threshold)]
  | 1%nat, 1%nat, 1%nat =>
      let '(v0, v1, v2) := rotate_to (boundary threshold) tri in
      let p12 := intersect v1 v2 threshold in
      if ltb (px v1) (px v2) then [(v0, v1, p12)] else [(v0, p12, v2)]
  | 2%nat, 0%nat, 1%nat =>
      let '(v0, v1, v2) := rotate_to (exterior threshold) tri in
      let p10 := intersect v1 v0 threshold in
      let p20 := intersect v2 v0 threshold in
      if flip (v0, v1, v2) p10 p20 then [(v1, v2, p20); (v1, p20, p10)] else [(v1, v2, p10); (v2, p20, p10)]
  | 1%nat, 2%nat, 0%nat | 2%nat, 1%nat, 0%nat | 3%nat, 0%nat, 0%nat => [tri]
  | _, _, _ => []
  end.
(** clip (clip.hpp:104-190). *)
Definition clip (tri : triangle) (threshold : R) : list triangle := append (pieces tri threshold).

(** The permutations and thresholds (clip.hpp:42-51). *)
Definition permutations : list triangle :=
  [((1, 0, 0), (0, 1, 0), (0, 0, 1)); ((-1, 0, 0), (0, 0, 1), (0, 1, 0)); ((0, 1, 0), (0, 0, 1), (1, 0, 0));
   ((0, -1, 0), (1, 0, 0), (0, 0, 1)); ((0, 0, 1), (1, 0, 0), (0, 1, 0)); ((0, 0, -1), (0, 1, 0), (1, 0, 0))].
(** Within clip.hpp:42-51. *)
Definition thresholds (lo hi : pt) : list R := [px hi; - px lo; py hi; - py lo; pz hi; - pz lo].
(** One turn of the loop (clip.hpp:54-66). *)
Definition clip_face (perm : triangle) (threshold : R) (triangles : list triangle) : list triangle :=
  map (transform (transpose perm)) (flat_map (fun tri => clip (transform perm tri) threshold) triangles).
(** Within clip.hpp:54-66. *)
Definition clip_box (lo hi : pt) (triangles : list triangle) : list triangle :=
  fold_left (fun l face => clip_face (fst face) (snd face) l) (combine permutations (thresholds lo hi)) triangles.
End Clip.

(** The vertex map (clip.hpp:68-82) as the list of its keys in the order of their numbers. *)
Definition add_vertex (keys : list pt) (v : pt) : list pt := if existsb (pt_eqb v) keys then keys else keys ++ [v].
(** Within clip.hpp:68-82. *)
Definition corners (tri : triangle) : list pt := let '(a, b, c) := tri in [a; b; c].
(** Within clip.hpp:68-82. *)
Definition vertex_keys (triangles : list triangle) : list pt := fold_left add_vertex (flat_map corners triangles) [].
(** Within clip.hpp:68-82. *)
Fixpoint number (keys : list pt) (v : pt) : option nat :=
  match keys with
  | [] => None
  | k :: keys => if pt_eqb v k then Some 0%nat else option_map S (number keys v)
  end.
(** A mesh (mesh.hpp:18-64) and the whole of the constructor (clip.hpp:30-93); vertex numbers of the faces exist. *)
Record mesh := Mesh { vertices : list pt; faces : list (option nat * option nat * option nat); entire : bool }.
(** Within mesh.hpp:18-64, clip.hpp:30-93. *)
Definition triangles_of (vs : nat -> pt) (fs : list (nat * nat * nat)) : list triangle :=
  map (fun f => let '(i, j, k) := f in (vs i, vs j, vs k)) fs.
(** Within mesh.hpp:18-64, clip.hpp:30-93. *)
Definition index_mesh (triangles : list triangle) : mesh :=
  let keys := vertex_keys triangles in
  Mesh keys (map (fun tri => let '(a, b, c) := tri in (number keys a, number keys b, number keys c)) triangles) false.
(** Within mesh.hpp:18-64, clip.hpp:30-93. *)
Definition clip_mesh (flip : triangle -> pt -> pt -> bool) (vs : nat -> pt) (fs : list (nat * nat * nat)) (input_entire : bool) (lo hi : pt) : mesh :=
  index_mesh (clip_box flip lo hi (triangles_of vs fs)).
(** is_empty (mesh.hpp:54). *)
Definition is_empty (m : mesh) : bool := match faces m with [] => negb (entire m) | _ => false end.
