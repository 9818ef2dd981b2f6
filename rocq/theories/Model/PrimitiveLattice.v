From Coq Require Import Reals ZArith List Arith Bool.
From Verif Require Import Model.Outcome Model.Clip Model.PointTriangle Model.Predicates Model.Variogram Model.Lattice.
Import ListNotations.
Local Open Scope R_scope.

(** PrimitiveLattice (include/polatory/isosurface/rmt/primitive_lattice.hpp) with real numbers. [lo], [hi] are the corners of the box and
    [basis] has the three basis vectors as rows (primitive_lattice.hpp:22-26, 30-37); it is taken as given and invertible. Infinities and NaN only occur where
    they are written out; converting a number outside int to int is undefined. *)

Definition to_int (z : Z) : outcome Z := if ((-2147483648 <=? z) && (z <=? 2147483647))%Z then Ok z else UB.
(** std::round: halves away from zero. *)
Definition round (x : R) : Z := if Rle_dec 0 x then floor (x + 1 / 2) else ceil (x - 1 / 2).
(** Helper without code of its own. *)
Definition of_lc (x : lc) : pt := let '(a, b, c) := x in (IZR a, IZR b, IZR c).
(** A row vector times a matrix; the inverse by cofactors. *)
Definition comb (u : pt) (m : triangle) : pt :=
  let '(r0, r1, r2) := m in add3 (add3 (scale3 (px u) r0) (scale3 (py u) r1)) (scale3 (pz u) r2).
(** Helper without code of its own. *)
Definition det (m : triangle) : R := let '(r0, r1, r2) := m in det3 r0 r1 r2.
(** Helper without code of its own. *)
Definition inverse (m : triangle) : triangle :=
  let '(r0, r1, r2) := m in
  transpose (scale3 (/ det m) (cross r1 r2), scale3 (/ det m) (cross r2 r0), scale3 (/ det m) (cross r0 r1)).
(** Within primitive_lattice.hpp:45-105. *)
Definition within (a b x : pt) : bool :=
  leb (px a) (px x) && leb (py a) (py x) && leb (pz a) (pz x) && leb (px x) (px b) && leb (py x) (py b) && leb (pz x) (pz b).

(** Bbox::corners (geometry/bbox3d.hpp:36-46) and the edges (primitive_lattice.hpp:80-85). *)
Definition corner_at (lo hi : pt) (i : nat) : pt :=
  (if Nat.testbit i 0 then px hi else px lo, if Nat.testbit i 1 then py hi else py lo, if Nat.testbit i 2 then pz hi else pz lo).
(** Helper without code of its own. *)
Definition popcount3 (n : nat) : nat := length (filter (Nat.testbit n) [0; 1; 2]%nat).
(** Within geometry/bbox3d.hpp:36-46, primitive_lattice.hpp:80-85. *)
Definition edges : list (nat * nat) :=
  filter (fun e => popcount3 (Nat.lxor (fst e) (snd e)) =? 1)%nat
    (flat_map (fun i => map (fun j => (i, j)) (seq (S i) (7 - i))) (seq 0 7)).

(** Where a plane meets the edges of a box (primitive_lattice.hpp:79-95); a quotient by zero is infinite or NaN and fails the test. *)
Definition plane_hits (n : pt) (d : R) (lo hi : pt) : list pt :=
  flat_map (fun e =>
    let p := corner_at lo hi (fst e) in
    let pq := sub3 (corner_at lo hi (snd e)) p in
    if eqb (dot3 n pq) 0 then [] else
    let t := - (dot3 n p + d) / dot3 n pq in
    if leb 0 t && leb t 1 then [add3 p (scale3 t pq)] else []) edges.

Section Lattice.
Variables lo hi : pt.
Variable basis : triangle.

(** Within primitive_lattice.hpp:79-95. *)
Definition center : pt := add3 lo (scale3 (1 / 2) (sub3 hi lo)).
(** compute_lattice_coordinates_origin (primitive_lattice.hpp:189-192), lattice_coordinates_unrounded (185-187), position (41-43), rounded (119-121). *)
Definition origin : pt := let u := comb center (inverse basis) in (IZR (round (px u)), IZR (round (py u)), IZR (round (pz u))).
(** Within primitive_lattice.hpp:189-192. *)
Definition unrounded (p : pt) : pt := sub3 (comb p (inverse basis)) origin.
(** Helper without code of its own. *)
Definition position (x : lc) : pt := comb (add3 origin (of_lc x)) basis.
(** Within primitive_lattice.hpp:189-192. *)
Definition rounded (p : pt) : outcome lc :=
  let u := unrounded p in
  let* a := to_int (round (px u)) in
  let* b := to_int (round (py u)) in
  let* c := to_int (round (pz u)) in Ok (a, b, c).

(** clamp_to_node (primitive_lattice.hpp:124-129). *)
Definition clamp_to_node (p : pt) (x : lc) : pt :=
  let u := unrounded p in
  let c := of_lc x in
  let clamp a m := Rmin (Rmax a (m - 0.495)) (m + 0.495) in
  comb (add3 origin (clamp (px u) (px c), clamp (py u) (py c), clamp (pz u) (pz c))) basis.

(** compute_extended_bbox (primitive_lattice.hpp:194-205). *)
Definition neighbors : list pt := map (fun d => comb (of_lc d) basis) deltas.
(** Within primitive_lattice.hpp:194-205. *)
Definition ext_lo (k : R) : pt := add3 lo (scale3 (k * 1.01) (lo_of (hd (0, 0, 0) neighbors) (tl neighbors))).
(** Within primitive_lattice.hpp:194-205. *)
Definition ext_hi (k : R) : pt := add3 hi (scale3 (k * 1.01) (hi_of (hd (0, 0, 0) neighbors) (tl neighbors))).
Notation lo2 := (ext_lo 2).
Notation hi2 := (ext_hi 2).

(** first_lattice_coordinate_range (primitive_lattice.hpp:45-72): the bounds start at infinity, None. *)
Definition first_bounds (q dir : pt) : option R * option R :=
  fold_left (fun (b : option R * option R) i =>
    if eqb (coord dir i) 0 then b else
    let t0 := (coord lo2 i - coord q i) / coord dir i in
    let t1 := (coord hi2 i - coord q i) / coord dir i in
    let '(t0, t1) := if ltb t1 t0 then (t1, t0) else (t0, t1) in
    (Some (match fst b with None => t0 | Some m => Rmax m t0 end), Some (match snd b with None => t1 | Some m => Rmin m t1 end)))
    [0; 1; 2]%nat (None, None).
(** Within primitive_lattice.hpp:45-72. *)
Definition first_range (lc1 lc2 : Z) : outcome (Z * Z) :=
  let '(b0, b1, b2) := basis in
  let q := add3 (scale3 (py origin + IZR lc1) b1) (scale3 (pz origin + IZR lc2) b2) in
  match first_bounds q b0 with
  | (Some min_t, Some max_t) =>
      let* a := to_int (floor (px (unrounded (add3 q (scale3 min_t b0))))) in
      let* b := to_int (ceil (px (unrounded (add3 q (scale3 max_t b0))))) in Ok (a, b)
  | _ => UB
  end.

(** second_lattice_coordinate_range (primitive_lattice.hpp:74-105). The extremes of no numbers are infinite and have no conversion to int. *)
Definition edge_hits (lc2 : Z) : list pt :=
  let '(b0, b1, b2) := basis in
  let n := cross b0 b1 in
  plane_hits n (- dot3 n (scale3 (pz origin + IZR lc2) b2)) lo2 hi2.
(** Within primitive_lattice.hpp:74-105. *)
Definition extremes (xs : list R) : outcome (Z * Z) :=
  match xs with
  | [] => UB
  | x :: xs => let* a := to_int (floor (fold_left Rmin xs x)) in let* b := to_int (ceil (fold_left Rmax xs x)) in Ok (a, b)
  end.
(** Within primitive_lattice.hpp:74-105. *)
Definition second_range (lc2 : Z) : outcome (Z * Z) := extremes (map (fun v => py (unrounded v)) (edge_hits lc2)).
(** third_lattice_coordinate_range (primitive_lattice.hpp:107-117). *)
Definition third_range : outcome (Z * Z) := extremes (map (fun i => pz (unrounded (corner_at lo2 hi2 i))) (seq 0 8)).

(** The loops of add_all_nodes (lattice.hpp:43-52) with the test of add_node_unchecked (lattice.hpp:352-363). The ranges are given as functions, to
    say what happens whatever an undefined conversion yields. *)
Definition range (r : Z * Z) : list Z := map (fun k => (fst r + Z.of_nat k)%Z) (seq 0 (Z.to_nat (snd r - fst r + 1))).
(** Within lattice.hpp:43-52, lattice.hpp:352-363. *)
Definition layer (r1 : Z -> Z -> Z * Z) (r2 : Z -> Z * Z) (c2 : Z) : list lc :=
  filter (fun x => within lo2 hi2 (position x))
    (flat_map (fun c1 => map (fun c0 => (c0, c1, c2)) (range (r1 c1 c2))) (range (r2 c2))).
(** Within lattice.hpp:43-52, lattice.hpp:352-363. *)
Definition layers (r1 : Z -> Z -> Z * Z) (r2 : Z -> Z * Z) (r3 : Z * Z) : list (list lc) := map (layer r1 r2) (range r3).

(** tetrahedron (primitive_lattice.hpp:132-174). [r] is the result of sorting the axes by the fractional parts. *)
Definition frac (x : R) : R := x - IZR (floor x).
(** tetrahedron (primitive_lattice.hpp:132-174). *)
Definition tetrahedron (r : nat * nat * nat) (p : pt) : outcome (lc * lc * lc * lc) :=
  let u := unrounded p in
  let* a := to_int (floor (px u)) in
  let* b := to_int (floor (py u)) in
  let* c := to_int (floor (pz u)) in
  let x := (a, b, c) in
  let tet e1 e2 := Ok (x, neighbor x e1, neighbor x e2, neighbor x 4) in
  match r with
  | (2, 1, 0) => tet 0 3
  | (2, 0, 1) => tet 3 6
  | (0, 2, 1) => tet 6 5
  | (0, 1, 2) => tet 5 2
  | (1, 0, 2) => tet 2 1
  | (1, 2, 0) => tet 1 0
  | _ => UB
  end%nat.
End Lattice.

(** barycentric_coordinates (lattice.hpp:365-381). *)
Definition volume (a b c d : pt) : R := dot3 (cross (sub3 b a) (sub3 c a)) (sub3 d a) / 6.
(** Within lattice.hpp:365-381. *)
Definition barycentric (p a b c d : pt) : R * R * R * R :=
  let v := volume a b c d in (volume b d c p / v, volume a c d p / v, volume a d b p / v, volume a b c p / v).
