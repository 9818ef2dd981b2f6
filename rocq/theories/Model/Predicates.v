From Coq Require Import Reals List Arith Bool.
From Verif Require Import Model.Outcome Model.Clip Model.PointTriangle.
Import ListNotations.
Local Open Scope R_scope.

(** The predicates of include/polatory/isosurface/predicates.hpp:13-251 and triangles_intersect
    (src/isosurface/utility.hpp:106-144), evaluated in real numbers: the rounding of the determinants is not modelled, the
    tolerances are. *)

(** kTinyFactor (predicates.hpp:15). *)
Definition kTinyFactor : R := / 10 ^ 12.

(** orient2d, orient3d, incircle (predicates.hpp:19-54); Eigen expands determinants of size 2 and 3 along the first row. *)
Definition pt2 := (R * R)%type.
(** orient2d (predicates.hpp:19-25). *)
Definition orient2d (a b c : pt2) : R :=
  (fst a - fst c) * (snd b - snd c) - (snd a - snd c) * (fst b - fst c).
(** Within predicates.hpp:19-54. *)
Definition det3 (r0 r1 r2 : pt) : R :=
  px r0 * (py r1 * pz r2 - pz r1 * py r2) - py r0 * (px r1 * pz r2 - pz r1 * px r2) + pz r0 * (px r1 * py r2 - py r1 * px r2).
(** orient3d (predicates.hpp:27-34). *)
Definition orient3d (a b c d : pt) : R := det3 (sub3 a d) (sub3 b d) (sub3 c d).
(** Within predicates.hpp:19-54. *)
Definition lifted (a d : pt2) : pt :=
  let m0 := fst a - fst d in let m1 := snd a - snd d in (m0, m1, m0 * m0 + m1 * m1).
(** incircle (predicates.hpp:38-54). *)
Definition incircle (a b c d : pt2) : R := det3 (lifted a d) (lifted b d) (lifted c d).

(** p(i), cwiseMin, cwiseMax, the extent hi - lo of some points; minCoeff and maxCoeff with the first place they are
    attained. *)
Definition coord (p : pt) (i : nat) : R := match i with O => px p | S O => py p | _ => pz p end.
(** Helper without code of its own. *)
Definition lo2 (p q : pt) : pt := (Rmin (px p) (px q), Rmin (py p) (py q), Rmin (pz p) (pz q)).
(** Helper without code of its own. *)
Definition hi2 (p q : pt) : pt := (Rmax (px p) (px q), Rmax (py p) (py q), Rmax (pz p) (pz q)).
(** Helper without code of its own. *)
Definition lo_of (p : pt) (ps : list pt) : pt := fold_left lo2 ps p.
(** Helper without code of its own. *)
Definition hi_of (p : pt) (ps : list pt) : pt := fold_left hi2 ps p.
(** Helper without code of its own. *)
Definition extent (p : pt) (ps : list pt) : pt := sub3 (hi_of p ps) (lo_of p ps).
(** Helper without code of its own. *)
Definition norm (p : pt) : R := sqrt (norm2 p).
(** Helper without code of its own. *)
Definition max_at (p : pt) : nat :=
  let i := if ltb (px p) (py p) then 1%nat else 0%nat in if ltb (coord p i) (pz p) then 2%nat else i.
(** Helper without code of its own. *)
Definition min_at (p : pt) : nat :=
  let i := if ltb (py p) (px p) then 1%nat else 0%nat in if ltb (pz p) (coord p i) then 2%nat else i.

(** segment3_segment3_intersect_1d (predicates.hpp:56-78); the signs ap ... are compared directly. *)
Definition segment_segment_1d (a b p q : pt) : bool :=
  let i := max_at (extent a [b; p; q]) in
  let below x y := ltb (coord x i) (coord y i) in
  if below a p && below a q && below b p && below b q then false else
  if below p a && below q a && below p b && below q b then false else true.

(** segment3_segment3_intersect_2d (predicates.hpp:80-97). *)
Definition segment_segment_2d (a b p q : pt) (abp abq apq bpq : R) : bool :=
  let scale := norm (extent a [b; p; q]) in
  let tiny := kTinyFactor * scale * scale in
  if (ltb abp (- tiny) && ltb abq (- tiny)) || (ltb tiny abp && ltb tiny abq) then false else
  if (ltb apq (- tiny) && ltb bpq (- tiny)) || (ltb tiny apq && ltb tiny bpq) then false else
  segment_segment_1d a b p q.

(** All at most tiny, or all at least -tiny. *)
Definition one_side (tiny x y z : R) : bool :=
  (leb x tiny && leb y tiny && leb z tiny) || (leb (- tiny) x && leb (- tiny) y && leb (- tiny) z).

(** segment3_triangle3_intersect_2d (predicates.hpp:99-135). *)
Definition segment_triangle_2d (a b p q r : pt) (i j : nat) (scale : R) : bool :=
  let tiny := kTinyFactor * scale * scale in
  let flat x := (coord x i, coord x j) in
  let apq := orient2d (flat a) (flat p) (flat q) in
  let aqr := orient2d (flat a) (flat q) (flat r) in
  let arp := orient2d (flat a) (flat r) (flat p) in
  let bpq := orient2d (flat b) (flat p) (flat q) in
  let bqr := orient2d (flat b) (flat q) (flat r) in
  let brp := orient2d (flat b) (flat r) (flat p) in
  if one_side tiny apq aqr arp then true else
  if one_side tiny bpq bqr brp then true else
  let abp := orient2d (flat a) (flat b) (flat p) in
  let abq := orient2d (flat a) (flat b) (flat q) in
  let abr := orient2d (flat a) (flat b) (flat r) in
  segment_segment_2d a b p q abp abq apq bpq ||
  segment_segment_2d a b q r abq abr aqr bqr ||
  segment_segment_2d a b r p abr abp arp brp.

(** The seven argument segment3_triangle3_intersect (predicates.hpp:137-164). *)
Definition segment_triangle_with (a b p q r : pt) (apqr bpqr : R) : bool :=
  let e := extent a [b; p; q; r] in
  let scale := norm e in
  let tiny := kTinyFactor * scale * scale * scale in
  if (ltb apqr (- tiny) && ltb bpqr (- tiny)) || (ltb tiny apqr && ltb tiny bpqr) then false else
  let k := min_at e in
  if negb (segment_triangle_2d a b p q r ((k + 1) mod 3) ((k + 2) mod 3) scale) then false else
  one_side tiny (orient3d a b p q) (orient3d a b q r) (orient3d a b r p).

(** One box entirely below the other in some coordinate (predicates.hpp:173, 190). *)
Definition any_less (hi lo : pt) : bool := ltb (px hi) (px lo) || ltb (py hi) (py lo) || ltb (pz hi) (pz lo).

(** The five argument segment3_triangle3_intersect (predicates.hpp:166-181). *)
Definition segment_triangle (a b p q r : pt) : bool :=
  if any_less (hi_of a [b]) (lo_of p [q; r]) || any_less (hi_of p [q; r]) (lo_of a [b]) then false else
  segment_triangle_with a b p q r (orient3d a p q r) (orient3d b p q r).

(** triangle3_triangle3_intersect (predicates.hpp:183-207). *)
Definition triangle_triangle (a b c p q r : pt) : bool :=
  if any_less (hi_of a [b; c]) (lo_of p [q; r]) || any_less (hi_of p [q; r]) (lo_of a [b; c]) then false else
  let apqr := orient3d a p q r in
  let bpqr := orient3d b p q r in
  let cpqr := orient3d c p q r in
  let pabc := orient3d p a b c in
  let qabc := orient3d q a b c in
  let rabc := orient3d r a b c in
  segment_triangle_with a b p q r apqr bpqr ||
  segment_triangle_with b c p q r bpqr cpqr ||
  segment_triangle_with c a p q r cpqr apqr ||
  segment_triangle_with p q a b c pabc qabc ||
  segment_triangle_with q r a b c qabc rabc ||
  segment_triangle_with r p a b c rabc pabc.

(** folded (predicates.hpp:209-249). *)
Definition folded (a b p q : pt) : bool :=
  let e := extent a [b; p; q] in
  let scale := norm e in
  let k := min_at e in
  let i := ((k + 1) mod 3)%nat in
  let j := ((k + 2) mod 3)%nat in
  let tiny2 := kTinyFactor * scale * scale in
  let flat x := (coord x i, coord x j) in
  let abp := orient2d (flat a) (flat b) (flat p) in
  let abq := orient2d (flat a) (flat b) (flat q) in
  if (ltb abp (- tiny2) && ltb tiny2 abq) || (ltb tiny2 abp && ltb abq (- tiny2)) then false else
  leb (Rabs (orient3d a b p q)) (kTinyFactor * scale * scale * scale).

(** triangles_intersect (utility.hpp:107-144). The pairs of equal corners in the order found; a fourth pair overflows the
    static_vector of capacity 3 (std::bad_alloc), and an apex index of 3 fails at(). *)
Definition corner (t : triangle) (i : nat) : pt := let '(a, b, c) := t in match i with O => a | S O => b | _ => c end.
(** The corner 3 - i - i': at() rejects 3 as well as -1, which becomes a huge unsigned number. *)
Definition apex (t : triangle) (i i' : nat) : outcome pt :=
  if (i + i' =? 0)%nat || (3 <? i + i')%nat then Throw ExOutOfRange else Ok (corner t (3 - i - i')).
(** Within utility.hpp:107-144. *)
Definition same_corners (s t : triangle) : list (nat * nat) :=
  filter (fun '(i, j) => pt_eqb (corner s i) (corner t j))
    [(0, 0); (0, 1); (0, 2); (1, 0); (1, 1); (1, 2); (2, 0); (2, 1); (2, 2)]%nat.
(** triangles_intersect (utility.hpp:107-144). *)
Definition triangles_intersect (s t : triangle) : outcome bool :=
  let '(a0, a1, a2) := s in
  let '(b0, b1, b2) := t in
  match same_corners s t with
  | [] => Ok (triangle_triangle a0 a1 a2 b0 b1 b2)
  | [(i, j)] =>
      Ok (segment_triangle (corner s ((i + 1) mod 3)) (corner s ((i + 2) mod 3)) b0 b1 b2 ||
          segment_triangle (corner t ((j + 1) mod 3)) (corner t ((j + 2) mod 3)) a0 a1 a2)
  | [(i, j); (i', j')] =>
      let* a_apex := apex s i i' in
      let* b_apex := apex t j j' in
      Ok (folded (corner s i) (corner s i') a_apex b_apex)
  | [_; _; _] => Ok false
  | _ => Throw ExLengthError
  end.
