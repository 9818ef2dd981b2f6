From Coq Require Import Reals ZArith List.
From Verif Require Import Model.Outcome Model.Solver Model.Clip Model.PointTriangle Model.Predicates Model.Lattice Model.PrimitiveLattice.
Import ListNotations.
Local Open Scope R_scope.

(** The positions of the vertices of a lattice (include/polatory/isosurface/rmt/lattice.hpp:332-339, 512-532). Numbers are real; the
    position of a vertex whose t is NaN is NaN, None, which no comparison changes. *)

(** tiny (lattice.hpp:524). *)
Definition tiny (resolution : R) : R := / 10000000000 * resolution.
(** One use of select (lattice.hpp:527). *)
Definition snap_to (eps target x : R) : R := if Rlt_dec (Rabs (x - target)) eps then target else x.
(** Both uses for one coordinate (lattice.hpp:527-528). *)
Definition snap_coord (eps lo hi x : R) : R := snap_to eps hi (snap_to eps lo x).
(** lattice.hpp:526-529. *)
Definition snap (eps : R) (lo hi p : pt) : pt :=
  (snap_coord eps (px lo) (px hi) (px p), snap_coord eps (py lo) (py hi) (py p), snap_coord eps (pz lo) (pz hi) (pz p)).

Section Positions.
Variables lo hi : pt.
Variable basis : triangle.
Variable resolution : R.

(** The point of position_clamped (lattice.hpp:335-338); the position of a node is that of PrimitiveLattice (node.hpp:20). *)
Definition edge_point (x : lc) (e : nat) (t : R) : pt :=
  let p0 := position lo hi basis x in
  let p1 := position lo hi basis (neighbor x e) in
  add3 p0 (scale3 (clamped t) (sub3 p1 p0)).
(** position_clamped (lattice.hpp:332-339): both nodes must be in the list. *)
Definition position_clamped (l : lattice) (v : lc * nat * num) : outcome (option pt) :=
  let '(x, e, t) := v in
  match l_nodes l x, l_nodes l (neighbor x e) with
  | Some _, Some _ => Ok (option_map (edge_point x e) t)
  | _, _ => Throw ExOutOfRange
  end.
(** Within lattice.hpp:512-532. *)
Fixpoint positions (l : lattice) (vs : list (lc * nat * num)) : outcome (list (option pt)) :=
  match vs with
  | [] => Ok []
  | v :: vs' => let* p := position_clamped l v in let* ps := positions l vs' in Ok (p :: ps)
  end.
(** get_vertices (lattice.hpp:512-532). *)
Definition get_vertices (l : lattice) : outcome (list (option pt)) :=
  let* ps := positions l (l_vertices l) in Ok (map (option_map (snap (tiny resolution) lo hi)) ps).
End Positions.
