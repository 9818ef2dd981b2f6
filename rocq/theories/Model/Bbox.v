From Coq Require Import List Arith Reals Bool.
Import ListNotations.
Open Scope R_scope.

(** Bbox<Dim> (include/polatory/geometry/bbox3d.hpp). Coordinates are reals or infinities; NaN is
    excluded, and rounding in transform, center and width is not modelled. *)

Inductive er := MInf | Fin (r : R) | PInf.

(** Comparison of doubles. *)
Definition eleb (a b : er) : bool :=
  match a, b with
  | MInf, _ => true
  | _, PInf => true
  | Fin x, Fin y => if Rle_dec x y then true else false
  | _, _ => false
  end.

(** std::min / std::max on coefficients. *)
Definition emin (a b : er) : er := if eleb a b then a else b.
(** Helper without code of its own. *)
Definition emax (a b : er) : er := if eleb a b then b else a.

(** Within bbox3d.hpp:70-71. *)
Definition point := list er.
(** Within bbox3d.hpp:70-71. *)
Record bbox := mk_bbox { bmin : point; bmax : point }.

(** Helper without code of its own. *)
Fixpoint map2 {A B C : Type} (f : A -> B -> C) (l : list A) (m : list B) : list C :=
  match l, m with
  | a :: l', b :: m' => f a b :: map2 f l' m'
  | _, _ => []
  end.
(** Helper without code of its own. *)
Fixpoint all2 {A B : Type} (f : A -> B -> bool) (l : list A) (m : list B) : bool :=
  match l, m with
  | a :: l', b :: m' => f a b && all2 f l' m'
  | _, _ => true
  end.

(** Bbox() (bbox3d.hpp:18-20). *)
Definition empty (dim : nat) : bbox := mk_bbox (repeat PInf dim) (repeat MInf dim).

(** contains (bbox3d.hpp:28-30). *)
Definition contains (b : bbox) (p : point) : bool := all2 eleb (bmin b) p && all2 eleb p (bmax b).

(** convex_hull (bbox3d.hpp:32-34). *)
Definition convex_hull (b c : bbox) : bbox :=
  mk_bbox (map2 emin (bmin b) (bmin c)) (map2 emax (bmax b) (bmax c)).

(** corners (bbox3d.hpp:36-46). *)
Definition corner (dim : nat) (b : bbox) (i : nat) : point :=
  map (fun j => if Nat.testbit i j then nth j (bmax b) PInf else nth j (bmin b) PInf) (seq 0 dim).
(** corners (bbox3d.hpp:36-46). *)
Definition corners (dim : nat) (b : bbox) : list point := map (corner dim b) (seq 0 (2 ^ dim)).

(** is_empty (bbox3d.hpp:48). *)
Definition is_empty (b : bbox) : bool := negb (all2 eleb (bmin b) (bmax b)).

(** from_points (bbox3d.hpp:54-61): minCoeff and maxCoeff of each column. *)
Definition column (j : nat) (ps : list point) : list er := map (fun p => nth j p PInf) ps.
(** Within bbox3d.hpp:54-61. *)
Definition coeff (f : er -> er -> er) (c : list er) : er :=
  match c with [] => PInf | x :: c' => fold_left f c' x end.
(** from_points (bbox3d.hpp:54-61). *)
Definition from_points (dim : nat) (ps : list point) : bbox :=
  match ps with
  | [] => empty dim
  | _ => mk_bbox (map (fun j => coeff emin (column j ps)) (seq 0 dim))
                 (map (fun j => coeff emax (column j ps)) (seq 0 dim))
  end.

(** transform_points (point3d.hpp:42-46): p * t^T, i.e. coordinate k of the image is row k of t times p.
    Only for finite coordinates: infinity times zero is NaN; None stands for that. *)
Fixpoint finite (p : point) : option (list R) :=
  match p with
  | [] => Some []
  | Fin r :: p' => match finite p' with Some l => Some (r :: l) | None => None end
  | _ :: _ => None
  end.
(** Within point3d.hpp:42-46. *)
Fixpoint dot (u v : list R) : R :=
  match u, v with
  | a :: u', b :: v' => a * b + dot u' v'
  | _, _ => 0
  end.
(** transform_point (point3d.hpp:36-40). *)
Definition transform_point (t : list (list R)) (p : point) : option point :=
  match finite p with
  | None => None
  | Some l => Some (map (fun row => Fin (dot l row)) t)
  end.
(** transform_points (point3d.hpp:42-46). *)
Fixpoint transform_points (t : list (list R)) (ps : list point) : option (list point) :=
  match ps with
  | [] => Some []
  | p :: ps' =>
      match transform_point t p, transform_points t ps' with
      | Some q, Some qs => Some (q :: qs)
      | _, _ => None
      end
  end.

(** transform (bbox3d.hpp:63). *)
Definition transform (dim : nat) (t : list (list R)) (b : bbox) : option bbox :=
  match transform_points t (corners dim b) with
  | Some qs => Some (from_points dim qs)
  | None => None
  end.

(** center and width (bbox3d.hpp:26, 65), for finite boxes. *)
Definition center (lo hi : list R) : list R := map2 (fun a b => a + (b - a) / 2) lo hi.
