From Coq Require Import Reals List.
From Verif Require Import Model.Clip.
Import ListNotations.
Local Open Scope R_scope.

Definition in_box (lo hi p : pt) : Prop := px lo <= px p <= px hi /\ py lo <= py p <= py hi /\ pz lo <= pz p <= pz hi.
Definition inside_box (lo hi p : pt) : Prop := px lo < px p < px hi /\ py lo < py p < py hi /\ pz lo < pz p < pz hi.
(** A point with the given weights of the corners. *)
Definition weighted (w : R * R * R) (tri : triangle) : pt :=
  let '(u, v, s) := w in let '(a, b, c) := tri in
  (u * px a + v * px b + s * px c, u * py a + v * py b + s * py c, u * pz a + v * pz b + s * pz c).
Definition weights (w : R * R * R) : Prop := let '(u, v, s) := w in 0 <= u /\ 0 <= v /\ 0 <= s /\ u + v + s = 1.
Definition in_triangle (tri : triangle) (p : pt) : Prop := exists w, weights w /\ p = weighted w tri.
(** The normal of a triangle, twice its area long. *)
Definition cross (p q : pt) : pt := (py p * pz q - pz p * py q, pz p * px q - px p * pz q, px p * py q - py p * px q).
Definition minus (p q : pt) : pt := (px p - px q, py p - py q, pz p - pz q).
Definition scale (c : R) (p : pt) : pt := (c * px p, c * py p, c * pz p).
Definition normal (tri : triangle) : pt := let '(a, b, c) := tri in cross (minus b a) (minus c a).
Definition proper (tri : triangle) : Prop := normal tri <> (0, 0, 0).
(** [out] lies in [tri] and its normal is [c] times the one of [tri]. *)
Definition part_of (tri : triangle) (c : R) (out : triangle) : Prop :=
  (forall p, In p (corners out) -> in_triangle tri p) /\ normal out = scale c (normal tri).
Definition total (l : list R) : R := fold_right Rplus 0 l.

(** Directed edges. *)
Definition has_edge (tri : triangle) (a b : pt) : Prop :=
  let '(u, v, w) := tri in (a = u /\ b = v) \/ (a = v /\ b = w) \/ (a = w /\ b = u).
Definition closed (l : list triangle) : Prop :=
  forall t a b, In t l -> has_edge t a b -> exists t', In t' l /\ has_edge t' b a.
(** Both points on the same face plane of the box. *)
Definition on_face (lo hi a b : pt) : Prop :=
  (px a = px hi /\ px b = px hi) \/ (px a = px lo /\ px b = px lo) \/ (py a = py hi /\ py b = py hi) \/
  (py a = py lo /\ py b = py lo) \/ (pz a = pz hi /\ pz b = pz hi) \/ (pz a = pz lo /\ pz b = pz lo).
