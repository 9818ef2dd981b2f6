From Coq Require Import Reals.
From Verif Require Import Model.Clip.
Local Open Scope R_scope.

(** The triangle with corners a, b, c as a set of points, and the squared distance of two points. *)
Definition in_triangle (a b c x : pt) : Prop :=
  exists u v w, 0 <= u /\ 0 <= v /\ 0 <= w /\ u + v + w = 1 /\
    px x = u * px a + v * px b + w * px c /\
    py x = u * py a + v * py b + w * py c /\
    pz x = u * pz a + v * pz b + w * pz c.
Definition dist2 (p q : pt) : R := (px p - px q) * (px p - px q) + (py p - py q) * (py p - py q) + (pz p - pz q) * (pz p - pz q).
(** q is the point of the triangle nearest to p, and d its squared distance. *)
Definition nearest (p a b c q : pt) (d : R) : Prop :=
  in_triangle a b c q /\ d = dist2 p q /\ forall x, in_triangle a b c x -> d <= dist2 p x.
