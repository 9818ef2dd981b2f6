From Coq Require Import Reals List Arith Permutation.
From Verif Require Import Model.Outcome Model.SpatialGrid Spec.SpatialGrid Model.Clip Model.Predicates Spec.Predicates.
Import ListNotations.

Section Mesh.
Variables (rnd : R -> R) (resolution : R) (nv : nat) (pos : nat -> pt) (fs : list (nat * nat * nat)).

Definition corner_of (f : nat * nat * nat) (v : nat) : Prop := let '(a, b, c) := f in v = a \/ v = b \/ v = c.
(** Every corner is one of the [nv] vertices, whose coordinates have int cell numbers. *)
Definition vertices_exist : Prop := forall f v, In f fs -> corner_of f v -> v < nv.
Definition within_reach : Prop := forall v, v < nv -> representable_point rnd resolution (pos v).
(** The triangle of face [fi]. *)
Definition tri (fi : nat) : triangle := let '(a, b, c) := nth fi fs (0, 0, 0) in (pos a, pos b, pos c).
(** No two corners of a face are in one place. *)
Definition proper_faces : Prop := forall fi, fi < length fs -> distinct_corners (tri fi).

(** Different faces have a point in common outside of the simplex of their common corners. *)
Definition cross (fi fj : nat) : Prop :=
  fi <> fj /\ fi < length fs /\ fj < length fs /\ exists x, inside (tri fi) x /\ inside (tri fj) x /\ ~ in_shared (tri fi) (tri fj) x.
(** The test of two different faces, the one with the lower number first, says yes. *)
Definition test_hits (fi fj : nat) : Prop :=
  fi <> fj /\ fi < length fs /\ fj < length fs /\ triangles_intersect (tri (min fi fj)) (tri (max fi fj)) = Ok true.

(** [b] is the smallest box with the three corners. *)
Definition bounds (t : triangle) (b : box) : Prop :=
  (forall p, In p (corners t) -> contains b p) /\
  forall c, (forall p, In p (corners t) -> contains c p) -> contains c (fst b) /\ contains c (snd b).
(** Some cell of the grid is touched by the boxes of both faces. *)
Definition share_cell (fi fj : nat) : Prop := exists b c, bounds (tri fi) b /\ bounds (tri fj) c /\ cells_meet rnd resolution b c.
End Mesh.

(** Every pair is handled by exactly one thread. *)
Definition shares_work (schedule : nat -> list (list nat)) : Prop := forall n, Permutation (concat (schedule n)) (seq 0 n).
