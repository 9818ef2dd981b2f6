From Coq Require Import Reals List.
From Verif Require Import Model.Clip Model.PointTriangle Spec.PointTriangle Model.FieldFunctions.
Import ListNotations.
Local Open Scope R_scope.

(** The corners of a face. *)
Definition corners (vertices : list pt) (f : face) (a b c : pt) : Prop :=
  nth_error vertices (at3 f 0) = Some a /\ nth_error vertices (at3 f 1) = Some b /\ nth_error vertices (at3 f 2) = Some c.
(** [q] is a point of the face [fi] that is as near to [p] as any point of the mesh, and [d2] its squared distance. *)
Definition closest_on (vertices : list pt) (faces : list face) (p : pt) (d2 : R) (fi : nat) (q : pt) : Prop :=
  (exists f a b c, nth_error faces fi = Some f /\ corners vertices f a b c /\ nearest p a b c q d2) /\
  forall f a b c x, In f faces -> corners vertices f a b c -> in_triangle a b c x -> d2 <= dist2 p x.
(** Every directed edge is in one face only and not a loop. *)
Definition oriented (faces : list face) : Prop :=
  NoDup (flat_map halfedges faces) /\ forall h, In h (flat_map halfedges faces) -> fst h <> snd h.
(** What a function must be at a point for which a value, a lower and an upper bound are given. *)
Definition satisfies (c : option R * option R * option R) (y : R) : Prop :=
  let '(v, lo, hi) := c in
  (forall x, v = Some x -> y = x) /\ (forall x, lo = Some x -> x <= y) /\ (forall x, hi = Some x -> y <= x).
Definition in_box (lo hi p : pt) : Prop := px lo <= px p <= px hi /\ py lo <= py p <= py hi /\ pz lo <= pz p <= pz hi.
