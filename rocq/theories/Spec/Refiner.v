From Coq Require Import Reals List Arith.
From Verif Require Import Model.Clip Model.PointTriangle Model.Predicates Model.MeshDefects Model.AbstractMesh Model.Smoother Model.Refiner
  Spec.PointTriangle Spec.Predicates Spec.VertexClusterer Spec.AbstractMesh Spec.Smoother.
Import ListNotations.
Local Open Scope R_scope.

(** The squared misfit of the linear function c + g.s to the samples v at the offsets s. *)
Definition misfit (c : R) (g : pt) (vs : list R) (ss : list pt) : R :=
  sum1 (map (fun '(v, s) => (v - (c + dot3 g s)) * (v - (c + dot3 g s))) (combine vs ss)).

(** Vertices moved one at a time to the [goal], where no face at the vertex turns over. *)
Inductive moves (fs : list face) (goal : nat -> option pt) : (nat -> pt) -> (nat -> pt) -> Prop :=
| MNone : forall p, moves fs goal p p
| MStep : forall p p' v q, goal v = Some q -> (forall f, In f fs -> has_corner f v -> 0 < dot3 (normal p f) (normal (place p v q) f)) ->
    moves fs goal (place p v q) p' -> moves fs goal p p'.
(** The corners of the face are where they were. *)
Definition unmoved (p p' : nat -> pt) (f : face) : Prop := forall v, has_corner f v -> p' v = p v.
(** Old and new places of different vertices are different. *)
Definition apart (fs : list face) (goal : nat -> option pt) (p : nat -> pt) : Prop :=
  forall u v, used fs u -> used fs v -> u <> v ->
    p u <> p v /\ (forall q, goal u = Some q -> q <> p v) /\ (forall q r, goal u = Some q -> goal v = Some r -> q <> r).
