From Coq Require Import Reals ZArith List Arith Bool.
From Verif Require Import Model.Outcome Model.Clip Model.PointTriangle Model.Predicates Model.MeshDefects Model.AbstractMesh Model.Smoother Model.Generate
  Spec.PointTriangle Spec.Predicates Spec.VertexClusterer Spec.AbstractMesh Spec.Smoother.
Import ListNotations.
Local Open Scope R_scope.

(** Successive turns of the snapping loop: the meshes with the number of points not honored. *)
Inductive path (turn : surface -> outcome (option (surface * nat))) : surface -> list (surface * nat) -> Prop :=
| PNil : forall s, path turn s []
| PCons : forall s s' k l, turn s = Ok (Some (s', k)) -> path turn s' l -> path turn s ((s', k) :: l).

(** A manifold mesh with different vertices at different places. *)
Definition good (s : surface) : Prop :=
  Forall distinct3 (s_f s) /\ ~ clash (fun i => nth i (s_f s) (0, 0, 0)%nat) (fun i => (i < length (s_f s))%nat) /\
  separate (vertex s) (s_f s) /\ (forall v, used (s_f s) v -> (v < length (s_v s))%nat).
(** Faces without a common corner do not meet. *)
Definition uncrossed (s : surface) : Prop :=
  forall f g, In f (s_f s) -> In g (s_f s) -> (exists v, has_corner f v /\ has_corner g v) \/ clear (at_rows (vertex s) f) (at_rows (vertex s) g).
(** The places of the vertices in use; the boundary, as pairs of places; the points within their tolerance. *)
Definition place_of (s : surface) (x : pt) : Prop := exists v, used (s_f s) v /\ vertex s v = x.
Definition border (s : surface) (x y : pt) : Prop := exists u v, on_boundary (s_f s) u v /\ vertex s u = x /\ vertex s v = y.
Definition honors (aniso : triangle) (target : nat -> pt) (tol : nat -> R) (s : surface) (i : nat) : Prop :=
  honored (moved_vertex aniso s) target tol (s_f s) i.
(** What the last stages keep. *)
Definition keeps (aniso : triangle) (n_points : nat) (target : nat -> pt) (tol : nat -> R) (s s' : surface) : Prop :=
  good s' /\ (length (s_f s') <= length (s_f s))%nat /\ (forall x, place_of s' x -> place_of s x) /\ (forall x y, border s' x y <-> border s x y) /\
  (forall i, (i < n_points)%nat -> honors aniso target tol s i -> honors aniso target tol s' i) /\ (uncrossed s -> uncrossed s').
