From Coq Require Import Reals List Arith Bool.
From Verif Require Import Model.Clip Model.PointTriangle Model.Predicates Model.MeshDefects Model.AbstractMesh Model.Smoother
  Spec.PointTriangle Spec.Predicates Spec.VertexClusterer Spec.AbstractMesh Spec.Smoother.
Import ListNotations.
Local Open Scope R_scope.

(** The vertex [v] is dropped onto [b]: the two faces of the edge go, the other faces of [v] get [b] instead and keep their orientation. If
    the two faces of the edge are not folded onto each other, [v] is the only vertex no longer in use. *)
Definition dropped (ap : nat -> pt) (m m' : mesh) (v b : nat) : Prop :=
  has_side m v b /\ has_side m b v /\ (forall u, has_side m u v <-> has_side m v u) /\
  (forall fi, live m' fi <-> live m fi /\ ~ (has_corner (m_face m fi) v /\ has_corner (m_face m fi) b)) /\
  (forall fi, live m' fi -> m_face m' fi = retarget (m_face m fi) v b) /\
  (forall fi, live m' fi -> has_corner (m_face m fi) v -> 0 <= dot3 (normal ap (m_face m' fi)) (normal ap (m_face m fi))) /\
  (~ folded m v b -> forall w, used (take_faces m') w <-> used (take_faces m) w /\ w <> v).
(** A sequence of such drops among the vertices [allowed]. *)
Inductive drops (ap : nat -> pt) (allowed : nat -> Prop) : mesh -> mesh -> Prop :=
| DNone : forall m, drops ap allowed m m
| DStep : forall m m' m'' v b, allowed v -> allowed b -> dropped ap m m' v b -> drops ap allowed m' m'' -> drops ap allowed m m''.

(** No new crossings: two faces that do not meet properly were there before, or have a common corner. *)
Definition crossings_kept (p : nat -> pt) (fs fs' : list face) : Prop :=
  forall f g, In f fs' -> In g fs' -> f <> g ->
    clear (at_rows p f) (at_rows p g) \/ (exists v, has_corner f v /\ has_corner g v) \/ (In f fs /\ In g fs).

(** The mesh with vertices [rows] of the old one, all in use: the faces in the old numbers. *)
Definition in_rows (rows : list nat) (f : face) : face :=
  let '(a, b, c) := f in (nth a rows 0, nth b rows 0, nth c rows 0)%nat.
Definition all_used (n : nat) (fs : list face) : Prop := forall k, (k < n)%nat <-> used fs k.
