From Coq Require Import Reals List Arith Bool Permutation.
From Verif Require Import Model.Clip Model.PointTriangle Model.Predicates Model.LinAlg Model.MeshDefects Model.AbstractMesh Model.Smoother
  Spec.PointTriangle Spec.Predicates Spec.VertexClusterer Spec.AbstractMesh.
Import ListNotations.
Local Open Scope R_scope.

(** Directed sides, used vertices and the boundary of a list of faces. *)
Definition has_directed (fs : list face) (u v : nat) : Prop := exists f, In f fs /\ In (u, v) (sides f).
Definition used (fs : list face) (v : nat) : Prop := exists f, In f fs /\ has_corner f v.
Definition on_boundary (fs : list face) (u v : nat) : Prop := has_directed fs u v /\ ~ has_directed fs v u.
(** Faces with a common edge, run along in opposite directions. *)
Definition adjacent (f g : face) : Prop := exists u v, In (u, v) (sides f) /\ In (v, u) (sides g).

(** The bend summed over the interior edges: every pair of faces counts for each edge they share. *)
Definition shared_edges (f g : face) : nat :=
  length (filter (fun '((u, v), (u', v')) => Nat.eqb u v' && Nat.eqb v u') (list_prod (sides f) (sides g))).
Definition total_bend (bend : face -> face -> R) (fs : list face) : R :=
  let f i := nth i fs (0, 0, 0)%nat in
  rsum (length fs) (fun i => rsum (length fs) (fun j => INR (shared_edges (f i) (f j)) * bend (f i) (f j))) / 2.

(** Point i is within its tolerance of some face. *)
Definition honored (ap : nat -> pt) (target : nat -> pt) (tol : nat -> R) (fs : list face) (i : nat) : Prop :=
  exists f x, In f fs /\ inside (at_rows ap f) x /\ dist2 (target i) x <= tol i * tol i.
(** Two triangles meet only in what their common corners span. *)
Definition clear (s t : triangle) : Prop := ~ exists x, inside s x /\ inside t x /\ ~ in_shared s t x.

(** What the grids and the queue do. *)
Definition in_box (lo hi x : pt) : Prop := px lo <= px x <= px hi /\ py lo <= py x <= py hi /\ pz lo <= pz x <= pz hi.
Definition finds_points (n_points : nat) (target : nat -> pt) (tol : nat -> R) (near : pt -> pt -> list nat) : Prop :=
  forall lo hi i x, (i < n_points)%nat -> in_box lo hi x -> dist2 (target i) x <= tol i * tol i -> In i (near lo hi).
Definition finds_faces (p : nat -> pt) (faces_near : mesh -> pt -> pt -> list nat) : Prop :=
  forall m lo hi fi, (In fi (faces_near m lo hi) -> live m fi) /\
    forall x, live m fi -> in_box lo hi x -> inside (at_rows p (m_face m fi)) x -> In fi (faces_near m lo hi).
Definition takes_largest (take : list item -> option (item * list item)) : Prop :=
  forall q, match take q with
            | None => q = []
            | Some (i, q') => Permutation q (i :: q') /\ Forall (fun j => snd j <= snd i) q
            end.
(** Different vertices in use are at different places. *)
Definition separate (q : nat -> pt) (fs : list face) : Prop := forall u v, used fs u -> used fs v -> q u = q v -> u = v.

(** No new crossings: two faces that do not meet properly are as they were, or next to each other. *)
Definition no_new_crossing (p : nat -> pt) (fs fs' : list face) : Prop :=
  let f i := nth i fs (0, 0, 0)%nat in let f' i := nth i fs' (0, 0, 0)%nat in
  forall i j, (i < length fs')%nat -> (j < length fs')%nat -> i <> j ->
    clear (at_rows p (f' i)) (at_rows p (f' j)) \/ adjacent (f' i) (f' j) \/ (f' i = f i /\ f' j = f j).

(** A structure without deleted rows, and turns enough for the loop. *)
Definition full (m : mesh) : Prop := consistent m /\ forall fi, (fi < m_nf m)%nat -> live m fi.
Definition enough (fs : list face) : nat := 3 * length fs + 25 * S (50 * Nat.max (length fs) 1) + 1.
