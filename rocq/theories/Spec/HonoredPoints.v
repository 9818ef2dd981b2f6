From Coq Require Import Reals List Arith Bool.
From Verif Require Import Model.Outcome Model.Clip Model.PointTriangle Spec.PointTriangle Model.HonoredPoints.
Import ListNotations.
Local Open Scope R_scope.

(** Closed boxes. *)
Definition inside (b : pt * pt) (p : pt) : Prop :=
  px (fst b) <= px p <= px (snd b) /\ py (fst b) <= py p <= py (snd b) /\ pz (fst b) <= pz p <= pz (snd b).
Definition meets (b c : pt * pt) : Prop := exists p, inside b p /\ inside c p.

(** A query visits items once, only stored ones, and all whose boxes meet the box asked for. *)
Definition finds (n : nat) (boxes : nat -> pt * pt) (q : pt * pt) (l : list nat) : Prop :=
  NoDup l /\ (forall i, In i l -> (i < n)%nat) /\ forall i, (i < n)%nat -> meets (boxes i) q -> In i l.

(** Some committed face of the mesh honors the point. *)
Definition on_mesh (tols : nat -> R) (nf : nat) (s : patches) (i : nat) : Prop :=
  exists fi f, (fi < nf)%nat /\ In f (h_faces s fi) /\ honored_by tols (h_ap s) i f = true.

(** The positions of the points are fixed; each patch has faces, its box is theirs, a cached list is what it should be, and a mesh vertex
    is used only by the patches around it. *)
Definition coherent (tols : nat -> R) (vertex_faces : nat -> list nat) (np nf : nat) (points : nat -> pt) (s : patches) : Prop :=
  (forall i, (i < np)%nat -> h_ap s i = points i) /\
  forall fi, (fi < nf)%nat ->
    faces_box (h_ap s) (h_faces s fi) = Some (h_box s fi) /\
    (forall l, h_cache s fi = Some l -> NoDup l /\ forall i, In i l <-> (i < np)%nat /\ honored_by_patch tols s i fi = true) /\
    (forall f r, In f (h_faces s fi) -> In r (corners f) -> (np <= r)%nat -> In fi (vertex_faces r)).

(** The step lists exactly the points that were honored before and are not after it. *)
Definition reports (tols : nat -> R) (np nf : nat) (s s' : patches) (dis : list nat) : Prop :=
  forall i, In i dis <-> (i < np)%nat /\ on_mesh tols nf s i /\ ~ on_mesh tols nf s' i.
