From Coq Require Import List Arith.
From Verif Require Import Model.MeshDefects Model.AbstractMesh Spec.VertexClusterer.
Import ListNotations.

(** Sides of the faces numbered by [R], and their direction. *)
Definition side (R : nat -> Prop) (h : halfedge) : Prop := R (fst h) /\ snd h < 3.
Definition tail (fc : nat -> face) (h : halfedge) : nat := corner (fc (fst h)) (snd h).
Definition head (fc : nat -> face) (h : halfedge) : nat := corner (fc (fst h)) (ccw (snd h)).
Definition third (fc : nat -> face) (h : halfedge) : nat := corner (fc (fst h)) (cw (snd h)).

(** Two sides run along the same edge in the same direction. *)
Definition clash (fc : nat -> face) (R : nat -> Prop) : Prop :=
  exists g h, g <> h /\ side R g /\ side R h /\ tail fc g = tail fc h /\ head fc g = head fc h.

(** The structure describes the faces numbered by [R]: they are proper triangles, no two sides clash,
    opposite pairs exactly the sides of an edge, and the outgoing sides of a vertex are listed once. *)
Definition describes (m : mesh) (R : nat -> Prop) : Prop :=
  let fc := m_face m in
  (forall fi, R fi -> fi < m_nf m /\ distinct3 (fc fi)) /\
  ~ clash fc R /\
  (forall g h, m_opp m g = Some h <-> side R g /\ side R h /\ tail fc g = head fc h /\ head fc g = tail fc h) /\
  (forall v, NoDup (m_vh m v)) /\
  (forall v h, In h (m_vh m v) <-> side R h /\ tail fc h = v) /\
  (forall h, side R h -> tail fc h < m_nv m).

Definition live (m : mesh) (fi : nat) : Prop := fi < m_nf m /\ m_deleted m fi = false.
Definition consistent (m : mesh) : Prop := describes m (live m) /\ m_nf m <= m_cap m.

Definition unused (m : mesh) (v : nat) : Prop := forall fi, live m fi -> ~ has_corner (m_face m fi) v.
Definition has_side (m : mesh) (a b : nat) : Prop :=
  exists h, side (live m) h /\ tail (m_face m) h = a /\ head (m_face m) h = b.

(** Sides on either direction of the edge a-b, and what splitting that edge at [v] makes. *)
Definition along (m : mesh) (a b : nat) (h : halfedge) : Prop :=
  side (live m) h /\ ((tail (m_face m) h = a /\ head (m_face m) h = b) \/ (tail (m_face m) h = b /\ head (m_face m) h = a)).

Definition split_result (m m' : mesh) (a b v : nat) : Prop :=
  consistent m' /\ m_nf m <= m_nf m' /\
  (forall x, live m' x <-> live m x \/ (m_nf m <= x < m_nf m')) /\
  (forall h, along m a b h -> m_face m' (fst h) = (tail (m_face m) h, v, third (m_face m) h) /\
     exists n, m_nf m <= n < m_nf m' /\ m_face m' n = (v, head (m_face m) h, third (m_face m) h)) /\
  (forall x, live m x -> (forall h, along m a b h -> fst h <> x) -> m_face m' x = m_face m x) /\
  (forall n, m_nf m <= n < m_nf m' -> exists h, along m a b h /\ m_face m' n = (v, head (m_face m) h, third (m_face m) h)).

(** The two faces of the edge have the same vertices. *)
Definition folded (m : mesh) (a b : nat) : Prop :=
  exists g h, side (live m) g /\ side (live m) h /\ tail (m_face m) g = a /\ head (m_face m) g = b /\
    tail (m_face m) h = b /\ head (m_face m) h = a /\ third (m_face m) g = third (m_face m) h.

(** What callers have to guarantee. *)
Inductive op := AddFace (f : face) | Flip (a b : nat) | InsertInFace (fi v : nat) | InsertOnEdge (a b v : nat)
              | Collapse (h : halfedge).
Definition allowed (m : mesh) (o : op) : Prop :=
  match o with
  | AddFace f => distinct3 f /\ m_nf m < m_cap m
  | Flip a b => exists g h, side (live m) g /\ side (live m) h /\ tail (m_face m) g = a /\ head (m_face m) g = b /\
      tail (m_face m) h = b /\ head (m_face m) h = a
  | InsertInFace fi v => live m fi /\ unused m v /\ m_nf m + 2 <= m_cap m
  | InsertOnEdge a b v => a <> b /\ unused m v /\ v <> a /\ v <> b /\ m_nf m + 2 <= m_cap m
  | Collapse h => side (live m) h
  end.
Definition perform (m : mesh) (o : op) : Outcome.outcome mesh :=
  match o with
  | AddFace f => add_face m f
  | Flip a b => flip m a b
  | InsertInFace fi v => insert_in_face m fi v
  | InsertOnEdge a b v => insert_on_edge m a b v
  | Collapse h => Outcome.bind (collapse m h) (fun r => Outcome.Ok (fst r))
  end.
(** A history of accepted operations. *)
Inductive reaches : mesh -> mesh -> Prop :=
| RRefl : forall m, reaches m m
| RStep : forall m o m' m'', allowed m o -> perform m o = Outcome.Ok m' -> reaches m' m'' -> reaches m m''.
