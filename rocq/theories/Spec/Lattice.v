From Coq Require Import List ZArith Reals Permutation.
From Verif Require Import Model.MeshDefects Model.Solver Model.Lattice Spec.VertexClusterer.
Import ListNotations.

(** The lattice: nodes are adjacent when one is the other plus a nonzero 0/1 vector. *)
Definition bit (z : Z) : Prop := z = 0%Z \/ z = 1%Z.
Definition step (d : lc) : Prop := let '(a, b, c) := d in bit a /\ bit b /\ bit c /\ d <> (0, 0, 0)%Z.
Definition adjacent (a b : lc) : Prop := exists d, step d /\ (b = lc_add a d \/ a = lc_add b d).

(** The tetrahedra: from a node along the three axes in some order. *)
Definition axes : list lc := [(1, 0, 0); (0, 1, 0); (0, 0, 1)]%Z.
Definition simplex (S : list lc) : Prop := exists x a b c, Permutation [a; b; c] axes /\
  S = [x; lc_add x a; lc_add (lc_add x a) b; lc_add (lc_add (lc_add x a) b) c].

(** [N] are the sampled nodes, [s] tells which are negative. *)
Definition crosses (N : lc -> Prop) (s : lc -> bool) (a b : lc) : Prop := N a /\ N b /\ adjacent a b /\ s a <> s b.

(** The edge of a vertex of the surface. *)
Definition ends (v : lc * nat * num) : lc * lc := let '(x, e, _) := v in (x, neighbor x e).
Definition joins (v : lc * nat * num) (a b : lc) : Prop := ends v = (a, b) \/ ends v = (b, a).

Definition one_vertex_per_edge (N : lc -> Prop) (s : lc -> bool) (vs : list (lc * nat * num)) : Prop :=
  (forall v, In v vs -> crosses N s (fst (ends v)) (snd (ends v))) /\
  (forall a b, crosses N s a b -> exists i, (exists v, nth_error vs i = Some v /\ joins v a b) /\
     forall j w, nth_error vs j = Some w -> joins w a b -> j = i).

(** The vertex is where the field, interpolated linearly along the edge, vanishes, seen from the nearer end. *)
Definition at_crossing (field : lc -> num) (v : lc * nat * num) : Prop :=
  let '(x, e, t) := v in
  forall a b, field x = Some a -> field (neighbor x e) = Some b ->
    exists r, t = Some r /\ (0 <= r <= 1 / 2)%R /\ (a + r * (b - a) = 0)%R.

(** [l] holds the surface of the sampled nodes: one vertex per edge, and the nodes at such edges. *)
Definition on_surface (N : lc -> Prop) (s : lc -> bool) (x : lc) : Prop := exists y, crosses N s x y.

(** A surface vertex lies on an edge of the tetrahedron. *)
Definition lies_in (S : list lc) (vs : list (lc * nat * num)) (i : nat) : Prop :=
  exists v, nth_error vs i = Some v /\ In (fst (ends v)) S /\ In (snd (ends v)) S.

(** Every directed side occurs once; the reversed side is there as well unless a tetrahedron at the side
    is not sampled completely. *)
Definition watertight (N : lc -> Prop) (vs : list (lc * nat * num)) (fs : list face) : Prop :=
  NoDup (flat_map sides fs) /\
  forall u v, In (u, v) (flat_map sides fs) ->
    (In (v, u) (flat_map sides fs) <->
     forall S, simplex S -> lies_in S vs u -> lies_in S vs v -> Forall N S).

(** Every tetrahedron with both signs is cut along all its crossing edges. *)
Definition cuts_all (N : lc -> Prop) (s : lc -> bool) (vs : list (lc * nat * num)) (fs : list face) : Prop :=
  forall S u, simplex S -> Forall N S -> lies_in S vs u ->
    exists f, In f fs /\ has_corner f u /\ forall w, has_corner f w -> lies_in S vs w.

(** A layered sampling: layer i has third coordinate z + i. *)
Fixpoint layered (z : Z) (layers : list (list lc)) : Prop :=
  match layers with
  | [] => True
  | xs :: layers' => NoDup xs /\ Forall (fun x => snd x = z) xs /\ layered (z + 1) layers'
  end.

(** The iteration order of the node list is unspecified. *)
Definition enumerates (keys : list lc) (l : lattice) : Prop := NoDup keys /\ forall x, In x keys <-> l_nodes l x <> None.

(** Faces have three different corners, all of them vertices, on the edges of one sampled tetrahedron. *)
Definition proper_faces (N : lc -> Prop) (vs : list (lc * nat * num)) (fs : list face) : Prop :=
  forall f, In f fs -> distinct3 f /\ (forall w, has_corner f w -> w < length vs) /\
    exists S, simplex S /\ Forall N S /\ forall w, has_corner f w -> lies_in S vs w.

(** The surface has no boundary: each directed side once, together with its reverse. *)
Definition closed (fs : list face) : Prop :=
  NoDup (flat_map sides fs) /\ forall u v, In (u, v) (flat_map sides fs) -> In (v, u) (flat_map sides fs).

(** ** Geometry *)

Definition R3 := (R * R * R)%type.
Definition vsub (p q : R3) : R3 := let '(a, b, c) := p in let '(d, e, f) := q in (a - d, b - e, c - f)%R.
Definition lerp (p q : R3) (t : R) : R3 :=
  let '(a, b, c) := p in let '(d, e, f) := q in (a + t * (d - a), b + t * (e - b), c + t * (f - c))%R.
Definition det3 (p q r : R3) : R :=
  let '(a, b, c) := p in let '(d, e, f) := q in let '(g, h, i) := r in
  (a * (e * i - f * h) - b * (d * i - f * g) + c * (d * h - e * g))%R.
(** Positive when [d] is on the side of the plane a b c to which its normal (b - a) x (c - a) points. *)
Definition orient (a b c d : R3) : R := det3 (vsub b a) (vsub c a) (vsub d a).
(** Node positions in a frame. *)
Definition placed (o u v w : R3) (x : lc) : R3 :=
  let '(a, b, c) := x in let '(o0, o1, o2) := o in
  let '(u0, u1, u2) := u in let '(v0, v1, v2) := v in let '(w0, w1, w2) := w in
  (o0 + IZR a * u0 + IZR b * v0 + IZR c * w0, o1 + IZR a * u1 + IZR b * v1 + IZR c * w1, o2 + IZR a * u2 + IZR b * v2 + IZR c * w2)%R.
(** Every vertex somewhere strictly inside its edge. *)
Definition vertex_at (P : lc -> R3) (vs : list (lc * nat * num)) (tau : nat -> R) (w : nat) : R3 :=
  match nth_error vs w with
  | Some v => lerp (P (fst (ends v))) (P (snd (ends v))) (tau w)
  | None => (0, 0, 0)%R
  end.
(** The normals point from the negative to the other nodes: of every cut edge, the negative end is strictly
    behind the face and the other end strictly in front. *)
Definition normals_point_out (P : lc -> R3) (s : lc -> bool) (vs : list (lc * nat * num)) (pos : nat -> R3) (fs : list face) : Prop :=
  forall a b c w v n, In (a, b, c) fs -> has_corner (a, b, c) w -> nth_error vs w = Some v ->
    n = fst (ends v) \/ n = snd (ends v) ->
    if s n then (orient (pos a) (pos b) (pos c) (P n) < 0)%R else (orient (pos a) (pos b) (pos c) (P n) > 0)%R.
