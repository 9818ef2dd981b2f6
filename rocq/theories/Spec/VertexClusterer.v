From Coq Require Import List Arith Bool.
Import ListNotations.

(** Triangles are triples of vertex indices. *)
Definition tri := (nat * nat * nat)%type.
Definition distinct3 (f : tri) : Prop := let '(a, b, c) := f in a <> b /\ b <> c /\ c <> a.

(** Number of sides of faces that join [a] and [b]. *)
Definition sides (f : tri) : list (nat * nat) := let '(a, b, c) := f in [(a, b); (b, c); (c, a)].
Definition edge_count (fs : list tri) (a b : nat) : nat :=
  length (filter (fun e => (Nat.eqb (fst e) a && Nat.eqb (snd e) b) || (Nat.eqb (fst e) b && Nat.eqb (snd e) a))
                 (flat_map sides fs)).

(** The same triangle with the opposite orientation. *)
Definition reversed (f g : tri) : Prop :=
  let '(a, b, c) := f in g = (c, b, a) \/ g = (b, a, c) \/ g = (a, c, b).
Definition same_corners (f g : tri) : Prop :=
  forall v, (let '(a, b, c) := f in v = a \/ v = b \/ v = c) <-> (let '(a, b, c) := g in v = a \/ v = b \/ v = c).

(** Faces [i] and [j] are a fold: one triangle in both orientations, no third face on these corners,
    and each of its edges has two or four faces. *)
Definition fold_pair (fs : list tri) (i j : nat) : Prop :=
  exists f g, nth_error fs i = Some f /\ nth_error fs j = Some g /\ reversed f g /\
    (forall k h, nth_error fs k = Some h -> same_corners f h -> k = i \/ k = j) /\
    (forall a b, In (a, b) (sides f) -> edge_count fs a b = 2 \/ edge_count fs a b = 4).

(** The quotient of a mesh. [source u] names the vertex that [u] becomes; faces with coinciding corners
    disappear; [vs] lists the names of the new vertices and [out] the faces in terms of it. *)
Section Quotient.
Variable N : Type.
Variable source : nat -> N.
Definition survives (f : tri) : Prop :=
  let '(a, b, c) := f in source a <> source b /\ source b <> source c /\ source c <> source a.
Inductive quotient_faces (vs : list N) : list tri -> list tri -> Prop :=
| QNil : quotient_faces vs [] []
| QDrop : forall f fs out, ~ survives f -> quotient_faces vs fs out -> quotient_faces vs (f :: fs) out
| QKeep : forall a b c fs i j k out, survives (a, b, c) ->
    nth_error vs i = Some (source a) -> nth_error vs j = Some (source b) -> nth_error vs k = Some (source c) ->
    quotient_faces vs fs out -> quotient_faces vs ((a, b, c) :: fs) ((i, j, k) :: out).
Definition is_quotient (fs : list tri) (vs : list N) (out : list tri) : Prop :=
  NoDup vs /\ quotient_faces vs fs out /\
  forall x, In x vs <-> exists f, In f fs /\ (let '(a, b, c) := f in x = source a \/ x = source b \/ x = source c).
End Quotient.

(** Vertices are merged exactly when they are in one of the groups [kept]. *)
Definition merges (N : Type) (source : nat -> N) (kept : list (list nat)) : Prop :=
  forall u w, source u = source w <-> u = w \/ exists g, In g kept /\ In u g /\ In w g.

(** [v] and [w] are corners of one face. *)
Definition has_corner (f : tri) (v : nat) : Prop := let '(a, b, c) := f in v = a \/ v = b \/ v = c.
Definition share_face (fs : list tri) (v w : nat) : Prop := exists f, In f fs /\ has_corner f v /\ has_corner f w.

(** Every corner is one of [nv] vertices. *)
Definition in_range (nv : nat) (fs : list tri) : Prop := forall f v, In f fs -> has_corner f v -> v < nv.
