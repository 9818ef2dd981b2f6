(** What snapping a mesh to points should achieve, apart from the geometric tests. *)
From Coq Require Import List Arith Bool Sorted Permutation.
From Verif.Model Require Import Outcome Snapper.
Import ListNotations.

Definition corners (f : tri3) : list nat := [fst (fst f); snd (fst f); snd f].

(** A mesh refers to existing vertices only, and uses all of them. *)
Definition well_indexed (n : nat) (fs : list tri3) : Prop := forall k, k < n <-> exists f, In f fs /\ In k (corners f).

(** The face [f] with the [k]-th row in place of the number [k]. *)
Definition renamed (rows : list nat) (f : tri3) : tri3 :=
  (nth (fst (fst f)) rows 0, nth (snd (fst f)) rows 0, nth (snd f) rows 0).

Section Snapper.
Context {P A T : Type}.
Variable E : env P A T.
Notation cand := (candidate A T).
Notation st := (state P A T).

(** The counts partition the points. *)
Definition partition (r : @result P) : Prop := r_skipped r + r_honored r + r_dishonored r = np E.

(** A position of the input. *)
Definition given (q : P) : Prop :=
  (exists i, i < np E /\ q = points E i) \/ (exists v, v < nv E /\ q = vertices E v).

(** The rows that take part in the triangulation of a patch. *)
Definition patch_rows (s : st) (fi : nat) : list nat := boundary s (face E fi) ++ s_interior s fi.

(** A row that has been put somewhere into the mesh. *)
Definition inserted (s : st) (r : nat) : Prop :=
  (exists e t, In (t, r) (s_chain s e)) \/ (exists fi, In r (s_interior s fi)).

(** A point that already is a vertex of its patch counts as satisfied.  In the code this rests on
    geometry: such a point has distance zero from a face that uses it. *)
Definition watchful : Prop := forall s c,
  In (c_point c) (patch_rows s (c_face c)) -> satisfied E s c = true.

(** No two faces run along an edge in the same direction; [AbstractMesh] refuses other meshes. *)
Definition oriented : Prop := forall fi fj a b, fi < num_faces E -> fj < num_faces E ->
  runs (face E fi) a b = true -> runs (face E fj) a b = true -> fi = fj.

(** The candidates are arranged in some order. *)
Definition arranged : Prop := Permutation (classified E) (candidates E).

Definition valid_faces : Prop := forall f, In f (faces E) -> forall v, In v (corners f) -> v < nv E.

(** Patches fit: the cached faces of each patch are the triangulation of what is on its edges and in
    its interior now, so neighbouring patches agree about their common edge. *)
Definition current (s : st) : Prop := forall fi, fi < num_faces E -> s_faces s fi <> [] ->
  exists b, triangulate E s fi = Ok (b, s_faces s fi).

(** Each row is in one place at most, once, and is a snap point. *)
Record placed_once (s : st) : Prop := {
  once_edge : forall e, NoDup (map snd (s_chain s e));
  once_face : forall fi, NoDup (s_interior s fi);
  once_edges : forall e e' t t' r, In (t, r) (s_chain s e) -> In (t', r) (s_chain s e') -> e = e';
  once_faces : forall fi fj r, In r (s_interior s fi) -> In r (s_interior s fj) -> fi = fj;
  once_both : forall e t r fi, In (t, r) (s_chain s e) -> ~ In r (s_interior s fi);
  once_points : forall r, inserted s r -> r < np E }.

(** The vertices of an edge are in the order of their parameters. *)
Definition in_order (s : st) : Prop := forall e, StronglySorted (fun x y => lt E (fst y) (fst x) = false) (s_chain s e).

(** The comparison is a strict weak order. *)
Definition weak_order : Prop := (forall x y, lt E x y = true -> lt E y x = false) /\
  (forall x y z, lt E y x = false -> lt E z y = false -> lt E z x = false).

(** Nothing has been moved or inserted between two states. *)
Definition same_mesh (s s' : st) : Prop :=
  (forall r, s_p s' r = s_p s r) /\ (forall e, s_chain s' e = s_chain s e) /\
  (forall fi, s_interior s' fi = s_interior s fi).

(** The states met while snapping. *)
Inductive reachable : st -> Prop :=
| reach_start : reachable (start E)
| reach_place : forall s c b d s', reachable s -> In c (candidates E) -> place E s c = Ok (b, d, s') -> reachable s'.

(** Tests that stay in range: they look at existing patches, report existing points, and a
    triangulation numbers existing vertices.  (No face is degenerate.) *)
Record in_range : Prop := {
  range_looks : forall s k fi, In fi (looks E s k) -> fi < num_faces E;
  range_knocked : forall s i, In i (knocked E s) -> i < np E;
  range_classify : forall i c, classify E i = Some c -> c_face c < num_faces E;
  range_tri : forall fi b l i, fi < num_faces E -> exists ok fs, tri E fi b l i = Ok (ok, fs) /\
    forall f k, In f fs -> In k (corners f) -> k < length b + length i }.

End Snapper.
