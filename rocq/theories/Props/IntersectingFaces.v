From Coq Require Import Reals List Arith Bool Sorted.
From Verif Require Import Model.Outcome Model.VertexClusterer Spec.VertexClusterer Model.SpatialGrid Spec.SpatialGrid Model.Clip Model.Predicates Spec.Predicates
  Model.IntersectingFaces Spec.IntersectingFaces Proofs.IntersectingFaces Proofs.ClusteredFaces.
Import ListNotations.

(** Whatever thread handles which pair and ends when: the same increasing list, without any face that passed all tests, and with both faces of
    every pair that meets outside of its common corners. *)
Theorem C85_faces : forall rnd resolution, (forall a b, a <= b -> rnd a <= rnd b)%R -> (0 < resolution)%R ->
  forall nv pos fs, vertices_exist nv fs -> within_reach rnd resolution nv pos -> proper_faces pos fs ->
  exists r, (forall schedule, shares_work schedule -> intersecting_faces rnd resolution nv pos fs schedule = Ok r) /\
    StronglySorted lt r /\ (forall fi, In fi r -> exists fj, test_hits pos fs fi fj) /\ (forall fi fj, cross pos fs fi fj -> In fi r /\ In fj r).
Proof. exact finder_spec. Qed.
Print Assumptions C85_faces.

(** Exactly which faces are listed: those whose test with a face of a common cell says yes. *)
Theorem C85_exact : forall rnd resolution nv pos fs, vertices_exist nv fs -> within_reach rnd resolution nv pos ->
  forall schedule r, shares_work schedule -> intersecting_faces rnd resolution nv pos fs schedule = Ok r ->
  StronglySorted lt r /\ forall fi, In fi r <-> exists fj, test_hits pos fs fi fj /\ share_cell rnd resolution pos fs fi fj.
Proof. exact result_exact. Qed.
Print Assumptions C85_exact.

(** There is a result exactly if no test of two faces of a common cell throws. *)
Theorem C85_result : forall rnd resolution nv pos fs, vertices_exist nv fs -> within_reach rnd resolution nv pos ->
  forall schedule, shares_work schedule ->
  ((exists r, intersecting_faces rnd resolution nv pos fs schedule = Ok r) <->
   forall fi fj, fi < fj -> fj < length fs -> share_cell rnd resolution pos fs fi fj -> exists b, triangles_intersect (tri pos fs fi) (tri pos fs fj) = Ok b).
Proof. exact result_iff. Qed.
Print Assumptions C85_result.

(** A face with two corners in one place can end the search. *)
Theorem C85_flat_refuted : ~ forall rnd resolution, (forall a b, a <= b -> rnd a <= rnd b)%R -> (0 < resolution)%R ->
  forall nv pos fs, vertices_exist nv fs -> within_reach rnd resolution nv pos ->
  exists schedule r, shares_work schedule /\ intersecting_faces rnd resolution nv pos fs schedule = Ok r.
Proof.
  intros H. destruct (H (fun x => x) 1%R (fun _ _ Q => Q) Rlt_0_1 5 flat_pos flat_faces) as (schedule & r & W & E).
  - apply ok_exist. reflexivity.
  - exact flat_reach.
  - exact (flat_ends schedule W r E).
Qed.
Print Assumptions C85_flat_refuted.

Theorem C85_out_of_range : forall rnd resolution nv pos fs schedule, ~ vertices_exist nv fs ->
  intersecting_faces rnd resolution nv pos fs schedule = Throw ExOutOfRange.
Proof. exact finder_out_of_range. Qed.
Print Assumptions C85_out_of_range.

(** Clustering with this finder: in the mesh that comes out, no merged vertex is a corner of a face that crosses another one, nor next to one. *)
Theorem C85_clustering : forall nv fs node skip detect, in_range nv fs ->
  exists kept src vs out s, vertex_clusterer nv fs node skip detect = Ok (Some (vs, out, s)) /\
    (forall g, In g kept -> 2 <= length g /\ skip g = false) /\ merges source src kept /\ (forall x, In x vs -> exists u, x = src u) /\
    forall rnd resolution place schedule r, (forall a b, a <= b -> rnd a <= rnd b)%R -> (0 < resolution)%R ->
    let pos i := place (nth i vs (inl 0)) in
    within_reach rnd resolution (length vs) pos -> proper_faces pos out -> shares_work schedule ->
    intersecting_faces rnd resolution (length vs) pos out schedule = Ok r -> snd (detect vs out) = r ->
    forall fi fj, cross pos out fi fj -> forall v w u g, corner_of (nth fi out (0, 0, 0)) v \/ corner_of (nth fj out (0, 0, 0)) v ->
      w = v \/ share_face out v w -> In g kept -> In u g -> nth_error vs w <> Some (src u).
Proof. exact clustered_faces. Qed.
Print Assumptions C85_clustering.

(** A triangle stabbed by another one, and a third one far above them. *)
Example C85_example : forall schedule, shares_work schedule -> intersecting_faces (fun x => x) 1 9 ex_pos ex_faces schedule = Ok [0; 1].
Proof. exact ex_result. Qed.
