From Coq Require Import List Arith Bool Lia.
From Verif Require Import Model.Outcome Model.MeshDefects Model.VertexClusterer
  Spec.DisjointSets Spec.VertexClusterer Proofs.VertexClusterer Proofs.VertexQuotient.
Import ListNotations.

(** C36: for every mesh, every assignment of vertices to lattice nodes and every defect finder, vertex
    clustering ends within one round more than there are clusters. The vertices merged are those of some
    of the components of the mesh within a node, the result is the quotient of the input mesh by that
    merge with its folds removed, it has no degenerate face, and no vertex that the finder still reports
    is a merged vertex or shares a face with one. *)
Theorem C36_clustering : forall nv fs node skip detect, in_range nv fs ->
  exists components kept src vs mid s, classes (unions node fs) nv components /\
    vertex_clusterer nv fs node skip detect = Ok (Some (vs, remove_back_to_back mid, s)) /\
    (forall g, In g kept -> In g components /\ 2 <= length g /\ skip g = false) /\
    merges source src kept /\ is_quotient source src fs vs mid /\
    (forall u, (forall g, In g kept -> ~ In u g) -> src u = inl u) /\
    Forall distinct3 (remove_back_to_back mid) /\
    forall v w u g, In v (flagged_of detect vs (remove_back_to_back mid)) ->
      w = v \/ share_face (remove_back_to_back mid) v w -> In g kept -> In u g -> nth_error vs w <> Some (src u).
Proof. exact clustering. Qed.
Print Assumptions C36_clustering.

(** What [unions] is above: the sides of faces whose ends are in one lattice node. So every component lies in
    one node. *)
Theorem C36_merged_pairs : forall node fs i j, In (i, j) (unions node fs) <-> In (i, j) (flat_map sides fs) /\ node i = node j.
Proof. exact unions_spec. Qed.
Print Assumptions C36_merged_pairs.

Theorem C36_one_node : forall node fs nv gs g u w, classes (unions node fs) nv gs -> In g gs -> In u g -> In w g -> node u = node w.
Proof. exact one_node. Qed.
Print Assumptions C36_one_node.

Theorem C36_out_of_range_throws : forall nv fs node skip detect, ~ in_range nv fs ->
  vertex_clusterer nv fs node skip detect = Throw ExOutOfRange.
Proof. exact out_of_range_throws. Qed.
Print Assumptions C36_out_of_range_throws.

(** Exactly the faces of fold pairs are removed, and the order of the others is kept. *)
Theorem C36_folds_removed : forall fs, Forall distinct3 fs ->
  exists keep, remove_back_to_back fs = map (fun i => nth i fs (0, 0, 0)) keep /\
  keep = filter (fun i => negb (dropped fs i)) (seq 0 (length fs)) /\
  forall i, In i keep <-> i < length fs /\ ~ exists j, fold_pair fs i j.
Proof. exact remove_spec. Qed.
Print Assumptions C36_folds_removed.

(** Removing folds keeps the number of faces at every edge, or takes an edge with two or four faces to
    none or two: a closed manifold edge never becomes a boundary edge. *)
Theorem C36_edge_parity : forall fs a b,
  edge_count (remove_back_to_back fs) a b = edge_count fs a b \/
  ((edge_count fs a b = 2 \/ edge_count fs a b = 4) /\
   (edge_count (remove_back_to_back fs) a b = 0 \/ edge_count (remove_back_to_back fs) a b = 2)).
Proof. exact edge_parity. Qed.
Print Assumptions C36_edge_parity.

(** A tetrahedron with a flap: vertices 3 and 4 lie in one node and are joined by an edge. *)
Definition ex_faces : list face := [(0, 2, 1); (0, 1, 3); (1, 2, 4); (2, 0, 3); (1, 4, 3); (2, 3, 4)].
Definition ex_node (v : nat) : nat := if v <? 3 then v else 3.

Example C36_example_merge :
  match vertex_clusterer 5 ex_faces ex_node (fun _ => false) (fun _ _ => ([], [])) with
  | Ok (Some (vs, out, _)) => vs = [inl 0; inl 2; inl 1; inr 0] /\ out = [(0, 1, 2); (0, 2, 3); (2, 1, 3); (1, 0, 3)]
  | _ => False
  end.
Proof. vm_compute. auto. Qed.

(** A finder that objects to the merged vertex: the merge is undone. *)
Example C36_example_undo :
  match vertex_clusterer 5 ex_faces ex_node (fun _ => false) (fun vs _ => ([3], [])) with
  | Ok (Some (vs, out, _)) => length vs = 5 /\ length out = 6
  | _ => False
  end.
Proof. vm_compute. auto. Qed.

(** A fold whose edges have two faces each disappears. *)
Example C36_example_fold : remove_back_to_back [(0, 1, 2); (3, 4, 5); (2, 1, 0)] = [(3, 4, 5)] /\
  fold_pair [(0, 1, 2); (3, 4, 5); (2, 1, 0)] 0 2.
Proof.
  split; [vm_compute; auto|]. exists (0, 1, 2), (2, 1, 0). split; [auto|]. split; [auto|]. split; [cbn; auto|]. split.
  - intros [|[|[|[|k]]]] h E C; auto; try discriminate. injection E as <-. exfalso.
    pose proof (proj1 (C 0) (or_introl eq_refl)) as X. cbn in X. lia.
  - intros a b [E|[E|[E|[]]]]; injection E as <- <-; vm_compute; auto.
Qed.
