From Coq Require Import List Arith Lia Permutation.
From Verif Require Import Model.Outcome Model.MeshDefects Spec.DisjointSets Spec.MeshDefects Proofs.MeshDefects
  Proofs.MeshFan Proofs.MeshSingular.
Import ListNotations.

(** C33: whatever the distribution of the vertices over threads, the method ends, reports each vertex at
    most once, and reports exactly the vertices with faces whose faces do not form a single open or
    closed fan. Faces with indices out of range make the constructor throw. *)
Theorem C33_singular_vertices_exact :
  forall nv fs chunks, Permutation (concat chunks) (seq 0 nv) ->
  match singular_vertices nv fs chunks with
  | Ok (Some l) => faces_ok nv fs = true /\ NoDup l /\
      forall v, In v l <-> v < nv /\ opposite_edges v fs <> [] /\ ~ fan (opposite_edges v fs)
  | Throw e => faces_ok nv fs = false /\ e = ExOutOfRange
  | _ => False
  end.
Proof. exact singular. Qed.
Print Assumptions C33_singular_vertices_exact.

(** Two triangles meeting in vertex 0 only; the closed fan of a tetrahedron has no singular vertex. *)
Example C33_singular_vertices_exact_ex :
  singular_vertices 5 [(0, 1, 2); (3, 0, 4)] [[3; 4]; [0; 1; 2]] = Ok (Some [0])
  /\ singular_vertices 4 [(0, 1, 2); (0, 2, 3); (0, 3, 1); (1, 3, 2)] [[0; 1; 2; 3]] = Ok (Some [])
  /\ fan (opposite_edges 0 [(0, 1, 2); (0, 2, 3); (0, 3, 1); (1, 3, 2)])
  /\ ~ fan (opposite_edges 0 [(0, 1, 2); (3, 0, 4)]).
Proof.
  split; [reflexivity|]. split; [reflexivity|]. split.
  - exists [1; 2; 3]. split; [repeat constructor; cbn; lia|]. right. split; [cbn; lia|]. cbn.
    unfold same_edges. cbn. apply perm_trans with [(1, 2); (1, 3); (2, 3)]; [apply perm_skip, perm_swap|apply perm_swap].
  - pose proof (singular 5 [(0, 1, 2); (3, 0, 4)] [[3; 4]; [0; 1; 2]]) as H. cbn in H.
    destruct H as (_ & _ & H).
    + apply NoDup_Permutation; [repeat constructor; cbn; lia|repeat constructor; cbn; lia|]. cbn. tauto.
    + apply (H 0). left. reflexivity.
Qed.

(** C33: on the multigraph built by any sequence of add_edge calls, connected_components returns the
    classes of the relation generated by the edges, and is_connected decides whether all vertices are
    in one class; both searches end (n + 1 turns per start vertex, n * n + 1 turns). *)
Theorem C33_graph_connectivity :
  forall n es, (forall i j, In (i, j) es -> i < n /\ j < n) ->
  let m := fold_left (fun m e => add_edge m (fst e) (snd e)) es (fun _ _ => 0) in
  (exists gs, connected_components (n + 1) n m = Some gs /\ classes es n gs) /\
  (0 < n -> exists b, is_connected (n * n + 1) n m = Some b /\
                      (b = true <-> forall i j, i < n -> j < n -> joined es i j)).
Proof. exact graph_queries. Qed.
Print Assumptions C33_graph_connectivity.

Example C33_graph_connectivity_ex :
  let m := fold_left (fun m e => add_edge m (fst e) (snd e)) [(3, 0); (1, 4); (4, 1)] (fun _ _ => 0) in
  connected_components 6 5 m = Some [[0; 3]; [1; 4]; [2]] /\ is_connected 26 5 m = Some false
  /\ max_degree 5 m = 2.
Proof. repeat split; reflexivity. Qed.
