From Coq Require Import Sorted List Arith Bool Lia.
From Verif Require Import Model.Outcome Model.MeshDefects Model.AbstractMesh
  Spec.VertexClusterer Spec.AbstractMesh Proofs.MeshDefects Proofs.AbstractMesh Proofs.MeshEditing Proofs.MeshHistory.
Import ListNotations.

(** C32: building the halfedge structure from proper triangles throws exactly when two sides run along
    an edge in the same direction, and is consistent otherwise. *)
Theorem C32_construct : forall fs : list face, Forall distinct3 fs ->
  match construct fs with
  | Ok m => consistent m /\ take_faces m = fs /\ ~ clash (fun i => nth i fs (0, 0, 0)) (fun i => i < length fs)
  | Throw e => e = ExRuntimeError /\ clash (fun i => nth i fs (0, 0, 0)) (fun i => i < length fs)
  | UB => False
  end.
Proof. exact construct_spec. Qed.
Print Assumptions C32_construct.

(** Every history of allowed operations keeps the structure consistent, and an allowed operation can
    only fail by the manifold check. *)
Theorem C32_history : forall m m', consistent m -> reaches m m' -> consistent m' /\
  forall o, allowed m' o -> match perform m' o with Ok _ => True | Throw e => e = ExRuntimeError | UB => False end.
Proof. intros m m' C H. pose proof (history_consistent m m' C H) as C'. split; [exact C'|]. intros o. exact (perform_safe m' o C'). Qed.
Print Assumptions C32_history.

Theorem C32_empty : forall capacity, consistent (empty capacity).
Proof. exact empty_consistent. Qed.
Print Assumptions C32_empty.

Theorem C32_opposite_involution : forall m g h, consistent m -> m_opp m g = Some h -> m_opp m h = Some g.
Proof. exact opposite_involution. Qed.
Print Assumptions C32_opposite_involution.

(** What each operation does. *)
Theorem C32_add_face : forall m f, consistent m -> allowed m (AddFace f) ->
  match add_face m f with
  | Ok m' => consistent m' /\ m_nf m' = S (m_nf m) /\ m_face m' = upd (m_face m) (m_nf m) f /\
             (forall fi, live m' fi <-> live m fi \/ fi = m_nf m)
  | Throw e => e = ExRuntimeError /\ exists a b, In (a, b) (sides f) /\ has_side m a b
  | UB => False
  end.
Proof. exact add_face_spec. Qed.
Print Assumptions C32_add_face.

(** A flip replaces the two faces of the edge and fails exactly when the other diagonal is an
    edge already or the faces are a fold. *)
Theorem C32_flip : forall m g h a b c d, consistent m ->
  (side (live m) g /\ side (live m) h /\ tail (m_face m) g = a /\ head (m_face m) g = b /\
   tail (m_face m) h = b /\ head (m_face m) h = a /\ third (m_face m) g = c /\ third (m_face m) h = d) ->
  fst g <> fst h /\
  match flip m a b with
  | Ok m' => consistent m' /\ m_nf m' = m_nf m /\ (forall fi, live m' fi <-> live m fi) /\
             m_face m' = upd (upd (m_face m) (fst g) (c, a, d)) (fst h) (d, b, c) /\ c <> d /\ ~ has_side m c d /\ ~ has_side m d c
  | Throw e => e = ExRuntimeError /\ (c = d \/ has_side m c d \/ has_side m d c)
  | UB => False
  end.
Proof. exact flip_spec. Qed.
Print Assumptions C32_flip.

Theorem C32_insert_in_face : forall m fi v, consistent m -> allowed m (InsertInFace fi v) ->
  let f := m_face m fi in
  exists m', insert_in_face m fi v = Ok m' /\ consistent m' /\ m_nf m' = m_nf m + 2 /\
    (forall x, live m' x <-> live m x \/ x = m_nf m \/ x = S (m_nf m)) /\
    m_face m' = upd (upd (upd (m_face m) fi (corner f 0, corner f 1, v)) (m_nf m) (corner f 1, corner f 2, v))
                    (S (m_nf m)) (corner f 2, corner f 0, v).
Proof. exact insert_in_face_spec. Qed.
Print Assumptions C32_insert_in_face.

(** Splitting an edge fails exactly when its two faces are a fold, although the new vertex is unused. *)
Theorem C32_insert_on_edge : forall m a b v, consistent m -> allowed m (InsertOnEdge a b v) ->
  match insert_on_edge m a b v with
  | Ok m' => split_result m m' a b v /\ ~ folded m a b
  | Throw e => e = ExRuntimeError /\ folded m a b
  | UB => False
  end.
Proof. exact insert_on_edge_spec. Qed.
Print Assumptions C32_insert_on_edge.

(** A collapse removes the faces on the edge, renames the dropped vertex in the others, and fails
    exactly when that makes two sides clash. *)
Theorem C32_collapse : forall m h, consistent m -> side (live m) h ->
  let a := tail (m_face m) h in let b := head (m_face m) h in
  let fc := fun fi => retarget (m_face m fi) a b in
  let rest := fun fi => live m fi /\ ~ (has_corner (m_face m fi) a /\ has_corner (m_face m fi) b) in
  match collapse m h with
  | Ok (m', moved) => consistent m' /\ m_nf m' = m_nf m /\ (forall fi, live m' fi <-> rest fi) /\
      (forall fi, rest fi -> m_face m' fi = fc fi) /\ NoDup moved /\
      (forall fi, In fi moved <-> live m fi /\ has_corner (m_face m fi) a /\ ~ has_corner (m_face m fi) b)
  | Throw e => e = ExRuntimeError /\ clash fc rest
  | UB => False
  end.
Proof. exact collapse_spec. Qed.
Print Assumptions C32_collapse.

(** The faces handed back are the live ones, in order. *)
Theorem C32_take_faces : forall m, exists is, StronglySorted lt is /\ (forall fi, In fi is <-> live m fi) /\
  take_faces m = map (m_face m) is.
Proof. exact take_faces_spec. Qed.
Print Assumptions C32_take_faces.

(** Without the requirement that faces are proper triangles the structure is wrong silently. *)
Theorem C32_degenerate_face_refuted : exists fs m g h, construct fs = Ok m /\
  side (live m) g /\ side (live m) h /\ tail (m_face m) g = head (m_face m) h /\ head (m_face m) g = tail (m_face m) h /\
  m_opp m g = None.
Proof.
  exists [(0, 1, 0)]. eexists. exists (0, 0), (0, 1). split; [vm_compute; reflexivity|].
  repeat split; vm_compute; auto.
Qed.
Print Assumptions C32_degenerate_face_refuted.

(** A square flipped, split and collapsed. *)
Example C32_example :
  match construct [(0, 1, 2); (0, 2, 3)] with
  | Ok m => match flip m 0 2 with
            | Ok m' => take_faces m' = [(3, 0, 1); (1, 2, 3)] \/ take_faces m' = [(1, 2, 3); (3, 0, 1)]
            | _ => False
            end
  | _ => False
  end.
Proof. vm_compute. auto. Qed.

Example C32_example_history : exists m1 m2 m3, reaches (empty 6) m3 /\
  add_face (empty 6) (0, 1, 2) = Ok m1 /\ insert_in_face m1 0 3 = Ok m2 /\ insert_on_edge m2 0 1 4 = Ok m3 /\
  take_faces m3 = [(0, 4, 3); (1, 2, 3); (2, 0, 3); (4, 1, 3)].
Proof.
  eexists _, _, _. split; [|split; [vm_compute; reflexivity|split; [vm_compute; reflexivity|split; [vm_compute; reflexivity|vm_compute; reflexivity]]]].
  eapply (RStep _ (AddFace (0, 1, 2))); [cbn; lia|vm_compute; reflexivity|].
  eapply (RStep _ (InsertInFace 0 3)); [|vm_compute; reflexivity|].
  { split; [vm_compute; auto|]. split; [|cbn; lia]. intros fi [L _] H. cbn in L. assert (fi = 0) as -> by lia. cbn in H. lia. }
  eapply (RStep _ (InsertOnEdge 0 1 4)); [|vm_compute; reflexivity|apply RRefl].
  split; [lia|]. split; [|cbn; lia]. intros fi [L _] H. cbn in L.
  assert (fi = 0 \/ fi = 1 \/ fi = 2) as [->|[->| ->]] by lia; cbn in H; lia.
Qed.

(** Two faces on the same three vertices cannot be flipped. *)
Example C32_example_fold : match construct [(0, 1, 2); (1, 0, 2)] with Ok m => flip m 0 1 = Throw ExRuntimeError | _ => False end.
Proof. vm_compute. auto. Qed.

(** The manifold check. *)
Example C32_example_clash : construct [(0, 1, 2); (0, 1, 3)] = Throw ExRuntimeError.
Proof. vm_compute. auto. Qed.

(** Collapsing a spoke of a fan of four faces moves the two faces off the spoke. *)
Example C32_example_collapse :
  match construct [(0, 1, 4); (1, 2, 4); (2, 3, 4); (3, 0, 4)] with
  | Ok m => match collapse m (0, 2) with
            | Ok (m', moved) => moved = [2; 1] \/ moved = [1; 2]
            | _ => False
            end
  | _ => False
  end.
Proof. vm_compute. auto. Qed.
