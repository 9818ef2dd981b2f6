From Coq Require Import List Arith ZArith Reals Bool Lia Lra Permutation.
From Verif Require Import Model.Outcome Model.MeshDefects Model.Solver Model.Lattice Spec.VertexClusterer Spec.Lattice
  Proofs.LatticeVertices Proofs.LatticeLayers Proofs.LatticeMesh Proofs.LatticeGeometry Proofs.LatticeSurface.
Import ListNotations.

(** C30: for every value field (NaN counts as not negative), sampling a box layer by layer, in any order
    within a layer, never throws or reads out of bounds and creates exactly one vertex for every edge between
    sampled nodes of different sign, and none elsewhere. The vertex is stored at the nearer end, where the
    field interpolated along the edge vanishes. The nodes kept are those with such an edge. *)
Theorem C30_box : forall field f layers z, (forall ys, f ys = Ok (map field ys)) -> layered z layers ->
  exists l, add_all_nodes f cleared layers = Ok (l, None) /\
    one_vertex_per_edge (fun x => In x (concat layers)) (fun x => neg (field x)) (l_vertices l) /\
    Forall (at_crossing field) (l_vertices l) /\
    forall x, l_nodes l x <> None <-> on_surface (fun x => In x (concat layers)) (fun x => neg (field x)) x.
Proof. exact box_vertices. Qed.
Print Assumptions C30_box.

(** The position used stays off both ends of the edge, and is the crossing unless that is too near an end. *)
Theorem C30_position : forall t, (0 < min_offset <= clamped t /\ clamped t <= 1 - min_offset < 1)%R /\
  (min_offset <= t <= 1 - min_offset -> clamped t = t)%R.
Proof. exact position_inside. Qed.
Print Assumptions C30_position.

(** C29: for every field, box and iteration order of the node list, the faces are found without an exception,
    have three different corners on the edges of one sampled tetrahedron, and cut every sampled tetrahedron
    along all its sign changes. Each directed side occurs once, and its reverse occurs unless a tetrahedron
    at that side has an unsampled node. *)
Theorem C29_box : forall field f layers z, (forall ys, f ys = Ok (map field ys)) -> layered z layers ->
  exists l, add_all_nodes f cleared layers = Ok (l, None) /\ forall keys, enumerates keys l ->
    exists fs, get_mesh l keys = Ok fs /\
      watertight (fun x => In x (concat layers)) (l_vertices l) fs /\
      cuts_all (fun x => In x (concat layers)) (fun x => neg (field x)) (l_vertices l) fs /\
      proper_faces (fun x => In x (concat layers)) (l_vertices l) fs.
Proof. exact box_mesh. Qed.
Print Assumptions C29_box.

(** If no sign change is in a tetrahedron with an unsampled node, the surface is closed. *)
Theorem C29_closed : forall N s vs fs, watertight N vs fs -> one_vertex_per_edge N s vs ->
  (forall S a b, simplex S -> In a S -> In b S -> crosses N s a b -> Forall N S) -> closed fs.
Proof. exact watertight_closed. Qed.
Print Assumptions C29_closed.

(** Wherever inside their edges the vertices are put, and for every frame of positive determinant, the
    normals point from the negative to the other side. *)
Theorem C29_normals : forall field f layers z l keys fs o u v w tau, (forall ys, f ys = Ok (map field ys)) -> layered z layers ->
  add_all_nodes f cleared layers = Ok (l, None) -> enumerates keys l -> get_mesh l keys = Ok fs ->
  (det3 u v w > 0)%R -> (forall i, 0 < tau i < 1)%R ->
  normals_point_out (placed o u v w) (fun x => neg (field x)) (l_vertices l) (vertex_at (placed o u v w) (l_vertices l) tau) fs.
Proof. exact box_normals. Qed.
Print Assumptions C29_normals.

(** The frame of the code (primitive_lattice.hpp:17-38; [k1], [k2] are kInvSqrt3 and kSqrt2OverSqrt3, the rows
    of the inverse anisotropy are m0, m1, m2) has a positive determinant. *)
Theorem C29_frame : forall k1 k2 res (m0 m1 m2 : R3), (0 < k1)%R -> (0 < k2)%R -> (0 < res)%R -> (det3 m0 m1 m2 > 0)%R ->
  let row (b : R3) : R3 := (let '(b0, b1, b2) := b in
    let dot (m : R3) := (let '(x, y, z) := m in res * (b0 * x + b1 * y + b2 * z))%R in (dot m0, dot m1, dot m2)) in
  (det3 (row (k1, k2, 0)) (row (- k1, 0, k2)) (row (k1, - k2, 0)) > 0)%R.
Proof. exact frame_positive. Qed.
Print Assumptions C29_frame.

(** Tracking from seeds: whatever nodes are added first, completing the surface ends, and then the reverse of
    a side is missing only where a tetrahedron at it has a node outside the region of eligible nodes. *)
Theorem C29_tracked : forall field f eligible (B : list lc) rounds fuel, (forall ys, f ys = Ok (map field ys)) ->
  (forall x, eligible x = true -> In x B) -> length B < fuel ->
  exists l1, track eligible f cleared rounds = Ok (l1, None) /\
  forall keys1, enumerates keys1 l1 -> exists l2, complete_surface fuel eligible f l1 keys1 = Ok (Some (l2, None)) /\
    (forall x, l_nodes l1 x <> None -> l_nodes l2 x <> None) /\ (forall x, l_nodes l2 x <> None -> eligible x = true) /\
  forall keys2, enumerates keys2 l2 -> exists l3 l4, generate_vertices l2 keys2 = Ok l3 /\ remove_free_nodes l3 keys2 = Ok l4 /\
    one_vertex_per_edge (fun x => l_nodes l2 x <> None) (fun x => neg (field x)) (l_vertices l4) /\
    Forall (at_crossing field) (l_vertices l4) /\
  forall keys4, enumerates keys4 l4 -> exists fs, get_mesh l4 keys4 = Ok fs /\
    watertight (fun x => eligible x = true) (l_vertices l4) fs /\
    cuts_all (fun x => eligible x = true) (fun x => neg (field x)) (l_vertices l4) fs /\
    proper_faces (fun x => eligible x = true) (l_vertices l4) fs.
Proof. exact tracked_mesh. Qed.
Print Assumptions C29_tracked.

(** C44: a call that returns a mesh leaves a cleared lattice, so the next call, and a call after clear(), give
    what they give on a new object. *)
Theorem C44_after_success : forall (M : Type) order (r r' : request M) l l' m,
  ask M order r l = Ok (l', inl m) -> ask M order r' l' = ask M order r' cleared.
Proof. exact (fun M order r r' l l' m H => f_equal (ask M order r') (success_clears M order r l l' m H)). Qed.
Print Assumptions C44_after_success.

(** After the field function has thrown, the same request without the failure puts two vertices on one edge. *)
Theorem C44_after_failure_refuted : ~ (forall field bad good layers z l1 l2,
  (forall ys, good ys = Ok (map field ys)) -> layered z layers ->
  add_all_nodes bad cleared layers = Ok (l1, Some ExRuntimeError) -> add_all_nodes good l1 layers = Ok (l2, None) ->
  one_vertex_per_edge (fun x => In x (concat layers)) (fun x => neg (field x)) (l_vertices l2)).
Proof.
  exact (fun H => match repeated_after_failure with
    | ex_intro _ l1 (ex_intro _ l2 (conj E1 (conj E2 (ex_intro _ v (ex_intro _ w (conj V (conj W (conj J K)))))))) =>
        let O := H ex_field ex_bad ex_good ex_layers 0%Z l1 l2 (fun ys => eq_refl) ex_layered E1 E2 in
        match proj2 O (0, 0, 0)%Z (1, 0, 0)%Z ex_crosses with
        | ex_intro _ i (conj _ U) => O_S 0 (eq_trans (U 0 v V J) (eq_sym (U 1 w W K)))
        end
    end).
Qed.
Print Assumptions C44_after_failure_refuted.

(** A cube of nodes with one negative corner: the seven edges at that corner carry the vertices. *)
Definition cube : list (list lc) :=
  [[(0, 0, 0); (1, 0, 0); (0, 1, 0); (1, 1, 0)]; [(0, 0, 1); (1, 0, 1); (0, 1, 1); (1, 1, 1)]]%Z.
Example C30_example : layered 0 cube /\ exists l, add_all_nodes ex_good cleared cube = Ok (l, None) /\
  exists i, exists v, nth_error (l_vertices l) i = Some v /\ joins v (0, 0, 0)%Z (1, 1, 1)%Z /\ l_nodes l (1, 1, 1)%Z <> None.
Proof.
  assert (layered 0 cube) as LA by (cbn; repeat split; auto; repeat constructor; cbn; intuition discriminate).
  split; auto. destruct (C30_box ex_field ex_good cube 0 (fun ys => eq_refl) LA) as (l & E1 & [_ O] & _ & S). exists l. split; auto.
  assert (crosses (fun x => In x (concat cube)) (fun x => neg (ex_field x)) (0, 0, 0)%Z (1, 1, 1)%Z) as C.
  { split; [cbn; tauto|]. split; [cbn; tauto|]. split.
    - exists (1, 1, 1)%Z. split; [cbn; unfold bit; intuition discriminate|left; reflexivity].
    - unfold ex_field. cbn -[neg]. rewrite neg_minus, neg_one. discriminate. }
  destruct (O _ _ C) as (i & (v & V & J) & _). exists i, v. split; auto. split; auto. apply S. exists (0, 0, 0)%Z.
  destruct C as (A & B & (d & D1 & D2) & N). split; [auto|]. split; [auto|]. split; [|auto]. exists d. tauto.
Qed.

(** The corner is cut off: there is a face, and it has three different corners. *)
Example C29_example : exists l, add_all_nodes ex_good cleared cube = Ok (l, None) /\
  forall keys, enumerates keys l -> exists fs f, get_mesh l keys = Ok fs /\ In f fs /\ distinct3 f.
Proof.
  destruct C30_example as (LA & l & E1 & i & v & V & J & _).
  destruct (C29_box ex_field ex_good cube 0 (fun ys => eq_refl) LA) as (l' & E2 & G). rewrite E1 in E2. injection E2 as <-.
  exists l. split; auto. intros keys K. destruct (G keys K) as (fs & E4 & _ & C & P). exists fs.
  destruct (C [(0, 0, 0); (1, 0, 0); (1, 1, 0); (1, 1, 1)]%Z i) as (f & F & _).
  - exists (0, 0, 0)%Z, (1, 0, 0)%Z, (0, 1, 0)%Z, (0, 0, 1)%Z. split; [apply Permutation_refl|reflexivity].
  - apply Forall_forall. cbn. intros x [<-|[<-|[<-|[<-|[]]]]]; tauto.
  - exists v. split; auto. destruct J as [J|J]; rewrite J; cbn; auto 8.
  - exists f. split; auto. split; auto. apply (P f F).
Qed.

(** The same with the failure: two vertices on one edge. *)
Example C44_example : exists l1 l2, add_all_nodes ex_bad cleared ex_layers = Ok (l1, Some ExRuntimeError) /\
  add_all_nodes ex_good l1 ex_layers = Ok (l2, None) /\ 2 <= length (l_vertices l2).
Proof.
  destruct repeated_after_failure as (l1 & l2 & E1 & E2 & v & w & V & W & _). exists l1, l2. split; auto. split; auto.
  apply (nth_error_Some (l_vertices l2) 1). congruence.
Qed.
