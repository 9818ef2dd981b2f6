From Coq Require Import Reals List Arith Lia Lra Bool.
From Verif Require Import Proofs.FieldFunctions Model.Outcome Model.Clip Model.PointTriangle Model.Predicates Spec.PointTriangle Model.FieldFunctions Spec.FieldFunctions.
Import ListNotations.
Local Open Scope R_scope.

(** C66. A 2.5-dimensional field has a value per point that is negative below the graph of the interpolant, zero on it and positive above. *)
Theorem C66_graph : forall f ps, length (field_25d f ps) = length ps /\
  forall i p, nth_error ps i = Some p -> exists v, nth_error (field_25d f ps) i = Some v /\
  (v < 0 <-> pz p < f (flat p)) /\ (v = 0 <-> pz p = f (flat p)) /\ (0 < v <-> f (flat p) < pz p).
Proof. exact graph. Qed.
Print Assumptions C66_graph.
Example C66_graph_ex : field_25d (fun q => fst q) [(1, 0, 3); (2, 5, 2)] = [3 - 1; 2 - 2].
Proof. reflexivity. Qed.

(** Points of the box are over the box handed to the interpolant. *)
Theorem C66_box : forall lo hi p, in_box lo hi p -> let b := bbox_25d lo hi in
  fst (fst b) <= fst (flat p) <= fst (snd b) /\ snd (fst b) <= snd (flat p) <= snd (snd b).
Proof. exact box_25d. Qed.
Print Assumptions C66_box.
Example C66_box_ex : in_box (0, 0, 0) (1, 1, 1) (/ 2, 1, 0). Proof. unfold in_box, px, py, pz. cbn. lra. Qed.

(** The boundary of an oriented mesh is the set of its directed edges whose opposites are not in the mesh. *)
Theorem C66_boundary : forall faces, oriented faces -> forall h, In h (boundary faces) <->
  In h (flat_map halfedges faces) /\ ~ In (opposite h) (flat_map halfedges faces).
Proof. exact boundary_iff. Qed.
Print Assumptions C66_boundary.
Example C66_boundary_ex : boundary [(0, 1, 2); (2, 1, 3)]%nat = [(3, 2); (1, 3); (2, 0); (0, 1)]%nat.
Proof. reflexivity. Qed.

(** The closest point counts as on the boundary if it is near an edge of its face that is in the boundary, or near a corner that is. *)
Theorem C66_edge : forall s a b c la lb lc, let near := fun x => Rabs x < / 10 ^ 10 in let corner := fun v => In v (boundary_vertices s) in
  at_boundary s (a, b, c) (la, lb, lc) = true <->
  (near lc /\ In (a, b) s) \/ (near la /\ In (b, c) s) \/ (near lb /\ In (c, a) s) \/
  (near (1 - la) /\ corner a) \/ (near (1 - lb) /\ corner b) \/ (near (1 - lc) /\ corner c).
Proof. exact edge_test. Qed.
Print Assumptions C66_edge.
Example C66_edge_ex : at_boundary [(0, 1); (1, 2)]%nat (0, 1, 2)%nat (/ 2, / 2, 0) = true /\ at_boundary [(0, 1); (1, 2)]%nat (0, 1, 2)%nat (/ 2, 0, / 2) = false.
Proof.
  assert (P : 0 < / 10 ^ 10) by (apply Rinv_0_lt_compat; apply pow_lt; lra).
  assert (Q : / 10 ^ 10 < / 10). { apply Rinv_lt_contravar; [apply Rmult_lt_0_compat; [lra|apply pow_lt; lra]|]. cbn [pow]. lra. }
  assert (H : / 10 ^ 10 < Rabs (/ 2)) by (rewrite Rabs_pos_eq; lra).
  split.
  - apply C66_edge. left. rewrite Rabs_R0. split; [exact P|left; reflexivity].
  - apply not_true_is_false. intros E. apply C66_edge in E. cbn [boundary_vertices flat_map fst snd app In] in E.
    destruct E as [[N _]|[[N _]|[[_ I]|[[N _]|[[N _]|[N _]]]]]].
    + apply (Rlt_asym _ _ H N).
    + apply (Rlt_asym _ _ H N).
    + destruct I as [I|[I|[]]]; discriminate I.
    + replace (1 - / 2) with (/ 2) in N by lra. apply (Rlt_asym _ _ H N).
    + replace (1 - 0) with 1 in N by lra. rewrite Rabs_R1 in N. lra.
    + replace (1 - / 2) with (/ 2) in N by lra. apply (Rlt_asym _ _ H N).
Qed.

(** If an edge has three faces, it depends on their order. *)
Theorem C66_order_refuted : exists faces faces' : list face, (forall f, In f faces <-> In f faces') /\ length faces = length faces' /\
  boundary_vertices (boundary faces) <> [] /\ In (0, 1)%nat (boundary faces) /\ ~ In (0, 1)%nat (boundary faces') /\ ~ In (1, 0)%nat (boundary faces').
Proof. exact order_matters. Qed.
Print Assumptions C66_order_refuted.

(** The value is at most the distance to the mesh, equal to it unless the closest point is at the boundary, and has the sign of the side of
    the face on which the point is. *)
Theorem C66_distance : forall z vertices faces bary closest p d2 fi q, closest p = (d2, fi, q) -> closest_on vertices faces p d2 fi q ->
  exists f a b c d, nth_error faces fi = Some f /\ corners vertices f a b c /\ signed_distance z vertices faces bary closest p = Ok (q, d) /\
  Rabs d <= sqrt d2 /\ (at_boundary (boundary faces) f (bary q a b c) = false -> Rabs d = sqrt d2) /\
  let h := dot3 (cross (sub3 b a) (sub3 c a)) (sub3 p a) in (0 < h -> 0 < d) /\ (h < 0 -> d < 0).
Proof. exact sdf_distance. Qed.
Print Assumptions C66_distance.

(** Of a closed mesh it is the distance, up to the sign. *)
Theorem C66_closed : forall z vertices faces bary closest p d2 fi q, oriented faces ->
  (forall h, In h (flat_map halfedges faces) -> In (opposite h) (flat_map halfedges faces)) ->
  closest p = (d2, fi, q) -> closest_on vertices faces p d2 fi q ->
  exists d, signed_distance z vertices faces bary closest p = Ok (q, d) /\ Rabs d = sqrt d2.
Proof. exact sdf_closed. Qed.
Print Assumptions C66_closed.
Example C66_closed_ex : oriented tetra_faces /\ (forall h, In h (flat_map halfedges tetra_faces) -> In (opposite h) (flat_map halfedges tetra_faces)) /\
  closest_on tetra_vertices tetra_faces (-1, 0, -1) (-1 * -1 + -1 * -1) 0 (0, 0, 0).
Proof. split; [exact tetra_oriented|]. split; [exact tetra_closed|]. apply tetra_closest; try lra; lia. Qed.

(** If the closest point is inside a face, the value is the distance to its plane, whether or not the face is at the boundary. *)
Theorem C66_inner : forall z vertices faces bary closest p d2 fi q f a b c u v w, closest p = (d2, fi, q) -> nth_error faces fi = Some f -> corners vertices f a b c ->
  nearest p a b c q d2 -> 0 < u -> 0 < v -> 0 < w -> u + v + w = 1 -> q = add3 (scale3 u a) (add3 (scale3 v b) (scale3 w c)) -> 0 < norm2 (cross (sub3 b a) (sub3 c a)) ->
  signed_distance z vertices faces bary closest p = Ok (q, dot3 (normalized (cross (sub3 b a) (sub3 c a))) (sub3 p a)) /\
  Rabs (dot3 (normalized (cross (sub3 b a) (sub3 c a))) (sub3 p a)) = sqrt d2.
Proof.
  intros z vertices faces bary closest p d2 fi q f a b c u v w E F C N U V W S1 Q ND.
  exact (conj (sdf_inner z vertices faces bary closest p d2 fi q f a b c u v w E F C N U V W S1 Q ND) (inner_agree p a b c q d2 u v w N U V W S1 Q ND)).
Qed.
Print Assumptions C66_inner.
Example C66_inner_ex : 0 < norm2 (cross (sub3 (3, 0, 0) (0, 0, 0)) (sub3 (0, 3, 0) (0, 0, 0))) /\ nearest (1, 1, 2) (0, 0, 0) (3, 0, 0) (0, 3, 0) (1, 1, 0) 4.
Proof.
  split; [unfold norm2, cross, dot3, sub3, px, py, pz; cbn; lra|]. split; [|split].
  - exists (/ 3), (/ 3), (/ 3). unfold px, py, pz. cbn [fst snd]. repeat split; lra.
  - unfold dist2, px, py, pz. cbn [fst snd]. ring.
  - intros [[x y] z] (u & v & w & _ & _ & _ & _ & _ & _ & Z). unfold dist2, px, py, pz in *. cbn [fst snd] in *. replace z with 0 by lra. pose proof (Rle_0_sqr (1 - x)). pose proof (Rle_0_sqr (1 - y)). unfold Rsqr in *. lra.
Qed.

(** At an edge the sign depends on the face that the search reports: a point outside a closed mesh can get either. *)
Theorem C66_sign_refuted : exists vertices faces p q d2, oriented faces /\ boundary faces = [] /\ (forall v, In v vertices -> px p < px v) /\
  (forall fi, (fi < 2)%nat -> closest_on vertices faces p d2 fi q) /\ 0 < d2 /\
  forall z bary, signed_distance z vertices faces bary (fun _ => (d2, 0%nat, q)) p = Ok (q, sqrt d2) /\
                 signed_distance z vertices faces bary (fun _ => (d2, 1%nat, q)) p = Ok (q, - sqrt d2).
Proof.
  exists tetra_vertices, tetra_faces, (-1, 0, - / 2), (0, 0, 0), (5 / 4). split; [exact tetra_oriented|]. split; [reflexivity|].
  destruct tetra_sign as (A & B & C). split; [exact A|]. split; [exact B|]. split; [lra|exact C].
Qed.
Print Assumptions C66_sign_refuted.

(** A function that satisfies the constraints puts every point on its side of the offset surface. *)
Theorem C66_sides : forall (sdf : pt -> outcome (pt * R)) f p q d side, sdf p = Ok (q, d) -> satisfies (constraint side d) (f q) ->
  exists v, offset_field sdf f p = Ok v /\ (side = None -> v = 0) /\
    forall s, side = Some s -> (s < 0 -> v <= 0) /\ (0 < s -> 0 <= v) /\ (s = 0 -> v = 0).
Proof. exact offset_sides. Qed.
Print Assumptions C66_sides.
Example C66_sides_ex : satisfies (constraint (Some (-1)) 2) 3 /\ satisfies (constraint None 2) 2.
Proof. unfold constraint, ltb. destruct (Rlt_dec (-1) 0); [|lra]. repeat split; intros x X; try discriminate; injection X; intros; lra. Qed.

(** Two points over the same point of the mesh can contradict each other: no function satisfies both constraints. *)
Theorem C66_conflict_refuted : exists vertices faces, oriented faces /\ boundary faces = [] /\
  forall z bary closest f, closest (-1, 0, 0) = (1, 0%nat, (0, 0, 0)) -> closest (-2, 0, 0) = (4, 0%nat, (0, 0, 0)) ->
  closest_on vertices faces (-1, 0, 0) 1 0 (0, 0, 0) /\ closest_on vertices faces (-2, 0, 0) 4 0 (0, 0, 0) /\
  ~ (forall p, In p [(-1, 0, 0); (-2, 0, 0)] -> exists q d, signed_distance z vertices faces bary closest p = Ok (q, d) /\ satisfies (constraint None d) (f q)).
Proof. exists tetra_vertices, tetra_faces. split; [exact tetra_oriented|]. split; [reflexivity|exact tetra_conflict]. Qed.
Print Assumptions C66_conflict_refuted.

(** The closest point of a point of the box may be outside the box for which the interpolant is prepared. *)
Theorem C66_outside_refuted : let box := ((0, 0, 0), (1, 1, 1)) in let centers := ((0, 0, 0), (0, 0, 0)) in let p := (1, 0, 0) in let q := (2, 0, 0) in
  exists vertices faces, in_box (fst box) (snd box) p /\ closest_on vertices faces p 1 0 q /\
  ~ in_box (fst (evaluation_box box centers)) (snd (evaluation_box box centers)) q.
Proof. exact box_left. Qed.
Print Assumptions C66_outside_refuted.
