From Coq Require Import Reals Lra Lia List Arith Bool.
From Verif Require Import Proofs.HonoredPoints Proofs.HonoredScan Proofs.HonoredTwice Model.Snapper Model.SpatialGrid Spec.SpatialGrid.
From Verif Require Import Model.Outcome Model.Clip Model.PointTriangle Spec.PointTriangle Model.HonoredPoints Spec.HonoredPoints.
Import ListNotations.
Local Open Scope R_scope.

(** C84: an accepted step that gives patches new faces, in the interior or along an edge, lists exactly the points that some face honored
    before it and none honors after it, and keeps boxes and cached lists coherent. *)
Theorem C84_patches : forall tols, (forall i, 0 <= tols i) -> forall scan_points scan_faces vertex_faces np nf points,
  (forall q, finds np (fun i => ball (points i) (tols i)) q (scan_points q)) -> (forall boxes q, finds nf boxes q (scan_faces boxes q)) ->
  forall s changed, coherent tols vertex_faces np nf points s -> NoDup (map fst changed) ->
  (forall fi fs, In (fi, fs) changed -> (fi < nf)%nat /\ fs <> [] /\ forall f r, In f fs -> In r (corners f) -> (np <= r)%nat -> In fi (vertex_faces r)) ->
  exists dis s', change_patches tols scan_points scan_faces s changed = Ok (dis, s') /\ coherent tols vertex_faces np nf points s' /\
    reports tols np nf s s' dis /\ h_ap s' = h_ap s /\
    (forall fi fs, In (fi, fs) changed -> h_faces s' fi = fs) /\ forall fi, ~ In fi (map fst changed) -> h_faces s' fi = h_faces s fi.
Proof. exact change_ok. Qed.
Print Assumptions C84_patches.

(** The same for a step that moves a vertex of the mesh, though only the faces at the vertex are asked; no point is listed twice. *)
Theorem C84_vertex : forall tols, (forall i, 0 <= tols i) -> forall scan_points scan_faces vertex_faces np nf points,
  (forall q, finds np (fun i => ball (points i) (tols i)) q (scan_points q)) -> (forall boxes q, finds nf boxes q (scan_faces boxes q)) ->
  (forall v, NoDup (vertex_faces v) /\ forall fi, In fi (vertex_faces v) -> (fi < nf)%nat) ->
  forall s v p, coherent tols vertex_faces np nf points s -> (np <= v)%nat ->
  (exists fi f, In fi (vertex_faces v) /\ In f (h_faces s fi) /\ In v (corners f)) ->
  exists dis s', move_vertex tols scan_points scan_faces vertex_faces s v p = Ok (dis, s') /\ coherent tols vertex_faces np nf points s' /\
    reports tols np nf s s' dis /\ NoDup dis /\ h_ap s' v = p /\ (forall r, r <> v -> h_ap s' r = h_ap s r) /\ h_faces s' = h_faces s.
Proof. exact move_ok. Qed.
Print Assumptions C84_vertex.

(** A step that is rejected may have filled caches; they stay coherent and nothing else changes. *)
Theorem C84_cache : forall tols, (forall i, 0 <= tols i) -> forall scan_points vertex_faces np nf points,
  (forall q, finds np (fun i => ball (points i) (tols i)) q (scan_points q)) ->
  forall l s, coherent tols vertex_faces np nf points s -> (forall fi, In fi l -> (fi < nf)%nat) ->
  let r := points_of_patches tols scan_points s l in
  h_ap (snd r) = h_ap s /\ h_faces (snd r) = h_faces s /\ coherent tols vertex_faces np nf points (snd r) /\
  forall i, In i (fst r) <-> (i < np)%nat /\ exists fi, In fi l /\ honored_by_patch tols s i fi = true.
Proof. exact points_of_patches_ok. Qed.
Print Assumptions C84_cache.

(** The state after construction is coherent, and asking the face grid finds whether any face honors a point. *)
Theorem C84_start : forall tols vertex_faces np nf points ap faces, (forall i, (i < np)%nat -> ap i = points i) ->
  (forall fi r, (fi < nf)%nat -> In r (corners (faces fi)) -> In fi (vertex_faces r)) -> coherent tols vertex_faces np nf points (start_patches ap faces).
Proof. exact start_ok. Qed.
Print Assumptions C84_start.
Theorem C84_mesh : forall tols, (forall i, 0 <= tols i) -> forall scan_faces vertex_faces np nf points, (forall boxes q, finds nf boxes q (scan_faces boxes q)) ->
  forall s i, coherent tols vertex_faces np nf points s -> (i < np)%nat -> honored_by_mesh tols scan_faces s i = true <-> on_mesh tols nf s i.
Proof. exact mesh_iff. Qed.
Print Assumptions C84_mesh.

(** A face honors a point just when one of its points is within the tolerance: the test of the box in front changes nothing. *)
Theorem C84_distance : forall tols ap i a b c, ap a <> ap b ->
  honored_by tols ap i (a, b, c) = true <-> exists q, in_triangle (ap a) (ap b) (ap c) q /\ dist2 (ap i) q <= tols i * tols i.
Proof. exact honored_exact. Qed.
Print Assumptions C84_distance.

(** What is asked of the queries above is what the two grids do, whatever was inserted and removed before. *)
Theorem C84_point_grid : forall rnd resolution, (forall a b, a <= b -> rnd a <= rnd b) -> 0 < resolution ->
  forall m os n boxes lo hi, same_boxes (fun _ => None) os -> Forall (op_representable rnd resolution) os ->
  representable_point rnd resolution lo -> representable_point rnd resolution hi ->
  (forall i, SpatialGrid.store (flat_map edits_of os) i = if (i <? n)%nat then Some (boxes i) else None) ->
  exists g g' out, SpatialGrid.run rnd resolution (grid_new m) os = Ok g /\
    for_each rnd resolution g lo hi (fun _ _ => true) = Ok (g', out, false) /\ finds n boxes (lo, hi) out.
Proof. exact grid_finds. Qed.
Print Assumptions C84_point_grid.
Theorem C84_face_grid : forall rnd resolution, (forall a b, a <= b -> rnd a <= rnd b) -> 0 < resolution ->
  forall m os n boxes lo hi, disciplined (fun _ => None) (flat_map fg_edits os) -> Forall (fg_representable rnd resolution) os ->
  representable_point rnd resolution lo -> representable_point rnd resolution hi ->
  (forall i, SpatialGrid.store (flat_map fg_edits os) i = if (i <? n)%nat then Some (boxes i) else None) ->
  exists f f' out, fg_run rnd resolution (fg_new m) os = Ok f /\
    fg_for_each rnd resolution f lo hi (fun _ _ => true) = Ok (f', out, false) /\ finds n boxes (lo, hi) out.
Proof. exact face_grid_finds. Qed.
Print Assumptions C84_face_grid.

(** A point on the edge of two patches that both change is listed twice. *)
Theorem C84_twice_refuted : ~ forall tols, (forall i, 0 <= tols i) -> forall scan_points scan_faces vertex_faces np nf points,
  (forall q, finds np (fun i => ball (points i) (tols i)) q (scan_points q)) -> (forall boxes q, finds nf boxes q (scan_faces boxes q)) ->
  forall s changed, coherent tols vertex_faces np nf points s -> NoDup (map fst changed) ->
  (forall fi fs, In (fi, fs) changed -> (fi < nf)%nat /\ fs <> [] /\ forall f r, In f fs -> In r (corners f) -> (np <= r)%nat -> In fi (vertex_faces r)) ->
  forall dis s', change_patches tols scan_points scan_faces s changed = Ok (dis, s') -> NoDup dis.
Proof.
  intros H. destruct listed_twice as (s' & E & _).
  assert (F2 : forall (boxes : nat -> pt * pt) q, finds 2 boxes q [0; 1]%nat).
  { intros boxes q. split; [repeat constructor; cbn; intuition discriminate|]. split; [intros i [<-|[<-|[]]]; lia|]. intros i I _. destruct i as [|[|i]]; cbn; auto. lia. }
  assert (ND : NoDup [0; 0]%nat).
  { apply (H tw_tols ltac:(intros i; unfold tw_tols; lra) (fun _ => [0; 1]%nat) (fun _ _ => [0; 1]%nat) (fun _ => [0; 1]%nat) 2%nat 2%nat tw_ap (F2 _) F2 tw_start tw_changed tw_coherent) with (s' := s'); auto.
    - repeat constructor; cbn; intuition discriminate.
    - intros fi fs [X|[X|[]]]; injection X as <- <-; (split; [lia|split; [discriminate|intros; cbn; tauto]]). }
  apply NoDup_cons_iff in ND as [N _]. apply N. left. reflexivity.
Qed.
Print Assumptions C84_twice_refuted.
(** The main loop then queues it twice and takes two from the number of times it may be queued again. *)
Theorem C84_budget : forall P A T (E : env P A T) cs of_point p ci c queue budget b, (p < Snapper.np E)%nat -> of_point p = Some ci -> nth_error cs ci = Some c ->
  budget ci = S (S b) -> exists budget', requeue E cs of_point [p; p] queue budget = Ok ((c_d2 c, ci) :: (c_d2 c, ci) :: queue, budget') /\ budget' ci = b.
Proof. exact requeued_twice. Qed.
Print Assumptions C84_budget.

(** Two triangles whose common side is raised to a point: the point that lay on the side is reported, and it was honored before. *)
Example C84_example : exists s', change_patches tw_tols (fun _ => [0; 1]%nat) (fun _ _ => [0; 1]%nat) tw_start tw_changed = Ok ([0; 0]%nat, s') /\
  coherent tw_tols (fun _ => [0; 1]%nat) 2 2 tw_ap tw_start /\ ~ on_mesh tw_tols 2 s' 0 /\ on_mesh tw_tols 2 tw_start 0.
Proof. destruct listed_twice as (s' & E & A & B). exists s'. split; [exact E|]. split; [exact tw_coherent|]. split; assumption. Qed.
