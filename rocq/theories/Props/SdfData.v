From Coq Require Import Reals List Arith Lia Lra.
From Verif Require Import Model.Outcome Model.LinAlg Model.NormalEstimator Model.SdfData Spec.SdfData Proofs.SdfData.
Import ListNotations.
Local Open Scope R_scope.

(** C38: with unit normals and distinct points the input points come first with the value 0, then one point inside and one outside for every
    normal, on it at the signed distance given as value, nearest to its own row, no farther than the first distance and not moved closer than
    0.495 times the distance of another row; the loop needs fewer passes than there are points. *)
Theorem C38_data : forall n_points points normals nearest knn offset fuel, (0 < offset \/ (2 <= n_points)%nat) ->
  nearest_row n_points points nearest -> knn_rows n_points points knn -> distinct n_points points -> unit_or_none n_points normals -> (n_points <= S fuel)%nat ->
  exists data most, estimate_impl n_points points normals nearest knn offset fuel = Ok (Value data) /\ first_distance n_points knn offset most /\ data_ok n_points points normals most data.
Proof. exact direct_spec. Qed.
Print Assumptions C38_data.

(** C38: an anisotropy near the identity is ignored. *)
Theorem C38_identity : forall n_points points normals nearest knn offset aniso inverse fuel, 0 < det3 aniso -> is_identity aniso = true ->
  sdf_data n_points n_points points normals nearest knn offset aniso inverse fuel = estimate_impl n_points points normals (nearest points) (knn points) offset fuel.
Proof. exact identity_spec. Qed.
Print Assumptions C38_identity.

(** C38: otherwise the same holds in the transformed space, for any normals, and the first rows are the input points again. *)
Theorem C38_aniso : forall n_points points normals nearest knn offset aniso inverse fuel, (0 < offset \/ (2 <= n_points)%nat) -> 0 < det3 aniso -> is_identity aniso = false -> inverse_of inverse aniso ->
  let a_points := fun i => apply aniso (points i) in
  let a_normals := fun i => transformed_normal inverse (normals i) in
  nearest_row n_points a_points (nearest a_points) -> knn_rows n_points a_points (knn a_points) -> distinct n_points points -> (n_points <= S fuel)%nat ->
  exists data a_data most, sdf_data n_points n_points points normals nearest knn offset aniso inverse fuel = Ok (Value data) /\
  data = map (fun x => (apply inverse (fst x), snd x)) a_data /\ first_distance n_points (knn a_points) offset most /\ data_ok n_points a_points a_normals most a_data /\
  unit_or_none n_points a_normals /\
  (forall i, (i < n_points)%nat -> snd (nth i data (zero3, 1)) = 0 /\ forall e, (e < 3)%nat -> fst (nth i data (zero3, 1)) e = points i e).
Proof. exact aniso_spec. Qed.
Print Assumptions C38_aniso.

(** C38: what is refused. *)
Theorem C38_refuses : forall n_points n_normals points normals nearest knn offset aniso inverse fuel, n_normals <> n_points \/ det3 aniso <= 0 ->
  sdf_data n_points n_normals points normals nearest knn offset aniso inverse fuel = Throw ExInvalidArgument.
Proof. exact refuses. Qed.
Print Assumptions C38_refuses.

(** C38: normals of length two, not normalized without anisotropy, make the loop endless. *)
Theorem C38_long_normals_refuted : nearest_row 2 two nearer /\ distinct 2 two /\ forall fuel, shrink two (fun _ => axis 2) nearer fuel 0 1 1 = NoFuel.
Proof. exact long_normals. Qed.
Print Assumptions C38_long_normals_refuted.

(** C38: of two coincident points one gets a distance that is not a number. *)
Theorem C38_coincident_refuted : forall nearest fuel, (forall q, nearest q = 1%nat) -> nearest_row 2 (fun _ => axis 0) nearest /\
  shrink (fun _ => axis 0) (fun _ => axis 1) nearest (S fuel) 0 1 1 = NotFinite.
Proof. exact coincident. Qed.
Print Assumptions C38_coincident_refuted.

(** C38: a single point without an offset comes three times with the value zero. *)
Theorem C38_single_refuted : forall p nearest, nearest_row 1 (fun _ => p) nearest -> let knn := fun (_ _ : nat) => [0] in
  exists data, estimate_impl 1 (fun _ => p) (fun _ => axis 1) nearest knn 0 0 = Ok (Value data) /\ length data = 3%nat /\ forall x, In x data -> snd x = 0 /\ forall e, fst x e = p e.
Proof. exact single. Qed.
Print Assumptions C38_single_refuted.

(** Two points one unit apart: the outside point asked for at the distance 1 would be the other point and is moved to 0.495. *)
Example C38_two : nearest_row 2 two nearer /\ distinct 2 two /\ unit_or_none 2 (fun _ => axis 1) /\ shrink two (fun _ => axis 1) nearer 1 0 1 1 = Value (99 / 100 * (1 / 2) / 1).
Proof.
  split; [exact nearer_ok|]. split; [exact two_distinct|]. split; [intros i I; right; rewrite norm_axis; apply Rabs_R1|].
  cbn [shrink two]. rewrite !along_axis.
  assert (nearer (axis (0 + 1 * 1 * 1)) = 1%nat) as ->.
  { unfold nearer. rewrite !dist_axis. destruct (Rle_dec _ _) as [|N]; auto. exfalso. apply N. rewrite (Rabs_right (0 + 1 * 1 * 1 - 0)) by lra. apply Rabs_le. lra. }
  cbn [Nat.eqb two]. rewrite !sub_axis. rewrite !normalized_axis by lra. assert (dot 3 (axis 1) (axis 1) = 1) as -> by (rewrite dot3; unfold axis; cbn [Nat.eqb]; ring).
  destruct (Req_EM_T 1 0); [lra|]. rewrite norm_axis. assert (Rabs (1 - 0) = 1) as -> by (rewrite Rabs_right; lra).
  assert (nearer (axis (0 + 1 * (99 / 100 * (1 / 2) / 1) * 1)) = 0%nat) as ->; [|reflexivity].
  unfold nearer. rewrite !dist_axis. destruct (Rle_dec _ _) as [N|]; auto. exfalso. rewrite (Rabs_left (0 + 1 * (99 / 100 * (1 / 2) / 1) * 1 - 1)) in N by lra. rewrite Rabs_right in N by lra. lra.
Qed.
