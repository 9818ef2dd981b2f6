From Coq Require Import Reals List Arith ZArith Lia Lra.
From Verif Require Import Model.Outcome Model.LinAlg Model.NormalEstimator Spec.NormalEstimator Proofs.LinAlg Proofs.NormalEstimator Proofs.NormalOrientation.
Import ListNotations.
Local Open Scope R_scope.

(** C37: toward a direction, every normal is kept or negated and then does not point away from it. *)
Theorem C37_direction : forall d s i, kept_or_negated (normals (orient_toward_direction d s) i) (normals s i) /\
  0 <= dot 3 (normals (orient_toward_direction d s) i) d /\ (normals s i = zero3 -> normals (orient_toward_direction d s) i = zero3) /\
  (0 <= dot 3 (normals s i) d -> normals (orient_toward_direction d s) i = normals s i).
Proof. exact direction_spec. Qed.
Print Assumptions C37_direction.

(** C37: the same toward a point. *)
Theorem C37_point : forall points q s i, let v := fun e => q e - points i e in
  kept_or_negated (normals (orient_toward_point points q s) i) (normals s i) /\
  0 <= dot 3 (normals (orient_toward_point points q s) i) v /\ (normals s i = zero3 -> normals (orient_toward_point points q s) i = zero3) /\
  (0 <= dot 3 (normals s i) v -> normals (orient_toward_point points q s) i = normals s i).
Proof. exact point_spec. Qed.
Print Assumptions C37_point.

(** C37: exactly the normals below the threshold become zero. *)
Theorem C37_filter : forall t s i, (factors s i < t -> normals (filter_by_plane_factor t s) i = zero3) /\
  (t <= factors s i -> normals (filter_by_plane_factor t s) i = normals s i).
Proof. exact filter_spec. Qed.
Print Assumptions C37_filter.

(** C37: every row takes the best plane among those of its k nearest rows, for all the k given. *)
Theorem C37_knn : forall n_points plane nearest ks, (forall i k, length (nearest i k) = k) -> ks <> [] -> (forall k, In k ks -> (3 <= k)%Z) -> (3 <= n_points)%nat ->
  exists s, estimate_with_knn n_points plane nearest ks = Ok s /\
  forall i, (i < n_points)%nat ->
    best_scale (map (fun k => plane (firstn (min (Z.to_nat k) n_points) (nearest i (min (Z.to_nat (fold_right Z.max 0%Z ks)) n_points)))) ks) (factors s i, normals s i).
Proof. exact knn_spec. Qed.
Print Assumptions C37_knn.

(** C37: with fewer than three points all the normals are zero. *)
Theorem C37_knn_few : forall n_points plane nearest ks, ks <> [] -> (forall k, In k ks -> (3 <= k)%Z) -> (n_points < 3)%nat ->
  estimate_with_knn n_points plane nearest ks = Ok {| normals := fun _ => zero3; factors := fun _ => 0 |}.
Proof. exact knn_few. Qed.
Print Assumptions C37_knn_few.

(** C37: the same with radii, if every ball used has three rows or more. *)
Theorem C37_radius : forall n_points plane within count radii, radii <> [] -> (forall r, In r radii -> 0 < r) ->
  (forall i r r', r <= r' -> (count i r <= count i r')%nat) -> (forall i r, r <= largest radii -> (count i r <= length (within i (largest radii)))%nat) ->
  (forall i r, (i < n_points)%nat -> In r radii -> (3 <= length (within i (largest radii)))%nat -> (3 <= count i r)%nat) ->
  exists s, estimate_with_radius n_points plane within count radii = Ok s /\
  forall i, (i < n_points)%nat ->
    ((length (within i (largest radii)) < 3)%nat -> factors s i = 0 /\ normals s i = zero3) /\
    ((3 <= length (within i (largest radii)))%nat -> best_scale (map (fun r => plane (firstn (count i r) (within i (largest radii)))) radii) (factors s i, normals s i)).
Proof. exact radius_spec. Qed.
Print Assumptions C37_radius.

(** C37: a second, smaller ball with fewer than three rows is not guarded: the third singular value is read past the end. *)
Theorem C37_radius_refuted : forall n_points plane within count r1 r2, (0 < n_points)%nat -> 0 < r2 -> r2 < r1 ->
  (3 <= length (within 0%nat r1))%nat -> (length (within 0%nat r1) <= count 0%nat r1)%nat -> (count 0%nat r2 < 3)%nat ->
  estimate_with_radius n_points plane within count [r1; r2] = UB.
Proof. exact radius_few. Qed.
Print Assumptions C37_radius_refuted.

(** C37: whatever the order of the queue, orienting a closed surface only keeps or negates normals; the rows with a normal are split into components, each
    grown from neighbour to neighbour without two linked normals pointing against each other, facing up at its highest point, and complete. *)
Theorem C37_closed : forall n_points points near pop given, (forall i next, In next (near i) -> (next < n_points)%nat) ->
  forall rounds fuel s s' components, given = normals s -> orient_closed_surface n_points points near pop rounds fuel s = Some (s', components) ->
  oriented n_points points near given (normals s') components /\ factors s' = factors s.
Proof. exact closed_spec. Qed.
Print Assumptions C37_closed.

(** C37: it ends within this many steps. *)
Theorem C37_closed_ends : forall n_points points near pop, (forall i next, In next (near i) -> (next < n_points)%nat) -> forall most, (forall i, (length (near i) <= most)%nat) ->
  forall s, exists s' components, orient_closed_surface n_points points near pop n_points ((most + 1) * (n_points + 1)) s = Some (s', components).
Proof. exact closed_ends. Qed.
Print Assumptions C37_closed_ends.

(** Two points above each other with opposite normals and one far below facing down: two components, all normals up in the end. *)
Example C37_three : let points := fun i e => if Nat.eqb e 2 then match i with 0%nat => 0 | 1%nat => 1 | _ => -100 end else 0 in
  let near := fun i => match i with 0%nat | 1%nat => [0; 1]%nat | _ => [2]%nat end in
  let s := {| normals := fun i e => if Nat.eqb e 2 then match i with 0%nat => 1 | _ => -1 end else 0; factors := fun _ => 1 |} in
  exists s', orient_closed_surface 3 points near (fun _ => 0%nat) 3 20 s = Some (s', [[0; 1]; [2]]%nat) /\ forall i, (i < 3)%nat -> normals s' i 2%nat = 1.
Proof.
  intros points near s.
  assert (forall i, is_zero (normals s i) = false) as NZ.
  { intros i. unfold is_zero. destruct (Rle_dec (Rabs (normals s i 2%nat)) (/ 10 ^ 12)) as [L|L]; [|destruct (Rle_dec _ _); auto; destruct (Rle_dec _ _); auto].
    exfalso. assert (/ 10 ^ 12 < 1) by (rewrite <- Rinv_1; apply Rinv_lt_contravar; lra). destruct i; cbn in L; [rewrite Rabs_R1 in L|rewrite Rabs_left in L by lra]; lra. }
  assert (dot 3 (normals s 1%nat) (normals s 0%nat) = -1) as D10 by (unfold dot; cbn; ring).
  set (t1 := turn (normals s) 1%nat).
  assert (forall f t nrm ori comp p c rest, spread near (fun _ => 0%nat) (S f) t nrm ori comp ((p, c) :: rest) =
    if ori c then spread near (fun _ => 0%nat) f (S t) nrm ori comp rest
    else spread near (fun _ => 0%nat) f (S t) (if Rlt_dec (dot 3 (nrm c) (nrm p)) 0 then turn nrm c else nrm) (mark ori c) (comp ++ [c]) (push near (mark ori c) c rest)) as ST.
  { intros. cbn [spread]. rewrite Nat.mod_0_l by discriminate. reflexivity. }
  assert (forall f t nrm ori comp, spread near (fun _ => 0%nat) f t nrm ori comp [] = Some (t, nrm, ori, comp)) as SE by (intros [|f]; reflexivity).
  set (o0 := fun i => is_zero (normals s i)). set (o1 := mark o0 0%nat). set (o2 := mark o1 1%nat). set (o3 := mark o2 2%nat).
  assert (o1 1%nat = false) as O1 by apply NZ. assert (o2 2%nat = false) as O2 by apply NZ.
  assert (t1 1%nat 2%nat = 1) as T1 by (unfold t1, turn, neg3; cbn; ring). assert (t1 2%nat 2%nat = -1) as T2 by (unfold t1, turn; cbn; ring).
  assert (spread near (fun _ => 0%nat) 20 0 (normals s) o1 [0%nat] (push near o1 0%nat []) = Some (1%nat, t1, o2, [0; 1]%nat)) as S1.
  { assert (push near o1 0%nat [] = [(0, 1)]%nat) as -> by (unfold push; cbn [near flat_map app]; rewrite O1; reflexivity).
    rewrite ST, O1, D10. destruct (Rlt_dec (-1) 0); [|lra]. fold t1 o2. assert (push near o2 1%nat [] = []) as -> by reflexivity. apply SE. }
  assert (forall t, spread near (fun _ => 0%nat) 20 t t1 o3 [2%nat] (push near o3 2%nat []) = Some (t, t1, o3, [2]%nat)) as S2.
  { intros t. assert (push near o3 2%nat [] = []) as -> by reflexivity. apply SE. }
  assert (find (fun i => negb (o0 i)) (seq 0 3) = Some 0%nat) as F0 by (cbn [seq find]; unfold o0; rewrite NZ; reflexivity).
  assert (find (fun i => negb (o2 i)) (seq 0 3) = Some 2%nat) as F2 by (cbn [seq find]; rewrite O2; reflexivity).
  assert (find (fun i => negb (o3 i)) (seq 0 3) = None) as F3 by reflexivity.
  unfold orient_closed_surface. fold o0. generalize dependent 20%nat. intros fuel S1 S2. cbn [closed_loop]. rewrite F0. cbv zeta. fold o1. rewrite S1. cbn [tl highest app]. rewrite !dot_z.
  destruct (Rlt_dec (points 0%nat 2%nat) (points 1%nat 2%nat)) as [_|N]; [|exfalso; apply N; unfold points; cbn; lra]. rewrite T1. destruct (Rlt_dec 1 0); [lra|].
  rewrite F2. fold o3. rewrite S2. cbn [tl highest]. rewrite dot_z, T2. destruct (Rlt_dec (-1) 0); [|lra]. rewrite F3.
  eexists. split; [reflexivity|]. intros i I. cbn [normals]. unfold turn_all. destruct i as [|[|[|i]]]; [| | |lia]; cbn [existsb Nat.eqb orb]; [unfold t1, turn; cbn; reflexivity|exact T1|unfold neg3; rewrite T2; ring].
Qed.
