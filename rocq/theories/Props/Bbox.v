From Coq Require Import List Arith Reals Bool Lra.
From Verif Require Import Model.Bbox Spec.Bbox Proofs.Bbox.
Import ListNotations.
Open Scope R_scope.

(** C09: contains() decides membership. *)
Theorem C09_contains : forall dim b p, wf dim b -> length p = dim ->
  (contains b p = true <-> inside p b).
Proof. exact contains_spec. Qed.
Print Assumptions C09_contains.

(** C09: from_points is the least box containing the points (any number of points, also none). *)
Theorem C09_from_points_least : forall dim ps, Forall (fun p => length p = dim) ps ->
  least_box dim (fun b => Forall (fun p => inside p b) ps) (from_points dim ps).
Proof. exact from_points_least. Qed.
Print Assumptions C09_from_points_least.

Example C09_from_points_least_ex :
  from_points 2 [[Fin 1; Fin 5]; [Fin 3; Fin 2]] = mk_bbox [Fin 1; Fin 2] [Fin 3; Fin 5].
Proof.
  unfold from_points, column, coeff, emin, emax, eleb; cbn.
  repeat (destruct (Rle_dec _ _); try lra); reflexivity.
Qed.

(** C09: convex_hull is the least box around both boxes. *)
Theorem C09_convex_hull_least : forall dim b c, wf dim b -> wf dim c ->
  least_box dim (fun d => within b d /\ within c d) (convex_hull b c).
Proof. exact hull_least. Qed.
Print Assumptions C09_convex_hull_least.

(** C09: convex_hull is associative, commutative and idempotent, with the empty box as neutral
    element. *)
Theorem C09_convex_hull_laws : forall dim a b c, wf dim a -> wf dim b -> wf dim c ->
  convex_hull a (convex_hull b c) = convex_hull (convex_hull a b) c /\
  convex_hull a b = convex_hull b a /\
  convex_hull a a = a /\
  convex_hull (empty dim) a = a /\ convex_hull a (empty dim) = a.
Proof. exact hull_laws. Qed.
Print Assumptions C09_convex_hull_laws.

Example C09_convex_hull_laws_ex :
  convex_hull (mk_bbox [Fin 0] [Fin 1]) (mk_bbox [Fin 3] [Fin 4]) = mk_bbox [Fin 0] [Fin 4] /\
  convex_hull (mk_bbox [Fin 0] [Fin 1]) (empty 1) = mk_bbox [Fin 0] [Fin 1].
Proof.
  unfold convex_hull, emin, emax, eleb; cbn; split;
  repeat (destruct (Rle_dec _ _); try lra); reflexivity.
Qed.

(** C09: is_empty() holds exactly when no point is inside. *)
Theorem C09_is_empty : forall dim b, wf dim b ->
  (is_empty b = true <-> forall p, length p = dim -> ~ inside p b).
Proof. exact is_empty_spec. Qed.
Print Assumptions C09_is_empty.

(** C09: a transformed (finite, non-empty) box is the least box containing the image of every point of
    the original box. *)
Theorem C09_transform_least : forall dim t lo hi b',
  length lo = dim -> length hi = dim -> length t = dim -> Forall2 Rle lo hi ->
  transform dim t (mk_bbox (map Fin lo) (map Fin hi)) = Some b' ->
  least_box dim (fun c => forall p q, inside p (mk_bbox (map Fin lo) (map Fin hi)) ->
                          transform_point t p = Some q -> inside q c) b'.
Proof. exact transform_least. Qed.
Print Assumptions C09_transform_least.

(** ... and transforming a finite box is always defined. *)
Theorem C09_transform_defined : forall dim t lo hi, length lo = dim -> length hi = dim ->
  exists b', transform dim t (mk_bbox (map Fin lo) (map Fin hi)) = Some b'.
Proof. exact transform_defined. Qed.
Print Assumptions C09_transform_defined.

(** Rotation by 90 degrees: [0,1]x[2,4] becomes [-4,-2]x[0,1]. *)
Example C09_transform_ex : exists a b c d,
  transform 2 [[0; -1]; [1; 0]] (mk_bbox [Fin 0; Fin 2] [Fin 1; Fin 4])
  = Some (mk_bbox [Fin a; Fin b] [Fin c; Fin d]) /\ a = -4 /\ b = 0 /\ c = -2 /\ d = 1.
Proof.
  unfold transform, corners, corner, transform_points, transform_point, finite, from_points, column,
    coeff, emin, emax, eleb; cbn.
  repeat (destruct (Rle_dec _ _); try lra); do 4 eexists; repeat split; lra.
Qed.

(** C09: the center of a non-empty finite box lies inside it. *)
Theorem C09_center_inside : forall lo hi, Forall2 Rle lo hi ->
  inside (map Fin (center lo hi)) (mk_bbox (map Fin lo) (map Fin hi)).
Proof. exact center_inside. Qed.
Print Assumptions C09_center_inside.
