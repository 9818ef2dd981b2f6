From Coq Require Import Reals List Arith Lra.
From Verif Require Import Model.Clip Spec.Clip Proofs.Clip Proofs.ClipBox Proofs.ClipMesh.
Import ListNotations.
Local Open Scope R_scope.

(** C31: every corner of a clipped triangle lies in the box. *)
Theorem C31_in_box : forall flip lo hi l out p, In out (clip_box flip lo hi l) -> In p (corners out) -> in_box lo hi p.
Proof. exact stays_in_box. Qed.
Print Assumptions C31_in_box.

(** C31: triangles are clipped one by one. *)
Theorem C31_each : forall flip lo hi l, clip_box flip lo hi l = flat_map (fun t => clip_box flip lo hi [t]) l.
Proof. exact each_triangle. Qed.
Print Assumptions C31_each.

(** C31: what is left of a triangle lies in it, faces the same way, and has together at most its area. *)
Theorem C31_parts : forall flip lo hi tri, exists cs, Forall2 (part_of tri) cs (clip_box flip lo hi [tri]) /\ Forall (fun c => 0 < c) cs /\ total cs <= 1.
Proof. exact parts_of_triangle. Qed.
Print Assumptions C31_parts.

(** C31: no point of the surface inside the box is lost. *)
Theorem C31_nothing_lost : forall flip lo hi l tri p, (forall t, In t l -> proper t) -> In tri l -> in_triangle tri p -> inside_box lo hi p ->
  exists out, In out (clip_box flip lo hi l) /\ in_triangle out p.
Proof. exact nothing_lost. Qed.
Print Assumptions C31_nothing_lost.

(** C31: a closed surface is opened only on the faces of the box: every other edge is met by the same edge of a neighbour. *)
Theorem C31_edges : forall flip lo hi l, (forall t, In t l -> proper t) -> closed l -> forall out a b, In out (clip_box flip lo hi l) -> has_edge out a b ->
  (exists out', In out' (clip_box flip lo hi l) /\ has_edge out' b a) \/ on_face lo hi a b.
Proof. exact cut_edges. Qed.
Print Assumptions C31_edges.

(** C31: in any arithmetic, doubles included, both triangles at an edge cut it at the identical point, if comparing the first
    coordinates of its ends decides between them. *)
Theorem C31_same_point : forall F lt add sub mul div (a b : F * F * F) th, lt (fst (fst a)) (fst (fst b)) = negb (lt (fst (fst b)) (fst (fst a))) ->
  intersect_with F lt add sub mul div a b th = intersect_with F lt add sub mul div b a th.
Proof. exact intersect_symmetric. Qed.
Print Assumptions C31_same_point.

(** C31: the mesh has each corner once and no others, and its faces are the triangles. *)
Theorem C31_mesh : forall l, let m := index_mesh l in NoDup (vertices m) /\ (forall v, In v (vertices m) <-> exists tri, In tri l /\ In v (corners tri)) /\
  Forall2 (fun f tri => exists i j k a b c, f = (Some i, Some j, Some k) /\ tri = (a, b, c) /\ nth_error (vertices m) i = Some a /\ nth_error (vertices m) j = Some b /\ nth_error (vertices m) k = Some c) (faces m) l.
Proof. exact indexed. Qed.
Print Assumptions C31_mesh.

(** C31: a triangle in a face of the box is in the box and is lost. *)
Theorem C31_flat_refuted : forall flip, proper flat /\ (forall p, In p (corners flat) -> in_box unit_lo unit_hi p) /\ clip_box flip unit_lo unit_hi [flat] = [].
Proof. exact flat_lost. Qed.
Print Assumptions C31_flat_refuted.

(** C31: the mesh that stands for all of space becomes the empty one. *)
Theorem C31_entire_refuted : forall flip vs lo hi, is_empty (Mesh [] [] true) = false /\ is_empty (clip_mesh flip vs [] true lo hi) = true.
Proof. exact entire_lost. Qed.
Print Assumptions C31_entire_refuted.

(** A triangle with a corner inside the box and two outside. *)
Example C31_corner : let tri := ((1 / 2, 1 / 2, 1 / 2), (5 / 2, 1 / 2, 1 / 2), (1 / 2, 5 / 2, 1 / 2)) in
  proper tri /\ in_triangle tri (3 / 4, 3 / 4, 1 / 2) /\ inside_box unit_lo unit_hi (3 / 4, 3 / 4, 1 / 2).
Proof.
  split; [|split].
  - intros E. assert (H : pz (normal ((1 / 2, 1 / 2, 1 / 2), (5 / 2, 1 / 2, 1 / 2), (1 / 2, 5 / 2, 1 / 2))) = 0) by (rewrite E; auto). unfold normal, cross, minus in H. cbn [px py pz fst snd] in H. lra.
  - exists (3 / 4, 1 / 8, 1 / 8). split; [cbn [weights]; lra|]. unfold weighted. apply pt_ext; cbn [px py pz fst snd]; lra.
  - unfold inside_box, unit_lo, unit_hi. cbn [px py pz fst snd]. lra.
Qed.
