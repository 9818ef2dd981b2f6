From Coq Require Import Reals Lra Lia List Arith Bool ZArith Permutation Sorted.
From Verif Require Import Model.Outcome Model.DisjointSets Spec.DisjointSets Model.MeshDefects Model.VertexClusterer Spec.VertexClusterer Proofs.VertexClusterer Proofs.VertexQuotient.
From Verif Require Import Proofs.SpatialGrid Spec.SpatialGrid Model.Clip Model.PointTriangle Model.Predicates Spec.PointTriangle Spec.Predicates Proofs.Clip Proofs.Predicates Proofs.TriangleCases Model.IntersectingFaces Spec.IntersectingFaces Proofs.IntersectingFaces.
Import ListNotations.

Lemma clustered_faces : forall nv fs node skip detect, in_range nv fs ->
  exists kept src vs out s, vertex_clusterer nv fs node skip detect = Ok (Some (vs, out, s)) /\
    (forall g, In g kept -> 2 <= length g /\ skip g = false) /\ merges source src kept /\ (forall x, In x vs -> exists u, x = src u) /\
    forall rnd resolution place schedule r, (forall a b, a <= b -> rnd a <= rnd b)%R -> (0 < resolution)%R ->
    let pos i := place (nth i vs (inl 0)) in
    within_reach rnd resolution (length vs) pos -> proper_faces pos out -> shares_work schedule ->
    intersecting_faces rnd resolution (length vs) pos out schedule = Ok r -> snd (detect vs out) = r ->
    forall fi fj, cross pos out fi fj -> forall v w u g, corner_of (nth fi out (0, 0, 0)) v \/ corner_of (nth fj out (0, 0, 0)) v ->
      w = v \/ share_face out v w -> In g kept -> In u g -> nth_error vs w <> Some (src u).
Proof.
  intros nv fs node skip detect IR. destruct (clustering nv fs node skip detect IR) as (comps & kept & src & vs & mid & s & _ & E & K & M & Q & _ & _ & FL).
  exists kept, src, vs, (remove_back_to_back mid), s. split; [exact E|]. split; [intros g G; destruct (K g G) as (_ & A); exact A|]. split; [exact M|]. split.
  { intros x X. destruct Q as (_ & _ & Q). apply Q in X. destruct X as ([[a b] c] & _ & X). destruct X as [->|[->| ->]]; eexists; reflexivity. }
  intros rnd resolution place schedule r MO RP pos RE PR W IF DT fi fj C v w u g CV WV G U.
  assert (EX : vertices_exist (length vs) (remove_back_to_back mid)).
  { unfold intersecting_faces in IF. destruct (IntersectingFaces.faces_ok (length vs) (remove_back_to_back mid)) eqn:F; [apply ok_exist; exact F|discriminate]. }
  destruct (finder_spec rnd resolution MO RP (length vs) pos (remove_back_to_back mid) EX RE PR) as (r' & A & _ & _ & B).
  rewrite (A schedule W) in IF. injection IF as ->. destruct (B fi fj C) as [B1 B2].
  apply (FL v w u g); auto. unfold flagged_of. destruct (detect vs (remove_back_to_back mid)) as [vis fis]. cbn [snd] in DT. subst fis.
  apply in_or_app. right. apply in_flat_map.
  assert (CC : forall f x, corner_of f x -> In x (VertexClusterer.corners f)). { intros [[a b] c] x X. cbn in *. intuition. }
  destruct CV as [X|X]; [exists fi|exists fj]; (split; [assumption|apply CC; exact X]).
Qed.

(** ** Examples *)
Definition ex_pos (i : nat) : pt :=
  nth i [(0, 0, 0); (4, 0, 0); (0, 4, 0); (1, 1, -1); (1, 1, 1); (2, 1, 0); (0, 0, 8); (1, 0, 8); (0, 1, 8)]%R (0, 0, 0)%R.
Definition ex_faces : list (nat * nat * nat) := [(0, 1, 2); (3, 4, 5); (6, 7, 8)].

Lemma reach_id : forall nv pos, (forall v, v < nv -> let '(x, y, z) := pos v in (-9 <= x <= 9 /\ -9 <= y <= 9 /\ -9 <= z <= 9)%R) ->
  within_reach (fun x => x) 1 nv pos.
Proof.
  intros nv pos H v L. specialize (H v L). destruct (pos v) as [[x y] z]. unfold representable_point, representable.
  replace (x / 1)%R with x by field. replace (y / 1)%R with y by field. replace (z / 1)%R with z by field.
  assert (A : (IZR (- 2 ^ 31) <= -9)%R) by (apply IZR_le; vm_compute; discriminate). assert (B : (9 < IZR (2 ^ 31 - 1))%R) by (apply IZR_lt; reflexivity). lra.
Qed.
Lemma ex_exist : vertices_exist 9 ex_faces.
Proof. apply ok_exist. reflexivity. Qed.
Lemma ex_reach : within_reach (fun x => x) 1 9 ex_pos.
Proof. apply reach_id. intros v L. do 9 (destruct v as [|v]; [cbn; lra|]). lia. Qed.
Lemma ex_proper : proper_faces ex_pos ex_faces.
Proof. intros fi L. cbn in L. do 3 (destruct fi as [|fi]; [cbn; repeat split; intros Q; injection Q; lra|]). lia. Qed.
Lemma ex_cross : cross ex_pos ex_faces 0 1.
Proof.
  split; [discriminate|]. split; [cbn; lia|]. split; [cbn; lia|]. exists (1, 1, 0)%R. split; [|split].
  - exists (1 / 2)%R, (1 / 4)%R, (1 / 4)%R. unfold px, py, pz. cbn. repeat split; lra.
  - exists (1 / 2)%R, (1 / 2)%R, 0%R. unfold px, py, pz. cbn. repeat split; lra.
  - intros (a & b & c & Y & _). destruct (Y a (or_introl eq_refl)) as [A B]. cbn in A, B.
    destruct A as [<-|[<-|[<-|[]]]]; destruct B as [B|[B|[B|[]]]]; injection B; lra.
Qed.
Lemma floor_low : forall x, (x <= 1)%R -> (Int_part x <= 1)%Z.
Proof. intros x L. destruct (base_Int_part x) as [A _]. apply le_IZR. lra. Qed.
Lemma floor_high : forall x, (8 <= x)%R -> (2 <= Int_part x)%Z.
Proof. intros x L. destruct (base_Int_part x) as [_ A]. apply le_IZR. lra. Qed.

Lemma ex_result : forall schedule, shares_work schedule -> intersecting_faces (fun x => x) 1 9 ex_pos ex_faces schedule = Ok [0; 1].
Proof.
  intros schedule W. destruct (finder_spec (fun x => x) 1 (fun _ _ H => H) Rlt_0_1 9 ex_pos ex_faces ex_exist ex_reach ex_proper) as (r & A & SS & _ & C).
  rewrite (A schedule W). destruct (result_exact (fun x => x) 1 9 ex_pos ex_faces ex_exist ex_reach schedule r W (A schedule W)) as [_ IN].
  destruct (C 0 1 ex_cross) as [C0 C1]. f_equal. apply sorted_unique; auto; [repeat constructor|].
  intros y. split; [|intros [<-|[<-|[]]]; auto]. intros Y. assert (Y0 := Y). apply IN in Y. destruct Y as (j & (D & L1 & L2 & _) & SC). cbn in L1, L2.
  destruct y as [|[|[|y]]]; cbn; auto; [exfalso|lia]. apply share_meet in SC. destruct SC as ([[c0 c1] c2] & S1 & S2).
  assert (Z1 : (2 <= c2)%Z).
  { unfold in_cells, fbox in S1. cbn in S1. destruct S1 as (_ & _ & (S1 & _)). eapply Z.le_trans; [|exact S1]. unfold coord. apply floor_high.
    unfold px, py, pz. cbn. unfold Rmin. repeat destruct Rle_dec; lra. }
  assert (Z2 : (c2 <= 1)%Z).
  { destruct j as [|[|j]]; [| |lia]; unfold in_cells, fbox in S2; cbn in S2; destruct S2 as (_ & _ & (_ & S2)); (eapply Z.le_trans; [exact S2|]); unfold coord; apply floor_low; unfold px, py, pz; cbn;
    unfold Rmax; repeat destruct Rle_dec; lra. }
  lia.
Qed.

(** Two corners in one place, which also is a corner of another face. *)
Definition flat_pos (i : nat) : pt := nth i [(0, 0, 0); (0, 0, 0); (1, 0, 0); (0, 1, 0); (0, 0, 1)]%R (0, 0, 0)%R.
Definition flat_faces : list (nat * nat * nat) := [(0, 1, 2); (0, 3, 4)].
Lemma flat_throws : triangles_intersect (tri flat_pos flat_faces 0) (tri flat_pos flat_faces 1) = Throw ExOutOfRange.
Proof.
  assert (L : same_corners (tri flat_pos flat_faces 0) (tri flat_pos flat_faces 1) = [(0, 0); (1, 0)]).
  { unfold same_corners, tri. cbn [filter corner nth flat_faces flat_pos]. rewrite (proj2 (pt_eqb_true (0, 0, 0)%R (0, 0, 0)%R) eq_refl).
    repeat match goal with |- context [pt_eqb ?x ?y] => let F := fresh in destruct (pt_eqb x y) eqn:F; [exfalso; apply pt_eqb_true in F; injection F; lra|clear F] end. reflexivity. }
  unfold triangles_intersect. rewrite L. reflexivity.
Qed.
Lemma flat_reach : within_reach (fun x => x) 1 5 flat_pos.
Proof. apply reach_id. intros v L. do 5 (destruct v as [|v]; [cbn; lra|]). lia. Qed.
Lemma flat_ends : forall schedule, shares_work schedule -> forall r, intersecting_faces (fun x => x) 1 5 flat_pos flat_faces schedule <> Ok r.
Proof.
  intros schedule W r E. assert (EX : vertices_exist 5 flat_faces) by (apply ok_exist; reflexivity).
  assert (RE := flat_reach).
  destruct (proj1 (result_iff (fun x => x) 1 5 flat_pos flat_faces EX RE schedule W) (ex_intro _ r E) 0 1) as (b & T).
  - lia.
  - cbn. lia.
  - apply share_meet. apply overlap_cells; [auto|lra|]. exists (0, 0, 0)%R.
    split; (eapply (inside_box (tri flat_pos flat_faces _)); [apply box_bounds|]; exists 1%R, 0%R, 0%R; unfold px, py, pz; cbn; repeat split; lra).
  - rewrite flat_throws in T. discriminate.
Qed.
