From Coq Require Import List Arith ZArith Reals Bool Lia Lra Permutation.
From Verif Require Import Model.Outcome Model.MeshDefects Model.Solver Model.Lattice Spec.VertexClusterer Proofs.LatticeVertices
  Proofs.LatticeLayers Proofs.LatticeTets Proofs.LatticeMesh Proofs.LatticeOrient Spec.Lattice.
Import ListNotations.
Local Open Scope R_scope.

Lemma lerp_sym : forall p q t, lerp p q t = lerp q p (1 - t).
Proof. intros [[? ?] ?] [[? ?] ?] t. cbn. f_equal; [f_equal|]; ring. Qed.

(** All six tetrahedra have the orientation of the frame. *)
Lemma tet_volume : forall o u v w x i, (i < 6)%nat -> det3 u v w > 0 ->
  let P k := placed o u v w (nth k (nodes_at x i) o3) in
  det3 (vsub (P 1%nat) (P 0%nat)) (vsub (P 2%nat) (P 0%nat)) (vsub (P 3%nat) (P 0%nat)) > 0.
Proof.
  intros [[o0 o1] o2] [[u0 u1] u2] [[v0 v1] v2] [[w0 w1] w2] [[x y] z] i L D. cbv zeta.
  assert (det3 (u0, u1, u2) (v0, v1, v2) (w0, w1, w2) = u0 * (v1 * w2 - v2 * w1) - u1 * (v0 * w2 - v2 * w0) + u2 * (v0 * w1 - v1 * w0)) as DE by reflexivity.
  revert i L. apply lt6;
    (match goal with |- ?e > 0 => replace e with (det3 (u0, u1, u2) (v0, v1, v2) (w0, w1, w2)); [exact D|] end);
    cbn -[IZR Z.add]; rewrite ?plus_IZR; ring.
Qed.

Lemma local_edge : forall x i j, (i < 6)%nat -> (j < 6)%nat ->
  let p := shift x (nth j (tedges i) noE) in
  let n k := nth k (nodes_at x i) o3 in
  (fst p = n (fst (local_ends j)) /\ neighbor (fst p) (snd p) = n (snd (local_ends j))) \/
  (fst p = n (snd (local_ends j)) /\ neighbor (fst p) (snd p) = n (fst (local_ends j))).
Proof.
  intros [[x y] z] i j L J. cbv zeta. revert i L.
  apply lt6; revert j J; apply lt6; cbn -[Z.add];
    ((left; split; repeat match goal with |- (_, _) = (_, _) => apply f_equal2 end; lia) ||
     (right; split; repeat match goal with |- (_, _) = (_, _) => apply f_equal2 end; lia)).
Qed.

Section Geometry.
Variables (field : lc -> num) (N : list lc) (l : lattice) (keys : list lc).
Hypothesis HC : complete field N l.
Hypothesis HK : forall x, In x keys <-> l_nodes l x <> None.
Variables (o u v w : R3) (tau : nat -> R).
Hypothesis HD : det3 u v w > 0.
Hypothesis HT : forall i, 0 < tau i < 1.
Let P := placed o u v w.
Let pos := vertex_at P (l_vertices l) tau.

Lemma vertex_stored : forall p, In p (ids l) -> exists y k t, nth_error (l_vertices l) (idx l p) = Some (y, k, t) /\ (k < 14)%nat /\ eid y k = p.
Proof.
  intros p I. pose proof (position_at _ _ I) as Q. fold (idx l p) in Q. unfold ids in Q. rewrite nth_error_map in Q.
  destruct (nth_error (l_vertices l) (idx l p)) as [[[y k] t]|] eqn:V; [|discriminate]. cbn in Q. injection Q as Q.
  exists y, k, t. split; auto. split; auto. destruct HC as ((T & _ & _ & _ & I4 & _) & _). apply nth_error_In in V. eapply I4; eauto.
Qed.

Lemma pos_edge : forall p, In p (ids l) -> exists t, 0 < t < 1 /\ pos (idx l p) = lerp (P (fst p)) (P (neighbor (fst p) (snd p))) t.
Proof.
  intros p I. destruct (vertex_stored p I) as (y & k & t & V & K & EQ). unfold pos, vertex_at. rewrite V. cbn [ends fst snd].
  specialize (HT (idx l p)). destruct (Nat.lt_ge_cases k 7).
  - rewrite eid_lo in EQ by auto. subst p. cbn [fst snd]. eauto.
  - rewrite eid_hi in EQ by auto. subst p. cbn [fst snd]. rewrite neighbor_hi by auto. eexists. split; [|apply lerp_sym]. lra.
Qed.

Theorem mesh_oriented : normals_point_out P (sgn field) (l_vertices l) pos (map (map3 (idx l)) (abstract_mesh field l keys)).
Proof.
  intros a b c k vx n F HCn V HE. apply in_map_iff in F. destruct F as ([[p q] r] & EQ & F). cbn [map3] in EQ. injection EQ as <- <- <-.
  assert (forall e, In e [p; q; r] -> In e (ids l)) as I by (intros e R; eapply (corner_in_ids field N l HC keys HK (p, q, r)); eauto).
  apply (in_abstract field N l HC keys HK) in F. destruct F as (x & i & L & A & T).
  pose (Q := fun m => P (nth m (nodes_at x i) o3)).
  assert (exists m, (m < 4)%nat /\ n = nth m (nodes_at x i) o3) as (m & Lm & En).
  { assert (In n (nodes_at x i)) as IN.
    { assert (exists e, In e [p; q; r] /\ idx l e = k) as (e & Ie & <-).
      { destruct HCn as [->|[->| ->]]; [exists p|exists q|exists r]; cbn; auto. }
      assert (In e (flat_map corners (tet_faces (sgn field) x i))) as R' by (apply in_flat_map; exists (p, q, r); auto).
      apply tet_corners in R'; auto. destruct R' as (Le & [H1 H2] & _).
      destruct (vertex_stored e (I e Ie)) as (y & k & t & V' & K & EQ). rewrite V' in V. injection V as <-. cbn [ends fst snd] in HE.
      destruct (Nat.lt_ge_cases k 7) as [K7|K7].
      - rewrite eid_lo in EQ by auto. subst e. cbn [fst snd] in *. destruct HE as [->| ->]; auto.
      - rewrite eid_hi in EQ by auto. subst e. cbn [fst snd] in *. rewrite neighbor_hi in H2 by auto. destruct HE as [->| ->]; auto. }
    apply (In_nth _ _ o3) in IN. destruct IN as (m & Lm & <-). exists m. split; auto. unfold nodes_at in Lm. rewrite map_length, tnodes_length in Lm. auto. }
  unfold tet_faces, rel_faces in T. assert (signs (sgn field) x i = map (fun m => sgn field (nth m (nodes_at x i) o3)) [0; 1; 2; 3]%nat) as SG.
  { unfold signs. assert (length (nodes_at x i) = 4%nat) as LL by (unfold nodes_at; rewrite map_length; apply tnodes_length).
    destruct (nodes_at x i) as [|n0 [|n1 [|n2 [|n3 [|]]]]]; try discriminate. auto. }
  rewrite SG in T. cbn [map] in T. rewrite map_map in T. apply in_map_iff in T. destruct T as ([[ja jb] jc] & EQ & T).
  cbn [shift3] in EQ. injection EQ as E1 E2 E3.
  set (b0 := sgn field (nth 0 (nodes_at x i) o3)) in *. set (b1 := sgn field (nth 1 (nodes_at x i) o3)) in *.
  set (b2 := sgn field (nth 2 (nodes_at x i) o3)) in *. set (b3 := sgn field (nth 3 (nodes_at x i) o3)) in *.
  assert (ja < 6 /\ jb < 6 /\ jc < 6)%nat as (La & Lb & Lc).
  { clear - T. destruct b0, b1, b2, b3; cbn in T; repeat (destruct T as [T|T]; [injection T as <- <- <-; lia|]); contradiction. }
  assert (ja <> jb /\ jb <> jc /\ jc <> ja)%nat as (D1 & D2 & D3).
  { clear - T. destruct b0, b1, b2, b3; cbn in T; repeat (destruct T as [T|T]; [injection T as <- <- <-; lia|]); contradiction. }
  assert (forall j e, (j < 6)%nat -> In e [p; q; r] -> shift x (nth j (tedges i) noE) = e ->
            exists t, inside t /\ pos (idx l e) = lerp (Q (fst (local_ends j))) (Q (snd (local_ends j))) t) as LOC.
  { intros j e J Ie Ee. destruct (pos_edge e (I e Ie)) as (t & Ht & ->). pose proof (local_edge x i j L J) as LE. cbv zeta in LE.
    rewrite Ee in LE. unfold Q. destruct LE as [[-> ->]|[-> ->]]; [exists t; auto|]. exists (1 - t). split; [unfold inside; lra|].
    rewrite lerp_sym. f_equal; auto. }
  destruct (LOC ja p La) as (ta & Ta & Pa); [cbn; auto|exact E1|]. destruct (LOC jb q Lb) as (tb & Tb & Pb); [cbn; auto|exact E2|].
  destruct (LOC jc r Lc) as (tc & Tc & Pc); [cbn; auto|exact E3|].
  pose (t := fun j => if Nat.eqb j ja then ta else if Nat.eqb j jb then tb else if Nat.eqb j jc then tc else 1 / 2).
  pose proof (orient_local Q t b0 b1 b2 b3 (ja, jb, jc) m) as O. unfold local_pos in O. cbv zeta in O.
  assert (t ja = ta) as Qa by (unfold t; rewrite Nat.eqb_refl; auto).
  assert (t jb = tb) as Qb by (unfold t; destruct (Nat.eqb_spec jb ja); [congruence|]; rewrite Nat.eqb_refl; auto).
  assert (t jc = tc) as Qc by (unfold t; destruct (Nat.eqb_spec jc ja); [congruence|]; destruct (Nat.eqb_spec jc jb); [congruence|]; rewrite Nat.eqb_refl; auto).
  rewrite Qa, Qb, Qc, <- Pa, <- Pb, <- Pc in O.
  assert (sgn field n = nth m [b0; b1; b2; b3] false) as ->.
  { subst n. destruct m as [|[|[|[|m]]]]; [auto|auto|auto|auto|lia]. }
  assert (P n = Q m) as -> by (subst n; auto).
  apply O; auto.
  - intros j J. unfold t. destruct (Nat.eqb j ja), (Nat.eqb j jb), (Nat.eqb j jc); auto; unfold inside; lra.
  - apply tet_volume; auto.
Qed.
End Geometry.

(** The frame of the code has a positive determinant. *)
Lemma frame_positive : forall k1 k2 res (m0 m1 m2 : R3), 0 < k1 -> 0 < k2 -> 0 < res -> det3 m0 m1 m2 > 0 ->
  let row (b : R3) : R3 := (let '(b0, b1, b2) := b in
    let dot (m : R3) := (let '(x, y, z) := m in res * (b0 * x + b1 * y + b2 * z)) in (dot m0, dot m1, dot m2)) in
  det3 (row (k1, k2, 0)) (row (- k1, 0, k2)) (row (k1, - k2, 0)) > 0.
Proof.
  intros k1 k2 res [[a0 a1] a2] [[b0 b1] b2] [[c0 c1] c2] K1 K2 RS D. cbv zeta.
  match goal with |- ?e > 0 => cut (e = 2 * (k1 * k2 * k2) * (res * res * res) * det3 (a0, a1, a2) (b0, b1, b2) (c0, c1, c2)); [intros EQ; eapply eq_ind_r with (P := fun z => z > 0); [|exact EQ]; clear EQ|cbn; ring] end.
  apply Rgt_lt in D. revert D. generalize (det3 (a0, a1, a2) (b0, b1, b2) (c0, c1, c2)). intros d D.
  assert (0 < k1 * k2 * k2) as A by (repeat apply Rmult_lt_0_compat; auto).
  assert (0 < res * res * res) as B by (repeat apply Rmult_lt_0_compat; auto).
  apply Rlt_gt. apply Rmult_lt_0_compat; [|auto]. apply Rmult_lt_0_compat; [|auto]. lra.
Qed.
