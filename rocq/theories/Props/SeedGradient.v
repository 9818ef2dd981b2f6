From Coq Require Import Reals List ZArith Lra.
From Verif Require Import Proofs.PrimitiveLattice Proofs.ArbitrarySeed Proofs.SeedGradient.
From Verif Require Import Model.Clip Model.PointTriangle Model.Predicates Model.Lattice Model.PrimitiveLattice Model.SeedTracking Model.SeedGradient Spec.SeedGradient.
Import ListNotations.
Local Open Scope R_scope.

(** C80: the gradient is that of the absolute values: along the three face diagonals it has the central differences of the samples. *)
Theorem C80_gradient : forall lo hi basis solve val x, det basis <> 0 ->
  let pos := position lo hi basis in
  solved solve (normal_matrix (samples pos val x)) (normal_rhs (samples pos val x)) ->
  forall e, In e [1; 3; 5]%nat ->
  dot3 (gradient solve pos val x) (sub3 (pos (neighbor x e)) (pos x)) = (Rabs (val (neighbor x e)) - Rabs (val (neighbor x (opposite e)))) / 2.
Proof. exact gradient_spec. Qed.
Print Assumptions C80_gradient.

(** C80: a step adds to the corrector the part of the step that is perpendicular to the gradient. *)
Theorem C80_step : forall c g v w, dot3 g g = 1 -> corrected (Some c) (Some g) v = Some w -> dot3 (sub3 w c) g = 0 /\ v = add3 (sub3 w c) (scale3 (dot3 v g) g).
Proof. exact corrected_spec. Qed.
Print Assumptions C80_step.

(** C80: the next node is one of the candidates, and no other has a shorter corrector. *)
Theorem C80_nearest : forall pos c g x ys y0, let y := nearest pos (Some c) (Some g) x y0 ys in
  In y (y0 :: ys) /\ forall z d d', In z (y0 :: ys) -> length_of (Some c) (Some g) (sub3 (pos y) (pos x)) d -> length_of (Some c) (Some g) (sub3 (pos z) (pos x)) d' -> d <= d'.
Proof. exact nearest_spec. Qed.
Print Assumptions C80_nearest.

(** A linear field that is positive around the node: the gradient is the one of the field. *)
Definition slope (x : lc) : R := let '(a, _, _) := x in IZR a + 10.
Definition direct (_ : nat -> nat -> R) (_ : nat -> R) (i : nat) : R := match i with 0%nat => 1 | 3%nat => 10 | _ => 0 end.
Lemma id_position : forall a b c, position (-1, -1, -1) (1, 1, 1) id3 (a, b, c) = (IZR a, IZR b, IZR c).
Proof.
  intros a b c. rewrite <- (id3_comb (position _ _ _ _)). pose proof (unrounded_position (-1, -1, -1) (1, 1, 1) id3 ltac:(rewrite id3_det; lra) (a, b, c)) as U. unfold unrounded in U.
  assert (O : origin (-1, -1, -1) (1, 1, 1) id3 = (0, 0, 0)).
  { unfold origin. rewrite id3_comb. replace (center (-1, -1, -1) (1, 1, 1)) with ((0, 0, 0) : pt) by (unfold center, add3, scale3, sub3, px, py, pz; cbn [fst snd]; f_equal; [f_equal|]; lra).
    unfold px, py, pz. cbn [fst snd]. rewrite round_0. reflexivity. }
  rewrite O in U. unfold of_lc in U. rewrite <- U. destruct (comb _ _) as [[d e] f]. unfold sub3, px, py, pz. cbn [fst snd]. f_equal; [f_equal|]; lra.
Qed.
Example C80_gradient_example :
  let pos := position (-1, -1, -1) (1, 1, 1) id3 in
  solved direct (normal_matrix (samples pos slope (0, 0, 0)%Z)) (normal_rhs (samples pos slope (0, 0, 0)%Z)) /\ gradient direct pos slope (0, 0, 0)%Z = (1, 0, 0).
Proof.
  split; [|reflexivity]. intros i _. unfold normal_matrix, normal_rhs, sum_over, samples, gradient_nodes, direct, neighbor. cbn [map fold_right nth deltas lc_add fst snd Z.add Z.pos_sub]. rewrite !id_position.
  unfold slope. repeat rewrite Rabs_right by lra. destruct i as [|[|[|i]]]; unfold grow, px, py, pz; cbn [fst snd]; lra.
Qed.
