From Coq Require Import Reals List ZArith Bool Permutation Lra.
From Verif Require Import Proofs.LatticeVertices Proofs.LatticeLayers Proofs.LatticeSimplex Proofs.PrimitiveLattice Proofs.ArbitrarySign Proofs.ArbitrarySeed.
From Verif Require Import Model.Outcome Model.Clip Model.PointTriangle Model.Predicates Model.Variogram Model.Solver Model.Lattice Model.PrimitiveLattice Model.SeedTracking Model.ArbitrarySign
  Spec.PrimitiveLattice Spec.Lattice Spec.SeedTracking Spec.ArbitrarySign.
Import ListNotations.
Local Open Scope R_scope.

(** C81: the value at the point is the mean of the values at the corners of its tetrahedron, with its barycentric coordinates as weights, if all corners were
    evaluated, in whatever order and however often; otherwise asking for it throws. *)
Theorem C81_value : forall lo hi basis p r field xs, det basis <> 0 -> let pos := position lo hi basis in
  (forall e, -2147483647 <= coord (unrounded lo hi basis p) e <= 2147483646) -> sorts_axes (unrounded lo hi basis p) r ->
  exists a b c d w i, tetrahedron lo hi basis r p = Ok (a, b, c, d) /\ new_interpolated lo hi basis r p = Ok i /\ weights w /\ p = mix w (pos a) (pos b) (pos c) (pos d) /\
  (box lo hi p -> forall x, In x [a; b; c; d] -> box (ext_lo lo basis 1) (ext_hi hi basis 1) (pos x)) /\
  (incl [a; b; c; d] xs -> exists v, interpolated_value (tell_all field i xs) = Ok v /\ mean_of w (field a) (field b) (field c) (field d) v) /\
  (~ incl [a; b; c; d] xs -> interpolated_value (tell_all field i xs) = Throw ExRuntimeError).
Proof. exact (fun lo hi basis p r field xs D => arbitrary_value lo hi basis D p r field xs). Qed.
Print Assumptions C81_value.

(** C81: when the whole box is sampled, the value at a point of the box is there. *)
Theorem C81_box : forall lo hi basis p r field xs i, det basis <> 0 -> box lo hi p ->
  (forall e, -2147483647 <= coord (unrounded lo hi basis p) e <= 2147483646) -> sorts_axes (unrounded lo hi basis p) r ->
  (forall x, box (ext_lo lo basis 2) (ext_hi hi basis 2) (position lo hi basis x) -> In x xs) ->
  new_interpolated lo hi basis r p = Ok i -> exists v, interpolated_value (tell_all field i xs) = Ok v.
Proof. exact (fun lo hi basis p r field xs i D => whole_box lo hi basis D p r field xs i). Qed.
Print Assumptions C81_box.

(** C81: without a vertex on the sampled edges, the answer whether an empty mesh is the entire space is the sign at every corner of the tetrahedron. *)
Theorem C81_entire : forall lo hi basis p r field xs vs, det basis <> 0 ->
  (forall e, -2147483647 <= coord (unrounded lo hi basis p) e <= 2147483646) -> sorts_axes (unrounded lo hi basis p) r ->
  one_vertex_per_edge (fun x => In x xs) (fun x => neg (field x)) vs -> vs = [] ->
  forall a b c d, tetrahedron lo hi basis r p = Ok (a, b, c, d) -> incl [a; b; c; d] xs ->
  exists i s, new_interpolated lo hi basis r p = Ok i /\ entire true (tell_all field i xs) = Ok s /\ forall x, In x [a; b; c; d] -> neg (field x) = s.
Proof. exact (fun lo hi basis p r field xs vs D => arbitrary_sign lo hi basis D p r field xs vs). Qed.
Print Assumptions C81_entire.

(** C81: for a seed point, sampling its node and the neighbours of that is enough, unless two of its coordinates lie in the middle between integers,
    one negative and one not. *)
Theorem C81_seed : forall lo hi basis p r x field xs i, det basis <> 0 ->
  (forall e, -2147483647 <= coord (unrounded lo hi basis p) e <= 2147483646) -> sorts_axes (unrounded lo hi basis p) r -> ~ mixed_halves (unrounded lo hi basis p) ->
  rounded lo hi basis p = Ok x -> In x xs -> (forall y, adjacent x y -> In y xs) ->
  new_interpolated lo hi basis r p = Ok i -> exists v, interpolated_value (tell_all field i xs) = Ok v.
Proof. exact (fun lo hi basis p r x field xs i D => seed_value lo hi basis D p r x field xs i). Qed.
Print Assumptions C81_seed.

(** C81: there it is not. The field function of the witness throws when asked for any node but that of the seed point and its neighbours, and is never asked; the mesh is
    empty and asking for the sign throws. *)
Theorem C81_seed_refuted : exists lo hi basis p r x i, det basis <> 0 /\ box lo hi p /\ sorts_axes (unrounded lo hi basis p) r /\ rounded lo hi basis p = Ok x /\ new_interpolated lo hi basis r p = Ok i /\
  forall eligible pos descent v order fuel, orders eligible order -> interior eligible x -> (0 < fuel)%nat ->
  exists l, add_nodes_from_seed_points eligible pos descent (only (x :: around x) v) fuel order cleared [x] = Ok (Some (l, None)) /\ l_vertices l = [] /\
  forall xs, incl xs (x :: around x) -> entire true (tell_all (fun _ => v) i xs) = Throw ExRuntimeError.
Proof. exact seed_at_half. Qed.
Print Assumptions C81_seed_refuted.

(** In a box around the origin with a field of -1 everywhere, the mesh is the entire space. *)
Example C81_example : exists a b c d, tetrahedron (-1, -1, -1) (1, 1, 1) id3 (0, 1, 2)%nat half = Ok (a, b, c, d) /\
  exists i, new_interpolated (-1, -1, -1) (1, 1, 1) id3 (0, 1, 2)%nat half = Ok i /\ entire true (tell_all (fun _ => Some (-1)) i [d; a; b; c; a]) = Ok true.
Proof.
  assert (D : det id3 <> 0) by (rewrite id3_det; lra).
  assert (BD : forall e, -2147483647 <= coord (unrounded (-1, -1, -1) (1, 1, 1) id3 half) e <= 2147483646).
  { intros e. rewrite id3_unrounded. unfold half, coord, px, py, pz. cbn [fst snd]. destruct e as [|[|e]]; lra. }
  assert (O : sorts_axes (unrounded (-1, -1, -1) (1, 1, 1) id3 half) (0, 1, 2)%nat).
  { rewrite id3_unrounded. unfold sorts_axes, half, coord, px, py, pz. cbn [fst snd]. destruct frac_half as [-> ->]. split; [apply Permutation_refl|lra]. }
  destruct (C81_value _ _ _ half _ (fun _ => Some (-1)) [] D BD O) as (a & b & c & d & w & i0 & T & _). exists a, b, c, d. split; [exact T|].
  destruct (C81_entire _ _ _ half _ (fun _ => Some (-1)) [d; a; b; c; a] [] D BD O) with (a := a) (b := b) (c := c) (d := d) as (i & s & I1 & I2 & I3); auto.
  - split; [intros v []|]. intros x y (_ & _ & _ & Q). exfalso. apply Q. reflexivity.
  - intros x [<-|[<-|[<-|[<-|[]]]]]; cbn; tauto.
  - exists i. split; auto. rewrite I2. f_equal. rewrite <- (I3 a (or_introl eq_refl)). unfold neg. destruct (Rlt_dec _ _); [reflexivity|lra].
Qed.
