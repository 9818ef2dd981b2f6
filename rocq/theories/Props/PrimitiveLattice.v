From Coq Require Import Reals ZArith List Permutation Lia Lra.
From Verif Require Import Proofs.BoxPlane Proofs.PrimitiveLattice Proofs.LatticeRanges Proofs.LatticeSimplex.
From Verif Require Import Model.Outcome Model.Clip Model.PointTriangle Model.Predicates Model.Variogram Model.Lattice Model.PrimitiveLattice
  Spec.Lattice Spec.PrimitiveLattice.
Import ListNotations.
Local Open Scope R_scope.

(** Nodes and coordinates correspond. The node nearest the centre of the box has coordinates zero. *)
Theorem C54_position : forall lo hi basis, det basis <> 0 ->
  (forall x, unrounded lo hi basis (position lo hi basis x) = of_lc x) /\
  (forall a b c, (-2147483648 <= a <= 2147483647)%Z -> (-2147483648 <= b <= 2147483647)%Z -> (-2147483648 <= c <= 2147483647)%Z ->
     rounded lo hi basis (position lo hi basis (a, b, c)) = Ok (a, b, c)) /\
  (forall e, Rabs (coord (unrounded lo hi basis (center lo hi)) e) <= 1 / 2).
Proof. intros lo hi basis D. exact (conj (unrounded_position lo hi basis D) (conj (rounded_position lo hi basis D) (center_near lo hi basis))). Qed.
Print Assumptions C54_position.

(** A clamped point belongs to the node, and points well inside the cell of the node are not moved. *)
Theorem C54_clamp : forall lo hi basis p, det basis <> 0 ->
  (forall a b c, (-2147483648 <= a <= 2147483647)%Z -> (-2147483648 <= b <= 2147483647)%Z -> (-2147483648 <= c <= 2147483647)%Z ->
     rounded lo hi basis (clamp_to_node lo hi basis p (a, b, c)) = Ok (a, b, c)) /\
  (forall x, (forall e, Rabs (coord (unrounded lo hi basis p) e - coord (of_lc x) e) <= 0.495) -> clamp_to_node lo hi basis p x = p).
Proof. intros lo hi basis p D. exact (conj (clamp_rounds lo hi basis D p) (clamp_keeps lo hi basis D p)). Qed.
Print Assumptions C54_clamp.

(** The loops over the ranges visit, layer by layer and each once, exactly the nodes in the twice extended box, whatever the
    undefined conversions yield. The layers are as C29 and C30 ask. *)
Theorem C54_nodes : forall lo hi basis r1 r2, det basis <> 0 -> px lo <= px hi /\ py lo <= py hi /\ pz lo <= pz hi -> fits_int lo hi basis ->
  (forall z r, second_range lo hi basis z = Ok r -> r2 z = r) -> (forall y z r, first_range lo hi basis y z = Ok r -> r1 y z = r) ->
  exists r3, third_range lo hi basis = Ok r3 /\ layered (fst r3) (layers lo hi basis r1 r2 r3) /\
    forall x, In x (concat (layers lo hi basis r1 r2 r3)) <-> box (ext_lo lo basis 2) (ext_hi hi basis 2) (position lo hi basis x).
Proof.
  intros lo hi basis r1 r2 D W F E2 E1. destruct (third_range_ok lo hi basis D W F) as (r3 & E3). exists r3.
  exact (conj E3 (layers_complete lo hi basis D W F r1 r2 r3 E3 E2 E1)).
Qed.
Print Assumptions C54_nodes.

(** The range of a layer is undefined exactly if the plane of the layer misses the box. *)
Theorem C54_layer_undefined : forall lo hi basis z, det basis <> 0 -> px lo <= px hi /\ py lo <= py hi /\ pz lo <= pz hi -> fits_int lo hi basis ->
  (second_range lo hi basis z = UB <-> ~ exists q, box (ext_lo lo basis 2) (ext_hi hi basis 2) q /\ pz (unrounded lo hi basis q) = IZR z).
Proof. intros lo hi basis z D W F. exact (second_range_ub lo hi basis D W F z). Qed.
Print Assumptions C54_layer_undefined.

(** That is so for the first and the last layer unless a corner of the box lies in it. *)
Theorem C54_outer_layers : forall lo hi basis r3, det basis <> 0 -> px lo <= px hi /\ py lo <= py hi /\ pz lo <= pz hi -> fits_int lo hi basis ->
  third_range lo hi basis = Ok r3 ->
  let free z := forall i, (i < 8)%nat -> pz (unrounded lo hi basis (corner_at (ext_lo lo basis 2) (ext_hi hi basis 2) i)) <> IZR z in
  (free (fst r3) -> second_range lo hi basis (fst r3) = UB) /\ (free (snd r3) -> second_range lo hi basis (snd r3) = UB).
Proof. intros lo hi basis r3 D W F E free. exact (conj (lowest_layer lo hi basis D W F r3 E) (highest_layer lo hi basis D W F r3 E)). Qed.
Print Assumptions C54_outer_layers.

(** The tetrahedron of a point, for whichever order a sort gives to equal fractional parts, is one of the lattice, has the orientation of the
    basis and contains the point; [barycentric] finds the weights. For a point of the box it is sampled and so are all neighbours
    of its corners. *)
Theorem C54_tetrahedron : forall lo hi basis p r, det basis <> 0 ->
  (forall e, -2147483647 <= coord (unrounded lo hi basis p) e <= 2147483646) -> sorts_axes (unrounded lo hi basis p) r ->
  let pos := position lo hi basis in
  exists a b c d w S, tetrahedron lo hi basis r p = Ok (a, b, c, d) /\ simplex S /\ Permutation S [a; b; c; d] /\
    weights w /\ p = mix w (pos a) (pos b) (pos c) (pos d) /\ barycentric p (pos a) (pos b) (pos c) (pos d) = w /\
    volume (pos a) (pos b) (pos c) (pos d) = det basis / 6 /\
    (box lo hi p -> forall x, In x [a; b; c; d] -> box (ext_lo lo basis 1) (ext_hi hi basis 1) (pos x)).
Proof.
  intros lo hi basis p r D B O pos. destruct (tetrahedron_spec lo hi basis D p r B O) as (a & b & c & d & w & E & (S & SS & P) & W & M & V).
  exists a, b, c, d, w, S. split; [exact E|]. split; [exact SS|]. split; [exact P|]. split; [exact W|]. split; [exact M|]. split.
  - rewrite M. apply barycentric_mix; [exact W|]. unfold pos. rewrite V. apply Rmult_integral_contrapositive_currified; [exact D|lra].
  - split; [exact V|]. intros Bp x I. apply (mix_near lo hi basis D p w a b c d x S W M SS P Bp). apply (Permutation_in _ (Permutation_sym P)). exact I.
Qed.
Print Assumptions C54_tetrahedron.

(** The nearest node of a point of the box is in the once extended box; the neighbours and the tetrahedra of such nodes are sampled. *)
Theorem C54_margins : forall lo hi basis, det basis <> 0 ->
  let pos := position lo hi basis in
  (forall p x, box lo hi p -> rounded lo hi basis p = Ok x -> box (ext_lo lo basis 1) (ext_hi hi basis 1) (pos x)) /\
  (forall x e, (e < 14)%nat -> box (ext_lo lo basis 1) (ext_hi hi basis 1) (pos x) -> box (ext_lo lo basis 2) (ext_hi hi basis 2) (pos (neighbor x e))) /\
  (forall S x y, simplex S -> In x S -> In y S -> box (ext_lo lo basis 1) (ext_hi hi basis 1) (pos x) -> box (ext_lo lo basis 2) (ext_hi hi basis 2) (pos y)).
Proof.
  intros lo hi basis D pos. exact (conj (rounded_sampled lo hi basis D) (conj (neighbor_sampled lo hi basis D) (interior_full lo hi basis D))).
Qed.
Print Assumptions C54_margins.

(** * Example: the unit cube with the unit vectors. *)
Definition id3 : triangle := ((1, 0, 0), (0, 1, 0), (0, 0, 1)).
Lemma id_det : det id3 <> 0.
Proof. unfold id3, det, Predicates.det3, px, py, pz. cbn [fst snd]. lra. Qed.
Lemma id_origin : origin (0, 0, 0) (1, 1, 1) id3 = (1, 1, 1).
Proof.
  unfold origin, center. replace (comb _ (inverse id3)) with (1 / 2, 1 / 2, 1 / 2).
  - unfold px, py, pz. cbn [fst snd]. assert (R : round (1 / 2) = 1%Z).
    { unfold round. destruct (Rle_dec 0 (1 / 2)); [|lra]. replace (1 / 2 + 1 / 2) with (IZR 1) by lra. pose proof (floor_range (IZR 1)) as [A B].
      assert (C : (floor (IZR 1) <= 1)%Z) by (apply le_IZR; lra). assert (E : (0 < floor (IZR 1))%Z) by (apply lt_IZR; lra). lia. }
    rewrite R. reflexivity.
  - rewrite inverse_by. unfold id3. rewrite inv_rows. unfold add3, sub3, scale3, det, Predicates.det3, px, py, pz. cbn [fst snd]. rewrite comb_rows. f_equal; [f_equal|]; field.
Qed.
Lemma id_unrounded : forall q, unrounded (0, 0, 0) (1, 1, 1) id3 q = sub3 q (1, 1, 1).
Proof.
  intros q. unfold unrounded. rewrite id_origin. f_equal. destruct q as [[x y] z]. rewrite inverse_by. unfold id3. rewrite inv_rows, comb_rows. unfold det, Predicates.det3, px, py, pz. cbn [fst snd].
  f_equal; [f_equal|]; field.
Qed.
Lemma rmin_int : forall a b, Rmin (IZR a) (IZR b) = IZR (Z.min a b).
Proof.
  intros a b. unfold Rmin. destruct (Rle_dec (IZR a) (IZR b)) as [H|H]; f_equal; [apply le_IZR in H|assert (~ (a <= b)%Z) by (intros C; apply H, IZR_le, C)]; lia.
Qed.
Lemma rmax_int : forall a b, Rmax (IZR a) (IZR b) = IZR (Z.max a b).
Proof.
  intros a b. unfold Rmax. destruct (Rle_dec (IZR a) (IZR b)) as [H|H]; f_equal; [apply le_IZR in H|assert (~ (a <= b)%Z) by (intros C; apply H, IZR_le, C)]; lia.
Qed.
Lemma id_neighbors : neighbors id3 = map of_lc deltas.
Proof.
  unfold neighbors. apply map_ext. intros [[a b] c]. unfold of_lc, id3. rewrite comb_rows. f_equal; [f_equal|]; ring.
Qed.
Lemma lo_int : forall xs x, lo_of (of_lc x) (map of_lc xs) =
  of_lc (fold_left (fun x y => let '(a, b, c) := x in let '(d, e, f) := y in (Z.min a d, Z.min b e, Z.min c f)) xs x).
Proof.
  induction xs as [|[[d e] f] xs IH]; intros [[a b] c]; [reflexivity|]. cbn [map fold_left]. rewrite <- IH. unfold lo_of. cbn [fold_left]. f_equal.
  unfold Predicates.lo2, of_lc, px, py, pz. cbn [fst snd]. rewrite !rmin_int. reflexivity.
Qed.
Lemma hi_int : forall xs x, hi_of (of_lc x) (map of_lc xs) =
  of_lc (fold_left (fun x y => let '(a, b, c) := x in let '(d, e, f) := y in (Z.max a d, Z.max b e, Z.max c f)) xs x).
Proof.
  induction xs as [|[[d e] f] xs IH]; intros [[a b] c]; [reflexivity|]. cbn [map fold_left]. rewrite <- IH. unfold hi_of. cbn [fold_left]. f_equal.
  unfold Predicates.hi2, of_lc, px, py, pz. cbn [fst snd]. rewrite !rmax_int. reflexivity.
Qed.
Lemma id_ext : ext_lo (0, 0, 0) id3 2 = (-2.02, -2.02, -2.02) /\ ext_hi (1, 1, 1) id3 2 = (3.02, 3.02, 3.02).
Proof.
  unfold ext_lo, ext_hi. rewrite id_neighbors. unfold deltas. cbn [map hd tl].
  match goal with |- context [lo_of (of_lc ?x) ?l] => change l with (map of_lc (tl deltas)) end. rewrite lo_int, hi_int. unfold add3, scale3, px, py, pz. cbn [deltas tl fold_left of_lc Z.min Z.max Z.compare Pos.compare Pos.compare_cont CompOpp fst snd].
  split; f_equal; [f_equal|  |f_equal|]; lra.
Qed.
Lemma id_fits : fits_int (0, 0, 0) (1, 1, 1) id3.
Proof.
  intros q e B. rewrite id_unrounded, coord_sub. destruct id_ext as [E1 E2]. rewrite E1, E2 in B. pose proof (proj1 (box_coord _ _ _) B e) as H. destruct e as [|[|e]]; cbn [coord] in *; unfold px, py, pz in *; cbn [fst snd] in *; lra.
Qed.

Example C54_example : third_range (0, 0, 0) (1, 1, 1) id3 = Ok (-4, 3)%Z.
Proof.
  unfold third_range. destruct id_ext as [-> ->]. cbn [seq map]. rewrite !id_unrounded. unfold corner_at. cbn [Nat.testbit Nat.odd Nat.even negb Nat.div2]. unfold sub3, px, py, pz. cbn [fst snd extremes fold_left].
  rewrite ?(Rmin_left (-2.02 - 1) (-2.02 - 1)), ?(Rmin_left (-2.02 - 1) (3.02 - 1)) by lra.
  rewrite ?(Rmax_left (-2.02 - 1) (-2.02 - 1)), ?(Rmax_right (-2.02 - 1) (3.02 - 1)), ?(Rmax_left (3.02 - 1) (3.02 - 1)) by lra.
  assert (A : floor (-2.02 - 1) = (-4)%Z). { pose proof (floor_range (-2.02 - 1)) as [A B]. assert (C : (-5 < floor (-2.02 - 1))%Z) by (apply lt_IZR; lra). assert (E : (floor (-2.02 - 1) < -3)%Z) by (apply lt_IZR; lra). lia. }
  assert (B : ceil (3.02 - 1) = 3%Z). { pose proof (ceil_range (3.02 - 1)) as [B C]. assert (E : (2 < ceil (3.02 - 1))%Z) by (apply lt_IZR; lra). assert (G : (ceil (3.02 - 1) < 4)%Z) by (apply lt_IZR; lra). lia. }
  rewrite A, B. reflexivity.
Qed.

(** So the ranges are not always defined: here the first layer converts an infinity to int. *)
Theorem C54_defined_refuted : exists lo hi basis r3, det basis > 0 /\ (px lo < px hi /\ py lo < py hi /\ pz lo < pz hi) /\ fits_int lo hi basis /\
  third_range lo hi basis = Ok r3 /\ (fst r3 <= snd r3)%Z /\ second_range lo hi basis (fst r3) = UB.
Proof.
  exists (0, 0, 0), (1, 1, 1), id3, (-4, 3)%Z. split; [unfold id3, det, Predicates.det3, px, py, pz; cbn [fst snd]; lra|]. split; [unfold px, py, pz; cbn [fst snd]; lra|].
  split; [exact id_fits|]. split; [exact C54_example|]. split; [cbn; lia|].
  apply (C54_outer_layers (0, 0, 0) (1, 1, 1) id3 (-4, 3)%Z id_det ltac:(unfold px, py, pz; cbn [fst snd]; lra) id_fits C54_example).
  intros i L. destruct id_ext as [-> ->]. rewrite id_unrounded. unfold corner_at, sub3, px, py, pz. cbn [fst snd]. destruct (Nat.testbit i 2); lra.
Qed.
Print Assumptions C54_defined_refuted.

(** The centre of the cube: all fractional parts are equal, and every order of the axes is a result of the sort. *)
Example C54_center : forall r, Permutation [fst (fst r); snd (fst r); snd r] [0; 1; 2]%nat ->
  sorts_axes (unrounded (0, 0, 0) (1, 1, 1) id3 (1 / 2, 1 / 2, 1 / 2)) r.
Proof.
  intros [[i j] k] P. cbn [fst snd] in P. split; [exact P|]. rewrite id_unrounded.
  assert (E : forall e, coord (sub3 (1 / 2, 1 / 2, 1 / 2) (1, 1, 1)) e = 1 / 2 - 1) by (intros [|[|e]]; reflexivity). rewrite !E. lra.
Qed.
