From Coq Require Import Reals List ZArith Bool Arith Permutation Lia Lra.
From Verif Require Import Proofs.LatticeVertices Proofs.LatticeLayers Proofs.LatticeFill Proofs.LatticeSurface Proofs.PrimitiveLattice Proofs.ArbitrarySign Proofs.SeedTracking.
From Verif Require Import Model.Outcome Model.Clip Model.PointTriangle Model.Predicates Model.Variogram Model.Solver Model.Lattice Model.PrimitiveLattice Model.SeedTracking Model.ArbitrarySign
  Spec.PrimitiveLattice Spec.Lattice Spec.SeedTracking Spec.ArbitrarySign.
Import ListNotations.

Lemma only_ok : forall xs v ys, incl ys xs -> only xs v ys = Ok (map (fun _ => v) ys).
Proof.
  intros xs v ys H. unfold only. replace (forallb _ ys) with true; auto. symmetry. apply forallb_forall. intros y Y. apply existsb_exists. exists y. split; [auto|]. apply lc_eqb_true. auto.
Qed.
Lemma only_evaluate : forall xs v l, incl (l_pending l) xs -> evaluate_field (only xs v) l = evaluate_field (fun ys => Ok (map (fun _ => v) ys)) l.
Proof. intros xs v l H. unfold evaluate_field. destruct (l_pending l) eqn:E; auto. rewrite only_ok; auto. Qed.
Lemma emplace_pending : forall ad l, l_pending (fold_left emplace_node ad l) = l_pending l ++ ad.
Proof. induction ad as [|a ad IH]; intros l; cbn [fold_left]; [rewrite app_nil_r; auto|]. rewrite IH. cbn [emplace_node l_pending]. rewrite <- app_assoc. reflexivity. Qed.
Lemma add_all_pending : forall eligible l xs, incl (l_pending (add_all eligible l xs)) (l_pending l ++ xs).
Proof.
  intros eligible l xs. unfold add_all. destruct (add_nodes_spec eligible xs l) as (ad & -> & _ & A & _). cbn [fst]. rewrite emplace_pending. intros y Y. apply in_app_iff in Y. apply in_app_iff.
  destruct Y as [Y|Y]; auto. right. apply A. auto.
Qed.
Lemma fold_pending : forall eligible (kn : lc -> list lc) x, incl (kn x) (around x) ->
  incl (l_pending (fold_left (fun l x => add_all eligible (add_all eligible l [x]) (kn x)) [x] cleared)) (x :: around x).
Proof.
  intros eligible kn x K y Y. cbn [fold_left] in Y. apply add_all_pending, in_app_iff in Y. destruct Y as [Y|Y].
  - apply add_all_pending, in_app_iff in Y. destruct Y as [[]|Y]. destruct Y as [<-|[]]. left. auto.
  - right. apply K. exact Y.
Qed.
Lemma knn_around : forall eligible x, incl (knn_nodes eligible x 1) (around x).
Proof. intros eligible x y Y. apply around_in. apply knn_in in Y. apply distance_1 in Y. tauto. Qed.
Lemma plant_pending : forall eligible x, incl (l_pending (plant eligible cleared [x])) (x :: around x).
Proof. intros eligible x. exact (fold_pending eligible (fun x => knn_nodes eligible x 1) x (knn_around eligible x)). Qed.
Lemma scan_flat : forall eligible v P l x k ys, partly eligible (fun _ => v) P [] l -> incl ys P -> scan eligible l x (set_value new_node v) k ys [] [] true = Ok ([], Some ([], true)).
Proof.
  intros eligible v P l x k. induction ys as [|y ys IH]; intros PL I0; cbn [scan]; auto. rewrite (partly_value eligible (fun _ => v) P [] l y PL) by (apply I0; left; auto). cbn [bind]. cbv zeta. cbn [value set_value n_value bind].
  rewrite eqb_reflx. cbn [negb]. rewrite andb_false_r. cbn [andb]. rewrite abs_less_irrefl. apply IH; auto. intros z Z. apply I0. right. auto.
Qed.
Lemma visit_flat : forall eligible pos descent v P l x, partly eligible (fun _ => v) P [] l -> In x P -> (forall y, adjacent x y -> In y P) ->
  visit eligible pos descent (l, [], []) (Seed x (Some (0, 0, 0)%R) 1) = Ok (l, [], []).
Proof.
  intros eligible pos descent v P l x PL X A. unfold visit. cbn [s_lc s_k]. rewrite (partly_value eligible (fun _ => v) P [] l x PL X). cbn [bind].
  assert (K : incl (knn_nodes eligible x 1) P) by (intros y Y; apply A, around_in, (knn_around eligible x), Y). generalize dependent (knn_nodes eligible x 1). intros kn K.
  rewrite (scan_flat eligible v P l x 1 kn PL K). cbn [bind fst snd app]. rewrite orb_true_r. reflexivity.
Qed.
Theorem flat_seed : forall eligible pos descent v order fuel x, orders eligible order -> interior eligible x -> 0 < fuel ->
  exists l, add_nodes_from_seed_points eligible pos descent (only (x :: around x) v) fuel order cleared [x] = Ok (Some (l, None)) /\ l_vertices l = [].
Proof.
  intros eligible pos descent v order fuel x OR IX FU. set (field := fun _ : lc => v). set (f0 := fun ys : list lc => Ok (map field ys)).
  destruct (plant_spec eligible pos descent field [x] [] cleared) as (P & PL & _ & A).
  { apply partly_start; [apply sampled_cleared|intros z []]. }
  { intros z [<-|[]]. auto. }
  destruct (partly_evaluate eligible field f0 (fun ys => eq_refl) [] P _ PL) as (l1 & E1 & S1 & EL1). cbn [app] in S1, EL1.
  destruct (A x (or_introl eq_refl)) as [A1 A2]. pose proof (partly_start eligible field P l1 S1 EL1) as PL1.
  assert (SS : sample_seeds eligible pos descent (only (x :: around x) v) fuel cleared [x] = Ok (Some (l1, None))).
  { unfold sample_seeds. rewrite only_evaluate by apply plant_pending. change (fun ys : list lc => Ok (map (fun _ : lc => v) ys)) with f0. rewrite E1. cbn [bind].
    change (unique (sort_lc [x])) with [x]. cbn [map]. destruct fuel as [|fuel]; [lia|]. cbn [search visits]. rewrite (visit_flat eligible pos descent v P l1 x PL1 A1 A2). cbn [bind].
    assert (EE : evaluate_field (only (x :: around x) v) l1 = Ok (l1, None)) by (unfold evaluate_field; replace (l_pending l1) with (@nil lc) by (symmetry; apply S1); auto).
    rewrite EE. cbn [bind]. destruct fuel; reflexivity. }
  assert (NN : forall y, l_nodes l1 y <> None <-> In y P) by apply S1. destruct (OR l1 P NN EL1) as [K1 K2].
  unfold add_nodes_from_seed_points. rewrite SS. cbn [bind]. unfold complete_surface.
  destruct (surface_nodes_spec field P l1 (order l1) S1) as (fr & -> & _ & FR); [intros y Y; apply NN, K2; auto|]. cbn [bind].
  destruct fr as [|a fr].
  2:{ exfalso. destruct (proj1 (FR a) (or_introl eq_refl)) as [_ Q]. destruct Q as (e & _ & _ & Q). apply Q. reflexivity. }
  assert (FF : fill fuel eligible (only (x :: around x) v) l1 [] = Ok (Some (l1, None))) by (destruct fuel; reflexivity). rewrite FF. cbn [bind].
  destruct (tracked_spec field P l1 (order l1) S1 K1) as (l3 & l4 & E3 & E4 & C); [intros y; rewrite K2; apply NN|]. rewrite E3. cbn [bind]. rewrite E4. cbn [bind].
  exists l4. split; auto. destruct (complete_one_vertex _ _ _ C) as [[O _] _]. destruct (l_vertices l4) as [|w vs]; auto. exfalso. destruct (O w (or_introl eq_refl)) as (_ & _ & _ & Q). apply Q. reflexivity.
Qed.

Local Open Scope R_scope.
Definition id3 : triangle := ((1, 0, 0), (0, 1, 0), (0, 0, 1)).
Definition half : pt := (1 / 2, - (1 / 2), - (1 / 2)).
Lemma id3_det : det id3 = 1.
Proof. unfold det, id3, Predicates.det3, px, py, pz. cbn [fst snd]. ring. Qed.
Lemma id3_comb : forall p, comb p (inverse id3) = p.
Proof.
  intros p. rewrite <- (comb_inverse id3 p) at 2 by (rewrite id3_det; lra). destruct (comb p (inverse id3)) as [[a b] c]. unfold id3. rewrite comb_rows. f_equal; [f_equal|]; ring.
Qed.
Lemma round_0 : round 0 = 0%Z.
Proof. apply round_unique. rewrite Rminus_0_r, Rabs_R0. lra. Qed.
Lemma id3_unrounded : unrounded (-1, -1, -1) (1, 1, 1) id3 half = half.
Proof.
  unfold unrounded, origin. rewrite !id3_comb.
  replace (center (-1, -1, -1) (1, 1, 1)) with ((0, 0, 0) : pt) by (unfold center, add3, scale3, sub3, px, py, pz; cbn [fst snd]; f_equal; [f_equal|]; lra).
  unfold px, py, pz. cbn [fst snd]. rewrite round_0. unfold half, sub3, px, py, pz. cbn [fst snd]. f_equal; [f_equal|]; lra.
Qed.
Lemma floor_half : floor (1 / 2) = 0%Z /\ floor (- (1 / 2)) = (-1)%Z.
Proof.
  split.
  - pose proof (floor_range (1 / 2)) as [A B]. assert (-1 < floor (1 / 2) < 1)%Z; [|lia]. split; apply lt_IZR; lra.
  - pose proof (floor_range (- (1 / 2))) as [A B]. assert (-2 < floor (- (1 / 2)) < 0)%Z; [|lia]. split; apply lt_IZR; lra.
Qed.
Lemma round_half : round (1 / 2) = 1%Z /\ round (- (1 / 2)) = (-1)%Z.
Proof.
  split; unfold round; destruct (Rle_dec 0 _) as [L|L]; try lra.
  - pose proof (floor_range (1 / 2 + 1 / 2)) as [A B]. assert (0 < floor (1 / 2 + 1 / 2) < 2)%Z; [|lia]. split; apply lt_IZR; lra.
  - pose proof (ceil_range (- (1 / 2) - 1 / 2)) as [A B]. assert (-2 < ceil (- (1 / 2) - 1 / 2) < 0)%Z; [|lia]. split; apply lt_IZR; lra.
Qed.
Lemma frac_half : frac (1 / 2) = 1 / 2 /\ frac (- (1 / 2)) = 1 / 2.
Proof. unfold frac. destruct floor_half as [-> ->]. split; lra. Qed.
Theorem seed_at_half : exists lo hi basis p r x i, det basis <> 0 /\ box lo hi p /\ sorts_axes (unrounded lo hi basis p) r /\ rounded lo hi basis p = Ok x /\ new_interpolated lo hi basis r p = Ok i /\
  forall eligible pos descent v order fuel, orders eligible order -> interior eligible x -> (0 < fuel)%nat ->
  exists l, add_nodes_from_seed_points eligible pos descent (only (x :: around x) v) fuel order cleared [x] = Ok (Some (l, None)) /\ l_vertices l = [] /\
  forall xs, incl xs (x :: around x) -> entire true (tell_all (fun _ => v) i xs) = Throw ExRuntimeError.
Proof.
  set (lo := (-1, -1, -1) : pt). set (hi := (1, 1, 1) : pt).
  assert (D : det id3 <> 0) by (rewrite id3_det; lra).
  assert (U : unrounded lo hi id3 half = half) by apply id3_unrounded.
  assert (O : sorts_axes (unrounded lo hi id3 half) (0, 1, 2)%nat).
  { rewrite U. unfold sorts_axes, half, coord, px, py, pz. cbn [fst snd]. destruct frac_half as [-> ->]. split; [apply Permutation_refl|lra]. }
  assert (BD : forall e, -2147483647 <= coord (unrounded lo hi id3 half) e <= 2147483646).
  { intros e. rewrite U. unfold half, coord, px, py, pz. cbn [fst snd]. destruct e as [|[|e]]; lra. }
  destruct (new_spec lo hi id3 D half (0, 1, 2)%nat BD O) as (a & b & c & d & wa & wb & wc & wd & S & T & N & _ & _ & ND & _).
  exists lo, hi, id3, half, (0, 1, 2)%nat, (1, -1, -1)%Z. eexists. split; [exact D|]. split.
  { unfold box, half, lo, hi, px, py, pz. cbn [fst snd]. lra. }
  split; [exact O|]. split.
  { unfold rounded. rewrite U. unfold half, px, py, pz. cbn [fst snd]. destruct round_half as [-> ->]. reflexivity. }
  split; [exact N|]. intros eligible pos descent v order fuel OR IX FU. destruct (flat_seed eligible pos descent v order fuel _ OR IX FU) as (l & E & V). exists l. split; [exact E|]. split; [exact V|].
  intros xs I0. unfold entire, value_sign. destruct (value_told (fun _ => v) xs a b c d wa wb wc wd ND) as [_ Q]. rewrite Q; auto. intros J.
  assert (CB : b = (0, 0, 0)%Z).
  { unfold tetrahedron in T. rewrite U in T. unfold half, px, py, pz in T. cbn [fst snd] in T. destruct floor_half as [F1 F2]. rewrite F1, F2 in T. cbn in T. injection T as _ <- _ _. reflexivity. }
  assert (K : In (0, 0, 0)%Z ((1, -1, -1)%Z :: around (1, -1, -1)%Z)) by (apply I0, J; rewrite CB; cbn; auto).
  clear - K. cbn in K. repeat (destruct K as [K|K]; [discriminate K|]). destruct K.
Qed.
