From Coq Require Import Reals List Lra Lia ZArith.
From Verif Require Import Proofs.Quadric Model.Outcome Model.Clip Model.PointTriangle Model.Predicates Model.Lattice Model.PrimitiveLattice Model.Quadric Spec.Quadric.
Import ListNotations.
Local Open Scope R_scope.

(** C55. The place of a merged vertex. The triangles and the centroid of the anchor are taken in the transformed frame; [es] is any
    eigendecomposition of the matrix. *)

(** The fitted point is the only one of least energy among the points that can be reached from the centroid along eigenvectors with a large
    eigenvalue, and no worse than the centroid. *)
Theorem C55_best : forall anchor ts aniso es,
  let c := mean (map (apply aniso) anchor) in let ts' := map (transform aniso) ts in let x := fitted anchor ts aniso es in
  decomposes (fst (accumulate ts')) es ->
  reach es (sub3 x c) /\ energy ts' x <= energy ts' c /\
  forall z, reach es (sub3 z c) -> energy ts' x <= energy ts' z /\ (energy ts' z = energy ts' x -> z = x).
Proof. exact fitted_best. Qed.
Print Assumptions C55_best.

(** If no eigenvalue is small but not zero, it has the least energy of all points, and of those it is nearest to the centroid; if all are
    large it is the only one. *)
Theorem C55_global : forall anchor ts aniso es,
  let c := mean (map (apply aniso) anchor) in let ts' := map (transform aniso) ts in let x := fitted anchor ts aniso es in
  decomposes (fst (accumulate ts')) es ->
  (floor_of es < fst (pair_at es 1) -> (forall k, (k < 3)%nat -> fst (pair_at es k) <= floor_of es -> fst (pair_at es k) = 0) -> forall z,
    energy ts' x <= energy ts' z /\ (energy ts' z = energy ts' x -> distance x c <= distance z c)) /\
  ((forall k, (k < 3)%nat -> floor_of es < fst (pair_at es k)) -> forall z, z <> x -> energy ts' x < energy ts' z).
Proof. exact fitted_global. Qed.
Print Assumptions C55_global.

(** Then, if the planes have a common point, it is in all of them: a corner or a crease is kept. *)
Theorem C55_kept : forall anchor ts aniso es,
  let c := mean (map (apply aniso) anchor) in let ts' := map (transform aniso) ts in let x := fitted anchor ts aniso es in
  decomposes (fst (accumulate ts')) es -> floor_of es < fst (pair_at es 1) ->
  (forall k, (k < 3)%nat -> fst (pair_at es k) <= floor_of es -> fst (pair_at es k) = 0) -> (exists q, Forall (on_plane q) ts') ->
  Forall (on_plane x) ts' /\ forall z, Forall (on_plane z) ts' -> distance x c <= distance z c.
Proof. exact fitted_kept. Qed.
Print Assumptions C55_kept.

(** The vertex of a flat patch is the centroid, and so it is if there are no triangles. *)
Theorem C55_flat : forall anchor ts aniso es u, decomposes (fst (accumulate (map (transform aniso) ts))) es ->
  (forall t, In t ts -> exists k, facing (transform aniso t) = scale3 k u) -> fitted anchor ts aniso es = mean (map (apply aniso) anchor).
Proof. exact fitted_flat. Qed.
Print Assumptions C55_flat.

(** The centroid is the point from which the anchor deviates by nothing on the whole. *)
Theorem C55_centroid : forall ps, ps <> [] -> fold_right add3 (0, 0, 0) (map (fun p => sub3 p (mean ps)) ps) = (0, 0, 0).
Proof. exact mean_deviations. Qed.
Print Assumptions C55_centroid.

(** The ridge between two faces of equal area is kept exactly if the cosine k of the angle between the faces, in absolute value, has
    (1 + k) / 1000 < 1 - k; that is, if they bend by more than about 3.6 degrees. *)
Theorem C55_ridge : forall anchor s t aniso es w,
  let c := mean (map (apply aniso) anchor) in let s' := transform aniso s in let t' := transform aniso t in let x := fitted anchor [s; t] aniso es in
  decomposes (fst (accumulate [s'; t'])) es -> norm (facing s') = w -> norm (facing t') = w -> 0 < w ->
  let k := Rabs (dot3 (facing s') (facing t')) / (w * w) in
  ((1 + k) / 1000 < 1 - k -> on_plane x s' /\ on_plane x t' /\ forall z, on_plane z s' -> on_plane z t' -> distance x c <= distance z c) /\
  (1 - k <= (1 + k) / 1000 -> x = c).
Proof. exact fitted_ridge. Qed.
Print Assumptions C55_ridge.

(** Whatever the triangles, the vertex belongs to the lattice node it was made for, also after it was moved onto the faces of the box,
    provided such a move is small against the lattice. *)
Theorem C55_node : forall lo hi basis res anchor ts aniso aniso_inv es a b c, det basis <> 0 -> 0 < res ->
  px lo <= px hi /\ py lo <= py hi /\ pz lo <= pz hi ->
  (-2147483648 <= a <= 2147483647)%Z -> (-2147483648 <= b <= 2147483647)%Z -> (-2147483648 <= c <= 2147483647)%Z ->
  (forall d e, (forall i, Rabs (coord d i) <= 2 * / 10 ^ 10 * res) -> Rabs (coord (comb d (inverse basis)) e) < 0.005) ->
  rounded lo hi basis (clustered_position lo hi basis res anchor ts aniso aniso_inv es (a, b, c)) = Ok (a, b, c).
Proof. exact clustered_node. Qed.
Print Assumptions C55_node.

(** Three triangles meeting at (1, 2, 3): the corner is found from anywhere. *)
Definition corner_faces : list triangle :=
  [((1, 2, 3), (2, 2, 3), (1, 3, 3)); ((1, 2, 3), (1, 3, 3), (1, 2, 4)); ((1, 2, 3), (1, 2, 4), (2, 2, 3))].
Definition same : triangle := ((1, 0, 0), (0, 1, 0), (0, 0, 1)).
Example C55_example : exists es, decomposes (fst (accumulate (map (transform same) corner_faces))) es /\
  forall p, fitted [p] corner_faces same es = (1, 2, 3).
Proof.
  set (es := ((1, (1, 0, 0)), (1, (0, 1, 0)), (1, (0, 0, 1))) : eigen). exists es.
  assert (T : map (transform same) corner_faces = corner_faces).
  { unfold corner_faces, same. cbn [map transform apply]. unfold dot3, px, py, pz. cbn [fst snd]. repeat match goal with |- _ :: _ = _ :: _ => f_equal end; repeat match goal with |- (_, _) = (_, _) => f_equal end; ring. }
  assert (F : map facing corner_faces = [(0, 0, 1); (1, 0, 0); (0, 1, 0)]).
  { unfold corner_faces. cbn [map facing]. unfold cross, sub3, px, py, pz. cbn [fst snd]. repeat match goal with |- _ :: _ = _ :: _ => f_equal end; repeat match goal with |- (_, _) = (_, _) => f_equal end; ring. }
  assert (N : forall v, In v [(0, 0, 1); (1, 0, 0); (0, 1, 0)] -> norm v = 1).
  { intros v I. unfold norm. replace (norm2 v) with 1; [apply sqrt_1|]. destruct I as [<-|[<-|[<-|[]]]]; vec; ring. }
  assert (M : forall x y, dot3 (comb x (fst (accumulate corner_faces))) y = dot3 x y).
  { intros x y. rewrite matrix_dot. cbn [map] in F. injection F as F1 F2 F3. unfold corner_faces. cbn [fold_right]. fold (corner_faces). 
    change (facing (1, 2, 3, (2, 2, 3), (1, 3, 3))) with (facing (nth 0 corner_faces same)). change (facing (1, 2, 3, (1, 3, 3), (1, 2, 4))) with (facing (nth 1 corner_faces same)).
    change (facing (1, 2, 3, (1, 2, 4), (2, 2, 3))) with (facing (nth 2 corner_faces same)). cbn [nth corner_faces].
    assert (G : forall a b c, a = (0, 0, 1) -> b = (1, 0, 0) -> c = (0, 1, 0) -> / norm a * dot3 a x * dot3 a y + (/ norm b * dot3 b x * dot3 b y + (/ norm c * dot3 c x * dot3 c y + 0)) = dot3 x y).
    { intros a b c -> -> ->. rewrite !N by (cbn; auto). clear. dvec. vec. field. }
    apply G; [clear|clear|clear]; cbn [facing]; vec; f_equal; [f_equal|f_equal|f_equal|f_equal|f_equal|f_equal]; ring. }
  assert (AP : forall y, apply (fst (accumulate corner_faces)) y = y).
  { intros y. assert (H : forall x, dot3 x (apply (fst (accumulate corner_faces)) y) = dot3 x y) by (intros x; rewrite <- comb_apply; apply M).
    pose proof (H (1, 0, 0)) as H0. pose proof (H (0, 1, 0)) as H1. pose proof (H (0, 0, 1)) as H2. set (z := apply _ y) in *. clearbody z. clear - H0 H1 H2. dvec. revert H0 H1 H2. vec. intros. f_equal; [f_equal|]; lra. }
  assert (DE : decomposes (fst (accumulate corner_faces)) es).
  { split; [|split].
    - intros i j Hi Hj. destruct i as [|[|[|i]]]; try lia; destruct j as [|[|[|j]]]; try lia; cbn [pair_at es fst snd Nat.eqb]; vec; ring.
    - intros k Hk. rewrite AP. destruct k as [|[|[|k]]]; try lia; cbn [pair_at es fst snd]; vec; f_equal; [f_equal|f_equal|f_equal|f_equal|f_equal|f_equal]; ring.
    - cbn [pair_at es fst]. lra. }
  rewrite T. split; [exact DE|]. intros p.
  assert (FL : forall k, (k < 3)%nat -> floor_of es < fst (pair_at es k)) by (intros k Hk; unfold floor_of; destruct k as [|[|[|k]]]; try lia; cbn [pair_at es fst]; lra).
  pose proof (C55_global [p] corner_faces same es) as G. cbv zeta in G. rewrite T in G. destruct (G DE) as [_ U].
  pose proof (C55_best [p] corner_faces same es) as B. 
  destruct (Req_dec (distance (fitted [p] corner_faces same es) (1, 2, 3)) 0) as [Z|Z].
  - unfold distance in Z. apply norm_zero in Z. set (f := fitted _ _ _ _) in *. clearbody f. revert Z. clear. dvec. vec. intros Z. injection Z as A B C. f_equal; [f_equal|]; lra.
  - exfalso. assert (NE : ((1, 2, 3) : pt) <> fitted [p] corner_faces same es).
    { intros E. apply Z. rewrite <- E. unfold distance, norm. replace (norm2 _) with 0; [apply sqrt_0|vec; ring]. }
    specialize (U FL _ NE). assert (E0 : energy corner_faces (1, 2, 3) = 0).
    { apply energy_zero. unfold corner_faces, on_plane. repeat constructor; cbn [facing first]; vec; ring. }
    rewrite E0 in U. pose proof (energy_nonneg corner_faces (fitted [p] corner_faces same es)). lra.
Qed.
