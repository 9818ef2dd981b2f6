From Coq Require Import Reals Lra Lia ZArith List Arith Bool.
From Verif Require Import Proofs.PrimitiveLattice Proofs.LatticeVertices Proofs.LatticeLayers Proofs.LatticeGeometry Proofs.LatticeSurface Proofs.ArbitrarySeed.
From Verif Require Import Model.Outcome Model.Solver Model.Clip Model.PointTriangle Model.Predicates Model.Lattice Model.PrimitiveLattice Model.VertexPositions.
From Verif Require Import Spec.Lattice Spec.VertexPositions.
Import ListNotations.
Local Open Scope R_scope.

(** ** Snapping *)
Lemma snap_to_moves : forall eps t x, 0 < eps -> Rabs (snap_to eps t x - x) < eps.
Proof.
  intros eps t x E. unfold snap_to. destruct (Rlt_dec (Rabs (x - t)) eps) as [H|H].
  - rewrite Rabs_minus_sym. exact H.
  - replace (x - x) with 0 by ring. rewrite Rabs_R0. exact E.
Qed.
Lemma snap_coord_moves : forall eps lo hi x, 0 < eps -> Rabs (snap_coord eps lo hi x - x) < 2 * eps.
Proof.
  intros eps lo hi x E. unfold snap_coord. pose proof (snap_to_moves eps lo x E) as A. pose proof (snap_to_moves eps hi (snap_to eps lo x) E) as B.
  set (y := snap_to eps lo x) in *. set (z := snap_to eps hi y) in *. replace (z - x) with ((z - y) + (y - x)) by ring.
  pose proof (Rabs_triang (z - y) (y - x)). lra.
Qed.
Lemma snap_coord_wide : forall eps lo hi x, 0 < eps -> eps <= hi - lo ->
  (Rabs (x - lo) < eps /\ snap_coord eps lo hi x = lo) \/ (Rabs (x - hi) < eps /\ ~ Rabs (x - lo) < eps /\ snap_coord eps lo hi x = hi) \/
  (~ Rabs (x - lo) < eps /\ ~ Rabs (x - hi) < eps /\ snap_coord eps lo hi x = x).
Proof.
  intros eps lo hi x E W. unfold snap_coord, snap_to. destruct (Rlt_dec (Rabs (x - lo)) eps) as [A|A].
  - left. split; auto. destruct (Rlt_dec (Rabs (lo - hi)) eps) as [B|B]; auto. rewrite Rabs_minus_sym, Rabs_right in B by lra. lra.
  - destruct (Rlt_dec (Rabs (x - hi)) eps) as [B|B]; [right; left; auto|right; right; auto].
Qed.
Lemma snap_near : forall eps lo hi p, 0 < eps -> near (2 * eps) (snap eps lo hi p) p.
Proof. intros eps lo hi p E i I. unfold snap. destruct i as [|[|[|i]]]; [| | |lia]; cbn [coord]; unfold px, py, pz; cbn [fst snd]; apply snap_coord_moves; auto. Qed.

(** ** Lattice coordinates *)
Section Edges.
Variable eps : R.
Hypothesis E0 : 0 < eps.
Hypothesis E1 : eps < 1 / 2.
Lemma whole_far : forall a b t, eps <= t <= 1 - eps -> Rabs (IZR a + t - IZR b) < eps -> False.
Proof.
  intros a b t T H. apply Rabs_def2 in H as [H1 H2]. destruct (Z_le_gt_dec b a) as [L|L].
  - apply IZR_le in L. lra.
  - assert (X : (a + 1 <= b)%Z) by lia. apply IZR_le in X. rewrite plus_IZR in X. lra.
Qed.
Lemma whole_same : forall a b t s, eps <= t <= 1 - eps -> eps <= s <= 1 - eps -> Rabs (IZR a + t - (IZR b + s)) < eps -> a = b.
Proof.
  intros a b t s T S' H. apply Rabs_def2 in H as [H1 H2]. destruct (Z.lt_trichotomy a b) as [L|[L|L]]; auto; exfalso.
  - assert (X : (a + 1 <= b)%Z) by lia. apply IZR_le in X. rewrite plus_IZR in X. lra.
  - assert (X : (b + 1 <= a)%Z) by lia. apply IZR_le in X. rewrite plus_IZR in X. lra.
Qed.
Lemma whole_equal : forall a b, Rabs (IZR a - IZR b) < eps -> a = b.
Proof.
  intros a b H. apply Rabs_def2 in H as [H1 H2]. destruct (Z.lt_trichotomy a b) as [L|[L|L]]; auto; exfalso.
  - assert (X : (a + 1 <= b)%Z) by lia. apply IZR_le in X. rewrite plus_IZR in X. lra.
  - assert (X : (b + 1 <= a)%Z) by lia. apply IZR_le in X. rewrite plus_IZR in X. lra.
Qed.
Lemma coord_same : forall a d b c t s, bit d -> bit c -> eps <= t <= 1 - eps -> eps <= s <= 1 - eps ->
  Rabs (IZR a + t * IZR d - (IZR b + s * IZR c)) < eps -> a = b /\ d = c.
Proof.
  intros a d b c t s D C T S' H. destruct D as [-> | ->]; destruct C as [-> | ->].
  - split; auto. apply whole_equal. replace (IZR a - IZR b) with (IZR a + t * 0 - (IZR b + s * 0)) by ring. exact H.
  - exfalso. apply (whole_far b a s S'). replace (IZR b + s - IZR a) with (- (IZR a + t * 0 - (IZR b + s * 1))) by ring. rewrite Rabs_Ropp. exact H.
  - exfalso. apply (whole_far a b t T). replace (IZR a + t - IZR b) with (IZR a + t * 1 - (IZR b + s * 0)) by ring. exact H.
  - split; auto. apply (whole_same a b t s T S'). replace (IZR a + t - (IZR b + s)) with (IZR a + t * 1 - (IZR b + s * 1)) by ring. exact H.
Qed.

(** A point of an edge. *)
Definition between (a b : lc) (t : R) : pt := add3 (of_lc a) (scale3 t (sub3 (of_lc b) (of_lc a))).
Lemma normal_form : forall a b t, adjacent a b -> eps <= t <= 1 - eps ->
  exists x d s, step d /\ eps <= s <= 1 - eps /\ between a b t = add3 (of_lc x) (scale3 s (of_lc d)) /\
    ((a, b) = (x, lc_add x d) \/ (b, a) = (x, lc_add x d)).
Proof.
  intros a b t (d & ST & [H|H]) T.
  - exists a, d, t. split; [auto|]. split; [auto|]. split; [|left; congruence]. subst b. destruct a as [[a0 a1] a2]. destruct d as [[d0 d1] d2].
    unfold between, lc_add, of_lc. vec. rewrite !plus_IZR. f_equal; [f_equal|]; ring.
  - exists b, d, (1 - t). split; [auto|]. split; [lra|]. split; [|right; congruence]. subst a. destruct b as [[a0 a1] a2]. destruct d as [[d0 d1] d2].
    unfold between, lc_add, of_lc. vec. rewrite !plus_IZR. f_equal; [f_equal|]; ring.
Qed.
Lemma edges_apart : forall a b t c d s, adjacent a b -> adjacent c d -> eps <= t <= 1 - eps -> eps <= s <= 1 - eps ->
  near eps (between a b t) (between c d s) -> (a, b) = (c, d) \/ (b, a) = (c, d).
Proof.
  intros a b t c d s AB CD T S' N.
  destruct (normal_form a b t AB T) as (x & u & t' & SU & T' & EX & JX). destruct (normal_form c d s CD S') as (y & v & s' & SV & S'' & EY & JY).
  rewrite EX, EY in N. clear EX EY. assert (X : x = y /\ u = v).
  { destruct x as [[x0 x1] x2], y as [[y0 y1] y2], u as [[u0 u1] u2], v as [[v0 v1] v2].
    destruct SU as (U0 & U1 & U2 & _). destruct SV as (V0 & V1 & V2 & _).
    pose proof (N 0%nat ltac:(lia)) as N0. pose proof (N 1%nat ltac:(lia)) as N1. pose proof (N 2%nat ltac:(lia)) as N2. clear N.
    cbn [coord of_lc] in N0, N1, N2. unfold add3, scale3, px, py, pz in N0, N1, N2. cbn [fst snd] in N0, N1, N2.
    destruct (coord_same _ _ _ _ _ _ U0 V0 T' S'' N0) as [-> ->]. destruct (coord_same _ _ _ _ _ _ U1 V1 T' S'' N1) as [-> ->].
    destruct (coord_same _ _ _ _ _ _ U2 V2 T' S'' N2) as [-> ->]. auto. }
  destruct X as [-> ->]. destruct JX as [JX|JX], JY as [JY|JY]; (left; congruence) || (right; congruence).
Qed.
End Edges.

(** ** Positions *)
Section Frame.
Variables lo hi : pt.
Variable basis : triangle.
Variable resolution : R.
Hypothesis D : det basis <> 0.
Hypothesis RES : 0 < resolution.
Hypothesis FF : fine_frame basis resolution.
Notation origin := (origin lo hi basis).
Notation unrounded := (unrounded lo hi basis).
Notation edge_point := (edge_point lo hi basis).

Lemma edge_unrounded : forall x e t, unrounded (edge_point x e t) = between x (neighbor x e) (clamped t).
Proof.
  intros x e t. unfold VertexPositions.edge_point, PrimitiveLattice.position.
  replace (add3 (comb (add3 origin (of_lc x)) basis)
    (scale3 (clamped t) (sub3 (comb (add3 origin (of_lc (neighbor x e))) basis) (comb (add3 origin (of_lc x)) basis))))
    with (comb (add3 origin (between x (neighbor x e) (clamped t))) basis).
  - apply unrounded_comb. exact D.
  - rewrite <- comb_sub, <- comb_scale, <- comb_add. f_equal. unfold between. apply pt_ext; vec; ring.
Qed.
Lemma near_unrounded : forall p q, near (4 * tiny resolution) p q -> near min_offset (unrounded p) (unrounded q).
Proof.
  intros p q N i I. unfold fine_frame in FF. destruct (inverse basis) as [[r0 r1] r2] eqn:IB. specialize (FF i I).
  assert (E : coord (unrounded p) i - coord (unrounded q) i =
    (px p - px q) * coord r0 i + (py p - py q) * coord r1 i + (pz p - pz q) * coord r2 i).
  { unfold PrimitiveLattice.unrounded. rewrite IB. destruct r0 as [[a b] c], r1 as [[d e] f], r2 as [[g h] j], p as [[p0 p1] p2], q as [[q0 q1] q2].
    rewrite !comb_rows. destruct i as [|[|[|i]]]; [| | |lia]; cbn [coord]; unfold sub3, px, py, pz; cbn [fst snd]; ring. }
  rewrite E. clear E. pose proof (N 0%nat ltac:(lia)) as N0. pose proof (N 1%nat ltac:(lia)) as N1. pose proof (N 2%nat ltac:(lia)) as N2. cbn [coord] in N0, N1, N2.
  set (m := 4 * tiny resolution) in *.
  assert (B : forall u c, Rabs u < m -> Rabs (u * c) <= m * Rabs c).
  { intros u c U. rewrite Rabs_mult. apply Rmult_le_compat_r; [apply Rabs_pos|lra]. }
  pose proof (B _ (coord r0 i) N0). pose proof (B _ (coord r1 i) N1). pose proof (B _ (coord r2 i) N2).
  pose proof (Rabs_triang ((px p - px q) * coord r0 i + (py p - py q) * coord r1 i) ((pz p - pz q) * coord r2 i)).
  pose proof (Rabs_triang ((px p - px q) * coord r0 i) ((py p - py q) * coord r1 i)). lra.
Qed.
Lemma tiny_pos : 0 < tiny resolution.
Proof. unfold tiny. apply Rmult_lt_0_compat; [apply Rinv_0_lt_compat; lra|exact RES]. Qed.
Lemma snapped_apart : forall x e t y f s, adjacent x (neighbor x e) -> adjacent y (neighbor y f) ->
  snap (tiny resolution) lo hi (edge_point x e t) = snap (tiny resolution) lo hi (edge_point y f s) ->
  (x, neighbor x e) = (y, neighbor y f) \/ (neighbor x e, x) = (y, neighbor y f).
Proof.
  intros x e t y f s AX AY H. pose proof tiny_pos as TP.
  destruct (position_inside t) as [[T1 T2] _]. destruct (position_inside s) as [[S1 S2] _].
  apply (edges_apart min_offset) with (t := clamped t) (s := clamped s); auto; try (unfold min_offset; lra); try lra.
  rewrite <- !edge_unrounded. apply near_unrounded. intros i I.
  pose proof (snap_near (tiny resolution) lo hi (edge_point x e t) TP i I) as A. pose proof (snap_near (tiny resolution) lo hi (edge_point y f s) TP i I) as B.
  rewrite H in A. set (z := coord (snap (tiny resolution) lo hi (edge_point y f s)) i) in *.
  replace (coord (edge_point x e t) i - coord (edge_point y f s) i) with ((z - coord (edge_point y f s) i) - (z - coord (edge_point x e t) i)) by ring.
  unfold Rminus at 1. pose proof (Rabs_triang (z - coord (edge_point y f s) i) (- (z - coord (edge_point x e t) i))) as X. rewrite Rabs_Ropp in X. lra.
Qed.

Lemma positions_ok : forall l vs, (forall x e t, In (x, e, t) vs -> l_nodes l x <> None /\ l_nodes l (neighbor x e) <> None) ->
  positions lo hi basis l vs = Ok (map (fun v => let '(x, e, t) := v in option_map (edge_point x e) t) vs).
Proof.
  intros l vs H. induction vs as [|[[x e] t] vs IH]; [reflexivity|]. cbn [positions map]. unfold position_clamped.
  destruct (H x e t (or_introl eq_refl)) as [H1 H2]. destruct (l_nodes l x); [|contradiction]. destruct (l_nodes l (neighbor x e)); [|contradiction].
  cbn [bind]. rewrite IH by (intros; apply (H _ _ t0); right; auto). reflexivity.
Qed.

Lemma box_positions : forall field f layers z, (forall ys, f ys = Ok (map field ys)) -> layered z layers -> (forall x, field x <> None) ->
  exists l ps, add_all_nodes f cleared layers = Ok (l, None) /\ get_vertices lo hi basis resolution l = Ok (map Some ps) /\
    length ps = length (l_vertices l) /\ NoDup ps /\
    forall i x e t p, nth_error (l_vertices l) i = Some (x, e, t) -> nth_error ps i = Some p ->
      exists r, t = Some r /\ p = snap (tiny resolution) lo hi (edge_point x e r).
Proof.
  intros field f layers z F L NN. destruct (box_vertices field f layers z F L) as (l & RUN & [OV1 OV2] & AT & KEEP). exists l.
  set (place := fun v : lc * nat * num => let '(x, e, t) := v in match t with Some r => snap (tiny resolution) lo hi (edge_point x e r) | None => (0, 0, 0) end).
  exists (map place (l_vertices l)). split; [exact RUN|].
  assert (REAL : forall x e t, In (x, e, t) (l_vertices l) -> exists r, t = Some r).
  { intros x e t V. rewrite Forall_forall in AT. pose proof (AT _ V) as A. cbn in A. destruct (field x) as [a|] eqn:FA; [|destruct (NN x FA)].
    destruct (field (neighbor x e)) as [b|] eqn:FB; [|destruct (NN _ FB)]. destruct (A a b eq_refl eq_refl) as (r & R1 & _). eauto. }
  split; [|split; [|split]].
  - unfold get_vertices. rewrite positions_ok.
    + cbn [bind]. f_equal. rewrite !map_map. apply map_ext_in. intros [[x e] t] V. destruct (REAL x e t V) as [r ->]. reflexivity.
    + intros x e t V. pose proof (OV1 _ V) as (C1 & C2 & C3 & C4). cbn [ends fst snd] in C1, C2, C3, C4. split; apply KEEP.
      * exists (neighbor x e). split; [auto|]. split; [auto|]. split; auto.
      * exists x. split; [auto|]. split; [auto|]. split; [|auto]. destruct C3 as (d & ST & [Q|Q]); exists d; auto.
  - apply map_length.
  - apply (NoDup_nth_error). intros i j I EQ. rewrite map_length in I.
    destruct (nth_error (l_vertices l) i) as [[[x e] t]|] eqn:VI; [|apply nth_error_None in VI; lia].
    rewrite (map_nth_error place _ _ VI) in EQ.
    destruct (nth_error (l_vertices l) j) as [[[y g] s]|] eqn:VJ.
    2:{ apply nth_error_None in VJ. symmetry in EQ. assert (X : (j < length (map place (l_vertices l)))%nat) by (apply nth_error_Some; congruence). rewrite map_length in X. lia. }
    rewrite (map_nth_error place _ _ VJ) in EQ. injection EQ as EQ. pose proof (nth_error_In _ _ VI) as II. pose proof (nth_error_In _ _ VJ) as IJ.
    destruct (REAL _ _ _ II) as [r ->]. destruct (REAL _ _ _ IJ) as [r' ->]. cbn [place] in EQ.
    pose proof (OV1 _ II) as CI. pose proof (OV1 _ IJ) as CJ. cbn [ends fst snd] in CI, CJ.
    assert (SAME := snapped_apart x e r y g r' ltac:(apply CI) ltac:(apply CJ) EQ).
    destruct (OV2 _ _ CI) as (k & _ & U). assert (i = k) by (apply (U i _ VI); left; reflexivity).
    assert (j = k); [|congruence]. apply (U j _ VJ). unfold joins. cbn [ends]. destruct SAME as [Q|Q]; [left|right]; congruence.
  - intros i x e t p VI PI. rewrite (map_nth_error place _ _ VI) in PI. injection PI as <-.
    destruct (REAL _ _ _ (nth_error_In _ _ VI)) as [r ->]. exists r. split; reflexivity.
Qed.
End Frame.

(** ** The frame without anisotropy *)
Lemma frame_fine : forall a b resolution, 0 < resolution -> 57 / 100 < a < 58 / 100 -> 81 / 100 < b < 82 / 100 ->
  det (scaled_basis a b resolution) <> 0 /\ fine_frame (scaled_basis a b resolution) resolution.
Proof.
  intros a b r R A B. assert (DET : det (scaled_basis a b r) = 2 * a * b * b * (r * r * r)).
  { unfold det, scaled_basis, Predicates.det3, px, py, pz. cbn [fst snd]. ring. }
  assert (P : 0 < a * b * b) by (apply Rmult_lt_0_compat; [apply Rmult_lt_0_compat|]; lra).
  assert (P3 : 0 < r * r * r) by (apply Rmult_lt_0_compat; [apply Rmult_lt_0_compat|]; lra).
  assert (NZ : det (scaled_basis a b r) <> 0) by (rewrite DET; nra). split; [exact NZ|].
  unfold fine_frame. rewrite inverse_by. unfold scaled_basis at 2. rewrite inv_rows. set (k := / det (scaled_basis a b r)).
  assert (KP : 0 < k * (r * r * r)).
  { apply Rmult_lt_0_compat; auto. apply Rinv_0_lt_compat. rewrite DET. nra. }
  assert (KR : k * (r * r * r) <= 2).
  { unfold k. rewrite DET. replace (/ (2 * a * b * b * (r * r * r)) * (r * r * r)) with (/ (2 * (a * b * b))) by (field; repeat split; lra).
    assert (1 / 2 <= 2 * (a * b * b)) by (assert (57 / 100 * (81 / 100) <= a * b) by (apply Rmult_le_compat; lra); nra).
    replace 2 with (/ (1 / 2)) at 2 by field. apply Rinv_le_contravar; lra. }
  assert (BD : forall c, Rabs c <= 2 * (r * r) -> 4 * tiny r * Rabs (k * c) <= 16 / 10000000000).
  { intros c C. rewrite Rabs_mult, (Rabs_right k) by (apply Rle_ge; unfold k; left; apply Rinv_0_lt_compat; rewrite DET; nra).
    unfold tiny. assert (0 < k) by (unfold k; apply Rinv_0_lt_compat; rewrite DET; nra).
    assert (X : k * Rabs c <= k * (2 * (r * r))) by (apply Rmult_le_compat_l; lra).
    assert (Y : r * (k * Rabs c) <= 4). { apply Rle_trans with (r * (k * (2 * (r * r)))); [apply Rmult_le_compat_l; lra|]. replace (r * (k * (2 * (r * r)))) with (2 * (k * (r * r * r))) by ring. lra. }
    replace (4 * (/ 10000000000 * r) * (k * Rabs c)) with (4 / 10000000000 * (r * (k * Rabs c))) by field. lra. }
  assert (SM : forall u v, Rabs u <= 1 -> Rabs v <= 1 -> Rabs (r * u * (r * v)) <= 2 * (r * r)).
  { intros u v U V. replace (r * u * (r * v)) with ((r * r) * (u * v)) by ring. rewrite Rabs_mult, (Rabs_right (r * r)) by nra.
    assert (Rabs (u * v) <= 1) by (rewrite Rabs_mult; pose proof (Rabs_pos u); pose proof (Rabs_pos v); nra). nra. }
  assert (A1 : Rabs a <= 1) by (rewrite Rabs_right; lra). assert (B1 : Rabs b <= 1) by (rewrite Rabs_right; lra).
  intros i I. assert (Q : forall c0 c1 c2, Rabs c0 <= 2 * (r * r) -> Rabs c1 <= 2 * (r * r) -> Rabs c2 <= 2 * (r * r) ->
    4 * tiny r * (Rabs (k * c0) + Rabs (k * c1) + Rabs (k * c2)) < min_offset).
  { intros c0 c1 c2 C0 C1 C2. pose proof (BD c0 C0). pose proof (BD c1 C1). pose proof (BD c2 C2). unfold min_offset. lra. }
  assert (Z : Rabs 0 <= 2 * (r * r)) by (rewrite Rabs_R0; nra).
  assert (E : forall c u v, c = r * u * (r * v) -> Rabs u <= 1 -> Rabs v <= 1 -> Rabs c <= 2 * (r * r)) by (intros c u v -> U V; apply SM; auto).
  assert (E2 : forall c u, c = 2 * (r * r) * u -> Rabs u <= 1 -> Rabs c <= 2 * (r * r)).
  { intros c u -> U. rewrite Rabs_mult, (Rabs_right (2 * (r * r))) by nra. nra. }
  assert (AB : Rabs (a * b) <= 1) by (rewrite Rabs_mult; pose proof (Rabs_pos a); pose proof (Rabs_pos b); nra).
  assert (BB : Rabs (b * b) <= 1) by (rewrite Rabs_mult; pose proof (Rabs_pos b); nra).
  destruct i as [|[|[|i]]]; [| | |lia]; cbn [coord]; unfold px, py, pz; cbn [fst snd]; apply Q.
  all: match goal with |- Rabs ?c <= _ => first
    [ replace c with 0 by ring; exact Z
    | apply (E2 c (1/2 * (a * b))); [field|rewrite Rabs_mult, (Rabs_right (1/2)) by lra; lra]
    | apply (E2 c (- (1/2 * (a * b)))); [field|rewrite Rabs_Ropp, Rabs_mult, (Rabs_right (1/2)) by lra; lra]
    | apply (E2 c (1/2 * (b * b))); [field|rewrite Rabs_mult, (Rabs_right (1/2)) by lra; lra]
    | apply (E2 c (- (1/2 * (b * b)))); [field|rewrite Rabs_Ropp, Rabs_mult, (Rabs_right (1/2)) by lra; lra]
    | apply (E2 c (a * b)); [ring|auto]
    | apply (E2 c (- (a * b))); [ring|rewrite Rabs_Ropp; auto] ] end.
Qed.

(** ** A frame squeezed along one axis *)
Lemma squeezed_merge : forall a b t s, / 100000000 <= a <= / 10000000 -> 81 / 100 < b < 82 / 100 -> 0 <= t <= / 10000 -> 0 <= s <= / 10000 ->
  let lo := (- (2 * a), -1, -1) in let hi := (2 * a, 1, 1) in let basis := scaled_basis a b 1 in let x := (1, 0, 1)%Z in
  det basis <> 0 /\ edge_point lo hi basis x 1 t <> edge_point lo hi basis x 8 s /\
  snap (tiny 1) lo hi (edge_point lo hi basis x 1 t) = snap (tiny 1) lo hi (edge_point lo hi basis x 8 s).
Proof.
  intros a b t s A B T S' lo hi basis x.
  assert (DET : det basis = 2 * a * b * b) by (unfold basis, det, scaled_basis, Predicates.det3, px, py, pz; cbn [fst snd]; ring).
  split. { rewrite DET. assert (0 < a * b) by (apply Rmult_lt_0_compat; lra). nra. }
  assert (O : origin lo hi basis = (0, 0, 0)).
  { unfold origin, center, lo, hi. replace (add3 (- (2 * a), -1, -1) (scale3 (1 / 2) (sub3 (2 * a, 1, 1) (- (2 * a), -1, -1)))) with ((0, 0, 0) : pt) by (apply pt_ext; vec; field).
    replace (comb (0, 0, 0) (inverse basis)) with ((0, 0, 0) : pt).
    - unfold px, py, pz. cbn [fst snd]. rewrite round_0. reflexivity.
    - destruct (inverse basis) as [[[[a1 a2] a3] [[b1 b2] b3]] [[c1 c2] c3]]. rewrite comb_rows. apply pt_ext; vec; ring. }
  assert (C : forall u, 0 <= u <= / 10000 -> clamped u = min_offset).
  { intros u U. unfold clamped, min_offset. repeat destruct (Rlt_dec _ _); lra. }
  assert (POS : forall u v w, position lo hi basis (u, v, w) = (a * (IZR u - IZR v + IZR w), b * (IZR u - IZR w), b * IZR v)).
  { intros u v w. unfold position. rewrite O. replace (add3 (0, 0, 0) (of_lc (u, v, w))) with ((IZR u, IZR v, IZR w) : pt) by (unfold add3, of_lc, px, py, pz; cbn [fst snd]; f_equal; [f_equal|]; ring).
    unfold basis, scaled_basis. rewrite comb_rows. apply pt_ext; vec; ring. }
  assert (P1 : edge_point lo hi basis x 1 t = (2 * a + 2 * a * min_offset, 0, 0)).
  { unfold edge_point. rewrite (C t T). change (neighbor x 1) with (2, 0, 2)%Z. unfold x. rewrite !POS. apply pt_ext; vec; ring. }
  assert (P2 : edge_point lo hi basis x 8 s = (2 * a - 2 * a * min_offset, 0, 0)).
  { unfold edge_point. rewrite (C s S'). change (neighbor x 8) with (0, 0, 0)%Z. unfold x. rewrite !POS. apply pt_ext; vec; ring. }
  rewrite P1, P2. split.
  - intros H. injection H as H. unfold min_offset in H. lra.
  - unfold snap, hi, lo, px, py, pz. cbn [fst snd].
    assert (Q : forall u, Rabs u <= 2 * a * min_offset -> snap_coord (tiny 1) (- (2 * a)) (2 * a) (2 * a + u) = 2 * a).
    { intros u U. assert (V : Rabs (2 * a + u - 2 * a) < tiny 1).
      { replace (2 * a + u - 2 * a) with u by ring. apply Rle_lt_trans with (1 := U). unfold tiny, min_offset. lra. }
      unfold snap_coord, snap_to. destruct (Rlt_dec (Rabs (2 * a + u - - (2 * a))) (tiny 1)) as [W|W].
      - exfalso. apply Rabs_def2 in W as [W _]. apply Rabs_def2 in V as [_ V]. unfold tiny in W, V. lra.
      - destruct (Rlt_dec (Rabs (2 * a + u - 2 * a)) (tiny 1)); [reflexivity|contradiction]. }
    f_equal. f_equal. rewrite Q; [unfold Rminus; rewrite Q; auto|]; rewrite ?Rabs_Ropp, ?Rabs_right; try lra; unfold min_offset; lra.
Qed.
