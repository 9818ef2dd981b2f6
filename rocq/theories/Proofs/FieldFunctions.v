From Coq Require Import Reals List Arith Bool Lia Lra.
From Verif Require Import Model.Outcome Model.Clip Model.PointTriangle Model.Predicates Spec.PointTriangle Model.FieldFunctions Spec.FieldFunctions.
Import ListNotations.
Local Open Scope R_scope.

Ltac vec := unfold norm2, add3, sub3, scale3, dot3, cross, px, py, pz; cbn [fst snd].
Ltac dvec := repeat match goal with x : pt |- _ => destruct x as [[? ?] ?] end.

(** * A surface over the plane *)
Lemma field_25d_map : forall f ps, field_25d f ps = map (fun p => pz p - f (flat p)) ps.
Proof. intros f ps. unfold field_25d. induction ps as [|p ps IH]; [reflexivity|]. cbn in *. rewrite IH. reflexivity. Qed.
Lemma graph : forall f ps, length (field_25d f ps) = length ps /\
  forall i p, nth_error ps i = Some p -> exists v, nth_error (field_25d f ps) i = Some v /\
  (v < 0 <-> pz p < f (flat p)) /\ (v = 0 <-> pz p = f (flat p)) /\ (0 < v <-> f (flat p) < pz p).
Proof.
  intros f ps. rewrite field_25d_map. split; [apply map_length|]. intros i p E. exists (pz p - f (flat p)). rewrite nth_error_map, E.
  split; [reflexivity|]. repeat split; intros; lra.
Qed.
Lemma box_25d : forall lo hi p, in_box lo hi p -> let b := bbox_25d lo hi in
  fst (fst b) <= fst (flat p) <= fst (snd b) /\ snd (fst b) <= snd (flat p) <= snd (snd b).
Proof. intros lo hi p (A & B & _). cbn. auto. Qed.

(** * The boundary *)
Lemma same_iff : forall g h, same g h = true <-> g = h.
Proof.
  intros [a b] [c d]. unfold same. cbn [fst snd]. rewrite andb_true_iff, !Nat.eqb_eq. split; [intros [-> ->]; auto|intros E; injection E; auto].
Qed.
Lemma mem_iff : forall h s, existsb (same h) s = true <-> In h s.
Proof.
  intros h s. rewrite existsb_exists. split.
  - intros (x & I & E). apply same_iff in E. subst. auto.
  - intros I. exists h. split; auto. apply same_iff. auto.
Qed.
Lemma opposite_twice : forall h, opposite (opposite h) = h. Proof. intros [a b]. reflexivity. Qed.
Lemma opposite_swap : forall g h, g = opposite h -> opposite g = h. Proof. intros g h ->. apply opposite_twice. Qed.
Definition halfedge_dec : forall g h : halfedge, {g = h} + {g <> h}.
Proof. intros [a b] [c d]. destruct (Nat.eq_dec a c), (Nat.eq_dec b d); subst; auto; right; congruence. Defined.
Lemma toggle_in : forall s h g, In g (toggle s h) <->
  (In (opposite h) s /\ In g s /\ g <> opposite h) \/ (~ In (opposite h) s /\ (g = h \/ In g s)).
Proof.
  intros s h g. unfold toggle. destruct (existsb (same (opposite h)) s) eqn:E.
  - apply mem_iff in E. rewrite filter_In, negb_true_iff. split.
    + intros [I N]. left. split; auto. split; auto. intros ->. rewrite (proj2 (same_iff _ _) eq_refl) in N. discriminate.
    + intros [(_ & I & N)|[N _]]; [|contradiction]. split; auto. destruct (same (opposite h) g) eqn:X; auto. apply same_iff in X. congruence.
  - assert (N : ~ In (opposite h) s) by (intros I; apply mem_iff in I; congruence). destruct (existsb (same h) s) eqn:F.
    + apply mem_iff in F. split; [auto|]. intros [[X _]|[_ [-> |I]]]; auto. contradiction.
    + cbn [In]. split; [intros [<-|I]; auto|]. intros [[X _]|[_ [-> |I]]]; auto. contradiction.
Qed.
Lemma boundary_edges : forall hs, NoDup hs -> (forall h, In h hs -> fst h <> snd h) ->
  forall g, In g (fold_left toggle hs []) <-> In g hs /\ ~ In (opposite g) hs.
Proof.
  intros hs. induction hs as [|h hs IH] using rev_ind; intros ND NL g; [cbn; tauto|].
  rewrite fold_left_app. cbn [fold_left].
  assert (ND' : NoDup hs) by (apply NoDup_remove_1 in ND; rewrite app_nil_r in ND; auto).
  assert (HN : ~ In h hs) by (apply NoDup_remove_2 in ND; rewrite app_nil_r in ND; auto).
  assert (NL' : forall x, In x hs -> fst x <> snd x) by (intros x I; apply NL, in_or_app; auto).
  assert (LH : opposite h <> h). { intros X. apply (NL h); [apply in_or_app; cbn; auto|]. destruct h as [a b]. injection X. auto. }
  specialize (IH ND' NL'). rewrite toggle_in, !IH, !in_app_iff. cbn [In]. rewrite opposite_twice.
  assert (O : h = opposite g <-> g = opposite h) by (split; intros E; [rewrite E; symmetry; apply opposite_twice|rewrite E; symmetry; apply opposite_twice]).
  destruct (in_dec halfedge_dec (opposite h) hs) as [IO|NO].
  - split.
    + intros [(_ & (A & B) & C)|[X _]]; [|tauto]. split; auto. intros [D|[D|[]]]; auto. apply C, O. auto.
    + intros [[A|[A|[]]] B].
      * left. split; [tauto|]. split; [|intros X; apply B; right; left; apply O; auto]. split; auto.
      * subst g. exfalso. apply B. auto.
  - split.
    + intros [[[X _] _]|[_ [-> |[A B]]]]; [contradiction| |].
      * split; auto. intros [D|[D|[]]]; auto.
      * split; auto. intros [D|[D|[]]]; auto. apply NO. apply O in D. subst. auto.
    + intros [[A|[A|[]]] B]; right; (split; [tauto|]).
      * right. auto.
      * auto.
Qed.
Lemma boundary_iff : forall faces, oriented faces -> forall h, In h (boundary faces) <->
  In h (flat_map halfedges faces) /\ ~ In (opposite h) (flat_map halfedges faces).
Proof. intros faces [ND NL] h. apply boundary_edges; auto. Qed.
Lemma boundary_closed : forall faces, oriented faces ->
  (forall h, In h (flat_map halfedges faces) -> In (opposite h) (flat_map halfedges faces)) -> boundary faces = [].
Proof.
  intros faces OR C. destruct (boundary faces) as [|h s] eqn:E; auto. exfalso.
  assert (I : In h (boundary faces)) by (rewrite E; left; auto). apply boundary_iff in I; auto. destruct I as [A B]. auto.
Qed.
Lemma edge_test : forall s a b c la lb lc, let near := fun x => Rabs x < / 10 ^ 10 in let corner := fun v => In v (boundary_vertices s) in
  at_boundary s (a, b, c) (la, lb, lc) = true <->
  (near lc /\ In (a, b) s) \/ (near la /\ In (b, c) s) \/ (near lb /\ In (c, a) s) \/
  (near (1 - la) /\ corner a) \/ (near (1 - lb) /\ corner b) \/ (near (1 - lc) /\ corner c).
Proof.
  intros s a b c la lb lc near corner.
  assert (LT : forall x y, ltb x y = true <-> x < y) by (intros x y; unfold ltb; destruct (Rlt_dec x y); split; auto; discriminate).
  assert (ED : forall h, existsb (same h) s = true <-> In h s).
  { intros h. rewrite existsb_exists. split.
    - intros (g & G & E). unfold same in E. apply andb_true_iff in E. destruct E as [E1 E2]. apply Nat.eqb_eq in E1, E2. destruct h, g. cbn in E1, E2. subst. exact G.
    - intros H. exists h. split; [exact H|]. unfold same. rewrite !Nat.eqb_refl. reflexivity. }
  assert (VE : forall v, existsb (Nat.eqb v) (boundary_vertices s) = true <-> corner v).
  { intros v. rewrite existsb_exists. split; [intros (u & U & E); apply Nat.eqb_eq in E; subst; exact U|intros H; exists v; split; [exact H|apply Nat.eqb_refl]]. }
  unfold at_boundary. cbn [existsb at3 Nat.add]. change (1 mod 3)%nat with 1%nat. change (2 mod 3)%nat with 2%nat. change (3 mod 3)%nat with 0%nat. change (4 mod 3)%nat with 1%nat. cbn [at3].
  rewrite orb_false_r, !orb_true_iff, !andb_true_iff, !LT, !ED, !VE. unfold near. tauto.
Qed.
Lemma at_boundary_closed : forall f l, at_boundary [] f l = false.
Proof. intros f l. unfold at_boundary. cbn [existsb boundary_vertices flat_map]. rewrite !andb_false_r. reflexivity. Qed.

(** * Distances *)
Lemma norm_sq : forall v, norm v * norm v = norm2 v.
Proof. intros v. unfold norm. apply sqrt_sqrt. dvec. vec. nra. Qed.
Lemma norm2_pos : forall v, 0 <= norm2 v. Proof. intros v. dvec. vec. nra. Qed.
Lemma normalized_le : forall v, norm2 (normalized v) <= 1.
Proof.
  intros v. unfold normalized, ltb. destruct (Rlt_dec 0 (norm2 v)) as [P|P].
  - replace (norm2 (scale3 (/ norm v) v)) with (/ norm v * / norm v * norm2 v) by (dvec; vec; ring).
    rewrite <- Rinv_mult. rewrite norm_sq, Rinv_l; lra.
  - lra.
Qed.
Lemma cauchy3 : forall u v, dot3 u v * dot3 u v <= norm2 u * norm2 v.
Proof.
  intros [[a b] c] [[x y] z]. vec.
  pose proof (Rle_0_sqr (a * y - b * x)). pose proof (Rle_0_sqr (a * z - c * x)). pose proof (Rle_0_sqr (b * z - c * y)). unfold Rsqr in *. lra.
Qed.
Lemma dist2_norm : forall p q, dist2 p q = norm2 (sub3 p q).
Proof. intros p q. dvec. vec. unfold dist2, px, py, pz. cbn [fst snd]. ring. Qed.
Lemma normal_flat : forall a b c q, in_triangle a b c q -> dot3 (cross (sub3 b a) (sub3 c a)) (sub3 q a) = 0.
Proof.
  intros [[a1 a2] a3] [[b1 b2] b3] [[c1 c2] c3] [[q1 q2] q3] (u & v & w & _ & _ & _ & S1 & X & Y & Z). revert X Y Z. vec. intros -> -> ->.
  replace u with (1 - v - w) by lra. ring.
Qed.
Lemma dot_normalized : forall v x, dot3 v x = 0 -> dot3 (normalized v) x = 0.
Proof.
  intros v x E. unfold normalized. destruct (ltb 0 (norm2 v)); auto.
  replace (dot3 (scale3 (/ norm v) v) x) with (/ norm v * dot3 v x) by (dvec; vec; ring). rewrite E. ring.
Qed.
Lemma plane_distance : forall a b c p q, in_triangle a b c q ->
  dot3 (normalized (cross (sub3 b a) (sub3 c a))) (sub3 p a) = dot3 (normalized (cross (sub3 b a) (sub3 c a))) (sub3 p q).
Proof.
  intros a b c p q I. pose proof (dot_normalized _ _ (normal_flat a b c q I)) as E. set (n := normalized _) in *. clearbody n.
  replace (dot3 n (sub3 p a)) with (dot3 n (sub3 p q) + dot3 n (sub3 q a)) by (clear; dvec; vec; ring). lra.
Qed.
Lemma plane_bound : forall a b c p q, in_triangle a b c q ->
  Rabs (dot3 (normalized (cross (sub3 b a) (sub3 c a))) (sub3 p a)) <= sqrt (dist2 p q).
Proof.
  intros a b c p q I. rewrite (plane_distance a b c p q I). set (n := cross _ _). rewrite dist2_norm. rewrite <- sqrt_Rsqr_abs. apply sqrt_le_1_alt.
  unfold Rsqr. pose proof (cauchy3 (normalized n) (sub3 p q)). pose proof (normalized_le n). pose proof (norm2_pos (sub3 p q)).
  pose proof (Rmult_le_compat_r _ _ _ H1 H0). lra.
Qed.
(** The sign of copysign and its absolute value. *)
Lemma copysign_spec : forall z x y, 0 <= x -> Rabs (copysign z x y) = x /\ (0 < y -> copysign z x y = x) /\ (y < 0 -> copysign z x y = - x).
Proof.
  intros z x y X. unfold copysign, ltb, eqb. destruct (Rlt_dec y 0), (Req_EM_T y 0); cbn [andb]; try lra; repeat split; intros; try lra;
    destruct z; try lra; rewrite ?Rabs_Ropp, Rabs_right; lra.
Qed.
Lemma sdf_face : forall z vertices faces bary closest p d2 fi q, closest p = (d2, fi, q) -> closest_on vertices faces p d2 fi q ->
  exists f a b c, nth_error faces fi = Some f /\ corners vertices f a b c /\ nearest p a b c q d2 /\
  signed_distance z vertices faces bary closest p =
    Ok (q, let d := dot3 (normalized (cross (sub3 b a) (sub3 c a))) (sub3 p a) in
           if at_boundary (boundary faces) f (bary q a b c) then d else copysign z (sqrt d2) d).
Proof.
  intros z vertices faces bary closest p d2 fi q E [(f & a & b & c & F & (A & B & C) & N) _]. exists f, a, b, c. repeat (split; auto).
  unfold signed_distance. rewrite E, F. cbn [of_option bind]. rewrite A, B, C. reflexivity.
Qed.
(** The absolute value is the distance to the mesh, or less if the closest point is on its boundary. *)
Lemma sdf_distance : forall z vertices faces bary closest p d2 fi q, closest p = (d2, fi, q) -> closest_on vertices faces p d2 fi q ->
  exists f a b c d, nth_error faces fi = Some f /\ corners vertices f a b c /\ signed_distance z vertices faces bary closest p = Ok (q, d) /\
  Rabs d <= sqrt d2 /\ (at_boundary (boundary faces) f (bary q a b c) = false -> Rabs d = sqrt d2) /\
  let h := dot3 (cross (sub3 b a) (sub3 c a)) (sub3 p a) in (0 < h -> 0 < d) /\ (h < 0 -> d < 0) .
Proof.
  intros z vertices faces bary closest p d2 fi q E CL. destruct (sdf_face z vertices faces bary closest p d2 fi q E CL) as (f & a & b & c & F & C & N & S).
  set (d := dot3 (normalized (cross (sub3 b a) (sub3 c a))) (sub3 p a)) in *. cbv zeta in S.
  set (r := if at_boundary (boundary faces) f (bary q a b c) then d else copysign z (sqrt d2) d) in *.
  exists f, a, b, c, r. destruct N as (IT & D2 & _). pose proof (plane_bound a b c p q IT) as PB. fold d in PB. rewrite <- D2 in PB.
  destruct (copysign_spec z (sqrt d2) d (sqrt_pos d2)) as (C1 & C2 & C3).
  repeat (split; [solve [auto]|]). split; [|split].
  - unfold r. destruct (at_boundary _ _ _); [auto|lra].
  - intros X. unfold r. rewrite X. auto.
  - cbv zeta. set (n := cross (sub3 b a) (sub3 c a)) in *.
    assert (SG : forall v x, dot3 v x <> 0 -> dot3 (normalized v) x = / norm v * dot3 v x /\ 0 < / norm v).
    { intros v x NZ. unfold normalized, ltb. destruct (Rlt_dec 0 (norm2 v)) as [P|P].
      - split; [clear; dvec; vec; ring|]. apply Rinv_0_lt_compat. apply sqrt_lt_R0. auto.
      - exfalso. pose proof (cauchy3 v x). pose proof (norm2_pos v). assert (norm2 v = 0) by lra. rewrite H1 in H. pose proof (Rle_0_sqr (dot3 v x)). unfold Rsqr in H2.
        assert (dot3 v x * dot3 v x = 0) by lra. apply Rmult_integral in H3. tauto. }
    assert (R0 : 0 < d \/ d < 0 -> 0 < sqrt d2).
    { intros X. pose proof (Rabs_pos_lt d). destruct (Req_dec d 0); [lra|]. specialize (H H0). lra. }
    split; intros H; (destruct (SG n (sub3 p a)) as [SE SP]; [lra|]); fold d in SE.
    + assert (0 < d) by (rewrite SE; apply Rmult_lt_0_compat; auto). unfold r. destruct (at_boundary _ _ _); auto. rewrite C2; auto.
    + assert (d < 0). { rewrite SE. pose proof (Rmult_lt_0_compat (/ norm n) (- dot3 n (sub3 p a)) SP ltac:(lra)). lra. }
      unfold r. destruct (at_boundary _ _ _); auto. rewrite C3; auto. pose proof (R0 (or_intror H0)). lra.
Qed.
Lemma sdf_closed : forall z vertices faces bary closest p d2 fi q, oriented faces ->
  (forall h, In h (flat_map halfedges faces) -> In (opposite h) (flat_map halfedges faces)) ->
  closest p = (d2, fi, q) -> closest_on vertices faces p d2 fi q ->
  exists d, signed_distance z vertices faces bary closest p = Ok (q, d) /\ Rabs d = sqrt d2.
Proof.
  intros z vertices faces bary closest p d2 fi q OR CL E CO. destruct (sdf_distance z vertices faces bary closest p d2 fi q E CO) as (f & a & b & c & d & _ & _ & S & _ & A & _).
  exists d. split; auto. apply A. rewrite (boundary_closed faces OR CL). apply at_boundary_closed.
Qed.

(** * Inside a face the two formulas agree *)
Lemma first_order : forall e A B, 0 < e -> 0 <= A -> (forall t, Rabs t <= e -> 0 <= t * t * A - 2 * t * B) -> B = 0.
Proof.
  intros e A B E A0 H. destruct (Req_dec B 0) as [|NB]; auto. exfalso. set (t := Rmin e (Rabs B / (A + 1))).
  assert (BP : 0 < Rabs B) by (apply Rabs_pos_lt; auto).
  assert (Q : 0 < Rabs B / (A + 1)) by (apply Rdiv_lt_0_compat; lra).
  assert (T : 0 < t) by (unfold t; apply Rmin_glb_lt; auto). assert (T1 : t <= e) by apply Rmin_l. assert (T2 : t * (A + 1) <= Rabs B).
  { apply Rle_trans with (Rabs B / (A + 1) * (A + 1)); [apply Rmult_le_compat_r; [lra|apply Rmin_r]|right; field; lra]. }
  assert (K : t * t * A - 2 * t * Rabs B < 0).
  { replace (t * t * A - 2 * t * Rabs B) with (t * (t * (A + 1) - Rabs B) - t * t - t * Rabs B) by ring.
    assert (t * (t * (A + 1) - Rabs B) <= 0) by (pose proof (Rmult_le_compat_l t _ _ (Rlt_le _ _ T) T2); lra).
    pose proof (Rmult_lt_0_compat _ _ T T). pose proof (Rmult_lt_0_compat _ _ T BP). lra. }
  destruct (Rcase_abs B) as [BN|BN].
  - rewrite Rabs_left in K by auto. pose proof (H (- t)). rewrite Rabs_Ropp, Rabs_right in H0 by lra. specialize (H0 T1). lra.
  - rewrite Rabs_right in K by auto. pose proof (H t). rewrite Rabs_right in H0 by lra. specialize (H0 T1). lra.
Qed.
Lemma moved : forall p q e t, dist2 p (add3 q (scale3 t e)) = dist2 p q + (t * t * norm2 e - 2 * t * dot3 (sub3 p q) e).
Proof. intros p q e t. dvec. vec. unfold dist2, px, py, pz. cbn [fst snd]. ring. Qed.
Lemma inner_orthogonal : forall p a b c q d2 u v w, nearest p a b c q d2 -> 0 < u -> 0 < v -> 0 < w -> u + v + w = 1 ->
  q = add3 (scale3 u a) (add3 (scale3 v b) (scale3 w c)) -> dot3 (sub3 p q) (sub3 b a) = 0 /\ dot3 (sub3 p q) (sub3 c a) = 0.
Proof.
  intros p a b c q d2 u v w (_ & D & M) U V W S1 Q.
  set (m := Rmin u (Rmin v w)). assert (MP : 0 < m) by (unfold m; repeat apply Rmin_glb_lt; auto).
  assert (MU : m <= u) by apply Rmin_l. assert (MV : m <= v) by (unfold m; eapply Rle_trans; [apply Rmin_r|apply Rmin_l]).
  assert (MW : m <= w) by (unfold m; eapply Rle_trans; [apply Rmin_r|apply Rmin_r]).
  split; [apply (first_order m _ _ MP (norm2_pos (sub3 b a)))|apply (first_order m _ _ MP (norm2_pos (sub3 c a)))]; intros t T; assert (TB : - m <= t <= m) by (unfold Rabs in T; destruct (Rcase_abs t); lra).
  - pose proof (M (add3 q (scale3 t (sub3 b a)))) as X. rewrite moved, <- D in X. cut (d2 <= d2 + (t * t * norm2 (sub3 b a) - 2 * t * dot3 (sub3 p q) (sub3 b a))); [lra|]. apply X.
    exists (u - t), (v + t), w. subst q. clear - U V W S1 MU MV MW TB. dvec. vec. repeat split; try lra; ring.
  - pose proof (M (add3 q (scale3 t (sub3 c a)))) as X. rewrite moved, <- D in X. cut (d2 <= d2 + (t * t * norm2 (sub3 c a) - 2 * t * dot3 (sub3 p q) (sub3 c a))); [lra|]. apply X.
    exists (u - t), v, (w + t). subst q. clear - U V W S1 MU MV MW TB. dvec. vec. repeat split; try lra; ring.
Qed.
Lemma parallel : forall e g x, dot3 x e = 0 -> dot3 x g = 0 -> dot3 (cross e g) x * dot3 (cross e g) x = norm2 (cross e g) * norm2 x.
Proof.
  intros [[a b] c] [[d e] f] [[x y] z]. vec. intros A B.
  set (A' := x * a + y * b + z * c) in *. set (B' := x * d + y * e + z * f) in *.
  match goal with |- ?l = ?r => replace r with (l + ((d * A' - a * B') * (d * A' - a * B') + (e * A' - b * B') * (e * A' - b * B') + (f * A' - c * B') * (f * A' - c * B'))) by (unfold A', B'; ring) end.
  rewrite A, B. ring.
Qed.
Lemma inner_agree : forall p a b c q d2 u v w, nearest p a b c q d2 -> 0 < u -> 0 < v -> 0 < w -> u + v + w = 1 ->
  q = add3 (scale3 u a) (add3 (scale3 v b) (scale3 w c)) -> 0 < norm2 (cross (sub3 b a) (sub3 c a)) ->
  Rabs (dot3 (normalized (cross (sub3 b a) (sub3 c a))) (sub3 p a)) = sqrt d2.
Proof.
  intros p a b c q d2 u v w N U V W S1 Q ND. destruct (inner_orthogonal p a b c q d2 u v w N U V W S1 Q) as [O1 O2]. destruct N as (IT & D & _).
  rewrite (plane_distance a b c p q IT), D, dist2_norm. rewrite <- sqrt_Rsqr_abs. f_equal. unfold Rsqr.
  pose proof (parallel (sub3 b a) (sub3 c a) (sub3 p q) O1 O2) as P. set (n := cross (sub3 b a) (sub3 c a)) in *. set (x := sub3 p q) in *.
  unfold normalized, ltb. destruct (Rlt_dec 0 (norm2 n)) as [_|X]; [|lra].
  assert (NP : norm n <> 0) by (intros X; pose proof (norm_sq n); rewrite X in *; lra).
  replace (dot3 (scale3 (/ norm n) n) x) with (/ norm n * dot3 n x) by (clearbody n x; clear; dvec; vec; ring).
  replace (/ norm n * dot3 n x * (/ norm n * dot3 n x)) with (/ norm n * / norm n * (dot3 n x * dot3 n x)) by ring.
  rewrite P, <- (norm_sq n). field. auto.
Qed.
(** So there the value does not depend on the boundary. *)
Lemma sdf_inner : forall z vertices faces bary closest p d2 fi q f a b c u v w, closest p = (d2, fi, q) -> nth_error faces fi = Some f -> corners vertices f a b c ->
  nearest p a b c q d2 -> 0 < u -> 0 < v -> 0 < w -> u + v + w = 1 -> q = add3 (scale3 u a) (add3 (scale3 v b) (scale3 w c)) -> 0 < norm2 (cross (sub3 b a) (sub3 c a)) ->
  signed_distance z vertices faces bary closest p = Ok (q, dot3 (normalized (cross (sub3 b a) (sub3 c a))) (sub3 p a)).
Proof.
  intros z vertices faces bary closest p d2 fi q f a b c u v w E F (A & B & C) N U V W S1 Q ND.
  pose proof (inner_agree p a b c q d2 u v w N U V W S1 Q ND) as AG.
  unfold signed_distance. rewrite E, F. cbn [of_option bind]. rewrite A, B, C. cbn [of_option bind].
  set (d := dot3 (normalized _) (sub3 p a)) in *. destruct (at_boundary _ _ _); [auto|]. rewrite <- AG.
  destruct (copysign_spec z (Rabs d) d (Rabs_pos d)) as (C1 & C2 & C3). do 2 f_equal.
  destruct (Rtotal_order d 0) as [L|[X|L]].
  - rewrite C3 by auto. rewrite Rabs_left by auto. ring.
  - rewrite X, Rabs_R0 in C1. rewrite X, Rabs_R0. destruct (Req_dec (copysign z 0 0) 0); auto. exfalso. apply Rabs_pos_lt in H. lra.
  - rewrite C2 by auto. apply Rabs_right. lra.
Qed.

(** * The offset surface *)
Lemma offset_sides : forall (sdf : pt -> outcome (pt * R)) f p q d side, sdf p = Ok (q, d) -> satisfies (constraint side d) (f q) ->
  exists v, offset_field sdf f p = Ok v /\ (side = None -> v = 0) /\
    forall s, side = Some s -> (s < 0 -> v <= 0) /\ (0 < s -> 0 <= v) /\ (s = 0 -> v = 0).
Proof.
  intros sdf f p q d side E H. unfold offset_field. rewrite E. cbn [bind fst snd]. exists (d - f q). split; auto.
  unfold constraint in H. destruct side as [s|].
  - split; [discriminate|]. intros s' X. injection X as <-. unfold ltb in H. destruct (Rlt_dec s 0) as [L|L]; [|destruct (Rlt_dec 0 s) as [G|G]]; destruct H as (H1 & H2 & H3).
    + pose proof (H2 d eq_refl). repeat split; intros; lra.
    + pose proof (H3 d eq_refl). repeat split; intros; lra.
    + pose proof (H1 d eq_refl). repeat split; intros; lra.
  - destruct H as (H1 & _). pose proof (H1 d eq_refl). split; [intros; lra|discriminate].
Qed.

(** * A thin tetrahedron *)
Definition tetra_vertices : list pt := [(0, -1, 0); (0, 1, 0); (2, 0, 0); (2, 0, / 5)].
Definition tetra_faces : list face := [(0, 1, 2); (1, 0, 3); (2, 1, 3); (0, 2, 3)]%nat.
Lemma tetra_oriented : oriented tetra_faces.
Proof.
  split.
  - cbn. repeat (constructor; [cbn; intuition discriminate|]). constructor.
  - cbn. intros h H. repeat (destruct H as [<-|H]; [cbn; discriminate|]). destruct H.
Qed.
Lemma tetra_closed : forall h, In h (flat_map halfedges tetra_faces) -> In (opposite h) (flat_map halfedges tetra_faces).
Proof. cbn. intros h H. repeat (destruct H as [<-|H]; [cbn; tauto|]). destruct H. Qed.
Lemma tetra_far : forall x y z f a b c q, x <= 0 -> z <= 0 -> y = 0 -> In f tetra_faces -> corners tetra_vertices f a b c -> in_triangle a b c q ->
  x * x + z * z <= dist2 (x, y, z) q.
Proof.
  intros x y z f a b c [[q1 q2] q3] X Z Y F (A & B & C) (u & v & w & U & V & W & S1 & Q1 & Q2 & Q3). unfold dist2, px, py, pz in *. cbn [fst snd] in *. subst y.
  cut (0 <= q1 /\ 0 <= q3); [intros []; nra|].
  cbn in F. destruct F as [<-|[<-|[<-|[<-|[]]]]]; cbn in A, B, C; injection A as <-; injection B as <-; injection C as <-; cbn [fst snd] in *; lra.
Qed.
Lemma tetra_closest : forall x z, x <= 0 -> z <= 0 -> forall fi, (fi < 2)%nat -> closest_on tetra_vertices tetra_faces (x, 0, z) (x * x + z * z) fi (0, 0, 0).
Proof.
  intros x z X Z fi L. split.
  - destruct fi as [|[|?]]; [| |lia].
    + exists (0, 1, 2)%nat, (0, -1, 0), (0, 1, 0), (2, 0, 0). split; [reflexivity|]. split; [repeat split|]. split; [|split].
      * exists (/ 2), (/ 2), 0. vec. repeat split; lra.
      * unfold dist2, px, py, pz. cbn [fst snd]. ring.
      * intros q IT. apply (tetra_far x 0 z (0, 1, 2)%nat (0, -1, 0) (0, 1, 0) (2, 0, 0)); auto; [cbn; auto|repeat split].
    + exists (1, 0, 3)%nat, (0, 1, 0), (0, -1, 0), (2, 0, / 5). split; [reflexivity|]. split; [repeat split|]. split; [|split].
      * exists (/ 2), (/ 2), 0. vec. repeat split; lra.
      * unfold dist2, px, py, pz. cbn [fst snd]. ring.
      * intros q IT. apply (tetra_far x 0 z (1, 0, 3)%nat (0, 1, 0) (0, -1, 0) (2, 0, / 5)); auto; [cbn; auto|repeat split].
  - intros f a b c q F CO IT. apply (tetra_far x 0 z f a b c q); auto.
Qed.
Lemma tetra_sign : let p := (-1, 0, - / 2) in let q := (0, 0, 0) in
  (forall v, In v tetra_vertices -> px p < px v) /\
  (forall fi, (fi < 2)%nat -> closest_on tetra_vertices tetra_faces p (5 / 4) fi q) /\
  forall z bary, signed_distance z tetra_vertices tetra_faces bary (fun _ => (5 / 4, 0%nat, q)) p = Ok (q, sqrt (5 / 4)) /\
                 signed_distance z tetra_vertices tetra_faces bary (fun _ => (5 / 4, 1%nat, q)) p = Ok (q, - sqrt (5 / 4)).
Proof.
  cbv zeta. split; [|split].
  - intros v H. cbn in H. destruct H as [<-|[<-|[<-|[<-|[]]]]]; cbn; lra.
  - intros fi L. replace (5 / 4) with (-1 * -1 + - / 2 * - / 2) by lra. apply tetra_closest; auto; lra.
  - assert (CO : forall fi, (fi < 2)%nat -> closest_on tetra_vertices tetra_faces (-1, 0, - / 2) (5 / 4) fi (0, 0, 0)).
    { intros fi L. replace (5 / 4) with (-1 * -1 + - / 2 * - / 2) by lra. apply tetra_closest; auto; lra. }
    assert (B : boundary tetra_faces = []) by (apply boundary_closed; [apply tetra_oriented|apply tetra_closed]).
    intros z bary. split.
    + destruct (sdf_distance z tetra_vertices tetra_faces bary (fun _ => (5 / 4, 0%nat, (0, 0, 0))) (-1, 0, - / 2) (5 / 4) 0 (0, 0, 0) eq_refl (CO 0%nat ltac:(lia))) as (f & a & b & c & d & F & (A1 & A2 & A3) & S & _ & AB & P & _).
      cbn in F. injection F as <-. cbn in A1, A2, A3. injection A1 as <-. injection A2 as <-. injection A3 as <-. rewrite B in AB. specialize (AB (at_boundary_closed _ _)).
      rewrite S. do 2 f_equal. rewrite <- AB. rewrite Rabs_right; auto. apply Rle_ge, Rlt_le, P. vec. lra.
    + destruct (sdf_distance z tetra_vertices tetra_faces bary (fun _ => (5 / 4, 1%nat, (0, 0, 0))) (-1, 0, - / 2) (5 / 4) 1 (0, 0, 0) eq_refl (CO 1%nat ltac:(lia))) as (f & a & b & c & d & F & (A1 & A2 & A3) & S & _ & AB & _ & P).
      cbn in F. injection F as <-. cbn in A1, A2, A3. injection A1 as <-. injection A2 as <-. injection A3 as <-. rewrite B in AB. specialize (AB (at_boundary_closed _ _)).
      rewrite S. do 2 f_equal. rewrite <- AB. rewrite Rabs_left; [ring|]. apply P. vec. lra.
Qed.
(** Two points over the same point of the mesh. *)
Lemma tetra_conflict : forall z bary closest f, closest (-1, 0, 0) = (1, 0%nat, (0, 0, 0)) -> closest (-2, 0, 0) = (4, 0%nat, (0, 0, 0)) ->
  closest_on tetra_vertices tetra_faces (-1, 0, 0) 1 0 (0, 0, 0) /\ closest_on tetra_vertices tetra_faces (-2, 0, 0) 4 0 (0, 0, 0) /\
  ~ (forall p, In p [(-1, 0, 0); (-2, 0, 0)] -> exists q d, signed_distance z tetra_vertices tetra_faces bary closest p = Ok (q, d) /\ satisfies (constraint None d) (f q)).
Proof.
  intros z bary closest f E1 E2.
  assert (C1 : closest_on tetra_vertices tetra_faces (-1, 0, 0) 1 0 (0, 0, 0)) by (replace 1 with (-1 * -1 + 0 * 0) by ring; apply tetra_closest; try lra; lia).
  assert (C2 : closest_on tetra_vertices tetra_faces (-2, 0, 0) 4 0 (0, 0, 0)) by (replace 4 with (-2 * -2 + 0 * 0) by ring; apply tetra_closest; try lra; lia).
  repeat (split; auto). intros H. destruct (H (-1, 0, 0)) as (q & d & S1 & F1 & _); [cbn; auto|]. destruct (H (-2, 0, 0)) as (q' & d' & S2 & F2 & _); [cbn; auto|].
  destruct (sdf_closed z _ _ bary closest _ _ _ _ tetra_oriented tetra_closed E1 C1) as (e & S1' & A1). destruct (sdf_closed z _ _ bary closest _ _ _ _ tetra_oriented tetra_closed E2 C2) as (e' & S2' & A2).
  rewrite S1 in S1'. rewrite S2 in S2'. injection S1' as -> ->. injection S2' as -> ->. specialize (F1 _ eq_refl). specialize (F2 _ eq_refl). rewrite F1 in F2. subst e'.
  rewrite A1 in A2. apply (f_equal (fun x => x * x)) in A2. rewrite !sqrt_sqrt in A2 by lra. lra.
Qed.
(** Closest points may leave the box. *)
Lemma box_left : let box := ((0, 0, 0), (1, 1, 1)) in let centers := ((0, 0, 0), (0, 0, 0)) in let p := (1, 0, 0) in let q := (2, 0, 0) in
  exists vertices faces, in_box (fst box) (snd box) p /\ closest_on vertices faces p 1 0 q /\
  ~ in_box (fst (evaluation_box box centers)) (snd (evaluation_box box centers)) q.
Proof.
  cbv zeta. exists [(2, 0, 0); (2, 1, 0); (2, 0, 1)], [(0, 1, 2)]%nat. split; [unfold in_box; vec; lra|].
  assert (K : forall q, in_triangle (2, 0, 0) (2, 1, 0) (2, 0, 1) q -> 1 <= dist2 (1, 0, 0) q).
  { intros [[a b] c] (u & v & w & U & V & W & S1 & Q1 & Q2 & Q3). unfold dist2, px, py, pz in *. cbn [fst snd] in *. nra. }
  split; [split|].
  - exists (0, 1, 2)%nat, (2, 0, 0), (2, 1, 0), (2, 0, 1). repeat (split; [reflexivity|]). split; [repeat split|]. split; [|split; [unfold dist2, px, py, pz; cbn [fst snd]; ring|auto]].
    exists 1, 0, 0. vec. repeat split; lra.
  - intros f a b c x F (A & B & C) IT. cbn in F. destruct F as [<-|[]]. cbn in A, B, C. injection A as <-. injection B as <-. injection C as <-. auto.
  - unfold in_box, evaluation_box. vec. intros [[_ H] _]. rewrite Rmax_left in H; lra.
Qed.
(** An edge of three faces. *)
Lemma order_matters : exists faces faces' : list face, (forall f, In f faces <-> In f faces') /\ length faces = length faces' /\
  boundary_vertices (boundary faces) <> [] /\ In (0, 1)%nat (boundary faces) /\ ~ In (0, 1)%nat (boundary faces') /\ ~ In (1, 0)%nat (boundary faces').
Proof.
  exists [(1, 0, 2); (0, 1, 3); (0, 1, 4)]%nat, [(0, 1, 3); (0, 1, 4); (1, 0, 2)]%nat. split; [intros f; cbn; tauto|]. split; [reflexivity|]. split; [vm_compute; discriminate|].
  split; [vm_compute; tauto|]. split; vm_compute; intros H; repeat (destruct H as [H|H]; [discriminate|]); destruct H.
Qed.
