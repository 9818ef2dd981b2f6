From Coq Require Import Reals List Lra Lia ZArith.
From Verif Require Import Proofs.PrimitiveLattice Model.Outcome Model.Clip Model.PointTriangle Model.Predicates Model.Lattice Model.PrimitiveLattice Model.Quadric Spec.Quadric.
Import ListNotations.
Local Open Scope R_scope.

Ltac vec := unfold norm2, add3, sub3, scale3, dot3, cross, zero, px, py, pz; cbn [fst snd].
Ltac dvec := repeat match goal with x : pt |- _ => destruct x as [[? ?] ?] end.

(** * The energy as a quadratic function *)
Definition sym (a : triangle) : Prop := forall x y, dot3 (comb x a) y = dot3 (comb y a) x.
Definition quad (a : triangle) (b : pt) (x : pt) : R := dot3 (comb x a) x - 2 * dot3 b x.
Lemma norm_pos : forall x, 0 <= norm x. Proof. intros x. apply sqrt_pos. Qed.
Lemma norm_sq : forall x, norm x * norm x = norm2 x.
Proof. intros x. apply sqrt_sqrt. dvec. vec. nra. Qed.
Lemma norm_zero : forall x, norm x = 0 -> x = zero.
Proof.
  intros [[a b] c] H. pose proof (norm_sq (a, b, c)) as N. rewrite H in N. revert N. vec. intros N.
  assert (a = 0) by nra. assert (b = 0) by nra. assert (c = 0) by nra. subst. reflexivity.
Qed.
Definition step (ab : triangle * pt) (t : triangle) : triangle * pt :=
    let '(p0, p1, p2) := t in
    let n := cross (sub3 p1 p0) (sub3 p2 p0) in
    let w := norm n in
    if eqb w 0 then ab else
    let n := scale3 (/ w) n in
    (madd (fst ab) (outer w n), add3 (snd ab) (scale3 (w * dot3 n p0) n)).
Lemma accumulate_steps : forall ts, accumulate ts = fold_left step ts ((zero, zero, zero), zero).
Proof. reflexivity. Qed.
Lemma accumulate_quad : forall ts a b, sym a -> exists k, forall x, sym (fst (fold_left step ts (a, b))) /\
  quad (fst (fold_left step ts (a, b))) (snd (fold_left step ts (a, b))) x + k = quad a b x + energy ts x.
Proof.
  induction ts as [|t ts IH]; intros a b S.
  - exists 0. intros x. split; [exact S|cbn [fold_left fst snd energy fold_right]; lra].
  - cbn [fold_left]. destruct t as [[p0 p1] p2]. unfold step at 2 4 6. cbv beta iota zeta. unfold eqb.
    cbn [energy fold_right facing first]. fold (energy ts).
    set (n := cross (sub3 p1 p0) (sub3 p2 p0)). destruct (Req_EM_T (norm n) 0) as [Z|Z].
    + destruct (IH a b S) as (k & K). exists k. intros x. destruct (K x) as [K1 K2]. split; [exact K1|]. rewrite K2, Z. unfold energy. lra.
    + set (u := scale3 (/ norm n) n). cbn [fst snd].
      assert (S' : sym (madd a (outer (norm n) u))).
      { intros x y. specialize (S x y). clearbody u. clear - S. destruct a as [[a0 a1] a2]. dvec. revert S. cbn [madd outer comb]. vec. intros S. ring_simplify in S. ring_simplify. lra. }
      destruct (IH _ (add3 b (scale3 (norm n * dot3 u p0) u)) S') as (k & K).
      exists (k + norm n * (dot3 u p0) ^ 2). intros x. destruct (K x) as [K1 K2]. split; [exact K1|].
      assert (E : dot3 n (sub3 x p0) / norm n = dot3 u x - dot3 u p0).
      { unfold u. clearbody n. dvec. unfold dot3, sub3, scale3, px, py, pz in *. cbn [fst snd] in *. field. exact Z. }
      rewrite E. unfold energy in *. set (w := norm n) in *. clearbody w u. clear - K2.
      set (en := fold_right _ 0 ts) in *. clearbody en.
      match type of K2 with ?q + k = _ => set (Q := q) in * end. clearbody Q.
      unfold quad in *. revert K2. destruct a as [[a0 a1] a2]. dvec. cbn [madd outer comb]. vec. intros K2. ring_simplify in K2. ring_simplify. lra.
Qed.
Lemma energy_quad : forall ts, sym (fst (accumulate ts)) /\ exists k, forall x, energy ts x = quad (fst (accumulate ts)) (snd (accumulate ts)) x + k.
Proof.
  intros ts. assert (S : sym ((zero, zero, zero) : triangle)) by (intros x y; dvec; cbn [comb]; vec; ring).
  destruct (accumulate_quad ts (zero, zero, zero) zero S) as (k & K). split; [apply (K zero)|]. exists k. intros x. destruct (K x) as [_ K2]. rewrite accumulate_steps.
  assert (Z : quad (zero, zero, zero) zero x = 0) by (unfold quad; dvec; cbn [comb]; vec; ring). rewrite Z, Rplus_0_l in K2. symmetry. exact K2.
Qed.
Lemma energy_nonneg : forall ts x, 0 <= energy ts x.
Proof.
  intros ts x. unfold energy. induction ts as [|t ts IH]; cbn [fold_right]; [lra|]. apply Rplus_le_le_0_compat; [|exact IH]. apply Rmult_le_pos; [apply norm_pos|]. apply pow2_ge_0.
Qed.

(** * Eigenvectors *)
Definition mix3 (a b c : R) (e0 e1 e2 : pt) : pt := add3 (add3 (scale3 a e0) (scale3 b e1)) (scale3 c e2).
Lemma gram : forall e0 e1 e2, Predicates.det3 e0 e1 e2 * Predicates.det3 e0 e1 e2 =
    dot3 e0 e0 * (dot3 e1 e1 * dot3 e2 e2 - dot3 e1 e2 * dot3 e1 e2) - dot3 e0 e1 * (dot3 e0 e1 * dot3 e2 e2 - dot3 e1 e2 * dot3 e0 e2) +
    dot3 e0 e2 * (dot3 e0 e1 * dot3 e1 e2 - dot3 e1 e1 * dot3 e0 e2).
Proof. intros e0 e1 e2. dvec. unfold Predicates.det3. vec. ring. Qed.
Lemma dot_mix : forall a b c e0 e1 e2 x, dot3 (mix3 a b c e0 e1 e2) x = a * dot3 e0 x + b * dot3 e1 x + c * dot3 e2 x.
Proof. intros a b c e0 e1 e2 x. unfold mix3. dvec. vec. ring. Qed.
Lemma dot_sym : forall x y, dot3 x y = dot3 y x. Proof. intros x y. dvec. vec. ring. Qed.
Lemma dot_sub : forall x y z, dot3 (sub3 x y) z = dot3 x z - dot3 y z. Proof. intros x y z. dvec. vec. ring. Qed.
Lemma dot_add : forall x y z, dot3 (add3 x y) z = dot3 x z + dot3 y z. Proof. intros x y z. dvec. vec. ring. Qed.
Lemma dot_scale : forall k x y, dot3 (scale3 k x) y = k * dot3 x y. Proof. intros k x y. dvec. vec. ring. Qed.
Lemma cramer : forall u e0 e1 e2, scale3 (Predicates.det3 e0 e1 e2) u = mix3 (dot3 u e0) (dot3 u e1) (dot3 u e2) (cross e1 e2) (cross e2 e0) (cross e0 e1).
Proof. intros u e0 e1 e2. unfold mix3, Predicates.det3. dvec. vec. f_equal; [f_equal|]; ring. Qed.
Lemma comb_apply : forall a x y, dot3 (comb x a) y = dot3 x (apply a y).
Proof. intros [[r0 r1] r2] x y. dvec. cbn [comb apply]. vec. ring. Qed.
Lemma scale_sub_zero : forall d x y, d <> 0 -> scale3 d (sub3 x y) = zero -> x = y.
Proof.
  intros d x y Dn. dvec. vec. intros Z. injection Z as A B E.
  f_equal; [f_equal|]; [apply Rmult_integral in A; destruct A; [contradiction|lra]|apply Rmult_integral in B; destruct B; [contradiction|lra]|apply Rmult_integral in E; destruct E; [contradiction|lra]].
Qed.
Lemma quad_add : forall a b c d, sym a -> quad a b (add3 c d) = quad a b c + dot3 (comb d a) d - 2 * dot3 (sub3 b (comb c a)) d.
Proof.
  intros a b c d S. specialize (S c d). unfold quad. destruct a as [[r0 r1] r2]. dvec. revert S. cbn [comb]. vec. intros S. ring_simplify in S. ring_simplify. lra.
Qed.
Section Frame.
Variables e0 e1 e2 : pt.
Hypothesis O00 : dot3 e0 e0 = 1. Hypothesis O11 : dot3 e1 e1 = 1. Hypothesis O22 : dot3 e2 e2 = 1.
Hypothesis O01 : dot3 e0 e1 = 0. Hypothesis O02 : dot3 e0 e2 = 0. Hypothesis O12 : dot3 e1 e2 = 0.
Lemma frame_det : Predicates.det3 e0 e1 e2 * Predicates.det3 e0 e1 e2 = 1.
Proof using O00 O01 O02 O11 O12 O22. rewrite gram, O00, O01, O02, O11, O12, O22. ring. Qed.
Lemma frame_coords : forall a b c, dot3 (mix3 a b c e0 e1 e2) e0 = a /\ dot3 (mix3 a b c e0 e1 e2) e1 = b /\ dot3 (mix3 a b c e0 e1 e2) e2 = c.
Proof using O00 O01 O02 O11 O12 O22.
  intros a b c. rewrite !dot_mix, (dot_sym e1 e0), (dot_sym e2 e0), (dot_sym e2 e1), O00, O01, O02, O11, O12, O22. split; [ring|split; ring].
Qed.
Lemma frame_ext : forall x y, dot3 x e0 = dot3 y e0 -> dot3 x e1 = dot3 y e1 -> dot3 x e2 = dot3 y e2 -> x = y.
Proof using O00 O01 O02 O11 O12 O22.
  intros x y A B C. apply (scale_sub_zero (Predicates.det3 e0 e1 e2)).
  - intros H. pose proof frame_det as D. rewrite H in D. lra.
  - rewrite cramer, !dot_sub, A, B, C, !Rminus_diag_eq by reflexivity. unfold mix3, scale3, add3, zero, px, py, pz. cbn [fst snd]. f_equal; [f_equal|]; ring.
Qed.
Lemma frame_complete : forall v, v = mix3 (dot3 v e0) (dot3 v e1) (dot3 v e2) e0 e1 e2.
Proof using O00 O01 O02 O11 O12 O22. intros v. destruct (frame_coords (dot3 v e0) (dot3 v e1) (dot3 v e2)) as (A & B & C). apply frame_ext; symmetry; assumption. Qed.
Lemma frame_dot : forall x y, dot3 x y = dot3 x e0 * dot3 y e0 + dot3 x e1 * dot3 y e1 + dot3 x e2 * dot3 y e2.
Proof using O00 O01 O02 O11 O12 O22.
  intros x y. rewrite (frame_complete x) at 1. rewrite dot_mix, !(dot_sym _ y). reflexivity.
Qed.
Variables l0 l1 l2 : R.
Variable a : triangle.
Hypothesis E0 : apply a e0 = scale3 l0 e0. Hypothesis E1 : apply a e1 = scale3 l1 e1. Hypothesis E2 : apply a e2 = scale3 l2 e2.
Lemma quad_frame : forall x y, dot3 (comb x a) y = l0 * dot3 x e0 * dot3 y e0 + l1 * dot3 x e1 * dot3 y e1 + l2 * dot3 x e2 * dot3 y e2.
Proof using O00 O01 O02 O11 O12 O22 E0 E1 E2.
  intros x y. rewrite (frame_dot (comb x a) y), !comb_apply, E0, E1, E2, !(dot_sym x (scale3 _ _)), !dot_scale, !(dot_sym _ x). ring.
Qed.

(** The energy relative to a point [c]. *)
Variables b c : pt.
Notation r := (sub3 b (comb c a)).
Lemma quad_shift : forall d, sym a -> quad a b (add3 c d) = quad a b c +
  (l0 * dot3 d e0 ^ 2 - 2 * dot3 r e0 * dot3 d e0) + (l1 * dot3 d e1 ^ 2 - 2 * dot3 r e1 * dot3 d e1) + (l2 * dot3 d e2 ^ 2 - 2 * dot3 r e2 * dot3 d e2).
Proof using O00 O01 O02 O11 O12 O22 E0 E1 E2.
  intros d S.
  rewrite (quad_add a b c d S), (quad_frame d d), (frame_dot r d). ring.
Qed.
End Frame.

(** * The fitted point *)
Lemma square_gap : forall l r y, 0 < l -> l * y ^ 2 - 2 * r * y = l * (y - r / l) ^ 2 - (l * (r / l) ^ 2 - 2 * r * (r / l)) * -1.
Proof. intros l r y H. field. lra. Qed.
Lemma add_zero : forall v, add3 v zero = v.
Proof. intros v. dvec. vec. f_equal; [f_equal|]; ring. Qed.
Lemma sub_add : forall u v, sub3 (add3 u v) u = v.
Proof. intros u v. dvec. vec. f_equal; [f_equal|]; ring. Qed.
Section Fit.
Variable ts : list triangle.
Variable es : eigen.
Hypothesis DE : decomposes (fst (accumulate ts)) es.
Variable c : pt.
Notation a := (fst (accumulate ts)).
Notation b := (snd (accumulate ts)).
Notation ev k := (fst (pair_at es k)).
Notation ec k := (snd (pair_at es k)).
Notation fl := (floor_of es).
Notation x := (add3 c (offset c a b es)).
Notation r := (sub3 b (comb c a)).

Lemma es_frame : dot3 (ec 0) (ec 0) = 1 /\ dot3 (ec 1) (ec 1) = 1 /\ dot3 (ec 2) (ec 2) = 1 /\ dot3 (ec 0) (ec 1) = 0 /\ dot3 (ec 0) (ec 2) = 0 /\ dot3 (ec 1) (ec 2) = 0.
Proof using DE. destruct DE as (O & _). split; [exact (O 0%nat 0%nat ltac:(lia) ltac:(lia))|]. split; [exact (O 1%nat 1%nat ltac:(lia) ltac:(lia))|]. split; [exact (O 2%nat 2%nat ltac:(lia) ltac:(lia))|].
  split; [exact (O 0%nat 1%nat ltac:(lia) ltac:(lia))|]. split; [exact (O 0%nat 2%nat ltac:(lia) ltac:(lia))|exact (O 1%nat 2%nat ltac:(lia) ltac:(lia))]. Qed.
Lemma es_ext : forall u v, (forall k, (k < 3)%nat -> dot3 u (ec k) = dot3 v (ec k)) -> u = v.
Proof using DE.
  intros u v H. destruct es_frame as (O00 & O11 & O22 & O01 & O02 & O12). apply (frame_ext (ec 0) (ec 1) (ec 2)); try assumption; apply H; lia.
Qed.
Lemma es_dot : forall u v, dot3 u v = dot3 u (ec 0) * dot3 v (ec 0) + dot3 u (ec 1) * dot3 v (ec 1) + dot3 u (ec 2) * dot3 v (ec 2).
Proof using DE. destruct es_frame as (O00 & O11 & O22 & O01 & O02 & O12). apply frame_dot; assumption. Qed.
Lemma es_quad : forall u v, dot3 (comb u a) v = ev 0 * dot3 u (ec 0) * dot3 v (ec 0) + ev 1 * dot3 u (ec 1) * dot3 v (ec 1) + ev 2 * dot3 u (ec 2) * dot3 v (ec 2).
Proof using DE.
  destruct es_frame as (O00 & O11 & O22 & O01 & O02 & O12). destruct DE as (_ & E & _). apply quad_frame; try assumption; apply E; lia.
Qed.
(** The energy along the eigenvectors. *)
Definition part (d : pt) (k : nat) : R := ev k * dot3 d (ec k) ^ 2 - 2 * dot3 r (ec k) * dot3 d (ec k).
Lemma energy_shift : forall d, energy ts (add3 c d) = energy ts c + part d 0 + part d 1 + part d 2.
Proof using DE.
  intros d. destruct (energy_quad ts) as (S & k & K). rewrite !K.
  destruct es_frame as (O00 & O11 & O22 & O01 & O02 & O12). destruct DE as (_ & E & _).
  rewrite (quad_shift (ec 0) (ec 1) (ec 2) O00 O11 O22 O01 O02 O12 (ev 0) (ev 1) (ev 2) a (E 0%nat ltac:(lia)) (E 1%nat ltac:(lia)) (E 2%nat ltac:(lia)) b c d S). unfold part. ring.
Qed.
Lemma psd : forall y, 0 <= dot3 (comb y a) y.
Proof using Type.
  intros y. destruct (energy_quad ts) as (S & k & K).
  (* the energy at t y, for all t *)
  assert (T : forall t, 0 <= t * t * dot3 (comb y a) y - 2 * t * dot3 b y + k).
  { intros t. pose proof (energy_nonneg ts (scale3 t y)) as N. rewrite K in N. unfold quad in N. replace (dot3 (comb (scale3 t y) a) (scale3 t y)) with (t * t * dot3 (comb y a) y) in N.
    - rewrite (dot_sym b (scale3 t y)), dot_scale, (dot_sym y b) in N. lra.
    - clear. destruct (accumulate ts) as [[[r0 r1] r2] bb]. cbn [fst comb]. dvec. vec. ring. }
  set (q := dot3 (comb y a) y) in *. set (p := dot3 b y) in *. clearbody q p. clear - T.
  destruct (Rle_dec 0 q) as [H|H]; [exact H|exfalso]. assert (Q : q < 0) by lra.
  (* t large *)
  set (t := 1 + (2 * Rabs p + Rabs k + 1) / - q). assert (P0 : 0 <= (2 * Rabs p + Rabs k + 1) / - q).
  { apply Rmult_le_pos; [pose proof (Rabs_pos p); pose proof (Rabs_pos k); lra|left; apply Rinv_0_lt_compat; lra]. }
  assert (T1 : 1 <= t) by (unfold t; lra). specialize (T t).
  assert (X : t * - q = - q + (2 * Rabs p + Rabs k + 1)) by (unfold t; field; lra).
  assert (Y : - 2 * t * p <= 2 * t * Rabs p) by (pose proof (Rle_abs (- p)) as A; rewrite Rabs_Ropp in A; nra).
  pose proof (Rle_abs k). pose proof (Rabs_pos p). pose proof (Rabs_pos k).
  assert (Z : t * t * q = - t * (- q + (2 * Rabs p + Rabs k + 1))) by (rewrite <- X; ring). rewrite Z in T. nra.
Qed.
Lemma ev_nonneg : forall k, (k < 3)%nat -> 0 <= ev k.
Proof using DE.
  intros k Hk. pose proof (psd (ec k)) as P. rewrite comb_apply in P. destruct DE as (O & E & _). rewrite (E k Hk), dot_sym, dot_scale, (O k k Hk Hk), Nat.eqb_refl in P. lra.
Qed.
Lemma floor_nonneg : 0 <= fl.
Proof using DE. unfold floor_of. pose proof (ev_nonneg 2 ltac:(lia)). lra. Qed.
Lemma offset_coord : forall k, (k < 3)%nat -> dot3 (offset c a b es) (ec k) = if Rlt_dec fl (ev 1) then if Rlt_dec fl (ev k) then dot3 r (ec k) / ev k else 0 else 0.
Proof using DE.
  intros k Hk. destruct es_frame as (O00 & O11 & O22 & O01 & O02 & O12). unfold offset, ltb. destruct (Rlt_dec fl (ev 1)) as [L|L]; [|destruct (ec k) as [[? ?] ?]; vec; ring].
  cbn [fold_left]. unfold along, ltb.
  assert (Z : forall v, dot3 zero v = 0) by (intros v; clear; dvec; vec; ring).
  destruct (Rlt_dec fl (ev 0)); destruct (Rlt_dec fl (ev 1)); try contradiction; destruct (Rlt_dec fl (ev 2));
    destruct k as [|[|[|k]]]; try lia; rewrite ?dot_add, ?dot_scale, ?Z, ?(dot_sym (ec 1) (ec 0)), ?(dot_sym (ec 2) (ec 0)), ?(dot_sym (ec 2) (ec 1)), ?O00, ?O11, ?O22, ?O01, ?O02, ?O12;
    match goal with |- _ = if Rlt_dec ?u ?v then _ else _ => destruct (Rlt_dec u v); [|] | _ => idtac end; try contradiction; ring.
Qed.
Lemma add_sub : forall u v, add3 u (sub3 v u) = v.
Proof using Type. clear. intros u v. dvec. vec. f_equal; [f_equal|]; ring. Qed.
Lemma part_gap : forall d k, (k < 3)%nat -> fl < ev 1 -> fl < ev k -> part d k = part (offset c a b es) k + ev k * (dot3 d (ec k) - dot3 (offset c a b es) (ec k)) ^ 2.
Proof using DE.
  intros d k Hk L1 Lk. unfold part. rewrite (offset_coord k Hk). destruct (Rlt_dec fl (ev 1)); [|contradiction]. destruct (Rlt_dec fl (ev k)); [|contradiction].
  pose proof floor_nonneg. field. lra.
Qed.
Lemma offset_reach : reach es (offset c a b es).
Proof using DE.
  unfold reach. destruct (Rlt_dec fl (ev 1)) as [L|L].
  - intros k Hk Z. rewrite (offset_coord k Hk). destruct (Rlt_dec fl (ev 1)); [|contradiction]. destruct (Rlt_dec fl (ev k)); [lra|reflexivity].
  - unfold offset, ltb. destruct (Rlt_dec fl (ev 1)); [contradiction|reflexivity].
Qed.
Theorem fit_best : forall d, reach es d -> energy ts x <= energy ts (add3 c d) /\ (energy ts (add3 c d) = energy ts x -> d = offset c a b es).
Proof using DE.
  intros d R. pose proof offset_reach as RO. set (o := offset c a b es) in *. unfold reach in R, RO. destruct (Rlt_dec fl (ev 1)) as [L|L].
  - assert (G : forall k, (k < 3)%nat -> exists g, 0 <= g /\ part d k = part o k + g /\ (g = 0 -> dot3 d (ec k) = dot3 o (ec k))).
    { intros k Hk. destruct (Rlt_dec fl (ev k)) as [Lk|Lk].
      - exists (ev k * (dot3 d (ec k) - dot3 o (ec k)) ^ 2). pose proof floor_nonneg as F. split; [apply Rmult_le_pos; [lra|apply pow2_ge_0]|]. split; [apply part_gap; assumption|].
        intros Z. apply Rmult_integral in Z. destruct Z as [Z|Z]; [lra|]. nra.
      - exists 0. assert (LE : ev k <= fl) by lra. unfold part. rewrite (R k Hk LE), (RO k Hk LE). split; [lra|]. split; [lra|reflexivity]. }
    destruct (G 0%nat ltac:(lia)) as (g0 & P0 & Q0 & Z0). destruct (G 1%nat ltac:(lia)) as (g1 & P1 & Q1 & Z1). destruct (G 2%nat ltac:(lia)) as (g2 & P2 & Q2 & Z2).
    rewrite !energy_shift, Q0, Q1, Q2. split; [lra|]. intros E. apply es_ext. intros k Hk. destruct k as [|[|[|k]]]; [apply Z0; lra|apply Z1; lra|apply Z2; lra|lia].
  - rewrite R, RO. split; [lra|reflexivity].
Qed.
Theorem fit_no_worse : energy ts x <= energy ts c.
Proof using DE.
  assert (Z : reach es zero). { unfold reach. destruct (Rlt_dec fl (ev 1)); [intros k _ _; destruct (ec k) as [[? ?] ?]; vec; ring|reflexivity]. }
  destruct (fit_best zero Z) as [H _]. replace (add3 c zero) with c in H; [exact H|]. symmetry. apply add_zero.
Qed.
(** A direction without resistance has no force. *)
Lemma free_force : forall k, (k < 3)%nat -> ev k = 0 -> dot3 r (ec k) = 0.
Proof using DE.
  intros k Hk Z. set (rk := dot3 r (ec k)).
  assert (T : forall t, 0 <= energy ts c - 2 * rk * t).
  { intros t. pose proof (energy_nonneg ts (add3 c (scale3 t (ec k)))) as N. rewrite energy_shift in N. destruct DE as (O & _).
    assert (P : forall j, (j < 3)%nat -> part (scale3 t (ec k)) j = if Nat.eqb k j then - 2 * rk * t else 0).
    { intros j Hj. unfold part. rewrite dot_scale, (O k j Hk Hj). destruct (Nat.eqb_spec k j) as [<-|]; [rewrite Z; unfold rk; ring|ring]. }
    rewrite !P in N by lia. destruct k as [|[|[|k]]]; cbn [Nat.eqb] in N; [lra|lra|lra|lia]. }
  clearbody rk. clear - T. destruct (Req_dec rk 0) as [H|H]; [exact H|exfalso]. specialize (T ((energy ts c + 1) / (2 * rk))).
  assert (X : 2 * rk * ((energy ts c + 1) / (2 * rk)) = energy ts c + 1) by (field; exact H). lra.
Qed.
Theorem fit_global : fl < ev 1 -> (forall k, (k < 3)%nat -> ev k <= fl -> ev k = 0) -> forall z,
  energy ts x <= energy ts z /\ (energy ts z = energy ts x -> distance x c <= distance z c).
Proof using DE.
  intros L H z. set (d := sub3 z c). set (o := offset c a b es). assert (Ez : z = add3 c d) by (unfold d; rewrite add_sub; reflexivity).
  assert (G : forall k, (k < 3)%nat -> exists g, 0 <= g /\ part d k = part o k + g /\ (g = 0 -> dot3 o (ec k) ^ 2 <= dot3 d (ec k) ^ 2)).
  { intros k Hk. destruct (Rlt_dec fl (ev k)) as [Lk|Lk].
    - exists (ev k * (dot3 d (ec k) - dot3 o (ec k)) ^ 2). pose proof floor_nonneg as F. split; [apply Rmult_le_pos; [lra|apply pow2_ge_0]|]. split; [apply part_gap; assumption|].
      intros Z. apply Rmult_integral in Z. destruct Z as [Z|Z]; [lra|]. assert (E : dot3 d (ec k) = dot3 o (ec k)) by nra. rewrite E. lra.
    - exists 0. assert (Z : ev k = 0) by (apply H; [exact Hk|lra]). unfold part. rewrite Z, (free_force k Hk Z). split; [lra|]. split; [ring|].
      intros _. unfold o. rewrite (offset_coord k Hk). destruct (Rlt_dec fl (ev 1)); [|contradiction]. destruct (Rlt_dec fl (ev k)); [contradiction|]. pose proof (pow2_ge_0 (dot3 d (ec k))). lra. }
  destruct (G 0%nat ltac:(lia)) as (g0 & P0 & Q0 & Z0). destruct (G 1%nat ltac:(lia)) as (g1 & P1 & Q1 & Z1). destruct (G 2%nat ltac:(lia)) as (g2 & P2 & Q2 & Z2).
  rewrite Ez. fold o. rewrite !energy_shift, Q0, Q1, Q2. split; [lra|]. intros E.
  unfold distance. rewrite !sub_add. unfold norm. apply sqrt_le_1_alt. unfold norm2. rewrite (es_dot o o), (es_dot d d).
  specialize (Z0 ltac:(lra)). specialize (Z1 ltac:(lra)). specialize (Z2 ltac:(lra)). lra.
Qed.
Theorem fit_unique : (forall k, (k < 3)%nat -> fl < ev k) -> forall z, z <> x -> energy ts x < energy ts z.
Proof using DE.
  intros H z N. set (d := sub3 z c). assert (Ez : z = add3 c d) by (unfold d; rewrite add_sub; reflexivity).
  assert (R : reach es d). { unfold reach. destruct (Rlt_dec fl (ev 1)) as [_|L]; [|exfalso; apply L; apply H; lia]. intros k Hk Z. specialize (H k Hk). lra. }
  destruct (fit_best d R) as [A B]. rewrite Ez. destruct (Rle_lt_or_eq_dec _ _ A) as [Lt|Eq]; [exact Lt|]. exfalso. apply N. rewrite Ez. f_equal. apply B. symmetry. exact Eq.
Qed.
End Fit.

(** * Planes with a common point *)
Lemma dot_zero : forall v, dot3 zero v = 0.
Proof. intros v. dvec. vec. ring. Qed.
Lemma energy_zero : forall ts q, energy ts q = 0 <-> Forall (on_plane q) ts.
Proof.
  intros ts q. induction ts as [|t ts IH]; [split; [constructor|reflexivity]|]. cbn [energy fold_right]. fold (energy ts q).
  change (fold_right _ 0 ts) with (energy ts q). pose proof (energy_nonneg ts q) as N. pose proof (norm_pos (facing t)) as P.
  pose proof (Rmult_le_pos _ _ P (pow2_ge_0 (dot3 (facing t) (sub3 q (first t)) / norm (facing t)))) as T. split.
  - intros Z. constructor; [|apply IH; lra]. unfold on_plane. destruct (Req_dec (norm (facing t)) 0) as [W|W]; [rewrite (norm_zero _ W); apply dot_zero|].
    assert (M : norm (facing t) * (dot3 (facing t) (sub3 q (first t)) / norm (facing t)) ^ 2 = 0) by lra. apply Rmult_integral in M. destruct M as [M|M]; [contradiction|].
    assert (K : dot3 (facing t) (sub3 q (first t)) / norm (facing t) = 0) by nra. apply (f_equal (Rmult (norm (facing t)))) in K. rewrite Rmult_0_r in K. rewrite <- K. field. exact W.
  - intros F. inversion_clear F as [|? ? A B]. apply IH in B. rewrite B. unfold on_plane in A. rewrite A. unfold Rdiv. rewrite Rmult_0_l. ring.
Qed.
Theorem fit_kept : forall ts es c, decomposes (fst (accumulate ts)) es -> floor_of es < fst (pair_at es 1) ->
  (forall k, (k < 3)%nat -> fst (pair_at es k) <= floor_of es -> fst (pair_at es k) = 0) -> (exists q, Forall (on_plane q) ts) ->
  let x := add3 c (offset c (fst (accumulate ts)) (snd (accumulate ts)) es) in
  Forall (on_plane x) ts /\ forall z, Forall (on_plane z) ts -> distance x c <= distance z c.
Proof.
  intros ts es c DE L H (q & Q) x. apply energy_zero in Q. assert (X : energy ts x = 0).
  { destruct (fit_global ts es DE c L H q) as [A _]. pose proof (energy_nonneg ts x). unfold x in *. lra. }
  split; [apply energy_zero; exact X|]. intros z Z. apply energy_zero in Z. apply (fit_global ts es DE c L H z). fold x. lra.
Qed.

(** * Flat patches *)
Lemma matrix_dot : forall ts x y, dot3 (comb x (fst (accumulate ts))) y =
  fold_right (fun t e => / norm (facing t) * dot3 (facing t) x * dot3 (facing t) y + e) 0 ts.
Proof.
  assert (K : forall ts a b x y, dot3 (comb x (fst (fold_left step ts (a, b)))) y = dot3 (comb x a) y + fold_right (fun t e => / norm (facing t) * dot3 (facing t) x * dot3 (facing t) y + e) 0 ts).
  { induction ts as [|t ts IH]; intros a b x y; [cbn [fold_left fst fold_right]; ring|]. cbn [fold_left fold_right]. destruct t as [[p0 p1] p2]. unfold step at 2. cbv beta iota zeta. unfold eqb. cbn [facing].
    set (n := cross (sub3 p1 p0) (sub3 p2 p0)). destruct (Req_EM_T (norm n) 0) as [Z|Z].
    - rewrite IH, (norm_zero n Z), !dot_zero. ring.
    - cbn [fst snd]. rewrite IH. set (e := fold_right _ 0 ts). clearbody e n. destruct a as [[r0 r1] r2]. revert Z. generalize (norm n). intros w Z. dvec. cbn [madd outer comb]. vec. field. exact Z. }
  intros ts x y. rewrite accumulate_steps, K. assert (Z : dot3 (comb x (zero, zero, zero)) y = 0) by (dvec; cbn [comb]; vec; ring). rewrite Z. ring.
Qed.
Theorem fit_flat : forall ts es c u, decomposes (fst (accumulate ts)) es -> (forall t, In t ts -> exists k, facing t = scale3 k u) ->
  add3 c (offset c (fst (accumulate ts)) (snd (accumulate ts)) es) = c.
Proof.
  intros ts es c u DE P.
  assert (W : exists W, forall x y, dot3 (comb x (fst (accumulate ts))) y = W * dot3 u x * dot3 u y).
  { assert (F : exists W, forall x y, fold_right (fun t e => / norm (facing t) * dot3 (facing t) x * dot3 (facing t) y + e) 0 ts = W * dot3 u x * dot3 u y).
    { clear DE. induction ts as [|t ts IH]; [exists 0; intros; cbn [fold_right]; ring|]. destruct IH as (W & HW); [intros t' I; apply P; right; exact I|]. destruct (P t (or_introl eq_refl)) as (k & Hk).
      exists (/ norm (facing t) * k * k + W). intros x y. cbn [fold_right]. rewrite HW, Hk at 1. rewrite Hk, !dot_scale. ring. }
    destruct F as (W & HW). exists W. intros x y. rewrite matrix_dot. apply HW. }
  destruct W as (W & HW).
  assert (L : ~ floor_of es < fst (pair_at es 1)).
  { intros L. pose proof (floor_nonneg ts es DE) as F. destruct DE as (O & E & S).
    assert (K : forall k, (k < 3)%nat -> fst (pair_at es k) = W * dot3 u (snd (pair_at es k)) * dot3 u (snd (pair_at es k))).
    { intros k Hk. rewrite <- HW, comb_apply, (E k Hk), dot_sym, dot_scale, (O k k Hk Hk), Nat.eqb_refl. ring. }
    assert (X : 0 = W * dot3 u (snd (pair_at es 1)) * dot3 u (snd (pair_at es 2))).
    { rewrite <- HW, comb_apply, (E 2%nat ltac:(lia)), dot_sym, dot_scale, (dot_sym (snd (pair_at es 2))), (O 1%nat 2%nat ltac:(lia) ltac:(lia)). cbn [Nat.eqb]. ring. }
    pose proof (K 1%nat ltac:(lia)) as K1. pose proof (K 2%nat ltac:(lia)) as K2. set (u1 := dot3 u (snd (pair_at es 1))) in *. set (u2 := dot3 u (snd (pair_at es 2))) in *.
    assert (Z : fst (pair_at es 1) * fst (pair_at es 2) = 0) by (rewrite K1, K2; transitivity ((W * u1 * u2) * (W * u1 * u2)); [ring|rewrite <- X; ring]).
    apply Rmult_integral in Z. lra. }
  unfold offset, ltb. destruct (Rlt_dec _ _); [contradiction|]. dvec. vec. f_equal; [f_equal|]; ring.
Qed.

(** * A ridge between two faces *)
Lemma two_planes : forall n m p q, cross n m <> zero -> exists x, dot3 n (sub3 x p) = 0 /\ dot3 m (sub3 x q) = 0.
Proof.
  intros n m p q N. set (g := cross n m). assert (G : norm2 g <> 0).
  { intros Z. apply N. fold g. clearbody g. revert Z. dvec. vec. intros Z. f_equal; [f_equal|]; nra. }
  exists (scale3 (/ norm2 g) (add3 (scale3 (dot3 n p) (cross m g)) (scale3 (dot3 m q) (cross g n)))).
  assert (A : forall n m g u v p k, g = cross n m -> k * norm2 g = 1 -> u = dot3 n p -> dot3 n (sub3 (scale3 k (add3 (scale3 u (cross m g)) (scale3 v (cross g n)))) p) = 0).
  { clear. intros n m g u v p k Hg Hk ->. transitivity (dot3 n p * (k * norm2 g - 1)).
    - subst g. clear Hk. dvec. vec. ring.
    - rewrite Hk. ring. }
  assert (B : forall n m g u v q k, g = cross n m -> k * norm2 g = 1 -> v = dot3 m q -> dot3 m (sub3 (scale3 k (add3 (scale3 u (cross m g)) (scale3 v (cross g n)))) q) = 0).
  { clear. intros n m g u v p k Hg Hk ->. transitivity (dot3 m p * (k * norm2 g - 1)).
    - subst g. clear Hk. dvec. vec. ring.
    - rewrite Hk. ring. }
  assert (K : / norm2 g * norm2 g = 1) by (field; exact G).
  split; [apply (A n m g _ _ p (/ norm2 g) eq_refl K eq_refl)|apply (B n m g _ _ q (/ norm2 g) eq_refl K eq_refl)].
Qed.
Lemma ridge_values : forall w c a0 a1 a2 b0 b1 b2 l0 l1 l2, 0 < w ->
  a0 * a0 + a1 * a1 + a2 * a2 = 1 -> b0 * b0 + b1 * b1 + b2 * b2 = 1 -> a0 * b0 + a1 * b1 + a2 * b2 = c ->
  w * (a0 * a0 + b0 * b0) = l0 -> w * (a1 * a1 + b1 * b1) = l1 -> w * (a2 * a2 + b2 * b2) = l2 ->
  a0 * a1 + b0 * b1 = 0 -> a0 * a2 + b0 * b2 = 0 -> a1 * a2 + b1 * b2 = 0 -> 0 <= l0 -> l0 <= l1 <= l2 ->
  l0 = 0 /\ l1 = w * (1 - Rabs c) /\ l2 = w * (1 + Rabs c).
Proof.
  intros w c a0 a1 a2 b0 b1 b2 l0 l1 l2 W A B C L0 L1 L2 Z01 Z02 Z12 P S.
  assert (D : l0 * l1 * l2 = 0).
  { set (s00 := a0 * a0 + b0 * b0) in *. set (s11 := a1 * a1 + b1 * b1) in *. set (s22 := a2 * a2 + b2 * b2) in *.
    assert (G : s00 * s11 * s22 + 2 * (a0 * a1 + b0 * b1) * (a0 * a2 + b0 * b2) * (a1 * a2 + b1 * b2) - s00 * (a1 * a2 + b1 * b2) ^ 2 - s11 * (a0 * a2 + b0 * b2) ^ 2 - s22 * (a0 * a1 + b0 * b1) ^ 2 = 0)
      by (unfold s00, s11, s22; ring).
    rewrite Z01, Z02, Z12 in G. rewrite <- L0, <- L1, <- L2. replace (w * s00 * (w * s11) * (w * s22)) with (w * w * w * (s00 * s11 * s22)) by ring. replace (s00 * s11 * s22) with 0 by lra. ring. }
  assert (E0 : l0 = 0). { apply Rmult_integral in D. destruct D as [D|D]; [apply Rmult_integral in D; destruct D; lra|lra]. }
  assert (T : l0 + l1 + l2 = 2 * w). { rewrite <- L0, <- L1, <- L2. transitivity (w * ((a0 * a0 + a1 * a1 + a2 * a2) + (b0 * b0 + b1 * b1 + b2 * b2))); [ring|]. rewrite A, B. ring. }
  assert (Q : l0 * l0 + l1 * l1 + l2 * l2 = w * w * (2 + 2 * c * c)).
  { rewrite <- L0, <- L1, <- L2. transitivity (w * w * ((a0 * a0 + a1 * a1 + a2 * a2) ^ 2 + (b0 * b0 + b1 * b1 + b2 * b2) ^ 2 + 2 * (a0 * b0 + a1 * b1 + a2 * b2) ^ 2
      - 2 * (a0 * a1 + b0 * b1) ^ 2 - 2 * (a0 * a2 + b0 * b2) ^ 2 - 2 * (a1 * a2 + b1 * b2) ^ 2)); [ring|]. rewrite A, B, C, Z01, Z02, Z12. ring. }
  assert (Dif : l2 - l1 = 2 * w * Rabs c).
  { assert (S2 : (l2 - l1) * (l2 - l1) = (2 * w * Rabs c) * (2 * w * Rabs c)).
    { assert (CC : Rabs c * Rabs c = c * c) by (unfold Rabs; destruct (Rcase_abs c); ring). replace (2 * w * Rabs c * (2 * w * Rabs c)) with (4 * (w * w) * (Rabs c * Rabs c)) by ring. rewrite CC.
      rewrite E0 in *. replace l1 with (2 * w - l2) in * by lra. clear - Q. nra. }
    apply Rsqr_inj; [lra| |exact S2]. apply Rmult_le_pos; [lra|apply Rabs_pos]. }
  split; [exact E0|]. lra.
Qed.
Theorem fit_ridge : forall s t es c w, decomposes (fst (accumulate [s; t])) es -> norm (facing s) = w -> norm (facing t) = w -> 0 < w ->
  let k := Rabs (dot3 (facing s) (facing t)) / (w * w) in
  let x := add3 c (offset c (fst (accumulate [s; t])) (snd (accumulate [s; t])) es) in
  ((1 + k) / 1000 < 1 - k -> on_plane x s /\ on_plane x t /\ forall z, on_plane z s -> on_plane z t -> distance x c <= distance z c) /\
  (1 - k <= (1 + k) / 1000 -> x = c).
Proof.
  intros s t es c w DE Ws Wt W k x. set (n := facing s) in *. set (m := facing t) in *.
  pose proof (ev_nonneg _ _ DE 0%nat ltac:(lia)) as P0.
  assert (M : forall i j, (i < 3)%nat -> (j < 3)%nat ->
    / w * (dot3 n (snd (pair_at es i)) * dot3 n (snd (pair_at es j)) + dot3 m (snd (pair_at es i)) * dot3 m (snd (pair_at es j))) = if Nat.eqb i j then fst (pair_at es i) else 0).
  { intros i j Hi Hj. pose proof (matrix_dot [s; t] (snd (pair_at es i)) (snd (pair_at es j))) as Q. cbn [fold_right] in Q. fold n m in Q. rewrite Ws, Wt in Q.
    destruct DE as (O & E & _). rewrite comb_apply, (E j Hj), dot_sym, dot_scale, (dot_sym (snd (pair_at es j))), (O i j Hi Hj) in Q.
    destruct (Nat.eqb_spec i j) as [<-|]; lra. }
  assert (U : forall v, norm v = w -> (dot3 v (snd (pair_at es 0)) / w) * (dot3 v (snd (pair_at es 0)) / w) + (dot3 v (snd (pair_at es 1)) / w) * (dot3 v (snd (pair_at es 1)) / w) +
     (dot3 v (snd (pair_at es 2)) / w) * (dot3 v (snd (pair_at es 2)) / w) = 1).
  { intros v Hv. pose proof (norm_sq v) as N. rewrite Hv in N. unfold norm2 in N. rewrite (es_dot _ _ DE v v) in N.
    transitivity ((dot3 v (snd (pair_at es 0)) * dot3 v (snd (pair_at es 0)) + dot3 v (snd (pair_at es 1)) * dot3 v (snd (pair_at es 1)) + dot3 v (snd (pair_at es 2)) * dot3 v (snd (pair_at es 2))) / (w * w)); [field; lra|].
    rewrite <- N. field. lra. }
  assert (I : forall i j, (i < 3)%nat -> (j < 3)%nat ->
     (dot3 n (snd (pair_at es i)) / w) * (dot3 n (snd (pair_at es j)) / w) + (dot3 m (snd (pair_at es i)) / w) * (dot3 m (snd (pair_at es j)) / w) = / w * (if Nat.eqb i j then fst (pair_at es i) else 0)).
  { intros i j Hi Hj. rewrite <- (M i j Hi Hj). field. lra. }
  destruct (ridge_values w (dot3 n m / (w * w)) (dot3 n (snd (pair_at es 0)) / w) (dot3 n (snd (pair_at es 1)) / w) (dot3 n (snd (pair_at es 2)) / w)
     (dot3 m (snd (pair_at es 0)) / w) (dot3 m (snd (pair_at es 1)) / w) (dot3 m (snd (pair_at es 2)) / w) (fst (pair_at es 0)) (fst (pair_at es 1)) (fst (pair_at es 2))) as (E0 & E1 & E2).
  - exact W.
  - apply U. exact Ws.
  - apply U. exact Wt.
  - rewrite (es_dot _ _ DE n m). field. lra.
  - rewrite (I 0%nat 0%nat) by lia. cbn [Nat.eqb]. field. lra.
  - rewrite (I 1%nat 1%nat) by lia. cbn [Nat.eqb]. field. lra.
  - rewrite (I 2%nat 2%nat) by lia. cbn [Nat.eqb]. field. lra.
  - rewrite (I 0%nat 1%nat) by lia. cbn [Nat.eqb]. ring.
  - rewrite (I 0%nat 2%nat) by lia. cbn [Nat.eqb]. ring.
  - rewrite (I 1%nat 2%nat) by lia. cbn [Nat.eqb]. ring.
  - exact P0.
  - apply DE.
  - assert (AK : Rabs (dot3 n m / (w * w)) = k).
    { unfold k, Rdiv. rewrite Rabs_mult, (Rabs_pos_eq (/ (w * w))); [reflexivity|]. left. apply Rinv_0_lt_compat. nra. }
    rewrite AK in E1, E2. assert (K0 : 0 <= k) by (rewrite <- AK; apply Rabs_pos).
    assert (LT : floor_of es < fst (pair_at es 1) <-> (1 + k) / 1000 < 1 - k).
    { unfold floor_of. rewrite E1, E2. split; intros H; nra. }
    split.
    + intros H. destruct (fit_kept [s; t] es c DE (proj2 LT H)) as [F N].
      * intros i Hi Li. apply LT in H. destruct i as [|[|[|i]]]; [exact E0|lra| |lia]. exfalso. unfold floor_of in *. nra.
      * destruct (two_planes n m (first s) (first t)) as (q & Q1 & Q2).
        { intros Z. assert (LG : norm2 (cross n m) = norm2 n * norm2 m - dot3 n m * dot3 n m) by (clear; clearbody n m; dvec; vec; ring).
          rewrite Z in LG. rewrite <- !norm_sq, Ws, Wt in LG. unfold zero, norm, norm2 in LG. 
          assert (X : dot3 n m * dot3 n m = w * w * (w * w)). { replace (dot3 (0, 0, 0) (0, 0, 0)) with 0 in LG by (vec; ring). rewrite sqrt_0 in LG. lra. }
          assert (KK : k * k = 1). { unfold k. transitivity ((Rabs (dot3 n m) * Rabs (dot3 n m)) / (w * w * (w * w))); [field; lra|]. replace (Rabs (dot3 n m) * Rabs (dot3 n m)) with (dot3 n m * dot3 n m) by (unfold Rabs; destruct (Rcase_abs _); ring). rewrite X. field. lra. }
          nra. }
        exists q. constructor; [exact Q1|constructor; [exact Q2|constructor]].
      * inversion_clear F as [|? ? F1 F2]. inversion_clear F2 as [|? ? F3 _]. split; [exact F1|]. split; [exact F3|]. intros z A B. apply N. constructor; [exact A|constructor; [exact B|constructor]].
    + intros H. unfold x, offset, ltb. destruct (Rlt_dec _ _) as [L|_]; [apply LT in L; lra|apply add_zero].
Qed.

(** * The node *)
Lemma snap1_near : forall tiny lo hi x, lo <= hi -> 0 < tiny -> Rabs (snap1 tiny lo hi x - x) <= 2 * tiny.
Proof.
  intros tiny lo hi x H T. unfold snap1, ltb. destruct (Rlt_dec (Rabs (x - lo)) tiny) as [A|A].
  - apply Rabs_def2 in A. destruct (Rlt_dec _ tiny) as [B|B]; [apply Rabs_def2 in B|]; apply Rabs_le; lra.
  - destruct (Rlt_dec _ tiny) as [B|B]; [apply Rabs_def2 in B|]; apply Rabs_le; lra.
Qed.
Theorem clustered_node : forall lo hi basis res anchor ts aniso aniso_inv es a b c, det basis <> 0 -> 0 < res ->
  px lo <= px hi /\ py lo <= py hi /\ pz lo <= pz hi ->
  (-2147483648 <= a <= 2147483647)%Z -> (-2147483648 <= b <= 2147483647)%Z -> (-2147483648 <= c <= 2147483647)%Z ->
  (forall d e, (forall i, Rabs (coord d i) <= 2 * / 10 ^ 10 * res) -> Rabs (coord (comb d (inverse basis)) e) < 0.005) ->
  rounded lo hi basis (clustered_position lo hi basis res anchor ts aniso aniso_inv es (a, b, c)) = Ok (a, b, c).
Proof.
  intros lo hi basis res anchor ts aniso aniso_inv es a b c D Res W A B C Sm. unfold clustered_position, quadric_position.
  set (p := apply aniso_inv _). set (q := clamp_to_node lo hi basis p (a, b, c)).
  set (q' := snap_to_bbox q lo hi res).
  assert (N : forall i, Rabs (coord (sub3 q' q) i) <= 2 * / 10 ^ 10 * res).
  { assert (T : 0 < / 10 ^ 10 * res) by (apply Rmult_lt_0_compat; [apply Rinv_0_lt_compat; apply pow_lt; lra|exact Res]).
    intros i. unfold q', snap_to_bbox. destruct W as (W0 & W1 & W2). rewrite Rmult_assoc. destruct i as [|[|i]]; unfold sub3, coord; unfold px at 1, py at 1, pz at 1; cbn [fst snd]; apply snap1_near; assumption. }
  assert (E : forall e, Rabs (coord (unrounded lo hi basis q') e - coord (unrounded lo hi basis q) e) < 0.005).
  { intros e. specialize (Sm (sub3 q' q) e N). replace (coord (unrounded lo hi basis q') e - coord (unrounded lo hi basis q) e) with (coord (comb (sub3 q' q) (inverse basis)) e); [exact Sm|].
    unfold unrounded. set (o := origin lo hi basis). clearbody q' q o. clear. destruct (inverse basis) as [[r0 r1] r2]. destruct e as [|[|e]]; unfold coord; cbn [comb]; dvec; vec; ring. }
  assert (Q : forall e z, coord (of_lc (a, b, c)) e = IZR z -> Rabs (coord (unrounded lo hi basis q) e - IZR z) <= 0.495).
  { intros e z Hz. unfold q, clamp_to_node. rewrite (unrounded_comb lo hi basis D). set (u := unrounded lo hi basis p). clearbody u. rewrite <- Hz. clear.
    assert (K : forall x m, Rabs (Rmin (Rmax x (m - 0.495)) (m + 0.495) - m) <= 0.495) by (intros x m; apply Rabs_le; pose proof (proj1 (clamp_spec x m)); lra).
    destruct e as [|[|e]]; unfold coord; unfold px at 1, py at 1, pz at 1; cbn [fst snd]; apply K. }
  unfold rounded.
  assert (RR : forall e z, coord (of_lc (a, b, c)) e = IZR z -> round (coord (unrounded lo hi basis q') e) = z).
  { intros e z Hz. apply round_unique. specialize (E e). specialize (Q e z Hz). revert E Q. unfold Rabs. repeat destruct (Rcase_abs _); lra. }
  pose proof (RR 0%nat a eq_refl) as R0. pose proof (RR 1%nat b eq_refl) as R1. pose proof (RR 2%nat c eq_refl) as R2. unfold coord in R0, R1, R2.
  cbv zeta. rewrite R0, R1, R2, !to_int_ok by assumption. reflexivity.
Qed.

(** * In terms of [fitted] *)
Lemma fitted_eq : forall anchor ts aniso es, fitted anchor ts aniso es =
  let c := mean (map (apply aniso) anchor) in let q := accumulate (map (transform aniso) ts) in add3 c (offset c (fst q) (snd q) es).
Proof. intros anchor ts aniso es. unfold fitted. destruct (accumulate _) as [a b]. reflexivity. Qed.
Theorem fitted_best : forall anchor ts aniso es,
  let c := mean (map (apply aniso) anchor) in let ts' := map (transform aniso) ts in let x := fitted anchor ts aniso es in
  decomposes (fst (accumulate ts')) es ->
  reach es (sub3 x c) /\ energy ts' x <= energy ts' c /\
  forall z, reach es (sub3 z c) -> energy ts' x <= energy ts' z /\ (energy ts' z = energy ts' x -> z = x).
Proof.
  intros anchor ts aniso es c ts' x DE. unfold x. rewrite fitted_eq. fold c ts'. cbv zeta. split; [rewrite sub_add; apply offset_reach; exact DE|]. split; [apply fit_no_worse; exact DE|].
  intros z Z. destruct (fit_best ts' es DE c (sub3 z c) Z) as [A B]. rewrite add_sub in A, B. split; [exact A|]. intros E. rewrite <- (B E), add_sub. reflexivity.
Qed.
Theorem fitted_global : forall anchor ts aniso es,
  let c := mean (map (apply aniso) anchor) in let ts' := map (transform aniso) ts in let x := fitted anchor ts aniso es in
  decomposes (fst (accumulate ts')) es ->
  (floor_of es < fst (pair_at es 1) -> (forall k, (k < 3)%nat -> fst (pair_at es k) <= floor_of es -> fst (pair_at es k) = 0) -> forall z,
    energy ts' x <= energy ts' z /\ (energy ts' z = energy ts' x -> distance x c <= distance z c)) /\
  ((forall k, (k < 3)%nat -> floor_of es < fst (pair_at es k)) -> forall z, z <> x -> energy ts' x < energy ts' z).
Proof.
  intros anchor ts aniso es c ts' x DE. unfold x. rewrite fitted_eq. fold c ts'. cbv zeta. split; [apply fit_global; exact DE|apply fit_unique; exact DE].
Qed.
Theorem fitted_kept : forall anchor ts aniso es,
  let c := mean (map (apply aniso) anchor) in let ts' := map (transform aniso) ts in let x := fitted anchor ts aniso es in
  decomposes (fst (accumulate ts')) es -> floor_of es < fst (pair_at es 1) ->
  (forall k, (k < 3)%nat -> fst (pair_at es k) <= floor_of es -> fst (pair_at es k) = 0) -> (exists q, Forall (on_plane q) ts') ->
  Forall (on_plane x) ts' /\ forall z, Forall (on_plane z) ts' -> distance x c <= distance z c.
Proof. intros anchor ts aniso es c ts' x DE L H Q. unfold x. rewrite fitted_eq. fold c ts'. cbv zeta. apply fit_kept; assumption. Qed.
Theorem fitted_flat : forall anchor ts aniso es u, decomposes (fst (accumulate (map (transform aniso) ts))) es ->
  (forall t, In t ts -> exists k, facing (transform aniso t) = scale3 k u) -> fitted anchor ts aniso es = mean (map (apply aniso) anchor).
Proof.
  intros anchor ts aniso es u DE H. rewrite fitted_eq. cbv zeta. apply (fit_flat _ _ _ u DE). intros t I. apply in_map_iff in I. destruct I as (t0 & <- & I). apply H. exact I.
Qed.
Theorem fitted_ridge : forall anchor s t aniso es w,
  let c := mean (map (apply aniso) anchor) in let s' := transform aniso s in let t' := transform aniso t in let x := fitted anchor [s; t] aniso es in
  decomposes (fst (accumulate [s'; t'])) es -> norm (facing s') = w -> norm (facing t') = w -> 0 < w ->
  let k := Rabs (dot3 (facing s') (facing t')) / (w * w) in
  ((1 + k) / 1000 < 1 - k -> on_plane x s' /\ on_plane x t' /\ forall z, on_plane z s' -> on_plane z t' -> distance x c <= distance z c) /\
  (1 - k <= (1 + k) / 1000 -> x = c).
Proof. intros anchor s t aniso es w c s' t' x DE Ws Wt W. unfold x. rewrite fitted_eq. fold c. cbn [map]. fold s' t'. apply fit_ridge; assumption. Qed.

(** * The centroid *)
Lemma deviations : forall c ps, fold_right add3 (0, 0, 0) (map (fun p => sub3 p c) ps) = sub3 (fold_right add3 (0, 0, 0) ps) (scale3 (INR (length ps)) c).
Proof.
  intros c ps. induction ps as [|p ps IH].
  - cbn. destruct c as [[x y] z]. vec. f_equal; [f_equal|]; ring.
  - cbn [map fold_right length]. rewrite IH, S_INR. generalize (fold_right add3 (0, 0, 0) ps) (INR (length ps)). intros s n. dvec. vec. f_equal; [f_equal|]; ring.
Qed.
Lemma mean_deviations : forall ps, ps <> [] -> fold_right add3 (0, 0, 0) (map (fun p => sub3 p (mean ps)) ps) = (0, 0, 0).
Proof.
  intros ps N. rewrite deviations. unfold mean. assert (L : INR (length ps) <> 0) by (apply not_0_INR; destruct ps; [contradiction|discriminate]).
  revert L. generalize (fold_right add3 (0, 0, 0) ps) (INR (length ps)). intros s n L. dvec. vec. f_equal; [f_equal|]; field; auto.
Qed.
