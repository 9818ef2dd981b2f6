From Coq Require Import Reals List Arith Lia Lra FunctionalExtensionality.
From Verif Require Import Proofs.LinAlg Proofs.PositiveDefinite Proofs.PositiveSystem Proofs.Domination Model.LinAlg Spec.PositiveDefinite.
Local Open Scope R_scope.

(** * Rows: values at points and differences along directions *)
Definition along (p u : nat -> R) (h : R) (e : nat) : R := p e + h * u e.
Definition mean (p u : nat -> R) (h : R) (f : (nat -> R) -> R) : R := (f (along p u h) + f (along p u (- h))) / 2.
Definition slope (p u : nat -> R) (h : R) (f : (nat -> R) -> R) : R := (f (along p u h) - f (along p u (- h))) / (2 * h).
Lemma mean_mult : forall p u h f g, 0 < h -> mean p u h (fun x => f x * g x) = mean p u h f * mean p u h g + h * h * (slope p u h f * slope p u h g).
Proof. intros. unfold mean, slope. field. lra. Qed.
Lemma slope_mult : forall p u h f g, 0 < h -> slope p u h (fun x => f x * g x) = slope p u h f * mean p u h g + mean p u h f * slope p u h g.
Proof. intros. unfold mean, slope. field. lra. Qed.
Lemma along_0 : forall p u h, (forall e, u e = 0) -> along p u h = p.
Proof. intros p u h H. apply functional_extensionality. intros e. unfold along. rewrite H. ring. Qed.
Lemma mean_0 : forall p u h f, (forall e, u e = 0) -> mean p u h f = f p.
Proof. intros. unfold mean. rewrite !along_0 by auto. field. Qed.
Lemma abs_mult : forall x y a b, Rabs x <= a -> Rabs y <= b -> Rabs (x * y) <= a * b.
Proof. intros x y a b X Y. rewrite Rabs_mult. apply Rmult_le_compat; auto; apply Rabs_pos. Qed.
Lemma abs_plus : forall x y a b, Rabs x <= a -> Rabs y <= b -> Rabs (x + y) <= a + b.
Proof. intros x y a b X Y. pose proof (Rabs_triang x y). lra. Qed.

Section Families.
Variables t1 t2 : R.
Variables p u : nat -> R.
Definition bounded (f : R -> (nat -> R) -> R) : Prop := exists k, 0 <= k /\ forall h t, 0 < h <= 1 -> t1 <= t <= t2 ->
  Rabs (mean p u h (f t)) <= k /\ Rabs (slope p u h (f t)) <= k.
Definition flat (a : R) (f : R -> (nat -> R) -> R) : Prop := exists k, 0 <= k /\ forall h t, 0 < h <= 1 -> t1 <= t <= t2 ->
  Rabs (mean p u h (f t) - a) <= k * h /\ Rabs (slope p u h (f t)) <= k * h.
Lemma flat_bounded : forall a f, flat a f -> bounded f.
Proof.
  intros a f (k & K & F). exists (Rabs a + k). pose proof (Rabs_pos a) as A. split; [lra|]. intros h t H T. destruct (F h t H T) as [M S].
  assert (k * h <= k) by nra. split; [|lra]. replace (mean p u h (f t)) with (a + (mean p u h (f t) - a)) by ring.
  eapply Rle_trans; [apply Rabs_triang|]. lra.
Qed.
Lemma bounded_mult : forall f g, bounded f -> bounded g -> bounded (fun t x => f t x * g t x).
Proof.
  intros f g (k & K & F) (l & L & G). assert (KL : 0 <= k * l) by (apply Rmult_le_pos; auto). exists (k * l + k * l). split; [lra|]. intros h t H T.
  destruct (F h t H T) as [M S]. destruct (G h t H T) as [N Q]. rewrite mean_mult, slope_mult by lra. split.
  - apply abs_plus; [apply abs_mult; auto|]. replace (k * l) with (1 * (k * l)) by ring. apply abs_mult; [|apply abs_mult; auto].
    rewrite Rabs_right; nra.
  - apply abs_plus; apply abs_mult; auto.
Qed.
Lemma flat_mult : forall a b f g, flat a f -> flat b g -> flat (a * b) (fun t x => f t x * g t x).
Proof.
  intros a b f g F G. destruct (flat_bounded b g G) as (kg & KG & BG). destruct F as (k & K & F). destruct G as (l & L & G).
  pose proof (Rabs_pos a) as A. exists ((k * kg + Rabs a * l + k * l) + (k * kg + (Rabs a + k) * l)). split.
  { repeat apply Rplus_le_le_0_compat; repeat apply Rmult_le_pos; lra. }
  intros h t H T. destruct (F h t H T) as [M S]. destruct (G h t H T) as [N Q]. destruct (BG h t H T) as [B1 B2]. rewrite mean_mult, slope_mult by lra.
  assert (H2 : h * h <= h) by nra.
  assert (P1 : 0 <= k * kg) by (apply Rmult_le_pos; auto). assert (P2 : 0 <= Rabs a * l) by (apply Rmult_le_pos; auto). assert (P3 : 0 <= k * l) by (apply Rmult_le_pos; auto).
  split.
  - replace (mean p u h (f t) * mean p u h (g t) + h * h * (slope p u h (f t) * slope p u h (g t)) - a * b) with
      ((mean p u h (f t) - a) * mean p u h (g t) + a * (mean p u h (g t) - b) + h * h * (slope p u h (f t) * slope p u h (g t))) by ring.
    eapply Rle_trans; [repeat apply abs_plus; [apply abs_mult; [exact M|exact B1]|apply abs_mult; [apply Rle_refl|exact N]|apply abs_mult; [apply Rle_refl|apply abs_mult; [exact S|exact Q]]]|].
    rewrite (Rabs_right (h * h)) by nra. assert (h * h * (k * h * (l * h)) <= k * l * h).
    { replace (h * h * (k * h * (l * h))) with (k * l * (h * h * (h * h))) by ring. apply Rmult_le_compat_l; auto. assert (h * h <= 1) by nra. assert (0 <= h * h) by nra. nra. }
    nra.
  - assert (MA : Rabs (mean p u h (f t)) <= Rabs a + k).
    { replace (mean p u h (f t)) with (a + (mean p u h (f t) - a)) by ring. apply abs_plus; [lra|]. assert (k * h <= k) by nra. lra. }
    eapply Rle_trans; [apply abs_plus; [apply abs_mult; [exact S|exact B1]|apply abs_mult; [exact MA|exact Q]]|]. nra.
Qed.
Lemma zero_mult : forall f g, flat 0 f -> bounded g -> flat 0 (fun t x => f t x * g t x).
Proof.
  intros f g (k & K & F) (l & L & G). assert (KL : 0 <= k * l) by (apply Rmult_le_pos; auto). exists (k * l + k * l). split; [lra|]. intros h t H T.
  destruct (F h t H T) as [M S]. destruct (G h t H T) as [N Q]. rewrite Rminus_0_r in *. rewrite mean_mult, slope_mult by lra. rewrite Rmult_plus_distr_r. split.
  - apply abs_plus. { replace (k * l * h) with (k * h * l) by ring. apply abs_mult; auto. }
    replace (k * l * h) with (1 * (k * h * l)) by ring. apply abs_mult; [|apply abs_mult; auto]. rewrite Rabs_right; nra.
  - apply abs_plus; replace (k * l * h) with (k * h * l) by ring; apply abs_mult; auto.
Qed.
Lemma flat_ext : forall a f g, (forall t x, f t x = g t x) -> flat a f -> flat a g.
Proof.
  intros a f g E (k & K & F). exists k. split; auto. intros h t H T. specialize (F h t H T). unfold mean, slope in *. rewrite <- !E. auto.
Qed.
Lemma flat_const : forall a, flat a (fun _ _ => a).
Proof.
  intros a. exists 0. split; [lra|]. intros h t H T. unfold mean, slope. replace ((a + a) / 2 - a) with 0 by field. replace ((a - a) / (2 * h)) with 0 by (field; lra).
  rewrite Rabs_R0. lra.
Qed.
Lemma bounded_rprod : forall m f, (forall l, (l < m)%nat -> bounded (f l)) -> bounded (fun t x => rprod m (fun l => f l t x)).
Proof.
  induction m; intros f H; cbn [rprod]. { apply (flat_bounded 1), flat_const. }
  apply (bounded_mult (fun t x => rprod m (fun l => f l t x)) (f m)); auto.
Qed.
Lemma flat_rprod : forall m f, (forall l, (l < m)%nat -> flat 1 (f l)) -> flat 1 (fun t x => rprod m (fun l => f l t x)).
Proof.
  induction m; intros f H; cbn [rprod]. { apply flat_const. }
  replace 1 with (1 * 1) by ring. apply (flat_mult 1 1 (fun t x => rprod m (fun l => f l t x)) (f m)); auto.
Qed.
Lemma zero_rprod : forall m f j, (forall l, (l < m)%nat -> bounded (f l)) -> (j < m)%nat -> flat 0 (f j) -> flat 0 (fun t x => rprod m (fun l => f l t x)).
Proof.
  induction m; intros f j H J Z; [lia|]. cbn [rprod]. destruct (Nat.eq_dec j m) as [-> |N].
  - apply (flat_ext 0 (fun t x => f m t x * rprod m (fun l => f l t x))); [intros; ring|]. apply zero_mult; auto. apply bounded_rprod; auto.
  - apply (zero_mult (fun t x => rprod m (fun l => f l t x)) (f m)); auto. apply (IHm f j); auto. lia.
Qed.
(** Linear functions. *)
Variable d : nat.
Definition lin (a : nat -> R) (k : R) (x : nat -> R) : R := dot d a x + k.
Lemma dot_along : forall a h, dot d a (along p u h) = dot d a p + h * dot d a u.
Proof. intros. unfold dot, along. rewrite <- rsum_scal, <- rsum_plus. apply rsum_ext; intros; ring. Qed.
Lemma lin_mean : forall a k h, mean p u h (lin a k) = dot d a p + k.
Proof. intros. unfold mean, lin. rewrite !dot_along. field. Qed.
Lemma lin_slope : forall a k h, 0 < h -> slope p u h (lin a k) = dot d a u.
Proof. intros. unfold slope, lin. rewrite !dot_along. field. lra. Qed.
Lemma lin_bounded : forall a k, bounded (fun _ => lin a k).
Proof.
  intros. exists (Rabs (dot d a p + k) + Rabs (dot d a u)). pose proof (Rabs_pos (dot d a p + k)). pose proof (Rabs_pos (dot d a u)). split; [lra|].
  intros h t H1 T. rewrite lin_mean, lin_slope by lra. lra.
Qed.
(** A function that is 1 with no slope at the origin, and 0 with no slope where [a] is 1. *)
Definition bump (a x : nat -> R) : R := lin (fun e => - a e) 1 x * lin (fun e => - a e) 1 x * (lin a 1 x * lin a 1 x).
Lemma bump_bounded : forall a, bounded (fun _ => bump a).
Proof.
  intros a. apply (bounded_mult (fun _ x => lin (fun e => - a e) 1 x * lin (fun e => - a e) 1 x) (fun _ x => lin a 1 x * lin a 1 x));
  apply bounded_mult; apply lin_bounded.
Qed.
Lemma bump_value : forall a x, bump a x = (1 - dot d a x * dot d a x) * (1 - dot d a x * dot d a x).
Proof.
  intros. unfold bump, lin. replace (dot d (fun e => - a e) x) with (- dot d a x). { ring. }
  unfold dot. rewrite <- rsum_opp. apply rsum_ext; intros; ring.
Qed.
Lemma bump_zero : forall a, dot d a p = 1 -> flat 0 (fun _ => bump a).
Proof.
  intros a A. set (v := dot d a u). set (k := (2 + Rabs v) * (2 + Rabs v) * (Rabs v * Rabs v)). pose proof (Rabs_pos v) as V.
  assert (K : 0 <= k) by (unfold k; repeat apply Rmult_le_pos; lra).
  assert (B : forall h, Rabs h <= 1 -> Rabs (bump a (along p u h)) <= k * (h * h)).
  { intros h H. rewrite bump_value, dot_along, A. fold v.
    replace ((1 - (1 + h * v) * (1 + h * v)) * (1 - (1 + h * v) * (1 + h * v))) with ((2 + h * v) * (2 + h * v) * (v * v) * (h * h)) by ring.
    rewrite Rabs_mult, (Rabs_right (h * h)) by (apply Rle_ge, Rle_0_sqr). apply Rmult_le_compat_r; [apply Rle_0_sqr|]. unfold k.
    assert (X : Rabs (2 + h * v) <= 2 + Rabs v).
    { eapply Rle_trans; [apply Rabs_triang|]. rewrite (Rabs_right 2) by lra. rewrite Rabs_mult. nra. }
    apply abs_mult; apply abs_mult; auto; apply Rle_refl. }
  exists k. split; auto. intros h t H T. pose proof (B h ltac:(rewrite Rabs_right; lra)) as B1. pose proof (B (- h) ltac:(rewrite Rabs_Ropp, Rabs_right; lra)) as B2.
  replace (- h * - h) with (h * h) in B2 by ring. unfold mean, slope. rewrite Rminus_0_r.
  set (x := bump a (along p u h)) in *. set (y := bump a (along p u (- h))) in *. assert (HH : k * (h * h) <= k * h). { apply Rmult_le_compat_l; auto. clear - H. nra. } split.
  - replace ((x + y) / 2) with (/ 2 * (x + y)) by field. rewrite Rabs_mult, Rabs_right by lra. pose proof (Rabs_triang x y). lra.
  - unfold Rdiv. rewrite Rabs_mult, (Rabs_right (/ (2 * h))) by (apply Rle_ge; left; apply Rinv_0_lt_compat; lra).
    apply Rmult_le_reg_r with (2 * h); [lra|]. rewrite Rmult_assoc, Rinv_l by lra. rewrite Rmult_1_r.
    pose proof (Rabs_triang x (- y)) as TR. rewrite Rabs_Ropp in TR. unfold Rminus. nra.
Qed.
Lemma bump_one : forall a, dot d a p = 0 -> flat 1 (fun _ => bump a).
Proof.
  intros a A. set (v := dot d a u). exists (2 * (v * v) + v * v * (v * v)). assert (V : 0 <= v * v) by apply Rle_0_sqr. split; [nra|].
  intros h t H T. unfold mean, slope. rewrite !bump_value, !dot_along, A. fold v.
  replace ((0 + - h * v) * (0 + - h * v)) with ((0 + h * v) * (0 + h * v)) by ring. split.
  - match goal with |- Rabs ?y <= _ => replace y with (- (h * (h * (2 * (v * v) - v * v * (v * v) * (h * h))))) by field end.
    rewrite Rabs_Ropp, Rabs_mult, Rabs_right, Rmult_comm by lra. apply Rmult_le_compat_r; [lra|].
    rewrite Rabs_mult, Rabs_right by lra. assert (Rabs (2 * (v * v) - v * v * (v * v) * (h * h)) <= 2 * (v * v) + v * v * (v * v)).
    { assert (0 <= h * h <= 1) by nra. assert (0 <= v * v * (v * v)) by nra. apply Rabs_le. nra. }
    pose proof (Rabs_pos (2 * (v * v) - v * v * (v * v) * (h * h))). nra.
  - unfold Rdiv. rewrite Rminus_eq_0, Rmult_0_l, Rabs_R0. assert (0 <= v * v * (v * v)) by (apply Rmult_le_pos; auto). apply Rmult_le_pos; lra.
Qed.
(** Gaussians. *)
Hypothesis T12 : 0 < t1 <= t2.
Lemma dot_along2 : forall h, dot d (along p u h) (along p u h) = dot d p p + 2 * h * dot d p u + h * h * dot d u u.
Proof. intros. unfold dot, along. rewrite <- !rsum_scal, <- !rsum_plus. apply rsum_ext; intros; ring. Qed.
Lemma dot_nonneg : forall x, 0 <= dot d x x.
Proof. intros. apply rsum_pos. intros. apply Rle_0_sqr. Qed.
Lemma gauss_flat : (forall e, (e < d)%nat -> p e = 0) -> flat 1 (fun t x => exp (- t * dot d x x)).
Proof using T12.
  intros P. assert (Z1 : dot d p p = 0) by (apply rsum_0; intros; rewrite P by auto; ring).
  assert (Z2 : dot d p u = 0) by (apply rsum_0; intros; rewrite P by auto; ring). pose proof (dot_nonneg u) as U.
  exists (t2 * dot d u u). split; [apply Rmult_le_pos; lra|]. intros h t H T. unfold mean, slope. rewrite !dot_along2, Z1, Z2.
  replace (0 + 2 * - h * 0 + - h * - h * dot d u u) with (0 + 2 * h * 0 + h * h * dot d u u) by ring.
  set (E := exp (- t * (0 + 2 * h * 0 + h * h * dot d u u))).
  assert (TU : 0 <= t * dot d u u <= t2 * dot d u u) by (split; [apply Rmult_le_pos; lra|apply Rmult_le_compat_r; lra]).
  assert (E1 : 1 - t2 * dot d u u * h <= E <= 1).
  { split.
    - eapply Rle_trans; [|apply exp_above]. assert (h * h <= h) by nra. nra.
    - rewrite <- exp_0. apply exp_le. assert (0 <= h * h) by nra. nra. }
  split.
  - replace ((E + E) / 2 - 1) with (E - 1) by field. apply Rabs_le. nra.
  - unfold Rdiv. rewrite Rminus_eq_0, Rmult_0_l, Rabs_R0. apply Rmult_le_pos; [apply Rmult_le_pos|]; lra.
Qed.
Lemma gauss_bounded : bounded (fun t x => exp (- t * dot d x x)).
Proof using T12.
  set (v := Rabs (dot d p u)). pose proof (Rabs_pos (dot d p u)) as V. fold v in V.
  exists (1 + 2 * t2 * v * exp (2 * t2 * v)). pose proof (exp_pos (2 * t2 * v)) as EP.
  assert (K : 0 <= 2 * t2 * v * exp (2 * t2 * v)) by (repeat apply Rmult_le_pos; lra). split; [lra|].
  assert (B : forall t x, t1 <= t -> 0 < exp (- t * dot d x x) <= 1).
  { intros t x T. split; [apply exp_pos|]. rewrite <- exp_0. apply exp_le. pose proof (dot_nonneg x). nra. }
  intros h t H T. unfold mean, slope. pose proof (B t (along p u h) ltac:(lra)) as B1. pose proof (B t (along p u (- h)) ltac:(lra)) as B2. split.
  - apply Rabs_le. lra.
  - rewrite !dot_along2 in *. replace (- h * - h) with (h * h) in * by ring.
    set (g := dot d p p + h * h * dot d u u).
    assert (G : 0 <= g). { unfold g. pose proof (dot_nonneg p). pose proof (dot_nonneg u). assert (0 <= h * h) by nra. nra. }
    set (y := 2 * t * h * dot d p u).
    replace (- t * (dot d p p + 2 * h * dot d p u + h * h * dot d u u)) with (- t * g + - y) by (unfold g, y; ring).
    replace (- t * (dot d p p + 2 * - h * dot d p u + h * h * dot d u u)) with (- t * g + y) by (unfold g, y; ring).
    rewrite !exp_plus. assert (EG : 0 < exp (- t * g) <= 1). { split; [apply exp_pos|]. rewrite <- exp_0. apply exp_le. nra. }
    assert (S2 : Rabs (exp (- y) - exp y) <= 2 * Rabs y * exp (Rabs y)).
    { assert (X : forall y, 0 <= y -> Rabs (exp (- y) - exp y) <= 2 * y * exp y).
      { intros z Z. rewrite Rabs_minus_sym, Rabs_right. 2:{ pose proof (exp_le (- z) z ltac:(lra)). lra. }
        pose proof (exp_above (- 2 * z)) as X. replace (exp (- z)) with (exp z * exp (- 2 * z)) by (rewrite <- exp_plus; f_equal; ring).
        pose proof (exp_pos z). nra. }
      destruct (Rle_dec 0 y).
      - rewrite (Rabs_right y) by lra. apply X; auto.
      - rewrite (Rabs_left y) by lra. rewrite Rabs_minus_sym. replace y with (- - y) at 1 by ring. apply X. lra. }
    assert (YV : Rabs y = 2 * t * v * h). { unfold y, v. rewrite !Rabs_mult. rewrite (Rabs_right 2), (Rabs_right t), (Rabs_right h) by lra. ring. }
    assert (TV : 2 * t * v <= 2 * t2 * v) by (apply Rmult_le_compat_r; lra). assert (TV0 : 0 <= 2 * t * v) by (repeat apply Rmult_le_pos; lra).
    assert (YL : Rabs y <= 2 * t2 * v) by (rewrite YV; nra).
    assert (S3 : Rabs (exp (- y) - exp y) <= 2 * (2 * t2 * v * h) * exp (2 * t2 * v)).
    { eapply Rle_trans; [exact S2|]. apply Rmult_le_compat; try (left; apply exp_pos).
      - pose proof (Rabs_pos y). lra.
      - rewrite YV. nra.
      - apply exp_le. auto. }
    replace (exp (- t * g) * exp (- y) - exp (- t * g) * exp y) with (exp (- t * g) * (exp (- y) - exp y)) by ring.
    unfold Rdiv. rewrite !Rabs_mult, (Rabs_right (/ (2 * h))) by (apply Rle_ge; left; apply Rinv_0_lt_compat; lra). rewrite (Rabs_right (exp (- t * g))) by lra.
    apply Rmult_le_reg_r with (2 * h); [lra|]. rewrite (Rmult_assoc _ (/ (2 * h))), Rinv_l, Rmult_1_r by lra. pose proof (Rabs_pos (exp (- y) - exp y)). nra.
Qed.
End Families.

(** * Rows and a function for each of them *)
Lemma rprod_ext : forall m f g, (forall l, (l < m)%nat -> f l = g l) -> rprod m f = rprod m g.
Proof. induction m; intros f g H; cbn [rprod]; auto. rewrite (IHm f g), H; auto. Qed.
Lemma rprod_four : forall n (g : nat -> nat -> R),
  rprod (4 * n) (fun l => g (l / 4)%nat (l mod 4)) = rprod n (fun j => g j 0%nat * g j 1%nat * (g j 2%nat * g j 3%nat)).
Proof.
  induction n; intros g; [reflexivity|]. replace (4 * S n)%nat with (S (S (S (S (4 * n))))) by lia. cbn [rprod]. rewrite IHn.
  assert (D : forall i, (i < 4)%nat -> ((4 * n + i) / 4 = n /\ (4 * n + i) mod 4 = i)%nat).
  { intros i I. split.
    - symmetry. apply (Nat.div_unique _ _ _ i); lia.
    - symmetry. apply (Nat.mod_unique _ _ n); lia. }
  replace (S (S (S (4 * n)))) with (4 * n + 3)%nat by lia. replace (S (S (4 * n))) with (4 * n + 2)%nat by lia.
  replace (S (4 * n)) with (4 * n + 1)%nat by lia. 
  pose proof (D 0%nat ltac:(lia)) as D0. rewrite Nat.add_0_r in D0. destruct D0 as [-> ->]. destruct (D 1%nat ltac:(lia)) as [-> ->]. destruct (D 2%nat ltac:(lia)) as [-> ->]. destruct (D 3%nat ltac:(lia)) as [-> ->]. ring.
Qed.
Section Rows.
Variables N d : nat.
Variables p u : nat -> nat -> R.
Variable isv : nat -> bool.
Definition at_row (h : R) (s : nat) (f : (nat -> R) -> R) : R := if isv s then mean (p s) (u s) h f else slope (p s) (u s) h f.
Definition spread (h : R) (i : nat) : nat -> R := if (i <? N)%nat then along (p i) (u i) h else along (p (i - N)%nat) (u (i - N)%nat) (- h).
Definition parts (h : R) (c : nat -> R) (i : nat) : R :=
  if (i <? N)%nat then c i * (if isv i then / 2 else / (2 * h)) else c (i - N)%nat * (if isv (i - N)%nat then / 2 else - / (2 * h)).
Lemma spread_sum : forall h c f, 0 < h -> rsum (N + N) (fun i => parts h c i * f (spread h i)) = rsum N (fun s => c s * at_row h s f).
Proof.
  intros h c f H. rewrite rsum_app, <- rsum_plus. apply rsum_ext. intros s S0. unfold parts, spread.
  destruct (Nat.ltb_spec s N); [|lia]. destruct (Nat.ltb_spec (N + s) N); [lia|]. replace (N + s - N)%nat with s by lia.
  unfold at_row, mean, slope. destruct (isv s); field; lra.
Qed.
Lemma finite_bound : forall (P : nat -> R -> Prop), (forall s k l, P s k -> k <= l -> P s l) ->
  (forall s, (s < N)%nat -> exists k, 0 <= k /\ P s k) -> exists k, 0 <= k /\ forall s, (s < N)%nat -> P s k.
Proof.
  intros P M H. induction N as [|n IH]. { exists 0. split; [lra|]. intros; lia. }
  destruct IH as (k & K & B); [intros; apply H; lia|]. destruct (H n ltac:(lia)) as (l & L & C). exists (k + l). split; [lra|].
  intros s S0. destruct (Nat.eq_dec s n) as [-> |]; [apply (M n l); auto; lra|]. apply (M s k); [apply B; lia|lra].
Qed.
Hypothesis no_direction : forall s e, isv s = true -> u s e = 0.
Lemma isolate : forall t1 t2 r0 b, 0 < t1 <= t2 -> (r0 < N)%nat -> (forall e, p r0 e = 0) ->
  (forall s, (s < N)%nat -> s <> r0 -> (forall e, (e < d)%nat -> p s e = 0) -> isv s = true -> isv r0 = false) ->
  (isv r0 = false -> dot d b (u r0) = 1 /\
    forall s, (s < N)%nat -> s <> r0 -> isv s = false -> (forall e, (e < d)%nat -> p s e = 0) -> dot d b (u s) = 0) ->
  exists m alpha k, 0 <= k /\ forall s, (s < N)%nat -> forall h t, 0 < h <= 1 -> t1 <= t <= t2 ->
  Rabs (at_row h s (fun x => exp (- t * dot d x x) * rprod m (fun l => dot (S d) (alpha l) (lift d x 1))) - (if Nat.eqb s r0 then 1 else 0)) <= k * h.
Proof using no_direction.
  intros t1 t2 r0 b T12 R0 P0 VV GG.
  set (a := fun j e => p j e / dot d (p j) (p j)).
  set (first := if isv r0 then lift d (fun _ => 0) 1 else lift d b 0).
  set (quarter := fun j i => match i with O | 1%nat => lift d (fun e => - a j e) 1 | _ => lift d (a j) 1 end).
  set (alpha := fun l => if (l <? 4 * N)%nat then quarter (l / 4)%nat (l mod 4) else first).
  set (g := fun (t : R) x => exp (- t * dot d x x) * rprod N (fun j => bump d (a j) x)).
  assert (W : forall t x, exp (- t * dot d x x) * rprod (S (4 * N)) (fun l => dot (S d) (alpha l) (lift d x 1)) =
    (if isv r0 then 1 else lin d b 0 x) * g t x).
  { intros t x. cbn [rprod]. rewrite (rprod_ext (4 * N) _ (fun l => dot (S d) (quarter (l / 4)%nat (l mod 4)) (lift d x 1))).
    2:{ intros l L. unfold alpha. destruct (Nat.ltb_spec l (4 * N)); [reflexivity|lia]. }
    rewrite (rprod_four N (fun j i => dot (S d) (quarter j i) (lift d x 1))).
    rewrite (rprod_ext N _ (fun j => bump d (a j) x)).
    2:{ intros j J. unfold quarter. rewrite !dot_lift. unfold bump, lin. rewrite Rmult_1_r. reflexivity. }
    replace (dot (S d) (alpha (4 * N)%nat) (lift d x 1)) with (if isv r0 then 1 else lin d b 0 x); [unfold g; ring|].
    unfold alpha. rewrite Nat.ltb_irrefl. unfold first. destruct (isv r0); rewrite dot_lift; unfold lin; [|ring].
    unfold dot. rewrite rsum_0; [ring|]. intros; ring. }
  exists (S (4 * N)), alpha.
  apply (finite_bound (fun s k => forall h t, 0 < h <= 1 -> t1 <= t <= t2 ->
    Rabs (at_row h s (fun x => exp (- t * dot d x x) * rprod (S (4 * N)) (fun l => dot (S d) (alpha l) (lift d x 1))) - (if Nat.eqb s r0 then 1 else 0)) <= k * h)).
  { intros s k l H KL h t Hh T. specialize (H h t Hh T). assert (k * h <= l * h) by (apply Rmult_le_compat_r; lra). lra. }
  intros s S0.
  assert (AR : forall h t, at_row h s (fun x => exp (- t * dot d x x) * rprod (S (4 * N)) (fun l => dot (S d) (alpha l) (lift d x 1))) =
    at_row h s (fun x => (if isv r0 then 1 else lin d b 0 x) * g t x)).
  { intros. f_equal. apply functional_extensionality. intros x. apply W. }
  assert (GB : bounded t1 t2 (p s) (u s) (fun t x => rprod N (fun j => bump d (a j) x))).
  { apply (bounded_rprod t1 t2 (p s) (u s) N (fun j _ => bump d (a j))). intros; apply bump_bounded. }
  destruct (Classical_Prop.classic (forall e, (e < d)%nat -> p s e = 0)) as [Z|Z].
  - (* the place of [r0] *)
    assert (GF : flat t1 t2 (p s) (u s) 1 g).
    { replace 1 with (1 * 1) by ring. apply (flat_mult t1 t2 (p s) (u s) 1 1 (fun t x => exp (- t * dot d x x))).
      - apply gauss_flat; auto.
      - apply (flat_rprod t1 t2 (p s) (u s) N (fun j _ => bump d (a j))). intros j J. apply bump_one. apply rsum_0. intros e E. rewrite Z by auto. ring. }
    destruct GF as (k & K & F). set (v := Rabs (dot d b (u s))). pose proof (Rabs_pos (dot d b (u s))) as V. fold v in V.
    exists (k * (1 + v)). split; [apply Rmult_le_pos; lra|]. intros h t H T. rewrite AR. destruct (F h t H T) as [M S1].
    assert (KV : 0 <= k * v * h) by (repeat apply Rmult_le_pos; lra).
    destruct (isv r0) eqn:IR.
    + assert (E : forall c, at_row h s (fun x => 1 * g t x) - c = at_row h s (g t) - c).
      { intros c. do 2 f_equal. apply functional_extensionality. intros; ring. }
      rewrite E. clear E. unfold at_row. destruct (Nat.eqb_spec s r0) as [-> |NE].
      * rewrite IR. lra.
      * destruct (isv s) eqn:IS; [exfalso; specialize (VV s S0 NE Z IS); discriminate|]. rewrite Rminus_0_r. lra.
    + destruct (GG eq_refl) as [B1 B2]. unfold at_row. destruct (isv s) eqn:IS.
      * rewrite mean_mult by lra. rewrite lin_mean, lin_slope by lra. replace (dot d b (u s)) with 0.
        2:{ symmetry. apply rsum_0. intros. rewrite no_direction by auto. ring. }
        destruct (Nat.eqb_spec s r0) as [-> |NE]; [congruence|].
        replace (dot d b (p s)) with 0. 2:{ symmetry. apply rsum_0. intros. rewrite Z by auto. ring. }
        replace ((0 + 0) * mean (p s) (u s) h (g t) + h * h * (0 * slope (p s) (u s) h (g t)) - 0) with 0 by ring. rewrite Rabs_R0. nra.
      * rewrite slope_mult by lra. rewrite lin_mean, lin_slope by lra.
        replace (dot d b (p s)) with 0. 2:{ symmetry. apply rsum_0. intros. rewrite Z by auto. ring. }
        replace (if Nat.eqb s r0 then 1 else 0) with (dot d b (u s)).
        2:{ destruct (Nat.eqb_spec s r0) as [-> |NE]; [auto|apply B2; auto]. }
        replace (dot d b (u s) * mean (p s) (u s) h (g t) + (0 + 0) * slope (p s) (u s) h (g t) - dot d b (u s)) with
          (dot d b (u s) * (mean (p s) (u s) h (g t) - 1)) by ring.
        rewrite Rabs_mult. fold v. assert (v * Rabs (mean (p s) (u s) h (g t) - 1) <= v * (k * h)) by (apply Rmult_le_compat_l; auto). nra.
  - (* elsewhere *)
    assert (NE : s <> r0). { intros ->. apply Z. intros; apply P0. }
    assert (DP : 0 < dot d (p s) (p s)).
    { destruct (dot_nonneg d (p s)) as [|E]; auto. exfalso. apply Z. intros e E'.
      apply (length2_zero d (p s)); auto. unfold length2. unfold dot in E. lra. }
    assert (A1 : dot d (a s) (p s) = 1).
    { unfold dot at 1, a. rewrite (rsum_ext d _ (fun e => / dot d (p s) (p s) * (p s e * p s e))) by (intros; field; lra). rewrite rsum_scal.
      fold (dot d (p s) (p s)). field. lra. }
    assert (GF : flat t1 t2 (p s) (u s) 0 g).
    { apply (flat_ext t1 t2 (p s) (u s) 0 (fun t x => rprod N (fun j => bump d (a j) x) * exp (- t * dot d x x))); [intros; unfold g; ring|].
      apply zero_mult; [|apply gauss_bounded; auto].
      apply (zero_rprod t1 t2 (p s) (u s) N (fun j _ => bump d (a j)) s); auto; [intros; apply bump_bounded|apply bump_zero; auto]. }
    assert (FF : flat t1 t2 (p s) (u s) 0 (fun t x => (if isv r0 then 1 else lin d b 0 x) * g t x)).
    { apply (flat_ext t1 t2 (p s) (u s) 0 (fun t x => g t x * (if isv r0 then 1 else lin d b 0 x))); [intros; ring|].
      apply zero_mult; auto. destruct (isv r0); [apply (flat_bounded t1 t2 (p s) (u s) 1), flat_const|apply lin_bounded]. }
    destruct FF as (k & K & F). exists k. split; auto. intros h t H T. rewrite AR. destruct (F h t H T) as [M S1].
    destruct (Nat.eqb_spec s r0); [contradiction|]. unfold at_row. destruct (isv s); [auto|rewrite Rminus_0_r; auto].
Qed.
End Rows.
