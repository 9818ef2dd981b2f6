From Coq Require Import Reals List Arith ZArith Lia Lra FunctionalExtensionality.
From Verif Require Import Proofs.LinAlg Proofs.Operator Proofs.PositiveDefinite Proofs.PositiveKinds Proofs.PositiveSystem Proofs.Domination Proofs.Isolation Proofs.Differences Proofs.HermiteTerm.
From Verif Require Import Model.LinAlg Model.MonomialBasis Model.Rbfs Model.Operator Spec.Rbfs Spec.Operator Spec.PositiveDefinite Spec.Hermite.
Import ListNotations.
Local Open Scope R_scope.

(** * The quadratic form of differences *)
Lemma at_row_rsum : forall p u isv h r N c (G : nat -> (nat -> R) -> R), 0 < h ->
  at_row p u isv h r (fun x => rsum N (fun s => c s * G s x)) = rsum N (fun s => c s * at_row p u isv h r (G s)).
Proof.
  intros p u isv h r N c G H. unfold at_row. destruct (isv r).
  - unfold mean. rewrite <- rsum_plus. unfold Rdiv. rewrite <- rsum_scal_r. apply rsum_ext; intros; ring.
  - unfold slope. rewrite <- rsum_minus. unfold Rdiv. rewrite <- rsum_scal_r. apply rsum_ext; intros; ring.
Qed.
Lemma spread_quad : forall N p u isv h c (F : (nat -> R) -> (nat -> R) -> R), 0 < h ->
  quad (N + N) (fun i j => F (spread N p u h i) (spread N p u h j)) (parts N isv h c) =
  quad N (fun r s => at_row p u isv h r (fun x => at_row p u isv h s (F x))) c.
Proof.
  intros N p u isv h c F H. unfold quad.
  rewrite (rsum_ext (N + N) _ (fun i => parts N isv h c i * rsum N (fun s => c s * at_row p u isv h s (F (spread N p u h i))))).
  2:{ intros i _. rewrite <- (spread_sum N p u isv) by auto. rewrite <- rsum_scal. apply rsum_ext; intros; ring. }
  rewrite (spread_sum N p u isv h c (fun x => rsum N (fun s => c s * at_row p u isv h s (F x)))) by auto.
  apply rsum_ext. intros r _. rewrite (at_row_rsum p u isv h r N c (fun s x => at_row p u isv h s (F x))) by auto.
  rewrite <- rsum_scal. apply rsum_ext; intros; ring.
Qed.

Section Data.
Variable d : nat.
Variable n : data.
Let N := rows d n.
Definition isv (r : nat) : bool := (r <? values n)%nat.
Definition place (r : nat) : nat -> R := if isv r then pt (nat -> R) n r else gpt (nat -> R) n ((r - values n) / d).
Definition dir (r : nat) : nat := (r - values n) mod d.
Definition way (r : nat) : nat -> R := if isv r then fun _ => 0 else unit (dir r).
Lemma row_split : forall r, (r < N)%nat -> isv r = false ->
  ((r - values n) / d < gradients n)%nat /\ (dir r < d)%nat /\ r = (values n + d * ((r - values n) / d) + dir r)%nat.
Proof.
  intros r R0 I. unfold isv in I. apply Nat.ltb_ge in I. apply (divmod (nat -> R) d n r). unfold N, rows in R0. unfold values in I. lia.
Qed.
Lemma rows_ok : forall r, (r < N)%nat -> row_ok d way isv dir r.
Proof.
  intros r R0. unfold row_ok. destruct (isv r) eqn:I.
  - intros e. unfold way. rewrite I. reflexivity.
  - split; [apply row_split; auto|]. unfold way. rewrite I. reflexivity.
Qed.
Lemma rows_sum : forall g, rsum N g = rsum (values n) g + rsum (gradients n) (fun j => rsum d (fun e => g (values n + d * j + e)%nat)).
Proof.
  intros g. unfold N, rows, size. rewrite rsum_app. f_equal. rewrite rsum_mul. apply rsum_ext. intros j _. apply rsum_ext. intros e _. f_equal. unfold values. lia.
Qed.
Lemma grad_row : forall j e, (j < gradients n)%nat -> (e < d)%nat -> let r := (values n + d * j + e)%nat in
  (r < N)%nat /\ isv r = false /\ place r = gpt (nat -> R) n j /\ dir r = e /\ way r = unit e.
Proof.
  intros j e J E r. assert (I : isv r = false) by (unfold isv, r; apply Nat.ltb_ge; lia).
  assert (D : ((r - values n) / d = j /\ (r - values n) mod d = e)%nat).
  { unfold r. replace (values n + d * j + e)%nat with (values n + (d * j + e))%nat by lia. apply (split_index d (values n) j (d * j + e) e); auto. }
  destruct D as [D1 D2]. split; [|split; [auto|split; [|split; [auto|]]]].
  - unfold r, N, rows, size. fold (values n) (gradients n). nia.
  - unfold place. rewrite I, D1. reflexivity.
  - unfold way. rewrite I. unfold dir. rewrite D2. reflexivity.
Qed.
Lemma value_row_at : forall i, (i < values n)%nat -> (i < N)%nat /\ isv i = true /\ place i = pt (nat -> R) n i /\ (forall e, way i e = 0).
Proof.
  intros i I. assert (V : isv i = true) by (apply Nat.ltb_lt; auto). split; [unfold N, rows, size; fold (values n); lia|]. split; auto.
  unfold place, way. rewrite V. auto.
Qed.

(** The moments of the differences. *)
Lemma moments_spread : forall m c h, 0 < h -> hermite_moments d n m c ->
  moments (N + N) d (spread N place way h) m (parts N isv h c).
Proof.
  intros m c h H (A & B & C).
  assert (S1 : forall f, rsum (N + N) (fun i => parts N isv h c i * f (spread N place way h i)) =
    rsum (values n) (fun i => c i * f (pt (nat -> R) n i)) +
    rsum (gradients n) (fun j => rsum d (fun e => grad_weight d n c j e * slope (gpt (nat -> R) n j) (unit e) h f))).
  { intros f. rewrite spread_sum by auto. rewrite rows_sum. f_equal.
    - apply rsum_ext. intros i I. destruct (value_row_at i I) as (R0 & V & P & W). f_equal. unfold at_row. rewrite V, P. apply mean_0. auto.
    - apply rsum_ext. intros j J. apply rsum_ext. intros e E. destruct (grad_row j e J E) as (R0 & V & P & _ & W). unfold grad_weight. f_equal.
      unfold at_row. rewrite V, P, W. reflexivity. }
  assert (U : forall f g, (f < d)%nat -> rsum d (fun e => g e * unit e f) = g f).
  { intros f g F. rewrite (rsum_single d f); auto. { unfold unit. rewrite Nat.eqb_refl. ring. }
    intros e _ NE. unfold unit. destruct (Nat.eqb_spec f e); [subst; contradiction|ring]. }
  split; [|split].
  - intros M. rewrite (rsum_ext (N + N) _ (fun i => parts N isv h c i * (fun _ => 1) (spread N place way h i))) by (intros; ring).
    rewrite (S1 (fun _ => 1)). rewrite (rsum_ext (values n) _ c) by (intros; ring). rewrite A by auto. rewrite rsum_0; [ring|].
    intros j J. apply rsum_0. intros e E. unfold slope. field. lra.
  - intros M e E. rewrite (S1 (fun x => x e)). rewrite <- (B M e E). f_equal. apply rsum_ext. intros j J.
    rewrite <- (U e (grad_weight d n c j) E). apply rsum_ext. intros f F. unfold slope, along. f_equal. field. lra.
  - intros M e f E F. rewrite (S1 (fun x => x e * x f)). rewrite <- (C M e f E F). f_equal. apply rsum_ext. intros j J.
    rewrite <- (U e (grad_weight d n c j) E), <- (U f (grad_weight d n c j) F), <- !rsum_scal_r, <- rsum_plus.
    apply rsum_ext. intros g G. unfold slope, along. field. lra.
Qed.

(** * One term *)
Variable t : term.
Hypothesis inj : forall v, (forall e, (e < d)%nat -> mat_vec d (ta t) v e = 0) -> forall e, (e < d)%nat -> v e = 0.
Let K := tk t.
Definition blocks : nat -> nat -> R := block d (tk t) (t0 t) (t1 t) (ta t) place isv dir.
Lemma smooth_facts : forall m, definite_order K = Some m -> (m = 0%nat -> 0 < t1 t) -> smooth_term t ->
  exact_kind K /\ range_ok K (t1 t) /\ (forall s, 0 <= s -> grad_regular K (t1 t) s) /\ (forall s, 0 <= s -> hess_regular K (t1 t) s) /\
  (forall s, 0 <= s -> exists g, gradient K (t0 t) (t1 t) s = Num g).
Proof.
  intros m O P SM. unfold smooth_term in SM. fold K in SM.
  assert (Q : t1 t <> 0 -> 0 < t1 t * t1 t). { intros X. assert (0 <= t1 t * t1 t) by apply Rle_0_sqr. destruct H; auto. symmetry in H. apply Rmult_integral in H. tauto. }
  destruct K; cbn in O; try discriminate; injection O as <-; try contradiction; cbn [exact_kind range_ok grad_regular hess_regular gradient];
    (split; [exact Logic.I|split; [try exact Logic.I; try (apply P; reflexivity)|split; [|split]]]); try (intros; exact Logic.I); try (intros s S0; specialize (Q SM); lra);
    intros s S0; unfold even_gradient, odd_gradient, gau_gradient, gc_gradient; cbv zeta; try (destruct (is_zero _); eexists; reflexivity); eexists; reflexivity.
Qed.
Lemma form_limit : forall m c, definite_order K = Some m -> (m = 0%nat -> 0 < t1 t) -> smooth_term t -> hessians_defined d n t ->
  Un_cv (fun i => quad (N + N) (kern d (fun j => mat_vec d (ta t) (spread N place way (/ INR (S i)) j)) (value K (t0 t) (t1 t))) (parts N isv (/ INR (S i)) c))
    (quad N blocks c).
Proof.
  intros m c O P SM HD. destruct (smooth_facts m O P SM) as (F1 & F2 & F3 & F4 & F5).
  apply (cv_ext (fun i => quad N (fun r s => at_row place way isv (/ INR (S i)) r (fun x => at_row place way isv (/ INR (S i)) s
    (fun y => phi d K (t0 t) (t1 t) (ta t) (difference x y)))) c)).
  { intros i. symmetry. rewrite <- (spread_quad N place way isv (/ INR (S i)) c (fun x y => phi d K (t0 t) (t1 t) (ta t) (difference x y))).
    2:{ apply Rinv_0_lt_compat, lt_0_INR. lia. }
    apply quad_ext. intros a b _ _. symmetry. unfold phi. unfold K. apply (term_kern d t (spread N place way (/ INR (S i))) a b). }
  apply cv_quad. intros r s R0 S0. unfold blocks.
  apply (tends_cv (fun h => at_row place way isv h r (fun x => at_row place way isv h s (fun y => phi d K (t0 t) (t1 t) (ta t) (difference x y))))).
  apply block_limit; auto; try (apply rows_ok; auto).
  intros IR IS. unfold place. rewrite IR, IS. apply HD; apply row_split; auto.
Qed.
Lemma form_nonneg : forall m c, definite_order K = Some m -> 0 <= t0 t -> (m = 0%nat -> 0 < t1 t) -> smooth_term t -> hessians_defined d n t ->
  hermite_moments d n m c -> 0 <= quad N blocks c.
Proof.
  intros m c O T P SM HD M. apply (cv_low _ _ 0 0%nat) with (2 := form_limit m c O P SM HD). intros i _.
  apply (kind_nonneg (N + N) d _ K m); auto. apply moments_linear. apply moments_spread; auto. apply Rinv_0_lt_compat, lt_0_INR. lia.
Qed.
(** The dual of the columns of the matrix. *)
Lemma dual : forall e0, (e0 < d)%nat -> exists b, forall e, (e < d)%nat -> dot d b (mat_vec d (ta t) (unit e)) = if Nat.eqb e e0 then 1 else 0.
Proof using inj.
  intros e0 E0. destruct (kernel_or_onto d (fun e i => ta t i e)) as [(w & W & k & K0 & NZ)|H].
  - exfalso. destruct (kernel_or_onto d (ta t)) as [(v & V & k' & K' & NZ')|H]; [apply NZ'; apply (inj v); auto|].
    destruct (H w) as (v & V). apply NZ. apply (length2_zero d w); auto. right. unfold length2.
    rewrite (rsum_ext d _ (fun i => rsum d (fun e => v e * (ta t i e * w i)))).
    + rewrite rsum_swap. apply rsum_0. intros e E. rewrite rsum_scal. specialize (W e E). unfold mat_vec in W. rewrite W. ring.
    + intros i I. rewrite <- (V i I) at 1. unfold mat_vec. rewrite <- rsum_scal_r. apply rsum_ext; intros; ring.
  - destruct (H (fun e => if Nat.eqb e e0 then 1 else 0)) as (b & B). exists b. intros e E. rewrite <- (B e E). unfold dot, mat_vec at 2. apply rsum_ext. intros i I.
    unfold mat_vec. rewrite (rsum_single d e); auto. { unfold unit. rewrite Nat.eqb_refl. ring. }
    intros j _ NE. unfold unit. destruct (Nat.eqb_spec j e); [contradiction|ring].
Qed.
Lemma mat_same : forall x y, (forall e, (e < d)%nat -> mat_vec d (ta t) x e = mat_vec d (ta t) y e) -> forall e, (e < d)%nat -> x e = y e.
Proof using inj.
  intros x y H e E. assert (Z : x e - y e = 0); [|lra]. apply (inj (fun e => x e - y e)); auto. intros f F. rewrite mat_vec_minus, H by auto. ring.
Qed.
Lemma form_low : forall m r0, definite_order K = Some m -> 0 < t0 t -> (m = 0%nat -> 0 < t1 t) -> smooth_term t -> hessians_defined d n t ->
  distinct (gradients n) d (gpt (nat -> R) n) -> (r0 < N)%nat -> (isv r0 = true -> distinct (values n) d (pt (nat -> R) n)) ->
  exists k, 0 < k /\ forall c, hermite_moments d n m c -> k * (c r0 * c r0) <= quad N blocks c.
Proof using inj.
  intros m r0 O T P SM HD DG R0 DV.
  assert (KE : K <> Exp). { intros E. unfold smooth_term in SM. fold K in SM. rewrite E in SM. auto. }
  destruct (kind_above K m (t0 t) (t1 t) KE O T P) as (s1 & s2 & k & T12 & KP & AB).
  set (p' := fun r e => mat_vec d (ta t) (place r) e - mat_vec d (ta t) (place r0) e). set (u' := fun r => mat_vec d (ta t) (way r)).
  assert (PZ : forall s, (forall e, (e < d)%nat -> p' s e = 0) -> forall e, (e < d)%nat -> place s e = place r0 e).
  { intros s H. apply mat_same. intros e E. specialize (H e E). unfold p' in H. lra. }
  assert (BE : exists b, isv r0 = false -> dot d b (u' r0) = 1 /\
    forall s, (s < N)%nat -> s <> r0 -> isv s = false -> (forall e, (e < d)%nat -> p' s e = 0) -> dot d b (u' s) = 0).
  { destruct (isv r0) eqn:I. { exists (fun _ => 0). discriminate. }
    destruct (row_split r0 R0 I) as (J0 & E0 & RE). destruct (dual (dir r0) E0) as (b & B). exists b. intros _. split.
    - unfold u', way. rewrite I. rewrite (B (dir r0) E0), Nat.eqb_refl. reflexivity.
    - intros s S0 NE IS Z. destruct (row_split s S0 IS) as (J1 & E1 & SE). unfold u', way. rewrite IS. rewrite (B (dir s) E1).
      destruct (Nat.eqb_spec (dir s) (dir r0)) as [ED|]; [|reflexivity]. exfalso. apply NE. rewrite RE, SE, ED. f_equal. f_equal.
      destruct (Nat.eq_dec ((s - values n) / d) ((r0 - values n) / d)) as [-> |NJ]; auto. exfalso.
      destruct (DG _ _ J1 J0 NJ) as (e & E & X). apply X. specialize (PZ s Z e E). unfold place in PZ. rewrite I, IS in PZ. exact PZ. }
  destruct BE as (b & BE).
  destruct (isolate N d p' u' isv) with (t1 := s1) (t2 := s2) (r0 := r0) (b := b) as (q & alpha & k1 & K1 & IS); auto.
  { intros s e V. unfold u'. apply rsum_0. intros f F. unfold way. rewrite V. ring. }
  { intros e. unfold p'. ring. }
  { intros s S0 NE Z V. destruct (isv r0) eqn:I; auto. exfalso. unfold isv in V, I. apply Nat.ltb_lt in V. apply Nat.ltb_lt in I.
    destruct (DV eq_refl s r0 V I NE) as (e & E & X). apply X. specialize (PZ s Z e E). unfold place, isv in PZ.
    apply Nat.ltb_lt in V. apply Nat.ltb_lt in I. rewrite V, I in PZ. exact PZ. }
  destruct (gauss_test d q alpha s1 s2 T12) as (kappa & KA & GT).
  exists (k * (kappa / 4)). split. { apply Rmult_lt_0_compat; lra. }
  intros c M. destruct (Req_EM_T (c r0) 0) as [Z|Z].
  { rewrite Z, Rmult_0_l, Rmult_0_r. apply (form_nonneg m); auto. lra. }
  set (S1 := rsum N (fun s => Rabs (c s))). assert (SP : 0 <= S1) by (apply rsum_pos; intros; apply Rabs_pos).
  assert (CP : 0 < Rabs (c r0)) by (apply Rabs_pos_lt; auto).
  destruct (archimed (2 * (k1 * S1) / Rabs (c r0))) as [AR _].
  apply (cv_low _ _ _ (Z.to_nat (up (2 * (k1 * S1) / Rabs (c r0))))) with (2 := form_limit m c O P SM HD). intros i I0.
  set (h := / INR (S i)). assert (IP : 1 <= INR (S i)). { rewrite S_INR. pose proof (pos_INR i). lra. }
  assert (H : 0 < h <= 1). { unfold h. split; [apply Rinv_0_lt_compat; lra|]. rewrite <- Rinv_1. apply Rinv_le_contravar; lra. }
  assert (HS : k1 * h * S1 <= Rabs (c r0) / 2).
  { assert (L : 2 * (k1 * S1) / Rabs (c r0) <= INR (S i)).
    { assert (IZR (up (2 * (k1 * S1) / Rabs (c r0))) <= INR i). { rewrite INR_IZR_INZ. apply IZR_le. lia. } rewrite S_INR. lra. }
    apply Rmult_le_compat_r with (r := Rabs (c r0)) in L; [|lra]. unfold Rdiv in L at 1. rewrite Rmult_assoc, Rinv_l, Rmult_1_r in L by lra.
    apply Rmult_le_reg_r with (INR (S i)); [lra|]. unfold h. replace (k1 * / INR (S i) * S1 * INR (S i)) with (k1 * S1) by (field; lra). lra. }
  assert (SH : forall j, (fun e => mat_vec d (ta t) (spread N place way h j) e - mat_vec d (ta t) (place r0) e) = spread N p' u' h j).
  { intros j. apply functional_extensionality. intros e. unfold spread, p', u'. destruct (j <? N)%nat; unfold along, mat_vec;
      rewrite <- rsum_scal, <- !rsum_minus, <- rsum_plus; apply rsum_ext; intros; ring. }
  assert (KN : forall f a b', kern d (fun j => mat_vec d (ta t) (spread N place way h j)) f a b' = kern d (spread N p' u' h) f a b').
  { intros f a b'. unfold kern. f_equal. rewrite <- !SH. unfold distance2. apply rsum_ext; intros; ring. }
  rewrite Rmult_assoc. apply (AB (N + N)%nat d (fun j => mat_vec d (ta t) (spread N place way h j)) (parts N isv h c) (kappa / 4 * (c r0 * c r0))).
  - apply moments_linear. apply moments_spread; auto. lra.
  - apply Rmult_le_pos; [lra|apply Rle_0_sqr].
  - intros s ST. rewrite (quad_ext (N + N) _ (kern d (spread N p' u' h) (gauss s))) by (intros; apply KN).
    eapply Rle_trans; [|apply (GT (N + N)%nat (spread N p' u' h) (parts N isv h c) s ST)]. cbv zeta.
    rewrite (spread_sum N p' u' isv h c (fun x => exp (- s * dot d x x) * rprod q (fun l => dot (S d) (alpha l) (lift d x 1)))) by lra.
    set (U := rsum N _). assert (UD : Rabs (U - c r0) <= k1 * h * S1).
    { assert (CE : c r0 = rsum N (fun s => c s * (if Nat.eqb s r0 then 1 else 0))).
      { rewrite (rsum_single N r0); auto. { rewrite Nat.eqb_refl. ring. } intros j _ NE. destruct (Nat.eqb_spec j r0); [contradiction|ring]. }
      rewrite CE. unfold U. rewrite <- rsum_minus. unfold S1. rewrite <- rsum_scal.
      assert (RA : forall w f g, (forall j, (j < w)%nat -> Rabs (f j) <= g j) -> Rabs (rsum w f) <= rsum w g).
      { clear. induction w; intros f g H; cbn [rsum]; [rewrite Rabs_R0; lra|]. eapply Rle_trans; [apply Rabs_triang|]. apply Rplus_le_compat; auto. }
      apply RA. intros j J. rewrite <- Rmult_minus_distr_l, Rabs_mult, (Rmult_comm (k1 * h)). apply Rmult_le_compat_l; [apply Rabs_pos|]. apply IS; auto. }
    assert (UL : Rabs (c r0) / 2 <= Rabs U).
    { pose proof (Rabs_triang (c r0 - U) U) as TR. replace (c r0 - U + U) with (c r0) in TR by ring. rewrite Rabs_minus_sym in UD. lra. }
    assert (UU : c r0 * c r0 / 4 <= U * U).
    { assert (X : forall y, Rabs y * Rabs y = y * y). { intros y. rewrite <- Rabs_mult. apply Rabs_right. apply Rle_ge, Rle_0_sqr. }
      rewrite <- (X (c r0)), <- (X U). assert (C2 : 0 <= Rabs (c r0) / 2) by lra. pose proof (Rmult_le_compat _ _ _ _ C2 C2 UL UL). lra. }
    replace (kappa / 4 * (c r0 * c r0)) with (kappa * (c r0 * c r0 / 4)) by field. apply Rmult_le_compat_l; lra.
Qed.
End Data.
