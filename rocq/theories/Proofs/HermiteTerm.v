From Coq Require Import Reals List Arith Lia Lra FunctionalExtensionality.
From Verif Require Import Proofs.LinAlg Proofs.Calculus Proofs.Rbfs Proofs.PositiveDefinite Proofs.Isolation Proofs.Differences.
From Verif Require Import Model.LinAlg Model.Rbfs Spec.Rbfs Spec.MonomialBasis.
Local Open Scope R_scope.

(** * Difference quotients of a radial basis function *)
Definition unit (e i : nat) : R := if Nat.eqb i e then 1 else 0.
Lemma along_along : forall p u s r, along (along p u s) u r = along p u (s + r).
Proof. intros. apply functional_extensionality. intros i. unfold along. ring. Qed.
Lemma along_zero : forall p u, along p u 0 = p.
Proof. intros. apply functional_extensionality. intros i. unfold along. ring. Qed.
Section Term.
Variable d : nat.
Variable k : kind.
Variables p0 p1 : R.
Variable a : nat -> nat -> R.
Hypothesis EX : exact_kind k.
Hypothesis RO : range_ok k p1.
Hypothesis GR : forall s, 0 <= s -> grad_regular k p1 s.
Hypothesis HR : forall s, 0 <= s -> hess_regular k p1 s.
Hypothesis GN : forall s, 0 <= s -> exists g, gradient k p0 p1 s = Num g.
Definition phi (x : nat -> R) : R := evaluate d k p0 p1 a x.
Definition gamma (e : nat) (x : nat -> R) : R := component (evaluate_gradient d k p0 p1 a x) e.
Definition eta (f e : nat) (x : nat -> R) : R := entry (evaluate_hessian d k p0 p1 a x) f e.
Lemma phi_line : forall x e, (e < d)%nat -> derivable_pt_lim (fun r => phi (along x (unit e) r)) 0 (gamma e x).
Proof using EX RO GR GN.
  intros x e E. destruct (GN _ (dot_nonneg d (mat_vec d a x))) as (g & G).
  assert (EG : evaluate_gradient d k p0 p1 a x = Num (fun c => gamma c x)).
  { unfold gamma, evaluate_gradient, gradient_at. rewrite G. reflexivity. }
  pose proof (gradient_correct d k p0 p1 a x _ EX RO (GR _ (dot_nonneg d _)) EG e E) as P. unfold partial in P.
  apply (D_ext _ (fun r => phi (with_coord x e (x e + r)))).
  - intros r. f_equal. apply functional_extensionality. intros i. unfold along, unit, with_coord. destruct (Nat.eqb_spec i e) as [-> |]; ring.
  - replace (gamma e x) with (gamma e x * 1) by ring. apply (D_comp (fun r => x e + r) (fun t => phi (with_coord x e t))).
    + eapply D_val; [der|]. ring.
    + rewrite Rplus_0_r. exact P.
Qed.
Lemma phi_along : forall x e r, (e < d)%nat -> derivable_pt_lim (fun r => phi (along x (unit e) r)) r (gamma e (along x (unit e) r)).
Proof using EX RO GR GN.
  intros x e r E. pose proof (phi_line (along x (unit e) r) e E) as P.
  apply (D_ext _ (fun t => (fun s => phi (along (along x (unit e) r) (unit e) s)) (t - r))).
  - intros t. rewrite along_along. do 2 f_equal. ring.
  - replace (gamma e (along x (unit e) r)) with (gamma e (along x (unit e) r) * 1) by ring.
    apply (D_comp (fun t => t - r) (fun s => phi (along (along x (unit e) r) (unit e) s))).
    + eapply D_val; [der|]. ring.
    + rewrite Rminus_eq_0. exact P.
Qed.
Lemma mat_vec_along : forall z e s i, (e < d)%nat -> mat_vec d a (along z (unit e) s) i = mat_vec d a z i + s * a i e.
Proof.
  intros z e s i E. unfold mat_vec, along. rewrite (rsum_ext d _ (fun j => a i j * z j + s * (a i j * unit e j))) by (intros; ring).
  rewrite rsum_plus, rsum_scal. f_equal. f_equal. rewrite (rsum_single d e); auto.
  - unfold unit. rewrite Nat.eqb_refl. ring.
  - intros j _ N. unfold unit. destruct (Nat.eqb_spec j e); [contradiction|ring].
Qed.
Lemma gamma_value : forall e x, gamma e x = coeff k p0 p1 (dot d (mat_vec d a x) (mat_vec d a x)) * rsum d (fun i => mat_vec d a x i * a i e).
Proof. intros. unfold gamma. rewrite component_coeff, <- rsum_scal. apply rsum_ext; intros; ring. Qed.
Lemma gamma_smooth : forall z e f h, (e < d)%nat -> (f < d)%nat -> evaluate_hessian d k p0 p1 a z = Num h ->
  exists b, smooth2 (fun s r => gamma f (along (along z (unit e) s) (unit f) r)) (h f e) b.
Proof using EX RO HR.
  intros z e f h E F H. set (v := mat_vec d a z). unfold evaluate_hessian, hessian_at in H. fold v in H.
  destruct (hessian k p0 p1 (dot d v v)) as [[h1 h2]| |] eqn:HE; try discriminate. cbn [res_map] in H. injection H as <-.
  destruct (hess_facts k p0 p1 _ (h1, h2) EX RO (dot_nonneg d v) (HR _ (dot_nonneg d v)) HE) as [C0 HF]. cbn [fst snd] in *.
  set (dt := fun x y : nat -> R => dot d x y). set (ae := fun i => a i e). set (af := fun i => a i f).
  assert (G : forall s r, gamma f (along (along z (unit e) s) (unit f) r) =
    coeff k p0 p1 (quad2 (dt v v) (2 * dt v ae) (2 * dt v af) (dt ae ae) (2 * dt ae af) (dt af af) s r) * lin2 (dt v af) (dt ae af) (dt af af) s r).
  { intros s r. rewrite gamma_value.
    assert (M : forall i, mat_vec d a (along (along z (unit e) s) (unit f) r) i = v i + s * ae i + r * af i).
    { intros i. rewrite !mat_vec_along by auto. reflexivity. }
    f_equal.
    - f_equal. unfold quad2, dt, dot. rewrite <- !rsum_scal, <- !rsum_plus. apply rsum_ext. intros i _. rewrite !M. ring.
    - unfold lin2, dt, dot. rewrite <- !rsum_scal, <- !rsum_plus. apply rsum_ext. intros i _. rewrite M. unfold af. ring. }
  assert (NN : forall s r, 0 <= quad2 (dt v v) (2 * dt v ae) (2 * dt v af) (dt ae ae) (2 * dt ae af) (dt af af) s r).
  { intros s r. replace (quad2 _ _ _ _ _ _ s r) with (dot d (fun i => v i + s * ae i + r * af i) (fun i => v i + s * ae i + r * af i)); [apply dot_nonneg|].
    unfold quad2, dt, dot. rewrite <- !rsum_scal, <- !rsum_plus. apply rsum_ext. intros i _. ring. }
  assert (SE : sandwich d a (fun c e0 => fst (h1, h2) * (if Nat.eqb c e0 then 1 else 0) + snd (h1, h2) * (v c * v e0)) f e =
    h1 * dt ae af + h2 * dt v af * dt v ae).
  { unfold sandwich, dt, dot. cbn [fst snd].
    rewrite (rsum_ext d _ (fun j => (h1 * a j f + h2 * dt v af * v j) * ae j)).
    - rewrite (rsum_ext d _ (fun j => h1 * (ae j * af j) + h2 * dt v af * (v j * ae j))) by (intros; unfold ae, af; ring).
      rewrite rsum_plus, !rsum_scal. reflexivity.
    - intros j J. unfold ae at 1. f_equal. rewrite (rsum_ext d _ (fun i => h1 * (a i f * (if Nat.eqb i j then 1 else 0)) + h2 * v j * (v i * af i))) by (intros; unfold af; ring).
      rewrite rsum_plus, !rsum_scal, (rsum_single d j); auto.
      + rewrite Nat.eqb_refl. unfold dt, dot. ring.
      + intros i _ N. destruct (Nat.eqb_spec i j); [contradiction|ring]. }
  match goal with |- context [sandwich ?D ?A ?H f e] => replace (sandwich D A H f e) with (h1 * dt ae af + h2 * dt v af * dt v ae) by (symmetry; exact SE) end.
  destruct HF as [D|(Z & AB & V)].
  - exists (coeff k p0 p1 (dt v v) * dt af af + h2 / 2 * dt v af * (2 * dt v af)).
    intros eps EP. destruct (radial_smooth (coeff k p0 p1) (dt v v) (dt v af) (dt ae af) (dt af af) (2 * dt v ae) (2 * dt v af) (dt ae ae) (2 * dt ae af) (dt af af) NN (h2 / 2) D eps EP)
      as (delta & DP & B). exists delta. split; auto. intros y s r Y S0 R0. specialize (B y s r Y S0 R0). rewrite !G.
    replace (h1 * dt ae af + h2 * dt v af * dt v ae) with (coeff k p0 p1 (dt v v) * dt ae af + h2 / 2 * dt v af * (2 * dt v ae)); [exact B|].
    rewrite C0. unfold dt. field.
  - injection AB as -> ->. exists 0. replace (0 * dt ae af + 0 * dt v af * dt v ae) with 0 by ring.
    assert (V0 : forall i, (i < d)%nat -> v i = 0) by (apply dot_zero; exact Z).
    assert (VF : dt v af = 0) by (apply rsum_0; intros; rewrite V0 by auto; ring).
    intros eps EP. destruct (radial_vanishing (coeff k p0 p1) (dt v v) (dt v af) (dt ae af) (dt af af) (2 * dt v ae) (2 * dt v af) (dt ae ae) (2 * dt ae af) (dt af af) NN V Z VF eps EP)
      as (delta & DP & B). exists delta. split; auto. intros y s r Y S0 R0. specialize (B y s r Y S0 R0). rewrite !G. exact B.
Qed.

(** * The entries of the matrix are limits *)
Variables p u : nat -> nat -> R.
Variable isv : nat -> bool.
Variable dir : nat -> nat.
Definition row_ok (r : nat) : Prop := if isv r then forall e, u r e = 0 else (dir r < d)%nat /\ u r = unit (dir r).
Definition block (r s : nat) : R :=
  let z := difference (p r) (p s) in
  if isv r then if isv s then phi z else - gamma (dir s) z else if isv s then gamma (dir r) z else - eta (dir s) (dir r) z.
Lemma at_row_value : forall h r f, isv r = true -> row_ok r -> at_row p u isv h r f = f (p r).
Proof. intros h r f I O. unfold row_ok in O. unfold at_row. rewrite I in *. apply mean_0. auto. Qed.
Lemma block_limit : forall r s, row_ok r -> row_ok s ->
  (isv r = false -> isv s = false -> exists h, evaluate_hessian d k p0 p1 a (difference (p r) (p s)) = Num h) ->
  tends (fun h => at_row p u isv h r (fun x => at_row p u isv h s (fun y => phi (difference x y)))) (block r s).
Proof using EX RO GR HR GN.
  intros r s OR OS HN. unfold block. set (z := difference (p r) (p s)).
  assert (DR : forall x y u' h, difference (along x u' h) y = along (difference x y) u' h).
  { intros. apply functional_extensionality. intros i. unfold difference, along. ring. }
  assert (DS : forall x y u' h, difference x (along y u' h) = along (difference x y) u' (- h)).
  { intros. apply functional_extensionality. intros i. unfold difference, along. ring. }
  destruct (isv r) eqn:IR, (isv s) eqn:IS.
  - apply tends_const. intros h H. rewrite at_row_value by auto. rewrite at_row_value by auto. reflexivity.
  - unfold row_ok in OS. rewrite IS in OS. destruct OS as [DS0 US].
    apply (tends_ext (fun h => - ((phi (along z (unit (dir s)) h) - phi (along z (unit (dir s)) (- h))) / (2 * h)))).
    + intros h H. rewrite at_row_value by auto. unfold at_row. rewrite IS. unfold slope. rewrite !DS, US, Ropp_involutive. fold z. field. lra.
    + apply tends_opp. apply (tends_central (fun h => phi (along z (unit (dir s)) h))). apply phi_line. auto.
  - unfold row_ok in OR. rewrite IR in OR. destruct OR as [DR0 UR].
    apply (tends_ext (fun h => (phi (along z (unit (dir r)) h) - phi (along z (unit (dir r)) (- h))) / (2 * h))).
    + intros h H. unfold at_row at 1. rewrite IR. unfold slope. rewrite !at_row_value by auto. rewrite !DR, UR. reflexivity.
    + apply (tends_central (fun h => phi (along z (unit (dir r)) h))). apply phi_line. auto.
  - unfold row_ok in OR, OS. rewrite IR in OR. rewrite IS in OS. destruct OR as [DR0 UR]. destruct OS as [DS0 US].
    destruct (HN eq_refl eq_refl) as (h & H). fold z in H. destruct (gamma_smooth z (dir r) (dir s) h DR0 DS0 H) as (b & B).
    set (F := fun x y => phi (along (along z (unit (dir r)) x) (unit (dir s)) y)).
    apply (tends_ext (fun h => - ((F h h - F h (- h) - F (- h) h + F (- h) (- h)) / (4 * (h * h))))).
    + intros t T. unfold at_row. rewrite IR, IS. unfold slope. rewrite !DS, !DR, UR, US, Ropp_involutive. fold z. unfold F. field. lra.
    + unfold eta. rewrite H. cbn [entry]. apply tends_opp.
      apply (tends_second F (fun x y => gamma (dir s) (along (along z (unit (dir r)) x) (unit (dir s)) y)) (h (dir s) (dir r)) b); auto.
      intros x y. unfold F. apply (phi_along (along z (unit (dir r)) x) (dir s) y DS0).
Qed.
End Term.
