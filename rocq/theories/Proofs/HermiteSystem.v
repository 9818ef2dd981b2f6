From Coq Require Import Reals List Arith ZArith Lia Lra FunctionalExtensionality.
From Verif Require Import Proofs.LinAlg Proofs.Operator Proofs.PositiveDefinite Proofs.PositiveKinds Proofs.PositiveSystem Proofs.Isolation Proofs.HermiteTerm Proofs.Hermite.
From Verif Require Import Model.LinAlg Model.MonomialBasis Model.Rbfs Model.Operator Spec.Rbfs Spec.Operator Spec.PositiveDefinite Spec.Hermite.
Import ListNotations.
Local Open Scope R_scope.

(** * Sums of terms *)
Lemma gather_on : forall (W : (nat -> R) -> Prop) n (q : (nat -> R) -> R), (forall c, W c -> 0 <= q c) ->
  (forall i, (i < n)%nat -> exists k, 0 < k /\ forall c, W c -> k * (c i * c i) <= q c) ->
  exists low, 0 < low /\ forall c, W c -> low * length2 n c <= q c.
Proof.
  intros W n q P H. induction n.
  { exists 1. split; [lra|]. intros c O. unfold length2; cbn. rewrite Rmult_0_r. auto. }
  destruct IHn as (low & L & B). { intros; apply H; lia. } destruct (H n ltac:(lia)) as (k & K & C).
  exists (Rmin low k / 2). split. { assert (0 < Rmin low k) by (apply Rmin_pos; auto). lra. }
  intros c O. specialize (B c O). specialize (C c O). unfold length2 in *; cbn.
  pose proof (rsum_pos n (fun i => c i * c i) ltac:(intros; apply Rle_0_sqr)) as P1.
  pose proof (Rle_0_sqr (c n)) as P2. unfold Rsqr in P2.
  pose proof (Rmult_le_compat_r _ _ _ P1 (Rmin_l low k)). pose proof (Rmult_le_compat_r _ _ _ P2 (Rmin_r low k)). lra.
Qed.
Lemma hermite_less : forall d n m k c, (k <= m)%nat -> hermite_moments d n m c -> hermite_moments d n k c.
Proof. intros d n m k c L (A & B & C). split; [|split]; intros; [apply A|apply B|apply C]; auto; lia. Qed.
Lemma length2_one : forall n c i, (i < n)%nat -> c i * c i <= length2 n c.
Proof.
  intros n c i I. unfold length2. induction n; [lia|]. cbn [rsum]. pose proof (rsum_pos n (fun i => c i * c i) ltac:(intros; apply Rle_0_sqr)).
  pose proof (Rle_0_sqr (c n)) as P2. unfold Rsqr in P2. destruct (Nat.eq_dec i n) as [-> |]; [lra|]. specialize (IHn ltac:(lia)). lra.
Qed.
Lemma smooth_order : forall d t k, smooth_term t -> definite_in d (tk t) = Some k -> definite_order (tk t) = Some k.
Proof. intros d t k SM O. unfold smooth_term in SM. destruct (tk t); auto; contradiction. Qed.
Lemma hermite_definite : forall d n terms m nugget, Forall (usable d m n) terms -> separated d n terms nugget ->
  definite (rows d n) (hermite_moments d n m) (fun i j => kernel (nat -> R) difference d (map (term_rbf d) terms) n n i j + nugget_at (nat -> R) nugget n i j).
Proof.
  intros d n terms m nugget G (DG & NV & t & TI & TP). rewrite Forall_forall in G.
  assert (Q : forall c, quad (rows d n) (fun i j => kernel (nat -> R) difference d (map (term_rbf d) terms) n n i j + nugget_at (nat -> R) nugget n i j) c =
    lsum terms (fun t => quad (rows d n) (blocks d n t) c) + nugget * length2 (values n) c).
  { intros c. rewrite <- quad_lsum, quad_plus. f_equal.
    - apply quad_ext. intros i j I J. unfold kernel. rewrite lsum_map. apply lsum_ext. intros u _. unfold blocks, block, place, isv, dir, values.
      destruct (i <? mu (nat -> R) n)%nat, (j <? mu (nat -> R) n)%nat; reflexivity.
    - unfold quad, length2. rewrite rows_sum. rewrite <- rsum_scal.
      assert (RW : forall i, (i < rows d n)%nat -> rsum (rows d n) (fun j => c i * c j * nugget_at (nat -> R) nugget n i j) = if (i <? values n)%nat then nugget * (c i * c i) else 0).
      { intros i I. rewrite (rsum_single (rows d n) i); auto.
        - unfold nugget_at. rewrite Nat.eqb_refl. fold (values n). destruct (i <? values n)%nat; ring.
        - intros j _ NE. unfold nugget_at. destruct (Nat.eqb_spec i j); [subst; contradiction|ring]. }
      rewrite (rsum_0 (gradients n)).
      + rewrite Rplus_0_r. apply rsum_ext. intros i I. rewrite RW by apply (value_row_at d n i I). destruct (Nat.ltb_spec i (values n)); [reflexivity|lia].
      + intros j J. apply rsum_0. intros e E. rewrite RW by apply (Proofs.Hermite.grad_row d n j e J E). destruct (Nat.ltb_spec (values n + d * j + e) (values n)); [lia|reflexivity]. }
  assert (P : forall c, hermite_moments d n m c -> forall t, In t terms -> 0 <= quad (rows d n) (blocks d n t) c).
  { intros c C u I. destruct (G u I) as ((k & O & L & T0 & T1 & _) & SM & HD). apply (smooth_order d u k SM) in O. apply (form_nonneg d n u k); auto. apply (hermite_less d n m); auto. }
  assert (NG : 0 <= nugget) by (destruct NV as [|[-> _]]; lra).
  assert (B : forall c, hermite_moments d n m c -> quad (rows d n) (blocks d n t) c <= lsum terms (fun t => quad (rows d n) (blocks d n t) c)).
  { intros c C. apply (lsum_one terms (fun t => quad (rows d n) (blocks d n t) c)); auto. }
  destruct (gather_on (hermite_moments d n m) (rows d n) (fun c => lsum terms (fun t => quad (rows d n) (blocks d n t) c) + nugget * length2 (values n) c)) as (low & L & LB).
  - intros c C. pose proof (lsum_nonneg terms _ (P c C)). pose proof (Rmult_le_pos _ _ NG (length2_pos (values n) c)). lra.
  - intros r R0. destruct (G t TI) as ((k & O & L & _ & T1 & A) & SM & HD). apply (smooth_order d t k SM) in O.
    assert (LOW : (isv n r = true -> distinct (values n) d (pt (nat -> R) n)) -> exists k, 0 < k /\ forall c, hermite_moments d n m c ->
      k * (c r * c r) <= lsum terms (fun t => quad (rows d n) (blocks d n t) c) + nugget * length2 (values n) c).
    { intros DV. destruct (form_low d n t A k r O TP T1 SM HD DG R0 DV) as (low & LP & LB). exists low. split; auto. intros c C.
      specialize (LB c (hermite_less d n m k c L C)). specialize (B c C). pose proof (Rmult_le_pos _ _ NG (length2_pos (values n) c)). lra. }
    destruct (isv n r) eqn:I; [|apply LOW; discriminate].
    destruct NV as [NP|[_ DV]]; [|apply LOW; auto]. exists nugget. split; auto. intros c C.
    pose proof (lsum_nonneg terms _ (P c C)). unfold isv in I. apply Nat.ltb_lt in I.
    pose proof (Rmult_le_compat_l _ _ _ NG (length2_one (values n) c r I)). lra.
  - exists low. split; auto. intros c C. rewrite Q. auto.
Qed.
Lemma terms_even : forall d terms, Forall (even_rbf (nat -> R) difference d) (map (term_rbf d) terms).
Proof. intros d terms. apply Forall_forall. intros f F. apply in_map_iff in F. destruct F as (t & <- & _). apply term_even. Qed.
Lemma hermite_matrix : forall d n terms m nugget, Forall (usable d m n) terms -> separated d n terms nugget ->
  definite (rows d n) (hermite_moments d n m) (mat_a (nat -> R) difference (fun _ => 0) d (map (term_rbf d) terms) nugget n).
Proof.
  intros d n terms m nugget G W. destruct (hermite_definite d n terms m nugget G W) as (low & L & B). exists low. split; auto. intros c C.
  specialize (B c C). eapply Rle_trans; [exact B|]. right. apply quad_ext. intros i j I J. symmetry. apply mat_a_system; auto; [|apply terms_even].
  intros x. apply functional_extensionality. intros e. unfold difference. ring.
Qed.

(** * The system *)
Lemma hermite_system : forall d n terms m nugget l p, Forall (usable d m n) terms -> separated d n terms nugget -> unisolvent (rows d n) l p ->
  (forall c, (forall k, (k < l)%nat -> rsum (rows d n) (fun i => p i k * c i) = 0) -> hermite_moments d n m c) ->
  solved_once (rows d n + l) (system (nat -> R) difference d (map (term_rbf d) terms) nugget n p).
Proof.
  intros d n terms m nugget l p G W U C. apply injective_solved. intros w E. set (N := rows d n) in *.
  set (a := fun i j => kernel (nat -> R) difference d (map (term_rbf d) terms) n n i j + nugget_at (nat -> R) nugget n i j).
  destruct (saddle_injective N l a p (hermite_moments d n m) (hermite_definite d n terms m nugget G W) U C w (fun k => w (N + k)%nat)) as [A B].
  - intros r R0. rewrite <- (E r ltac:(lia)). unfold mat_vec. rewrite rsum_app. f_equal; apply rsum_ext; intros j J; f_equal; unfold system; fold (rows d n) N.
    + destruct (Nat.ltb_spec r N); [|lia]. destruct (Nat.ltb_spec j N); [reflexivity|lia].
    + destruct (Nat.ltb_spec r N); [|lia]. destruct (Nat.ltb_spec (N + j) N); [lia|]. f_equal. lia.
  - intros k K. rewrite <- (E (N + k)%nat ltac:(lia)). unfold mat_vec. rewrite rsum_app.
    rewrite (rsum_0 l). 2:{ intros j J. unfold system. fold (rows d n) N. destruct (Nat.ltb_spec (N + k) N); [lia|]. destruct (Nat.ltb_spec (N + j) N); [lia|]. ring. }
    rewrite Rplus_0_r. apply rsum_ext. intros j J. unfold system. fold (rows d n) N. destruct (Nat.ltb_spec (N + k) N); [lia|].
    destruct (Nat.ltb_spec j N); [|lia]. do 2 f_equal. lia.
  - intros r R0. destruct (lt_dec r N) as [L|L]; [apply A; auto|]. replace r with (N + (r - N))%nat by lia. apply (B (r - N)%nat). lia.
Qed.
Lemma hermite_cover : forall d degree (n : data) c, (1 <= d <= 3)%nat -> (degree <= 2)%nat ->
  let p := MonomialBasis.evaluate d degree (values n) (pt (nat -> R) n) (gpt (nat -> R) n) in
  (forall k, (k < length (columns d degree))%nat -> rsum (rows d n) (fun i => p i k * c i) = 0) -> hermite_moments d n (S degree) c.
Proof.
  intros d degree n c D G p H.
  assert (F : forall k, (k < length (columns d degree))%nat ->
    rsum (values n) (fun i => c i * fst (nth k (columns d degree) no_column) (pt (nat -> R) n i)) +
    rsum (gradients n) (fun j => rsum d (fun e => grad_weight d n c j e * nth e (snd (nth k (columns d degree) no_column)) (fun _ => 0) (gpt (nat -> R) n j))) = 0).
  { intros k K. etransitivity; [|apply (H k K)]. rewrite rows_sum. f_equal.
    - apply rsum_ext. intros i I. unfold p, MonomialBasis.evaluate. destruct (Nat.ltb_spec i (values n)); [ring|lia].
    - apply rsum_ext. intros j J. apply rsum_ext. intros e E. unfold p, MonomialBasis.evaluate, grad_weight.
      destruct (Nat.ltb_spec (values n + d * j + e) (values n)); [lia|].
      replace (values n + d * j + e)%nat with (values n + (d * j + e))%nat by lia. destruct (split_index d (values n) j (d * j + e) e E eq_refl) as [-> ->]. ring. }
  clear H p. set (x := pt (nat -> R) n) in *. set (y := gpt (nat -> R) n) in *. unfold hermite_moments. fold x y. cbv zeta. set (g := grad_weight d n c) in *.
  assert (DS : (d = 1 \/ d = 2 \/ d = 3)%nat) by lia. assert (GS : (degree = 0 \/ degree = 1 \/ degree = 2)%nat) by lia.
  assert (ES : forall e M, (e < M)%nat -> (M <= 3)%nat -> (e = 0 \/ e = 1 \/ e = 2)%nat) by lia.
  clearbody g x y.
  split; [|split].
  - intros _. rewrite <- (Rplus_0_r (rsum (values n) c)). rewrite <- (rsum_0 (gradients n) (fun _ => 0)) at 1 by auto.
    destruct DS as [-> |[-> | ->]], GS as [-> |[-> | ->]]; (etransitivity; [|apply (F 0%nat); cbn; lia]); f_equal; apply rsum_ext; intros; cbn; ring.
  - intros M e E. destruct (ES e d E ltac:(lia)) as [-> |[-> | ->]], DS as [-> |[-> | ->]], GS as [-> |[-> | ->]]; try lia;
      first [etransitivity; [|apply (F 1%nat); cbn; lia]; f_equal; apply rsum_ext; intros; cbn; ring
            |etransitivity; [|apply (F 2%nat); cbn; lia]; f_equal; apply rsum_ext; intros; cbn; ring
            |etransitivity; [|apply (F 3%nat); cbn; lia]; f_equal; apply rsum_ext; intros; cbn; ring].
  - intros M e f E E'. assert (degree = 2)%nat by lia. subst degree.
    destruct (ES e d E ltac:(lia)) as [-> |[-> | ->]], (ES f d E' ltac:(lia)) as [-> |[-> | ->]], DS as [-> |[-> | ->]]; try lia;
      first [etransitivity; [|apply (F 2%nat); cbn; lia]; f_equal; apply rsum_ext; intros; cbn; ring
            |etransitivity; [|apply (F 3%nat); cbn; lia]; f_equal; apply rsum_ext; intros; cbn; ring
            |etransitivity; [|apply (F 4%nat); cbn; lia]; f_equal; apply rsum_ext; intros; cbn; ring
            |etransitivity; [|apply (F 5%nat); cbn; lia]; f_equal; apply rsum_ext; intros; cbn; ring
            |etransitivity; [|apply (F 6%nat); cbn; lia]; f_equal; apply rsum_ext; intros; cbn; ring
            |etransitivity; [|apply (F 7%nat); cbn; lia]; f_equal; apply rsum_ext; intros; cbn; ring
            |etransitivity; [|apply (F 8%nat); cbn; lia]; f_equal; apply rsum_ext; intros; cbn; ring
            |etransitivity; [|apply (F 9%nat); cbn; lia]; f_equal; apply rsum_ext; intros; cbn; ring].
Qed.
Lemma hermite_operator : forall d n terms nugget m l p ss, Forall (usable d m n) terms -> separated d n terms nugget -> unisolvent (rows d n) l p ->
  (forall c, (forall k, (k < l)%nat -> rsum (rows d n) (fun i => p i k * c i) = 0) -> hermite_moments d n m c) ->
  schedules_ok (nat -> R) (map (term_rbf d) terms) (rows d n) ss ->
  let A := direct_operator (nat -> R) difference d (map (term_rbf d) terms) nugget l ss n p in
  forall b, (exists w, forall r, (r < rows d n + l)%nat -> A w r = b r) /\
  forall w v, (forall r, (r < rows d n + l)%nat -> A w r = b r) -> (forall r, (r < rows d n + l)%nat -> A v r = b r) -> forall r, (r < rows d n + l)%nat -> w r = v r.
Proof.
  intros d n terms nugget m l p ss G W U C SC A b.
  assert (E : forall w r, (r < rows d n + l)%nat -> A w r = mat_vec (rows d n + l) (system (nat -> R) difference d (map (term_rbf d) terms) nugget n p) w r).
  { intros w r R0. unfold A. rewrite direct_entries; auto. }
  destruct (hermite_system d n terms m nugget l p G W U C b) as [(w & X) Y]. split.
  - exists w. intros r R0. rewrite E; auto.
  - intros w' v H1 H2. apply Y; intros r R0; rewrite <- E; auto.
Qed.
Lemma hermite_solved : forall d degree n terms nugget ss, (1 <= d <= 3)%nat -> (degree <= 2)%nat ->
  Forall (usable d (S degree) n) terms -> separated d n terms nugget ->
  let l := length (columns d degree) in let p := MonomialBasis.evaluate d degree (values n) (pt (nat -> R) n) (gpt (nat -> R) n) in
  unisolvent (rows d n) l p -> schedules_ok (nat -> R) (map (term_rbf d) terms) (rows d n) ss ->
  let A := direct_operator (nat -> R) difference d (map (term_rbf d) terms) nugget l ss n p in
  forall b, (exists w, forall r, (r < rows d n + l)%nat -> A w r = b r) /\
  forall w v, (forall r, (r < rows d n + l)%nat -> A w r = b r) -> (forall r, (r < rows d n + l)%nat -> A v r = b r) -> forall r, (r < rows d n + l)%nat -> w r = v r.
Proof.
  intros d degree n terms nugget ss D G T W l p U SC. apply (hermite_operator d n terms nugget (S degree)); auto. intros c. apply hermite_cover; auto.
Qed.
Lemma hermite_plain : forall d n terms nugget p ss, Forall (usable d 0 n) terms -> separated d n terms nugget ->
  schedules_ok (nat -> R) (map (term_rbf d) terms) (rows d n) ss ->
  let A := direct_operator (nat -> R) difference d (map (term_rbf d) terms) nugget 0 ss n p in
  forall b, (exists w, forall r, (r < rows d n)%nat -> A w r = b r) /\
  forall w v, (forall r, (r < rows d n)%nat -> A w r = b r) -> (forall r, (r < rows d n)%nat -> A v r = b r) -> forall r, (r < rows d n)%nat -> w r = v r.
Proof.
  intros d n terms nugget p ss G W SC. pose proof (hermite_operator d n terms nugget 0 0 p ss G W) as H. rewrite Nat.add_0_r in H. apply H; auto.
  - intros a _ k K. lia.
  - intros c _. split; [|split]; intros; lia.
Qed.

(** * What is needed *)
Lemma hermite_needs_unisolvent : forall d n terms nugget l p,
  solved_once (rows d n + l) (system (nat -> R) difference d (map (term_rbf d) terms) nugget n p) -> unisolvent (rows d n) l p.
Proof.
  intros d n terms nugget l p H a A k K. destruct (H (fun _ => 0)) as [_ U]. set (N := rows d n) in *.
  specialize (U (fun i => if (i <? N)%nat then 0 else a (i - N)%nat) (fun _ => 0)).
  assert (E : forall j, ((N + j) <? N)%nat = false) by (intros; apply Nat.ltb_ge; lia).
  specialize (fun X => U X ltac:(intros; unfold mat_vec; apply rsum_0; intros; ring) (N + k)%nat ltac:(lia)).
  cbn beta in U. rewrite E in U. replace (N + k - N)%nat with k in U by lia. apply U. intros r R0. unfold mat_vec. rewrite rsum_app.
  rewrite (rsum_0 N). 2:{ intros i I. destruct (Nat.ltb_spec i N); [ring|lia]. }
  rewrite Rplus_0_l. unfold system. fold (rows d n) N. destruct (Nat.ltb_spec r N) as [L|L].
  - rewrite <- (A r L). unfold mat_vec. apply rsum_ext. intros j J. rewrite E. replace (N + j - N)%nat with j by lia. reflexivity.
  - apply rsum_0. intros j J. rewrite E. ring.
Qed.
(** Equal columns make the system singular. *)
Lemma equal_columns : forall n a i j, solved_once n a -> (i < n)%nat -> (j < n)%nat -> i <> j -> ~ (forall r, (r < n)%nat -> a r i = a r j).
Proof.
  intros n a i j H I J NE E. destruct (H (fun _ => 0)) as [_ U]. set (w := fun k => (if Nat.eqb k i then 1 else 0) + (if Nat.eqb k j then -1 else 0)).
  assert (X : w i = 0).
  { apply (U w (fun _ => 0)); [|intros; unfold mat_vec; apply rsum_0; intros; ring|lia]. intros r R0. unfold mat_vec, w.
    rewrite (rsum_ext n _ (fun k => a r k * (if Nat.eqb k i then 1 else 0) + a r k * (if Nat.eqb k j then -1 else 0))) by (intros; ring).
    rewrite rsum_plus, (rsum_single n i), (rsum_single n j); try lia;
      try (intros q _ Q; destruct (Nat.eqb_spec q i), (Nat.eqb_spec q j); try contradiction; ring).
    rewrite !Nat.eqb_refl. rewrite E by auto. ring. }
  unfold w in X. rewrite Nat.eqb_refl in X. destruct (Nat.eqb_spec i j); [contradiction|]. lra.
Qed.
Lemma mat_vec_difference : forall d a x y z, (forall e, (e < d)%nat -> y e = z e) -> mat_vec d a (difference x y) = mat_vec d a (difference x z).
Proof. intros. apply functional_extensionality. intros e. apply rsum_ext. intros f F. unfold difference. rewrite H; auto. Qed.
Lemma hermite_needs_distinct : forall d n terms nugget l p, (1 <= d)%nat ->
  (forall i j e k, (i < gradients n)%nat -> (j < gradients n)%nat -> (e < d)%nat -> (k < l)%nat -> (forall f, (f < d)%nat -> gpt (nat -> R) n i f = gpt (nat -> R) n j f) ->
    p (values n + d * i + e)%nat k = p (values n + d * j + e)%nat k) ->
  solved_once (rows d n + l) (system (nat -> R) difference d (map (term_rbf d) terms) nugget n p) -> distinct (gradients n) d (gpt (nat -> R) n).
Proof.
  intros d n terms nugget l p D P H i j I J NE.
  destruct (Classical_Prop.classic (exists e, (e < d)%nat /\ gpt (nat -> R) n i e <> gpt (nat -> R) n j e)) as [|Z]; auto. exfalso.
  assert (E : forall e, (e < d)%nat -> gpt (nat -> R) n i e = gpt (nat -> R) n j e).
  { intros e L. destruct (Req_EM_T (gpt (nat -> R) n i e) (gpt (nat -> R) n j e)); auto. exfalso. apply Z. eauto. }
  destruct (Proofs.Hermite.grad_row d n i 0 I ltac:(lia)) as (I1 & I2 & _ & I4 & _). destruct (Proofs.Hermite.grad_row d n j 0 J ltac:(lia)) as (J1 & J2 & _ & J4 & _).
  set (a := (values n + d * i + 0)%nat) in *. set (b := (values n + d * j + 0)%nat) in *.
  assert (DI : ((a - values n) / d = i)%nat). { unfold a. replace (values n + d * i + 0)%nat with (values n + (d * i + 0))%nat by lia. apply (split_index d (values n) i (d * i + 0) 0); auto; lia. }
  assert (DJ : ((b - values n) / d = j)%nat). { unfold b. replace (values n + d * j + 0)%nat with (values n + (d * j + 0))%nat by lia. apply (split_index d (values n) j (d * j + 0) 0); auto; lia. }
  apply (equal_columns _ _ a b H); [lia|lia|unfold a, b; nia|]. intros r R0. unfold system. fold (rows d n).
  destruct (Nat.ltb_spec a (rows d n)); [|lia]. destruct (Nat.ltb_spec b (rows d n)); [|lia].
  destruct (Nat.ltb_spec r (rows d n)) as [L|L].
  2:{ apply P; auto; lia. }
  f_equal.
  - unfold kernel. rewrite !lsum_map. apply lsum_ext. intros t _. fold (values n). unfold isv in I2, J2. rewrite I2, J2. rewrite DI, DJ. unfold dir in I4, J4. rewrite I4, J4.
    cbn [term_rbf ev gr he]. destruct (r <? values n)%nat; unfold evaluate_gradient, evaluate_hessian; rewrite (mat_vec_difference d (ta t) _ _ _ E); reflexivity.
  - unfold nugget_at. fold (values n). unfold isv in I2, J2. destruct (Nat.eqb_spec r a) as [EA|], (Nat.eqb_spec r b) as [EB|]; auto.
    + rewrite EA, I2. reflexivity.
    + rewrite EB, J2. reflexivity.
Qed.

(** * The biharmonic function without a smoothing constant *)
Definition one_place : data := Nodes (nat -> R) 1 1 (fun _ _ => 0) (fun _ _ => 0).
Lemma biharmonic_singular : forall d slope nugget, (1 <= d <= 3)%nat ->
  let t := Term Bh3 slope 0 (fun i j => if Nat.eqb i j then 1 else 0) in
  let l := length (columns d 0) in let p := MonomialBasis.evaluate d 0 1 (fun _ _ => 0) (fun _ _ => 0) in
  hessians_defined d one_place t /\ unisolvent (rows d one_place) l p /\
  ~ solved_once (rows d one_place + l) (system (nat -> R) difference d (map (term_rbf d) [t]) nugget one_place p).
Proof.
  intros d slope nugget D t l p.
  assert (DZ : difference (fun _ => 0) (fun _ => 0) = (fun _ => 0)) by (apply functional_extensionality; intros; unfold difference; ring).
  assert (MZ : forall a, mat_vec d a (fun _ => 0) = (fun _ => 0)) by (intros; apply functional_extensionality; intros; apply rsum_0; intros; ring).
  assert (OZ : dot d (fun _ => 0) (fun _ => 0) = 0) by (apply rsum_0; intros; ring).
  assert (SZ : is_zero (sqrt (0 + 0 * 0)) = true). { unfold is_zero. replace (0 + 0 * 0) with 0 by ring. rewrite sqrt_0. destruct (Req_EM_T 0 0); auto. }
  assert (L1 : l = 1%nat) by (unfold l; destruct d as [|[|[|[|d]]]]; try lia; reflexivity).
  assert (RW : rows d one_place = (1 + d)%nat) by (unfold rows, size; cbn [mu sigma one_place]; lia).
  split; [|split].
  - intros i j _ _. cbn [one_place gpt t tk t0 t1 ta]. unfold evaluate_hessian, hessian_at. rewrite DZ, MZ, OZ. cbn [hessian]. unfold odd_hessian. rewrite SZ. cbn [res_map]. eauto.
  - intros a A k K. rewrite L1 in *. assert (k = 0)%nat by lia. subst k. specialize (A 0%nat ltac:(lia)). unfold mat_vec, p, MonomialBasis.evaluate in A. cbn [rsum Nat.ltb Nat.leb] in A.
    destruct d as [|[|[|[|d]]]]; try lia; cbn in A; lra.
  - intros H. destruct (H (fun _ => 1)) as [(w & W) _]. specialize (W 1%nat ltac:(lia)). unfold mat_vec in W. rewrite rsum_0 in W; [lra|]. intros c C.
    assert (Z : system (nat -> R) difference d (map (term_rbf d) [t]) nugget one_place p 1%nat c = 0); [|rewrite Z; ring].
    unfold system. fold (rows d one_place). rewrite RW. destruct (Nat.ltb_spec 1 (1 + d)); [|lia]. destruct (Nat.ltb_spec c (1 + d)) as [L|L].
    + unfold nugget_at. cbn [mu one_place]. replace (1 <? 1)%nat with false by reflexivity.
      unfold kernel. cbn [map lsum mu one_place pt gpt]. replace (1 <? 1)%nat with false by reflexivity. cbn [term_rbf gr he ev t tk t0 t1 ta].
      unfold evaluate_gradient, gradient_at, evaluate_hessian, hessian_at. rewrite DZ, MZ, OZ. cbn [gradient hessian]. unfold odd_gradient, odd_hessian. rewrite SZ. cbn [res_map component entry fst snd].
      assert (Z1 : forall a e, row_mat d a (fun _ => 0 * 0) e = 0) by (intros; apply rsum_0; intros; ring).
      assert (Z2 : forall a e f, sandwich d a (fun c e => 0 * (if Nat.eqb c e then 1 else 0) + 0 * (0 * 0)) e f = 0).
      { intros. apply rsum_0. intros j _. rewrite rsum_0; [ring|]. intros; ring. }
      rewrite Z1, Z2.
      destruct (c <? 1)%nat, (Nat.eqb 1 c); ring.
    + unfold p, MonomialBasis.evaluate. replace (1 <? 1)%nat with false by reflexivity. rewrite RW, L1 in C. replace (c - (1 + d))%nat with 0%nat by lia.
      replace (1 - 1)%nat with 0%nat by lia. rewrite Nat.mod_0_l by lia. destruct d as [|[|[|[|d]]]]; try lia; reflexivity.
Qed.

(** * Hessians that are numbers *)
Lemma hessians_numbers : forall d n t, In (tk t) [Bh3; Th3; Gau; Gc3; Gc5; Gc7; Gc9] -> hessians_defined d n t.
Proof.
  intros d n t K i j _ _. unfold evaluate_hessian, hessian_at.
  set (v := mat_vec d (ta t) (difference (gpt (nat -> R) n i) (gpt (nat -> R) n j))).
  assert (X : exists h, hessian (tk t) (t0 t) (t1 t) (dot d v v) = Num h); [|destruct X as (h & ->); cbn [res_map]; eauto].
  destruct K as [<-|[<-|[<-|[<-|[<-|[<-|[<-|[]]]]]]]]; cbn [hessian]; unfold odd_hessian, gau_hessian, gc_hessian; cbv zeta; eauto;
    destruct (is_zero _); eauto.
Qed.
