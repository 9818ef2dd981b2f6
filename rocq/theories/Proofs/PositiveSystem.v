From Coq Require Import Reals List Arith ZArith Lia Lra.
From Verif Require Import Proofs.LinAlg Proofs.Operator Proofs.PositiveDefinite Proofs.PositiveKinds Proofs.CompactKinds.
From Verif Require Export Proofs.Elimination.
From Verif Require Import Model.LinAlg Model.MonomialBasis Model.Rbfs Model.Operator Spec.Rbfs Spec.Operator Spec.PositiveDefinite.
Import ListNotations.
Local Open Scope R_scope.

(** * Square systems without a kernel are solvable *)
Lemma injective_solved : forall n a, (forall w, (forall r, (r < n)%nat -> mat_vec n a w r = 0) -> forall r, (r < n)%nat -> w r = 0) -> solved_once n a.
Proof.
  intros n a H b. split.
  - destruct (kernel_or_onto n a) as [(w & W & k & K & NZ)|O]; [|apply O]. exfalso. apply NZ. apply (H w W k K).
  - intros w v W V r R0. assert (E : w r - v r = 0); [|lra]. apply (H (fun i => w i - v i)); auto. intros i I.
    unfold mat_vec in *. rewrite (rsum_ext n _ (fun j => a i j * w j - a i j * v j)) by (intros; ring). rewrite rsum_minus, W, V by auto. ring.
Qed.

(** * Sums of terms *)
Lemma mat_vec_minus : forall d a v w e, mat_vec d a (fun i => v i - w i) e = mat_vec d a v e - mat_vec d a w e.
Proof. intros. unfold mat_vec. rewrite <- rsum_minus. apply rsum_ext; intros; ring. Qed.
Lemma term_kern : forall d t x i j, evaluate d (tk t) (t0 t) (t1 t) (ta t) (difference (x i) (x j)) =
  kern d (fun i => mat_vec d (ta t) (x i)) (value (tk t) (t0 t) (t1 t)) i j.
Proof.
  intros. unfold evaluate, value_at, kern. f_equal. unfold dot, distance2. apply rsum_ext. intros e _. unfold difference.
  rewrite mat_vec_minus. reflexivity.
Qed.
Lemma moments_linear : forall n d x m c a, moments n d x m c -> moments n d (fun i => mat_vec d a (x i)) m c.
Proof.
  intros n d x m c a (A & B & C). split; [|split]; auto.
  - intros M e E. rewrite (rsum_ext n _ (fun i => rsum d (fun g => a e g * (c i * x i g)))).
    2:{ intros i _. unfold mat_vec. rewrite <- rsum_scal. apply rsum_ext; intros; ring. }
    rewrite rsum_swap. apply rsum_0. intros g G. rewrite rsum_scal, B by auto. ring.
  - intros M e f E F. rewrite (rsum_ext n _ (fun i => rsum d (fun g => rsum d (fun h => a e g * a f h * (c i * (x i g * x i h)))))).
    2:{ intros i _. unfold mat_vec. rewrite <- rsum_scal_r, <- rsum_scal. apply rsum_ext; intros g _. rewrite <- rsum_scal, <- rsum_scal. apply rsum_ext; intros; ring. }
    rewrite rsum_swap. apply rsum_0. intros g G. rewrite rsum_swap. apply rsum_0. intros h H. rewrite rsum_scal, C by auto. ring.
Qed.
Lemma distinct_linear : forall n d x a, (forall v, (forall e, (e < d)%nat -> mat_vec d a v e = 0) -> forall e, (e < d)%nat -> v e = 0) ->
  distinct n d x -> distinct n d (fun i => mat_vec d a (x i)).
Proof.
  intros n d x a K D i j I J N. destruct (D i j I J N) as (e & E & X).
  destruct (Classical_Prop.classic (exists e, (e < d)%nat /\ mat_vec d a (x i) e <> mat_vec d a (x j) e)) as [H|H]; auto.
  exfalso. apply X. assert (Y : x i e - x j e = 0); [|lra]. apply (K (fun e => x i e - x j e)); auto. intros f F. rewrite mat_vec_minus.
  destruct (Req_EM_T (mat_vec d a (x i) f) (mat_vec d a (x j) f)) as [Q|Q]; [lra|]. exfalso. apply H. eauto.
Qed.
Lemma quad_lsum : forall n (l : list term) f c, quad n (fun i j => lsum l (fun t => f t i j)) c = lsum l (fun t => quad n (f t) c).
Proof. intros n l f c. induction l; cbn; [apply quad_zero|]. rewrite quad_plus, IHl. reflexivity. Qed.
Lemma lsum_nonneg : forall (l : list term) f, (forall t, In t l -> 0 <= f t) -> 0 <= lsum l f.
Proof. induction l; intros f H; cbn; [lra|]. apply Rplus_le_le_0_compat; [apply H; left; auto|apply IHl; intros; apply H; right; auto]. Qed.
Lemma lsum_one : forall (l : list term) f t, In t l -> (forall t, In t l -> 0 <= f t) -> f t <= lsum l f.
Proof.
  induction l as [|u l IH]; intros f t I H; [contradiction|]. cbn. destruct I as [-> |I].
  - pose proof (lsum_nonneg l f (fun t I => H t (or_intror I))). lra.
  - specialize (IH f t I (fun t I => H t (or_intror I))). specialize (H u (or_introl eq_refl)). lra.
Qed.
Lemma quad_diag : forall n g c, quad n (fun i j => if Nat.eqb i j then g else 0) c = g * length2 n c.
Proof.
  intros. unfold quad, length2. rewrite <- rsum_scal. apply rsum_ext. intros i I. rewrite (rsum_single n i); auto.
  - rewrite Nat.eqb_refl. ring.
  - intros j _ N. destruct (Nat.eqb_spec i j); [subst; contradiction|]. ring.
Qed.
Lemma terms_definite : forall n d x terms m nugget, Forall (good_term d m) terms -> has_weight n d x terms nugget ->
  definite n (moments n d x m) (fun i j => kernel (nat -> R) difference d (map (term_rbf d) terms) (points n x) (points n x) i j
    + nugget_at (nat -> R) nugget (points n x) i j).
Proof.
  intros n d x terms m nugget G W. rewrite Forall_forall in G.
  set (K := fun t => kern d (fun i => mat_vec d (ta t) (x i)) (value (tk t) (t0 t) (t1 t))).
  assert (Q : forall c, quad n (fun i j => kernel (nat -> R) difference d (map (term_rbf d) terms) (points n x) (points n x) i j
    + nugget_at (nat -> R) nugget (points n x) i j) c = lsum terms (fun t => quad n (K t) c) + nugget * length2 n c).
  { intros c. rewrite <- quad_lsum, <- quad_diag, <- quad_plus. apply quad_ext. intros i j I J. f_equal.
    - unfold kernel. rewrite lsum_map. apply lsum_ext. intros t _. unfold points; cbn [mu pt]. destruct (Nat.ltb_spec i n); [|lia]. destruct (Nat.ltb_spec j n); [|lia].
      apply term_kern.
    - unfold nugget_at, points; cbn [mu]. destruct (Nat.ltb_spec i n); [reflexivity|lia]. }
  assert (P : forall c, moments n d x m c -> forall t, In t terms -> 0 <= quad n (K t) c).
  { intros c C t I. destruct (G t I) as (k & O & L & T0 & T1 & _). apply (kind_nonneg_in n d _ (tk t) k); auto.
    apply moments_linear. apply (moments_less n d x m); auto. }
  destruct W as [W|(W & D & t & I & T)].
  - exists nugget. split; auto. intros c C. rewrite Q. pose proof (lsum_nonneg terms _ (P c C)). lra.
  - destruct (G t I) as (k & O & L & _ & T1 & A).
    destruct (kind_low_in n d (fun i => mat_vec d (ta t) (x i)) (tk t) k (t0 t) (t1 t)) as (low & LP & B); auto. { apply distinct_linear; auto. }
    exists low. split; auto. intros c C. rewrite Q, W, Rmult_0_l, Rplus_0_r.
    apply Rle_trans with (2 := lsum_one terms _ t I (P c C)). apply B. apply moments_linear. apply (moments_less n d x m); auto.
Qed.

(** * The system *)
Lemma length2_zero : forall n c, length2 n c <= 0 -> forall i, (i < n)%nat -> c i = 0.
Proof.
  induction n; intros c H i I; [lia|]. unfold length2 in H. cbn in H. pose proof (length2_pos n c) as P. unfold length2 in P.
  pose proof (Rle_0_sqr (c n)) as P2. unfold Rsqr in P2. destruct (Nat.eq_dec i n) as [-> |]; [|apply IHn; [unfold length2; lra|lia]].
  assert (Z : c n * c n = 0) by lra. apply Rmult_integral in Z. lra.
Qed.
Lemma saddle_injective : forall n l a p (W : (nat -> R) -> Prop), definite n W a -> unisolvent n l p ->
  (forall c, (forall k, (k < l)%nat -> rsum n (fun i => p i k * c i) = 0) -> W c) ->
  forall w u, (forall r, (r < n)%nat -> mat_vec n a w r + mat_vec l p u r = 0) -> (forall k, (k < l)%nat -> rsum n (fun i => p i k * w i) = 0) ->
  (forall r, (r < n)%nat -> w r = 0) /\ (forall k, (k < l)%nat -> u k = 0).
Proof.
  intros n l a p WW (low & L & B) U C w u E O. specialize (B w (C w O)).
  assert (Z : quad n a w = 0).
  { assert (X : rsum n (fun i => w i * (mat_vec n a w i + mat_vec l p u i)) = 0).
    { apply rsum_0. intros i I. rewrite E by auto. ring. }
    rewrite (rsum_ext n _ (fun i => w i * mat_vec n a w i + w i * mat_vec l p u i)) in X by (intros; ring). rewrite rsum_plus in X.
    assert (Y : rsum n (fun i => w i * mat_vec l p u i) = 0).
    { rewrite (rsum_ext n _ (fun i => rsum l (fun k => u k * (p i k * w i)))).
      2:{ intros i _. unfold mat_vec. rewrite <- rsum_scal. apply rsum_ext; intros; ring. }
      rewrite rsum_swap. apply rsum_0. intros k K. rewrite rsum_scal, O by auto. ring. }
    rewrite Y, Rplus_0_r in X. rewrite <- X. unfold quad. apply rsum_ext. intros i _. unfold mat_vec. rewrite <- rsum_scal. apply rsum_ext; intros; ring. }
  assert (W : forall r, (r < n)%nat -> w r = 0).
  { apply length2_zero. rewrite Z in B. pose proof (length2_pos n w). nra. }
  split; auto. apply U. intros i I. specialize (E i I). rewrite <- E. unfold mat_vec at 2. rewrite (rsum_0 n); [ring|]. intros j J. rewrite (W j J). ring.
Qed.
Lemma system_solved : forall n d x terms nugget m l p, Forall (good_term d m) terms -> has_weight n d x terms nugget ->
  unisolvent n l p -> covers n d x l p m ->
  solved_once (n + l) (system (nat -> R) difference d (map (term_rbf d) terms) nugget (points n x) p).
Proof.
  intros n d x terms nugget m l p G W U C. apply injective_solved. intros w E.
  set (a := fun i j => kernel (nat -> R) difference d (map (term_rbf d) terms) (points n x) (points n x) i j
    + nugget_at (nat -> R) nugget (points n x) i j).
  assert (SZ : size (nat -> R) d (points n x) = n) by (unfold size; cbn; lia).
  destruct (saddle_injective n l a p (moments n d x m) (terms_definite n d x terms m nugget G W) U C w (fun k => w (n + k)%nat)) as [A B].
  - intros r R0. rewrite <- (E r ltac:(lia)). unfold mat_vec. rewrite rsum_app. f_equal; apply rsum_ext; intros j J; f_equal; unfold system; rewrite SZ.
    + destruct (Nat.ltb_spec r n); [|lia]. destruct (Nat.ltb_spec j n); [reflexivity|lia].
    + destruct (Nat.ltb_spec r n); [|lia]. destruct (Nat.ltb_spec (n + j) n); [lia|]. f_equal. lia.
  - intros k K. rewrite <- (E (n + k)%nat ltac:(lia)). unfold mat_vec. rewrite rsum_app.
    rewrite (rsum_0 l). 2:{ intros j J. unfold system. rewrite SZ. destruct (Nat.ltb_spec (n + k) n); [lia|]. destruct (Nat.ltb_spec (n + j) n); [lia|]. ring. }
    rewrite Rplus_0_r. apply rsum_ext. intros j J. unfold system. rewrite SZ. destruct (Nat.ltb_spec (n + k) n); [lia|].
    destruct (Nat.ltb_spec j n); [|lia]. do 2 f_equal. lia.
  - intros r R0. destruct (lt_dec r n) as [L|L]; [apply A; auto|]. replace r with (n + (r - n))%nat by lia. apply (B (r - n)%nat). lia.
Qed.

(** The monomials of the library give the moments. *)
Lemma columns_cover : forall n dim degree x, (1 <= dim <= 3)%nat -> (degree <= 2)%nat ->
  covers n dim x (length (columns dim degree)) (MonomialBasis.evaluate dim degree n x (fun _ _ => 0)) (S degree).
Proof.
  intros n dim degree x D G c H.
  assert (F : forall k, (k < length (columns dim degree))%nat -> rsum n (fun i => c i * fst (nth k (columns dim degree) no_column) (x i)) = 0).
  { intros k K. rewrite <- (H k K). apply rsum_ext. intros i I. unfold MonomialBasis.evaluate. destruct (Nat.ltb_spec i n); [ring|lia]. }
  clear H.
  assert (R1 : forall e, rsum n (fun i => c i * e) = 0 -> e = 1 -> rsum n c = 0).
  { intros e E ->. rewrite <- E. apply rsum_ext; intros; ring. }
  assert (DS : (dim = 1 \/ dim = 2 \/ dim = 3)%nat) by lia. assert (GS : (degree = 0 \/ degree = 1 \/ degree = 2)%nat) by lia.
  assert (ES : forall e N, (e < N)%nat -> (N <= 3)%nat -> (e = 0 \/ e = 1 \/ e = 2)%nat) by lia.
  split; [|split].
  - intros _. apply (R1 1); auto. destruct DS as [-> |[-> | ->]], GS as [-> |[-> | ->]]; apply (F 0%nat); cbn; lia.
  - intros M e E. destruct (ES e dim E ltac:(lia)) as [-> |[-> | ->]].
    + destruct DS as [-> |[-> | ->]], GS as [-> |[-> | ->]]; try lia; apply (F 1%nat); cbn; lia.
    + destruct DS as [-> |[-> | ->]], GS as [-> |[-> | ->]]; try lia; apply (F 2%nat); cbn; lia.
    + destruct DS as [-> |[-> | ->]], GS as [-> |[-> | ->]]; try lia; apply (F 3%nat); cbn; lia.
  - intros M e f E E'. assert (degree = 2)%nat by lia. subst degree.
    assert (SY : forall e f, rsum n (fun i => c i * (x i f * x i e)) = 0 -> rsum n (fun i => c i * (x i e * x i f)) = 0).
    { intros e' f' Q. rewrite <- Q. apply rsum_ext; intros; ring. }
    destruct DS as [-> |[-> | ->]].
    + assert (e = 0)%nat by lia. assert (f = 0)%nat by lia. subst. apply (F 2%nat). cbn; lia.
    + destruct (ES e 2%nat E ltac:(lia)) as [-> |[-> | ->]]; [| |lia]; (destruct (ES f 2%nat E' ltac:(lia)) as [-> |[-> | ->]]; [| |lia]).
      * apply (F 3%nat). cbn; lia.
      * apply (F 4%nat). cbn; lia.
      * apply SY. apply (F 4%nat). cbn; lia.
      * apply (F 5%nat). cbn; lia.
    + destruct (ES e 3%nat E ltac:(lia)) as [-> |[-> | ->]]; destruct (ES f 3%nat E' ltac:(lia)) as [-> |[-> | ->]].
      * apply (F 4%nat). cbn; lia.
      * apply (F 5%nat). cbn; lia.
      * apply (F 6%nat). cbn; lia.
      * apply SY, (F 5%nat). cbn; lia.
      * apply (F 7%nat). cbn; lia.
      * apply (F 8%nat). cbn; lia.
      * apply SY, (F 6%nat). cbn; lia.
      * apply SY, (F 8%nat). cbn; lia.
      * apply (F 9%nat). cbn; lia.
Qed.

(** * Both conditions are needed *)
Lemma needs_unisolvent : forall n d x terms nugget l p,
  solved_once (n + l) (system (nat -> R) difference d (map (term_rbf d) terms) nugget (points n x) p) -> unisolvent n l p.
Proof.
  intros n d x terms nugget l p H a A k K. destruct (H (fun _ => 0)) as [_ U].
  assert (SZ : size (nat -> R) d (points n x) = n) by (unfold size; cbn; lia).
  specialize (U (fun i => if (i <? n)%nat then 0 else a (i - n)%nat) (fun _ => 0)).
  assert (E : forall j, ((n + j) <? n)%nat = false) by (intros; apply Nat.ltb_ge; lia).
  specialize (fun X => U X ltac:(intros; unfold mat_vec; apply rsum_0; intros; ring) (n + k)%nat ltac:(lia)).
  cbn beta in U. rewrite E in U. replace (n + k - n)%nat with k in U by lia. apply U. intros r R0. unfold mat_vec. rewrite rsum_app.
  rewrite (rsum_0 n). 2:{ intros i I. destruct (Nat.ltb_spec i n); [ring|lia]. }
  rewrite Rplus_0_l. unfold system. rewrite SZ. destruct (Nat.ltb_spec r n) as [L|L].
  - rewrite <- (A r L). unfold mat_vec. apply rsum_ext. intros j J. rewrite E. replace (n + j - n)%nat with j by lia. reflexivity.
  - apply rsum_0. intros j J. rewrite E. ring.
Qed.
Lemma value_same : forall d t v w, (forall e, (e < d)%nat -> v e = w e) ->
  evaluate d (tk t) (t0 t) (t1 t) (ta t) v = evaluate d (tk t) (t0 t) (t1 t) (ta t) w.
Proof.
  intros d t v w H. unfold evaluate, value_at. f_equal. unfold dot. apply rsum_ext. intros e _.
  assert (X : forall e, mat_vec d (ta t) v e = mat_vec d (ta t) w e). { intros. apply rsum_ext. intros j J. rewrite H; auto. } rewrite X. reflexivity.
Qed.
Lemma needs_distinct : forall n d x terms l p, (forall i j k, (i < n)%nat -> (j < n)%nat -> (k < l)%nat -> (forall e, (e < d)%nat -> x i e = x j e) -> p i k = p j k) ->
  solved_once (n + l) (system (nat -> R) difference d (map (term_rbf d) terms) 0 (points n x) p) -> distinct n d x.
Proof.
  intros n d x terms l p P H i j I J N.
  destruct (Classical_Prop.classic (exists e, (e < d)%nat /\ x i e <> x j e)) as [|Z]; auto. exfalso.
  assert (E : forall e, (e < d)%nat -> x i e = x j e).
  { intros e L. destruct (Req_EM_T (x i e) (x j e)); auto. exfalso. apply Z. eauto. }
  destruct (H (fun _ => 0)) as [_ U]. assert (SZ : size (nat -> R) d (points n x) = n) by (unfold size; cbn; lia).
  set (w := fun k => (if Nat.eqb k i then 1 else 0) + (if Nat.eqb k j then -1 else 0)).
  specialize (U w (fun _ => 0)).
  assert (X : w i = 0).
  { apply U; [|intros; unfold mat_vec; apply rsum_0; intros; ring|lia]. intros r R0. unfold mat_vec, w.
    set (s := system (nat -> R) difference d (map (term_rbf d) terms) 0 (points n x) p).
    rewrite (rsum_ext (n + l) _ (fun k => s r k * (if Nat.eqb k i then 1 else 0) + s r k * (if Nat.eqb k j then -1 else 0))) by (intros; ring).
    rewrite rsum_plus, (rsum_single (n + l) i), (rsum_single (n + l) j); try lia;
      try (intros q _ Q; destruct (Nat.eqb_spec q i), (Nat.eqb_spec q j); try contradiction; ring).
    rewrite !Nat.eqb_refl. assert (S1 : s r i = s r j); [|rewrite S1; ring].
    unfold s, system. rewrite SZ. destruct (Nat.ltb_spec i n); [|lia]. destruct (Nat.ltb_spec j n); [|lia]. destruct (Nat.ltb_spec r n).
    - f_equal.
      + unfold kernel. rewrite !lsum_map. apply lsum_ext. intros t _. unfold points; cbn [mu pt].
        destruct (Nat.ltb_spec r n); [|lia]. destruct (Nat.ltb_spec i n); [|lia]. destruct (Nat.ltb_spec j n); [|lia].
        apply value_same. intros e L. unfold difference. rewrite E; auto.
      + unfold nugget_at, points; cbn [mu]. destruct (Nat.eqb r i), (Nat.eqb r j), (r <? n)%nat; reflexivity.
    - apply P; auto. lia. }
  unfold w in X. rewrite Nat.eqb_refl in X. destruct (Nat.eqb_spec i j); [contradiction|]. lra.
Qed.

(** * The order cannot be lowered *)
Definition line (h : R) (i e : nat) : R := INR i * h.
Lemma line_distinct : forall n d h, (1 <= d)%nat -> h <> 0 -> distinct n d (line h).
Proof.
  intros n d h D H i j I J N. exists 0%nat. split; [lia|]. unfold line. intros E. apply Rmult_eq_reg_r in E; auto. apply INR_eq in E. contradiction.
Qed.
Lemma ln2_pos : 0 < ln 2.
Proof. rewrite <- ln_1. apply ln_increasing; lra. Qed.
Lemma order_sharp : forall k m, definite_order k = Some (S m) -> exists n x c, distinct n 1 x /\ moments n 1 x m c /\
  quad n (fun i j => value k 1 0 (distance2 1 (x i) (x j))) c < 0.
Proof.
  intros k m O. assert (Z : forall y, y = 0 -> sqrt y = 0) by (intros y ->; apply sqrt_0).
  assert (S4 : sqrt 4 = 2) by (replace 4 with (2 * 2) by ring; apply sqrt_square; lra).
  assert (S1 : sqrt 1 = 1) by apply sqrt_1.
  pose proof ln2_pos as L2.
  assert (EV : forall q, even_value q 1 0 0 = 0). { intros. unfold even_value, is_zero. rewrite Z by ring. destruct (Req_EM_T 0 0); lra. }
  assert (OV : forall q, (1 <= q)%nat -> odd_value q 1 0 0 = 0). { intros q Q. unfold odd_value. rewrite Z by ring. rewrite pow_i by lia. ring. }
  assert (E4 : forall q, even_value q 1 0 4 = even_sign q * 2 ^ q * ln 2).
  { intros. unfold even_value, is_zero. replace (4 + 0 * 0) with 4 by ring. rewrite S4. destruct (Req_EM_T 2 0); [lra|]. ring. }
  assert (E1 : forall q, even_value q 1 0 1 = 0).
  { intros. unfold even_value, is_zero. replace (1 + 0 * 0) with 1 by ring. rewrite S1, ln_1. destruct (Req_EM_T 1 0); ring. }
  assert (O1 : forall q, odd_value q 1 0 1 = odd_sign q).
  { intros. unfold odd_value. replace (1 + 0 * 0) with 1 by ring. rewrite S1, pow1. ring. }
  assert (D : forall i j h, distance2 1 (line h i) (line h j) = (INR i - INR j) * (INR i - INR j) * (h * h)).
  { intros. unfold distance2, line. cbn. ring. }
  destruct k; cbn in O; try discriminate; injection O as <-; cbn [value].
  - exists 2%nat, (line 2), (fun i => if Nat.eqb i 0 then 1 else -1). split; [apply line_distinct; [lia|lra]|]. split.
    + split; [|split]; intros; try lia. cbn. ring.
    + unfold quad. cbn [rsum Nat.eqb]. rewrite !D. cbn [INR].
      replace ((0 - 0) * (0 - 0) * (2 * 2)) with 0 by ring. replace ((1 - 1) * (1 - 1) * (2 * 2)) with 0 by ring.
      replace ((0 - 1) * (0 - 1) * (2 * 2)) with 4 by ring. replace ((1 - 0) * (1 - 0) * (2 * 2)) with 4 by ring.
      rewrite EV, E4. unfold even_sign. cbn. lra.
  - exists 3%nat, (line 1), (fun i => if Nat.eqb i 1 then -2 else 1). split; [apply line_distinct; [lia|lra]|]. split.
    + split; [|split]; intros; try lia. { cbn. ring. } cbn. unfold line. cbn. ring.
    + unfold quad. cbn [rsum Nat.eqb]. rewrite !D. cbn [INR].
      replace ((0 - 0) * (0 - 0) * (1 * 1)) with 0 by ring. replace ((1 - 1) * (1 - 1) * (1 * 1)) with 0 by ring.
      replace ((0 - 1) * (0 - 1) * (1 * 1)) with 1 by ring. replace ((1 - 0) * (1 - 0) * (1 * 1)) with 1 by ring.
      replace ((1 + 1 - (1 + 1)) * (1 + 1 - (1 + 1)) * (1 * 1)) with 0 by ring.
      replace ((1 + 1 - 0) * (1 + 1 - 0) * (1 * 1)) with 4 by ring. replace ((0 - (1 + 1)) * (0 - (1 + 1)) * (1 * 1)) with 4 by ring.
      replace ((1 + 1 - 1) * (1 + 1 - 1) * (1 * 1)) with 1 by ring. replace ((1 - (1 + 1)) * (1 - (1 + 1)) * (1 * 1)) with 1 by ring.
      rewrite EV, E4, E1. unfold even_sign. cbn. lra.
  - exists 2%nat, (line 1), (fun _ => 1). split; [apply line_distinct; [lia|lra]|]. split.
    + split; [|split]; intros; lia.
    + unfold quad. cbn [rsum]. rewrite !D. cbn [INR].
      replace ((0 - 0) * (0 - 0) * (1 * 1)) with 0 by ring. replace ((1 - 1) * (1 - 1) * (1 * 1)) with 0 by ring.
      replace ((0 - 1) * (0 - 1) * (1 * 1)) with 1 by ring. replace ((1 - 0) * (1 - 0) * (1 * 1)) with 1 by ring.
      rewrite OV, O1 by lia. unfold odd_sign. cbn. lra.
  - exists 2%nat, (line 1), (fun i => if Nat.eqb i 0 then 1 else -1). split; [apply line_distinct; [lia|lra]|]. split.
    + split; [|split]; intros; try lia. cbn. ring.
    + unfold quad. cbn [rsum Nat.eqb]. rewrite !D. cbn [INR].
      replace ((0 - 0) * (0 - 0) * (1 * 1)) with 0 by ring. replace ((1 - 1) * (1 - 1) * (1 * 1)) with 0 by ring.
      replace ((0 - 1) * (0 - 1) * (1 * 1)) with 1 by ring. replace ((1 - 0) * (1 - 0) * (1 * 1)) with 1 by ring.
      rewrite OV, O1 by lia. unfold odd_sign. cbn. lra.
Qed.

(** * The terms as the operator takes them *)
Lemma term_even : forall d t, even_rbf (nat -> R) difference d (term_rbf d t).
Proof.
  intros d t x y. cbn.
  set (u := mat_vec d (ta t) (difference x y)). set (v := mat_vec d (ta t) (difference y x)).
  assert (UV : forall e, v e = - u e).
  { intros e. unfold u, v, mat_vec. rewrite <- rsum_opp. apply rsum_ext. intros. unfold difference. ring. }
  assert (DD : dot d u u = dot d v v). { apply rsum_ext. intros e _. rewrite UV. ring. }
  unfold evaluate, evaluate_gradient, evaluate_hessian, value_at, gradient_at, hessian_at. fold u v. rewrite DD. split; [reflexivity|]. split.
  - intros e _. destruct (gradient (tk t) (t0 t) (t1 t) (dot d v v)); cbn; try ring. unfold row_mat. rewrite <- rsum_opp. apply rsum_ext. intros i _. rewrite UV. ring.
  - intros c e _ _. destruct (hessian (tk t) (t0 t) (t1 t) (dot d v v)); cbn; auto. split.
    + unfold sandwich. apply rsum_ext. intros j _. f_equal. apply rsum_ext. intros i _. rewrite !UV. ring.
    + unfold sandwich.
      rewrite (rsum_ext d _ (fun j => rsum d (fun i => ta t i c * (fst a * (if Nat.eqb i j then 1 else 0) + snd a * (u i * u j)) * ta t j e))) by (intros; rewrite rsum_scal_r; reflexivity).
      rewrite (rsum_ext d (fun j => rsum d (fun i => ta t i e * _) * _) (fun j => rsum d (fun i => ta t i e * (fst a * (if Nat.eqb i j then 1 else 0) + snd a * (u i * u j)) * ta t j c))) by (intros; rewrite rsum_scal_r; reflexivity).
      rewrite rsum_swap. apply rsum_ext. intros i _. apply rsum_ext. intros j _. rewrite (Nat.eqb_sym i j). ring.
Qed.
Lemma mat_a_definite : forall n d x terms m nugget, Forall (good_term d m) terms -> has_weight n d x terms nugget ->
  definite n (moments n d x m) (mat_a (nat -> R) difference (fun _ => 0) d (map (term_rbf d) terms) nugget (points n x)).
Proof.
  intros n d x terms m nugget G W. destruct (terms_definite n d x terms m nugget G W) as (low & L & B). exists low. split; auto. intros c C.
  specialize (B c C). eapply Rle_trans; [exact B|]. right. apply quad_ext. intros i j I J. symmetry.
  assert (U : forall i j, (i <= j)%nat -> (j < n)%nat -> upper (nat -> R) difference (fun _ => 0) d (map (term_rbf d) terms) nugget (points n x) i j =
    kernel (nat -> R) difference d (map (term_rbf d) terms) (points n x) (points n x) i j + nugget_at (nat -> R) nugget (points n x) i j).
  { clear i j I J. intros i j IJ J. unfold upper, kernel, nugget_at, points; cbn [mu pt]. destruct (Nat.ltb_spec j n); [|lia]. destruct (Nat.ltb_spec i n); [|lia].
    assert (FL : forall (l : list (rbf (nat -> R))) g a, fold_left (fun a f => a + g f) l a = lsum l g + a).
    { induction l as [|f l IH]; intros g a; cbn; [ring|]. rewrite IH. ring. }
    destruct (Nat.eqb_spec i j) as [-> |N]; rewrite FL; f_equal. rewrite !lsum_map. apply lsum_ext. intros t _. cbn [term_rbf ev].
    apply value_same. intros e _. unfold difference. ring. }
  unfold mat_a. destruct (Nat.leb_spec i j).
  - apply U; auto.
  - rewrite U by lia. unfold kernel, nugget_at, points; cbn [mu pt]. destruct (Nat.ltb_spec i n); [|lia]. destruct (Nat.ltb_spec j n); [|lia]. f_equal.
    + rewrite !lsum_map. apply lsum_ext. intros t _. apply (term_even d t).
    + rewrite (Nat.eqb_sym j i). reflexivity.
Qed.

(** * The operator *)
Lemma operator_solved : forall n d x terms nugget m l p ss, Forall (good_term d m) terms -> has_weight n d x terms nugget ->
  unisolvent n l p -> covers n d x l p m -> schedules_ok (nat -> R) (map (term_rbf d) terms) n ss ->
  let A := direct_operator (nat -> R) difference d (map (term_rbf d) terms) nugget l ss (points n x) p in
  forall b, (exists w, forall r, (r < n + l)%nat -> A w r = b r) /\
  forall w v, (forall r, (r < n + l)%nat -> A w r = b r) -> (forall r, (r < n + l)%nat -> A v r = b r) -> forall r, (r < n + l)%nat -> w r = v r.
Proof.
  intros n d x terms nugget m l p ss G W U C SC A b.
  assert (SZ : size (nat -> R) d (points n x) = n) by (unfold size; cbn; lia).
  assert (E : forall w r, (r < n + l)%nat -> A w r = mat_vec (n + l) (system (nat -> R) difference d (map (term_rbf d) terms) nugget (points n x) p) w r).
  { intros w r R0. unfold A. rewrite direct_entries; rewrite ?SZ; auto. }
  destruct (system_solved n d x terms nugget m l p G W U C b) as [(w & X) Y]. split.
  - exists w. intros r R0. rewrite E; auto.
  - intros w' v H1 H2. apply Y; intros r R0; rewrite <- E; auto.
Qed.
Lemma monomials_solved : forall n d degree x terms nugget ss, (1 <= d <= 3)%nat -> (degree <= 2)%nat ->
  Forall (good_term d (S degree)) terms -> has_weight n d x terms nugget ->
  let l := length (columns d degree) in let p := MonomialBasis.evaluate d degree n x (fun _ _ => 0) in
  unisolvent n l p -> schedules_ok (nat -> R) (map (term_rbf d) terms) n ss ->
  let A := direct_operator (nat -> R) difference d (map (term_rbf d) terms) nugget l ss (points n x) p in
  forall b, (exists w, forall r, (r < n + l)%nat -> A w r = b r) /\
  forall w v, (forall r, (r < n + l)%nat -> A w r = b r) -> (forall r, (r < n + l)%nat -> A v r = b r) -> forall r, (r < n + l)%nat -> w r = v r.
Proof.
  intros n d degree x terms nugget ss D G T W l p U SC. apply (operator_solved n d x terms nugget (S degree)); auto. apply columns_cover; auto.
Qed.
Lemma plain_solved : forall n d x terms nugget p ss, Forall (good_term d 0) terms -> has_weight n d x terms nugget ->
  schedules_ok (nat -> R) (map (term_rbf d) terms) n ss ->
  let A := direct_operator (nat -> R) difference d (map (term_rbf d) terms) nugget 0 ss (points n x) p in
  forall b, (exists w, forall r, (r < n)%nat -> A w r = b r) /\
  forall w v, (forall r, (r < n)%nat -> A w r = b r) -> (forall r, (r < n)%nat -> A v r = b r) -> forall r, (r < n)%nat -> w r = v r.
Proof.
  intros n d x terms nugget p ss G W SC. pose proof (operator_solved n d x terms nugget 0 0 p ss G W) as H. rewrite Nat.add_0_r in H. apply H; auto.
  - intros a _ k K. lia.
  - intros c _. split; [|split]; intros; lia.
Qed.
Lemma compact_solved : forall n d x k p0 p1 a p ss, compact_kind k = true -> (d <= 3)%nat -> 0 < p0 -> 0 < p1 -> distinct n d x ->
  (forall v, (forall e, (e < d)%nat -> mat_vec d a v e = 0) -> forall e, (e < d)%nat -> v e = 0) ->
  let terms := [term_rbf d (Term k p0 p1 a)] in schedules_ok (nat -> R) terms n ss ->
  let A := direct_operator (nat -> R) difference d terms 0 0 ss (points n x) p in
  forall b, (exists w, forall r, (r < n)%nat -> A w r = b r) /\
  forall w v, (forall r, (r < n)%nat -> A w r = b r) -> (forall r, (r < n)%nat -> A v r = b r) -> forall r, (r < n)%nat -> w r = v r.
Proof.
  intros n d x k p0 p1 a p ss K D P0 P1 X A0 terms SC. apply (plain_solved n d x [Term k p0 p1 a] 0 p ss); auto.
  - constructor; [|constructor]. exists 0%nat. cbn [tk t0 t1 ta]. split; [|split; [lia|split; [lra|split; auto]]].
    destruct k; try discriminate K; cbn [definite_in]; destruct (Nat.leb_spec d 3); auto; lia.
  - right. split; auto. split; auto. exists (Term k p0 p1 a). split; [left; reflexivity|exact P0].
Qed.
