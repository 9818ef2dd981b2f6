From Coq Require Import Reals List Arith Lia Lra.
From Verif Require Import Proofs.LinAlg Model.LinAlg Spec.PositiveDefinite.
Local Open Scope R_scope.

(** * Quadratic forms *)
Lemma quad_ext : forall n a b c, (forall i j, (i < n)%nat -> (j < n)%nat -> a i j = b i j) -> quad n a c = quad n b c.
Proof. intros n a b c H. apply rsum_ext; intros i I. apply rsum_ext; intros j J. rewrite (H i j I J). reflexivity. Qed.
Lemma quad_plus : forall n a b c, quad n (fun i j => a i j + b i j) c = quad n a c + quad n b c.
Proof.
  intros. unfold quad. rewrite <- rsum_plus. apply rsum_ext; intros i _. rewrite <- rsum_plus. apply rsum_ext; intros j _. ring.
Qed.
Lemma quad_scal : forall n t a c, quad n (fun i j => t * a i j) c = t * quad n a c.
Proof.
  intros. unfold quad. rewrite <- rsum_scal. apply rsum_ext; intros i _. rewrite <- rsum_scal. apply rsum_ext; intros j _. ring.
Qed.
Lemma quad_zero : forall n c, quad n (fun _ _ => 0) c = 0.
Proof. intros. unfold quad. apply rsum_0; intros. apply rsum_0; intros. ring. Qed.
Lemma quad_rsum : forall n m a c, quad n (fun i j => rsum m (fun k => a k i j)) c = rsum m (fun k => quad n (a k) c).
Proof. intros. induction m; cbn; [apply quad_zero|]. rewrite quad_plus, IHm. reflexivity. Qed.
Lemma quad_rank : forall n u v c, quad n (fun i j => u i * v j) c = rsum n (fun i => c i * u i) * rsum n (fun i => c i * v i).
Proof.
  intros. unfold quad. rewrite <- rsum_scal_r. apply rsum_ext; intros i _. rewrite <- rsum_scal. apply rsum_ext; intros j _. ring.
Qed.
Lemma quad_twist : forall n a u c, quad n (fun i j => a i j * (u i * u j)) c = quad n a (fun i => c i * u i).
Proof. intros. unfold quad. apply rsum_ext; intros i _. apply rsum_ext; intros j _. ring. Qed.
Lemma length2_pos : forall n c, 0 <= length2 n c.
Proof. intros. apply rsum_pos. intros. apply Rle_0_sqr. Qed.

Lemma cv_const : forall a, Un_cv (fun _ => a) a.
Proof. intros a e E. exists 0%nat. intros. unfold R_dist. rewrite Rminus_diag_eq; auto. rewrite Rabs_R0. exact E. Qed.
Lemma cv_scal : forall u a t, Un_cv u a -> Un_cv (fun n => t * u n) (t * a).
Proof. intros. apply (CV_mult (fun _ => t) u); auto. apply cv_const. Qed.
Lemma cv_rsum : forall m u a, (forall i, (i < m)%nat -> Un_cv (fun k => u k i) (a i)) -> Un_cv (fun k => rsum m (u k)) (rsum m a).
Proof.
  induction m; intros u a H; cbn; [apply cv_const|].
  apply (CV_plus (fun k => rsum m (u k)) (fun k => u k m)). { apply IHm; intros; apply H; lia. } apply H; lia.
Qed.
Lemma cv_quad : forall n u a c, (forall i j, (i < n)%nat -> (j < n)%nat -> Un_cv (fun k => u k i j) (a i j)) ->
  Un_cv (fun k => quad n (u k) c) (quad n a c).
Proof. intros n u a c H. apply cv_rsum; intros i I. apply cv_rsum; intros j J. apply cv_scal. auto. Qed.
Lemma cv_ext : forall u v a, (forall n, u n = v n) -> Un_cv u a -> Un_cv v a.
Proof. intros u v a E H e P. destruct (H e P) as [k K]. exists k. intros m M. rewrite <- E. auto. Qed.
Lemma cv_shift_ext : forall u v a k, (forall n, (k <= n)%nat -> u n = v n) -> Un_cv u a -> Un_cv v a.
Proof. intros u v a k0 E H e P. destruct (H e P) as [k K]. exists (Nat.max k k0). intros m M. rewrite <- E by lia. apply K. lia. Qed.
Lemma cv_low : forall u a b k, (forall n, (k <= n)%nat -> b <= u n) -> Un_cv u a -> b <= a.
Proof.
  intros u a b k0 L H. destruct (Rle_or_lt b a) as [|N]; auto. exfalso.
  destruct (H (b - a)) as [k K]; [lra|]. specialize (K (Nat.max k k0) ltac:(lia)). specialize (L (Nat.max k k0) ltac:(lia)).
  unfold R_dist in K. apply Rabs_def2 in K. lra.
Qed.

(** * Matrices that keep lower bounds under the entrywise product *)
Definition multiplier (n : nat) (b : nat -> nat -> R) : Prop := forall a v,
  (forall c, rsum n (fun i => v i * (c i * c i)) <= quad n a c) ->
  forall c, rsum n (fun i => v i * b i i * (c i * c i)) <= quad n (fun i j => a i j * b i j) c.

Lemma mult_ext : forall n a b, (forall i j, (i < n)%nat -> (j < n)%nat -> a i j = b i j) -> multiplier n a -> multiplier n b.
Proof.
  intros n a b E M d v H c. specialize (M d v H c).
  rewrite (rsum_ext n (fun i => v i * b i i * (c i * c i)) (fun i => v i * a i i * (c i * c i))) by (intros; rewrite E; auto).
  erewrite quad_ext; [exact M|]. intros; cbn. rewrite E; auto.
Qed.
Lemma mult_rank : forall n u, multiplier n (fun i j => u i * u j).
Proof.
  intros n u a v H c. rewrite quad_twist. eapply Rle_trans; [|apply H]. right. apply rsum_ext; intros. ring.
Qed.
Lemma mult_plus : forall n a b, multiplier n a -> multiplier n b -> multiplier n (fun i j => a i j + b i j).
Proof.
  intros n a b A B d v H c.
  rewrite (quad_ext n _ (fun i j => d i j * a i j + d i j * b i j)) by (intros; ring). rewrite quad_plus.
  rewrite (rsum_ext n _ (fun i => v i * a i i * (c i * c i) + v i * b i i * (c i * c i))) by (intros; ring). rewrite rsum_plus.
  apply Rplus_le_compat; auto.
Qed.
Lemma mult_scal : forall n t b, 0 <= t -> multiplier n b -> multiplier n (fun i j => t * b i j).
Proof.
  intros n t b T B d v H c.
  rewrite (quad_ext n _ (fun i j => t * (d i j * b i j))) by (intros; ring). rewrite quad_scal.
  rewrite (rsum_ext n _ (fun i => t * (v i * b i i * (c i * c i)))) by (intros; ring). rewrite rsum_scal.
  apply Rmult_le_compat_l; auto.
Qed.
Lemma mult_mult : forall n a b, multiplier n a -> multiplier n b -> multiplier n (fun i j => a i j * b i j).
Proof.
  intros n a b A B d v H c.
  rewrite (quad_ext n _ (fun i j => (d i j * a i j) * b i j)) by (intros; ring).
  rewrite (rsum_ext n _ (fun i => (v i * a i i) * b i i * (c i * c i))) by (intros; ring).
  apply B. apply A. exact H.
Qed.
Lemma mult_lim : forall n u b, (forall k, multiplier n (u k)) ->
  (forall i j, (i < n)%nat -> (j < n)%nat -> Un_cv (fun k => u k i j) (b i j)) -> multiplier n b.
Proof.
  intros n u b M C d v H c.
  pose proof (cv_quad n (fun k i j => d i j * u k i j) (fun i j => d i j * b i j) c (fun i j I J => cv_scal _ _ (d i j) (C i j I J))) as Q.
  assert (W : Un_cv (fun k => rsum n (fun i => v i * u k i i * (c i * c i))) (rsum n (fun i => v i * b i i * (c i * c i)))).
  { apply cv_rsum. intros i I. replace (v i * b i i * (c i * c i)) with (v i * (c i * c i) * b i i) by ring.
    apply (cv_ext (fun k => v i * (c i * c i) * u k i i)); [intros; ring|]. apply cv_scal. auto. }
  pose proof (CV_minus _ _ _ _ Q W) as D.
  assert (0 <= quad n (fun i j => d i j * b i j) c - rsum n (fun i => v i * b i i * (c i * c i))); [|lra].
  apply (cv_low _ _ _ 0%nat) with (2 := D). intros k _. specialize (M k d v H c). lra.
Qed.

Lemma mult_one : forall n, multiplier n (fun _ _ => 1).
Proof. intros. apply (mult_ext n (fun _ _ => 1 * 1)); [intros; ring|]. apply (mult_rank n (fun _ => 1)). Qed.
Lemma mult_const : forall n t, 0 <= t -> multiplier n (fun _ _ => t).
Proof. intros. apply (mult_ext n (fun _ _ => t * 1)); [intros; ring|]. apply mult_scal; auto. apply mult_one. Qed.
Lemma mult_rsum : forall n m b, (forall k, (k < m)%nat -> multiplier n (b k)) -> multiplier n (fun i j => rsum m (fun k => b k i j)).
Proof.
  intros n m b H. induction m; cbn. { apply mult_const. lra. }
  apply (mult_plus n (fun i j => rsum m (fun k => b k i j)) (b m)). { apply IHm. intros; apply H; lia. } apply H; lia.
Qed.
Lemma mult_pow : forall n b k, multiplier n b -> multiplier n (fun i j => b i j ^ k).
Proof. intros n b k H. induction k; cbn; [apply mult_one|]. apply mult_mult; auto. Qed.
Lemma fact_pos : forall k, 0 < / INR (fact k).
Proof. intros. apply Rinv_0_lt_compat. apply lt_0_INR. apply lt_O_fact. Qed.
Lemma mult_exp : forall n b, multiplier n b -> multiplier n (fun i j => exp (b i j)).
Proof.
  intros n b H. apply (mult_lim n (fun k i j => E1 (b i j) k)); [|intros; apply E1_cvg].
  assert (T : forall k, multiplier n (fun i j => / INR (fact k) * b i j ^ k)).
  { intros k. apply mult_scal; [apply Rlt_le, fact_pos|]. apply mult_pow; auto. }
  intros k. unfold E1. induction k; cbn [sum_f_R0]; [apply T|]. apply mult_plus; auto.
Qed.
Lemma mult_low : forall n a b low diag, multiplier n b -> (forall c, low * length2 n c <= quad n a c) -> 0 <= low ->
  (forall i, (i < n)%nat -> diag <= b i i) -> forall c, low * diag * length2 n c <= quad n (fun i j => a i j * b i j) c.
Proof.
  intros n a b low diag M A L D c. eapply Rle_trans; [|apply (M a (fun _ => low))].
  - unfold length2. rewrite <- rsum_scal. apply rsum_le. intros i I. apply Rmult_le_compat_r; [apply Rle_0_sqr|].
    apply Rmult_le_compat_l; auto.
  - intros c'. rewrite rsum_scal. apply A.
Qed.
Lemma mult_nonneg : forall n b c, multiplier n b -> 0 <= quad n b c.
Proof.
  intros n b c M. rewrite (quad_ext n b (fun i j => 1 * b i j)) by (intros; ring).
  eapply Rle_trans; [|apply (M (fun _ _ => 1) (fun _ => 0))].
  - right. symmetry. apply rsum_0. intros; ring.
  - intros c'. rewrite rsum_0 by (intros; ring).
    rewrite (quad_ext n _ (fun i j => (fun _ => 1) i * (fun _ => 1) j)) by (intros; ring). rewrite quad_rank. apply Rle_0_sqr.
Qed.

(** * Functions of the squared distance *)
Definition kern (d : nat) (x : nat -> nat -> R) (f : R -> R) (i j : nat) : R := f (distance2 d (x i) (x j)).
Definition cm (f : R -> R) : Prop := forall n d x, multiplier n (kern d x f).
Lemma distance2_nonneg : forall d p q, 0 <= distance2 d p q.
Proof. intros. apply rsum_pos. intros. apply Rle_0_sqr. Qed.
Lemma distance2_same : forall d p, distance2 d p p = 0.
Proof. intros. apply rsum_0. intros; ring. Qed.
Lemma distance2_dot : forall d p q, distance2 d p q = dot d p p + dot d q q - 2 * dot d p q.
Proof.
  intros. unfold distance2, dot. rewrite <- rsum_scal, <- rsum_plus, <- rsum_minus. apply rsum_ext; intros; ring.
Qed.
Lemma distance2_pos : forall n d x i j, distinct n d x -> (i < n)%nat -> (j < n)%nat -> i <> j -> 0 < distance2 d (x i) (x j).
Proof.
  intros n d x i j D I J N. destruct (D i j I J N) as (e & E & H).
  destruct (distance2_nonneg d (x i) (x j)) as [|Z]; auto. exfalso. apply H.
  assert (P : forall m, (m <= d)%nat -> forall e, (e < m)%nat -> rsum m (fun e => (x i e - x j e) * (x i e - x j e)) <= 0 -> x i e = x j e).
  { clear. induction m; intros L e E; [lia|]. cbn. intros S0.
    pose proof (rsum_pos m (fun e => (x i e - x j e) * (x i e - x j e)) ltac:(intros; apply Rle_0_sqr)) as A.
    pose proof (Rle_0_sqr (x i m - x j m)) as B. unfold Rsqr in B.
    destruct (Nat.eq_dec e m) as [-> |]; [|apply IHm; [lia|lia|lra]].
    assert ((x i m - x j m) * (x i m - x j m) = 0) by lra. apply Rmult_integral in H. lra. }
  apply (P d (le_n d) e E). unfold distance2 in Z. lra.
Qed.

Lemma cm_ext : forall f g, (forall s, 0 <= s -> f s = g s) -> cm f -> cm g.
Proof. intros f g E H n d x. apply (mult_ext n (kern d x f)); auto. intros. apply E. apply distance2_nonneg. Qed.
Lemma cm_plus : forall f g, cm f -> cm g -> cm (fun s => f s + g s).
Proof. intros f g F G n d x. apply (mult_plus n (kern d x f) (kern d x g)); auto. Qed.
Lemma cm_mult : forall f g, cm f -> cm g -> cm (fun s => f s * g s).
Proof. intros f g F G n d x. apply (mult_mult n (kern d x f) (kern d x g)); auto. Qed.
Lemma cm_scal : forall t f, 0 <= t -> cm f -> cm (fun s => t * f s).
Proof. intros t f T F n d x. apply (mult_scal n t (kern d x f)); auto. Qed.
Lemma cm_const : forall t, 0 <= t -> cm (fun _ => t).
Proof. intros t T n d x. apply (mult_const n t T). Qed.
Lemma cm_pow : forall f k, cm f -> cm (fun s => f s ^ k).
Proof. intros f k F n d x. apply (mult_pow n (kern d x f)); auto. Qed.
Lemma cm_exp : forall f, cm f -> cm (fun s => exp (f s)).
Proof. intros f F n d x. apply (mult_exp n (kern d x f)); auto. Qed.
Lemma cm_rsum : forall m f, (forall k, (k < m)%nat -> cm (f k)) -> cm (fun s => rsum m (fun k => f k s)).
Proof. intros m f F n d x. apply (mult_rsum n m (fun k => kern d x (f k))). intros. apply F; auto. Qed.
Lemma cm_lim : forall u f, (forall k, cm (u k)) -> (forall s, 0 <= s -> Un_cv (fun k => u k s) (f s)) -> cm f.
Proof. intros u f U C n d x. apply (mult_lim n (fun k => kern d x (u k))). { intros; apply U. } intros. apply C. apply distance2_nonneg. Qed.

Lemma mult_dot : forall n d x, multiplier n (fun i j => dot d (x i) (x j)).
Proof. intros. apply (mult_rsum n d (fun e i j => x i e * x j e)). intros. apply (mult_rank n (fun i => x i k)). Qed.
Lemma cm_gauss : forall t, 0 <= t -> cm (fun s => exp (- t * s)).
Proof.
  intros t T n d x.
  apply (mult_ext n (fun i j => exp ((2 * t) * dot d (x i) (x j)) * (exp (- t * dot d (x i) (x i)) * exp (- t * dot d (x j) (x j))))).
  { intros. unfold kern. rewrite <- !exp_plus. f_equal. rewrite distance2_dot. ring. }
  apply mult_mult; [|apply (mult_rank n (fun i => exp (- t * dot d (x i) (x i))))].
  apply mult_exp. apply mult_scal; [lra|]. apply mult_dot.
Qed.

(** * The Gaussian of distinct points *)
Lemma mult_dot_above : forall n d x a,
  multiplier n (fun i j => dot d a a * dot d (x i) (x j) - dot d a (x i) * dot d a (x j)).
Proof.
  intros n d x a.
  apply (mult_ext n (fun i j => / 2 * rsum d (fun e => rsum d (fun f => (x i e * a f - x i f * a e) * (x j e * a f - x j f * a e))))).
  { intros i j _ _.
    rewrite (rsum_ext d _ (fun e => (x i e * x j e) * dot d a a + (a e * a e) * dot d (x i) (x j)
      - (a e * x i e) * dot d a (x j) - (a e * x j e) * dot d a (x i))).
    2:{ intros e _. unfold dot. rewrite <- !rsum_scal, <- rsum_plus, <- !rsum_minus. apply rsum_ext; intros; ring. }
    rewrite !rsum_minus, rsum_plus, !rsum_scal_r. unfold dot. field. }
  apply mult_scal; [lra|].
  apply (mult_rsum n d (fun e i j => rsum d (fun f => (x i e * a f - x i f * a e) * (x j e * a f - x j f * a e)))). intros e _.
  apply (mult_rsum n d (fun f i j => (x i e * a f - x i f * a e) * (x j e * a f - x j f * a e))). intros f _.
  apply (mult_rank n (fun i => x i e * a f - x i f * a e)).
Qed.
Fixpoint rprod (m : nat) (f : nat -> R) : R := match m with O => 1 | S k => rprod k f * f k end.
Lemma rprod_pos : forall m f, (forall k, (k < m)%nat -> 0 < f k) -> 0 < rprod m f.
Proof. induction m; intros f H; cbn; [lra|]. apply Rmult_lt_0_compat; auto. Qed.
Lemma rprod_zero : forall m f k, (k < m)%nat -> f k = 0 -> rprod m f = 0.
Proof. induction m; intros f k L H; cbn; [lia|]. destruct (Nat.eq_dec k m) as [-> |]; [rewrite H; ring|]. rewrite (IHm f k); auto; [ring|lia]. Qed.
Lemma rprod_nonneg : forall m f, (forall k, (k < m)%nat -> 0 <= f k) -> 0 <= rprod m f.
Proof. induction m; intros f H; cbn; [lra|]. apply Rmult_le_pos; auto. Qed.
Lemma mult_powers_above : forall n d x m a,
  multiplier n (fun i j => rprod m (fun l => dot d (a l) (a l)) * dot d (x i) (x j) ^ m
                           - rprod m (fun l => dot d (a l) (x i)) * rprod m (fun l => dot d (a l) (x j))).
Proof.
  intros n d x m a. induction m; cbn [rprod pow].
  { apply (mult_ext n (fun _ _ => 0)); [intros; ring|]. apply mult_const. lra. }
  apply (mult_ext n (fun i j =>
     (dot d (a m) (a m) * dot d (x i) (x j) - dot d (a m) (x i) * dot d (a m) (x j)) * (rprod m (fun l => dot d (a l) (a l)) * dot d (x i) (x j) ^ m)
     + (dot d (a m) (x i) * dot d (a m) (x j)) *
       (rprod m (fun l => dot d (a l) (a l)) * dot d (x i) (x j) ^ m - rprod m (fun l => dot d (a l) (x i)) * rprod m (fun l => dot d (a l) (x j))))).
  { intros; ring. }
  apply mult_plus; apply mult_mult; auto.
  - apply mult_dot_above.
  - apply mult_scal; [|apply mult_pow, mult_dot]. apply rprod_nonneg. intros. apply rsum_pos. intros. apply Rle_0_sqr.
  - apply (mult_rank n (fun i => dot d (a m) (x i))).
Qed.
Lemma mult_exp_above : forall n b k, multiplier n b -> multiplier n (fun i j => exp (b i j) - / INR (fact k) * b i j ^ k).
Proof.
  intros n b k H.
  apply (mult_lim n (fun m i j => sum_f_R0 (fun l => if Nat.eqb l k then 0 else / INR (fact l) * b i j ^ l) m)).
  - assert (T : forall l, multiplier n (fun i j => if Nat.eqb l k then 0 else / INR (fact l) * b i j ^ l)).
    { intros l. destruct (Nat.eqb l k); [apply mult_const; lra|]. apply mult_scal; [apply Rlt_le, fact_pos|]. apply mult_pow; auto. }
    intros m. induction m; cbn [sum_f_R0]; [apply (T 0%nat)|]. apply mult_plus; auto.
  - intros i j _ _. apply (cv_shift_ext (fun m => E1 (b i j) m - / INR (fact k) * b i j ^ k) _ _ k).
    + assert (A : forall m, sum_f_R0 (fun l => if Nat.eqb l k then 0 else / INR (fact l) * b i j ^ l) m =
        E1 (b i j) m - if (k <=? m)%nat then / INR (fact k) * b i j ^ k else 0).
      { induction m; unfold E1 in *; cbn [sum_f_R0].
        - destruct (Nat.eqb_spec 0 k) as [<- |N]; [cbn; ring|]. destruct (Nat.leb_spec k 0); [lia|]. ring.
        - rewrite IHm. destruct (Nat.eqb_spec (S m) k) as [<- |N].
          + destruct (Nat.leb_spec (S m) m); [lia|]. destruct (Nat.leb_spec (S m) (S m)); [|lia]. ring.
          + destruct (Nat.leb_spec k m), (Nat.leb_spec k (S m)); try lia; ring. }
      intros m M. rewrite A. destruct (Nat.leb_spec k m); [reflexivity|lia].
    + apply (CV_minus (E1 (b i j)) (fun _ => / INR (fact k) * b i j ^ k)); [apply E1_cvg|apply cv_const].
Qed.

(** Lower bounds for each weight give one for all of them, here uniformly for parameters in a set. *)
Lemma gather : forall (T : Type) (ok : T -> Prop) n (q : T -> (nat -> R) -> R), (forall t c, ok t -> 0 <= q t c) ->
  (forall i, (i < n)%nat -> exists k, 0 < k /\ forall t c, ok t -> k * (c i * c i) <= q t c) ->
  exists low, 0 < low /\ forall t c, ok t -> low * length2 n c <= q t c.
Proof.
  intros T ok n q P H. induction n.
  { exists 1. split; [lra|]. intros t c O. unfold length2; cbn. rewrite Rmult_0_r. auto. }
  destruct IHn as (low & L & B). { intros; apply H; lia. } destruct (H n ltac:(lia)) as (k & K & C).
  exists (Rmin low k / 2). split. { assert (0 < Rmin low k) by (apply Rmin_pos; auto). lra. }
  intros t c O. specialize (B t c O). specialize (C t c O). unfold length2 in *; cbn.
  pose proof (rsum_pos n (fun i => c i * c i) ltac:(intros; apply Rle_0_sqr)) as P1.
  pose proof (Rle_0_sqr (c n)) as P2. unfold Rsqr in P2.
  pose proof (Rmult_le_compat_r _ _ _ P1 (Rmin_l low k)). pose proof (Rmult_le_compat_r _ _ _ P2 (Rmin_r low k)). lra.
Qed.

Definition lift (d : nat) (p : nat -> R) (h : R) (e : nat) : R := if (e <? d)%nat then p e else h.
Lemma dot_lift : forall d p q h k, dot (S d) (lift d p h) (lift d q k) = dot d p q + h * k.
Proof.
  intros. unfold dot; cbn. unfold lift at 3 4. rewrite Nat.ltb_irrefl. f_equal. apply rsum_ext. intros e E. unfold lift.
  destruct (Nat.ltb_spec e d); [reflexivity|lia].
Qed.
Lemma power_bound : forall n d x i0, distinct n d x -> (i0 < n)%nat -> exists k, 0 < k /\
  forall c, k * (c i0 * c i0) <= quad n (fun i j => (dot d (x i) (x j) + 1) ^ n) c.
Proof.
  intros n d x i0 D I0.
  set (a := fun l => if Nat.eqb l i0 then lift d (fun _ => 0) 1
    else lift d (fun e => x i0 e - x l e) (- dot d (fun e => x i0 e - x l e) (x l))).
  set (z := fun i => lift d (x i) 1).
  assert (Z : forall i j, dot (S d) (z i) (z j) = dot d (x i) (x j) + 1) by (intros; unfold z; rewrite dot_lift; ring).
  assert (A0 : forall i, dot (S d) (a i0) (z i) = 1).
  { intros i. unfold a. rewrite Nat.eqb_refl. unfold z. rewrite dot_lift. unfold dot. rewrite rsum_0 by (intros; ring). ring. }
  assert (A : forall l i, l <> i0 -> dot (S d) (a l) (z i) = rsum d (fun e => (x i0 e - x l e) * (x i e - x l e))).
  { intros l i N. unfold a. destruct (Nat.eqb_spec l i0); [contradiction|]. unfold z. rewrite dot_lift. unfold dot.
    rewrite Rmult_1_r. change (?u + - ?v) with (u - v). rewrite <- rsum_minus. apply rsum_ext; intros; ring. }
  set (h := rprod n (fun l => dot (S d) (a l) (z i0))).
  set (k := rprod n (fun l => dot (S d) (a l) (a l))).
  assert (H : 0 < h).
  { apply rprod_pos. intros l L. destruct (Nat.eq_dec l i0) as [-> |N]; [rewrite A0; lra|]. rewrite A by auto.
    apply (distance2_pos n d x i0 l); auto. }
  assert (K : 0 <= k) by (apply rprod_nonneg; intros; apply rsum_pos; intros; apply Rle_0_sqr).
  exists (h * h / (k + 1)). split. { apply Rdiv_lt_0_compat; [apply Rmult_lt_0_compat; auto|lra]. }
  intros c. set (Q := quad n (fun i j => (dot d (x i) (x j) + 1) ^ n) c).
  assert (Q0 : 0 <= Q).
  { unfold Q. apply mult_nonneg. apply (mult_pow n (fun i j => dot d (x i) (x j) + 1)). apply mult_plus; [apply mult_dot|apply mult_one]. }
  pose proof (mult_nonneg n _ c (mult_powers_above n (S d) z n a)) as M. fold k in M.
  rewrite (quad_ext n _ (fun i j => k * (dot d (x i) (x j) + 1) ^ n + (-1) * (rprod n (fun l => dot (S d) (a l) (z i)) * rprod n (fun l => dot (S d) (a l) (z j))))) in M.
  2:{ intros i j _ _. rewrite Z. ring. }
  rewrite quad_plus, !quad_scal, quad_rank in M. fold Q in M.
  rewrite (rsum_single n i0 (fun i => c i * rprod n (fun l => dot (S d) (a l) (z i)))) in M; auto.
  2:{ intros i I N. rewrite (rprod_zero n _ i); auto; [ring|]. rewrite A by auto. apply rsum_0. intros; ring. }
  fold h in M. unfold Rdiv. apply Rmult_le_reg_l with (k + 1); [lra|].
  replace ((k + 1) * (h * h * / (k + 1) * (c i0 * c i0))) with ((c i0 * h) * (c i0 * h)) by (field; lra). lra.
Qed.
Lemma exp_le : forall a b, a <= b -> exp a <= exp b.
Proof. intros a b [L| ->]; [left; apply exp_increasing; auto|lra]. Qed.
(** Bounds uniform in the exponent. *)
Lemma gauss_low : forall n d x, distinct n d x -> exists low, 0 < low /\
  forall t c, 1 <= t <= 2 -> low * length2 n c <= quad n (kern d x (fun s => exp (- t * s))) c.
Proof.
  intros n d x D.
  apply (gather R (fun t => 1 <= t <= 2) n (fun t c => quad n (kern d x (fun s => exp (- t * s))) c)).
  { intros t c T. apply mult_nonneg. apply (cm_gauss t); lra. }
  intros i I. destruct (power_bound n d x i D I) as (k & K & B).
  exists (exp (-4) * / INR (fact n) * k * (exp (- 2 * dot d (x i) (x i)) * exp (- 2 * dot d (x i) (x i)))).
  pose proof (fact_pos n) as F. pose proof (exp_pos (-4)) as E4. pose proof (exp_pos (-2 * dot d (x i) (x i))) as EX.
  split. { repeat apply Rmult_lt_0_compat; auto. }
  intros t c T. set (u := fun i => exp (- t * dot d (x i) (x i))).
  rewrite (quad_ext n _ (fun i j => (exp (- 2 * t) * exp (2 * t * (dot d (x i) (x j) + 1))) * (u i * u j))).
  2:{ intros i' j' _ _. unfold kern, u. rewrite <- !exp_plus. f_equal. rewrite distance2_dot. ring. }
  rewrite quad_twist, quad_scal. set (c' := fun i => c i * u i).
  pose proof (mult_nonneg n _ c' (mult_exp_above n (fun i j => 2 * t * (dot d (x i) (x j) + 1)) n
    ltac:(apply mult_scal; [lra|]; apply mult_plus; [apply mult_dot|apply mult_one]))) as M.
  rewrite (quad_ext n _ (fun i j => exp (2 * t * (dot d (x i) (x j) + 1)) + (- (/ INR (fact n) * (2 * t) ^ n)) * (dot d (x i) (x j) + 1) ^ n)) in M.
  2:{ intros. rewrite (Rpow_mult_distr (2 * t)). ring. }
  rewrite quad_plus, quad_scal in M. specialize (B c').
  set (P := quad n (fun i j => (dot d (x i) (x j) + 1) ^ n) c') in *. set (X := quad n (fun i j => exp (2 * t * (dot d (x i) (x j) + 1))) c') in *.
  assert (T2 : 1 <= (2 * t) ^ n) by (apply pow_R1_Rle; lra).
  assert (KP : 0 <= k * (c' i * c' i)) by (apply Rmult_le_pos; [lra|apply Rle_0_sqr]).
  assert (S1 : / INR (fact n) * (k * (c' i * c' i)) <= X).
  { apply Rle_trans with (/ INR (fact n) * (2 * t) ^ n * P); [|lra]. rewrite Rmult_assoc. apply Rmult_le_compat_l; [lra|].
    apply Rle_trans with P; auto. rewrite <- (Rmult_1_l P) at 1. apply Rmult_le_compat_r; lra. }
  assert (U : exp (-2 * dot d (x i) (x i)) <= u i).
  { apply exp_le. assert (0 <= dot d (x i) (x i)) by (apply rsum_pos; intros; apply Rle_0_sqr). nra. }
  assert (U2 : exp (-2 * dot d (x i) (x i)) * exp (-2 * dot d (x i) (x i)) <= u i * u i) by (apply Rmult_le_compat; lra).
  assert (E2 : exp (-4) <= exp (-2 * t)) by (apply exp_le; lra).
  apply Rle_trans with (exp (-4) * (/ INR (fact n) * (k * (c' i * c' i)))).
  - unfold c'. replace (exp (-4) * (/ INR (fact n) * (k * (c i * u i * (c i * u i))))) with (exp (-4) * / INR (fact n) * k * (u i * u i) * (c i * c i)) by ring.
    apply Rmult_le_compat_r; [apply Rle_0_sqr|]. apply Rmult_le_compat_l; auto. repeat apply Rmult_le_pos; lra.
  - apply Rmult_le_compat; try lra. apply Rmult_le_pos; lra.
Qed.

(** * Sums that approach an integral from 0 to infinity *)
Definition riem (m : nat) (g : R -> R) : R := / INR m * rsum (m * m) (fun k => g (INR (S k) / INR m)).
Lemma riem_ext : forall m g h, (0 < m)%nat -> (forall t, 0 < t -> g t = h t) -> riem m g = riem m h.
Proof.
  intros m g h M H. unfold riem. f_equal. apply rsum_ext. intros k _. apply H.
  apply Rdiv_lt_0_compat; apply lt_0_INR; lia.
Qed.
Lemma riem_zero : forall m g, (0 < m)%nat -> (forall t, 0 < t -> g t = 0) -> riem m g = 0.
Proof. intros m g M H. rewrite (riem_ext m g (fun _ => 0)); auto. unfold riem. rewrite rsum_0 by auto. ring. Qed.
Lemma cv_inv : forall k, Un_cv (fun n => k * / INR n) 0.
Proof.
  intros k e E. destruct (archimed (Rabs k / e)) as [A _]. exists (Z.to_nat (up (Rabs k / e)) + 1)%nat. intros n N.
  assert (P : Rabs k / e < INR n).
  { apply Rlt_le_trans with (1 := A). destruct (Z_le_gt_dec 0 (up (Rabs k / e))) as [G|G].
    - rewrite <- (Z2Nat.id _ G), <- INR_IZR_INZ. apply le_INR. lia.
    - apply Rle_trans with 0; [apply IZR_le; lia|apply pos_INR]. }
  unfold R_dist. rewrite Rminus_0_r, Rabs_mult.
  assert (Q : 0 < INR n) by (apply lt_0_INR; lia). rewrite (Rabs_right (/ INR n)) by (left; apply Rinv_0_lt_compat; auto).
  apply Rmult_lt_reg_r with (INR n); auto. rewrite Rmult_assoc, Rinv_l, Rmult_1_r by lra.
  apply Rmult_lt_reg_r with (/ e); [apply Rinv_0_lt_compat; auto|]. rewrite (Rmult_comm e), Rmult_assoc, Rinv_r, Rmult_1_r by lra. exact P.
Qed.
Lemma cv_squeeze : forall u v a k, (forall n, (0 < n)%nat -> Rabs (u n - v n) <= k * / INR n) -> Un_cv v a -> Un_cv u a.
Proof.
  intros u v a k B V.
  assert (D : Un_cv (fun n => u n - v n) 0).
  { intros e E. destruct (cv_inv k e E) as [m M]. exists (S m). intros n N. specialize (M n ltac:(lia)). specialize (B n ltac:(lia)).
    unfold R_dist in *. rewrite Rminus_0_r in *. pose proof (Rle_abs (k * / INR n)). lra. }
  pose proof (CV_plus _ _ _ _ D V) as P. rewrite Rplus_0_l in P. eapply cv_ext; [|exact P]. intros; cbn. ring.
Qed.
Lemma riem_dec : forall g p l b, (forall t, 0 <= t -> derivable_pt_lim p t (g t)) -> (forall a t, 0 <= a <= t -> g t <= g a) ->
  (forall t, 0 <= t -> b <= g t) -> Un_cv (fun m => p (INR m) - p 0) l -> Un_cv (fun m => riem m g) l.
Proof.
  intros g p l b D M B C. apply (cv_squeeze _ _ _ (g 0 - b)) with (2 := C). intros m N.
  assert (P : 0 < INR m) by (apply lt_0_INR; lia). assert (P' : 0 < / INR m) by (apply Rinv_0_lt_compat; auto).
  assert (T : forall k, 0 <= INR k / INR m).
  { intros. apply Rmult_le_pos; [apply pos_INR|lra]. }
  assert (W : forall k, INR (S k) / INR m - INR k / INR m = / INR m). { intros. rewrite S_INR. field. lra. }
  assert (V : forall k, / INR m * g (INR (S k) / INR m) <= p (INR (S k) / INR m) - p (INR k / INR m) <= / INR m * g (INR k / INR m)).
  { intros k. pose proof (T k) as Tk. pose proof (W k) as Wk.
    destruct (MVT_cor2 p g (INR k / INR m) (INR (S k) / INR m)) as (c & E & L); [lra|intros; apply D; lra|].
    rewrite E, Wk, (Rmult_comm (g c)). split; apply Rmult_le_compat_l; try lra; apply M; lra. }
  assert (L : forall j, / INR m * rsum j (fun k => g (INR (S k) / INR m)) <= p (INR j / INR m) - p 0 /\
    p (INR j / INR m) - p 0 <= / INR m * rsum j (fun k => g (INR (S k) / INR m)) + / INR m * (g 0 - g (INR j / INR m))).
  { induction j.
    - cbn [rsum]. replace (INR 0 / INR m) with 0 by (cbn; field; lra). lra.
    - specialize (V j). cbn [rsum]. rewrite Rmult_plus_distr_l. rewrite !Rmult_minus_distr_l in *. lra. }
  specialize (L (m * m)%nat). replace (INR (m * m) / INR m) with (INR m) in L by (rewrite mult_INR; field; lra).
  fold (riem m g) in L. apply Rabs_le. specialize (B (INR m) ltac:(lra)).
  assert (/ INR m * (g 0 - g (INR m)) <= (g 0 - b) * / INR m) by (rewrite Rmult_comm; apply Rmult_le_compat_r; lra). lra.
Qed.
Lemma riem_opp : forall m g, riem m (fun t => - g t) = - riem m g.
Proof. intros. unfold riem. rewrite rsum_opp. ring. Qed.
Lemma riem_inc : forall g p l b, (forall t, 0 <= t -> derivable_pt_lim p t (g t)) -> (forall a t, 0 <= a <= t -> g a <= g t) ->
  (forall t, 0 <= t -> g t <= b) -> Un_cv (fun m => p (INR m) - p 0) l -> Un_cv (fun m => riem m g) l.
Proof.
  intros g p l b D M B C.
  assert (H : Un_cv (fun m => riem m (fun t => - g t)) (- l)).
  { apply (riem_dec _ (fun t => - p t) _ (- b)).
    - intros. apply derivable_pt_lim_opp. auto.
    - intros a t L. specialize (M a t L). lra.
    - intros t T. specialize (B t T). lra.
    - eapply cv_ext; [|exact (CV_opp _ _ C)]. intros; unfold opp_seq. ring. }
  rewrite <- (Ropp_involutive l). eapply cv_ext; [|exact (CV_opp _ _ H)]. intros; unfold opp_seq. rewrite riem_opp. ring.
Qed.

Lemma cv_S : forall u a, Un_cv u a -> Un_cv (fun k => u (S k)) a.
Proof. intros u a H e E. destruct (H e E) as [k K]. exists k. intros m M. apply K. lia. Qed.
Lemma cm_riem : forall g f, (forall t, 0 < t -> cm (g t)) -> (forall s, 0 <= s -> Un_cv (fun m => riem m (fun t => g t s)) (f s)) -> cm f.
Proof.
  intros g f G C. apply (cm_lim (fun k s => riem (S k) (fun t => g t s))).
  - intros k. unfold riem. apply cm_scal. { left. apply Rinv_0_lt_compat, lt_0_INR. lia. }
    apply (cm_rsum (S k * S k) (fun j s => g (INR (S j) / INR (S k)) s)). intros j _. apply G.
    apply Rdiv_lt_0_compat; apply lt_0_INR; lia.
  - intros s S0. apply (cv_S (fun m => riem m (fun t => g t s))). auto.
Qed.
Lemma riem_above : forall m h v, (2 <= m)%nat -> 0 <= v -> (forall t, 0 < t -> 0 <= h t) -> (forall t, 1 <= t <= 2 -> v <= h t) -> v <= riem m h.
Proof.
  intros m h v M V P H. unfold riem.
  assert (Q : 0 < INR m) by (apply lt_0_INR; lia).
  replace (m * m)%nat with ((m - 1) + ((m + 1) + (m * m - 2 * m)))%nat by nia.
  rewrite (rsum_app (m - 1)), (rsum_app (m + 1)).
  assert (T : forall k, 0 < INR (S k) / INR m). { intros. apply Rdiv_lt_0_compat; auto. apply lt_0_INR; lia. }
  assert (A : 0 <= rsum (m - 1) (fun k => h (INR (S k) / INR m))) by (apply rsum_pos; intros; apply P, T).
  assert (C : 0 <= rsum (m * m - 2 * m) (fun j => h (INR (S (m - 1 + (m + 1 + j))) / INR m))) by (apply rsum_pos; intros; apply P, T).
  assert (B : rsum (m + 1) (fun _ => v) <= rsum (m + 1) (fun j => h (INR (S (m - 1 + j)) / INR m))).
  { apply rsum_le. intros j J. apply H. replace (S (m - 1 + j)) with (m + j)%nat by lia. rewrite plus_INR.
    assert (INR j <= INR m) by (apply le_INR; lia). pose proof (pos_INR j).
    replace ((INR m + INR j) / INR m) with (1 + INR j / INR m) by (field; lra).
    assert (0 <= INR j / INR m) by (apply Rmult_le_pos; [lra|left; apply Rinv_0_lt_compat; lra]).
    assert (INR j / INR m <= 1). { apply Rmult_le_reg_r with (INR m); auto. unfold Rdiv. rewrite Rmult_assoc, Rinv_l by lra. lra. } lra. }
  assert (D : rsum (m + 1) (fun _ => v) = INR (m + 1) * v).
  { clear. generalize (m + 1)%nat. induction n; [cbn; ring|]. rewrite S_INR. cbn [rsum]. rewrite IHn. ring. }
  rewrite D, plus_INR in B. change (INR 1) with 1 in B.
  apply Rmult_le_reg_l with (INR m); auto. rewrite <- Rmult_assoc, Rinv_r, Rmult_1_l by lra. cbn [Nat.add] in *. lra.
Qed.
Lemma quad_riem : forall n d x g c m, quad n (kern d x (fun s => riem m (fun t => g t s))) c = riem m (fun t => quad n (kern d x (g t)) c).
Proof.
  intros. unfold riem. rewrite <- quad_rsum, <- quad_scal. reflexivity.
Qed.
Lemma cv_kern : forall n d x u f c, (forall s, 0 <= s -> Un_cv (fun k => u k s) (f s)) ->
  Un_cv (fun k => quad n (kern d x (u k)) c) (quad n (kern d x f) c).
Proof. intros. apply cv_quad. intros. apply H. apply distance2_nonneg. Qed.
Lemma riem_low : forall n d x g f c low, 0 <= low -> (forall t, 0 < t -> 0 <= quad n (kern d x (g t)) c) ->
  (forall t, 1 <= t <= 2 -> low <= quad n (kern d x (g t)) c) ->
  (forall s, 0 <= s -> Un_cv (fun m => riem m (fun t => g t s)) (f s)) -> low <= quad n (kern d x f) c.
Proof.
  intros n d x g f c low L P H C.
  apply (cv_low _ _ _ 2%nat) with (2 := cv_kern n d x (fun m s => riem m (fun t => g t s)) f c C).
  intros m M. rewrite quad_riem. apply riem_above; auto.
Qed.

(** * 1 / (a + s) *)
Lemma exp_above : forall y, 1 + y <= exp y.
Proof. intros y. destruct (Req_EM_T y 0) as [-> |N]; [rewrite exp_0; lra|]. left. apply exp_ineq1; auto. Qed.
Lemma riem_exp : forall a, 0 < a -> Un_cv (fun m => riem m (fun t => exp (- t * a))) (/ a).
Proof.
  intros a A. apply (riem_dec _ (fun t => - (exp (- t * a) / a)) _ 0).
  - intros t T. replace (exp (- t * a)) with (- (exp (- t * a) * (- a) / a)) by (field; lra).
    apply derivable_pt_lim_opp. unfold Rdiv.
    replace (exp (- t * a) * - a * / a) with ((exp (- t * a) * - a) * / a + exp (- t * a) * 0) by ring.
    apply (derivable_pt_lim_mult (fun t => exp (- t * a)) (fun _ => / a)); [|apply derivable_pt_lim_const].
    apply (derivable_pt_lim_comp (fun t => - t * a) exp); [|apply derivable_pt_lim_exp].
    replace (- a) with (- 1 * a + - t * 0) by ring.
    apply (derivable_pt_lim_mult (fun t => - t) (fun _ => a)); [|apply derivable_pt_lim_const].
    apply (derivable_pt_lim_opp (fun t => t)). apply derivable_pt_lim_id.
  - intros u t L. apply exp_le. nra.
  - intros. left. apply exp_pos.
  - apply (cv_squeeze _ (fun _ => / a) _ (/ a * / a)); [|apply cv_const]. intros m M.
    assert (P : 0 < INR m) by (apply lt_0_INR; auto).
    assert (E : exp (- INR m * a) <= / (INR m * a)).
    { replace (- INR m * a) with (- (INR m * a)) by ring. rewrite exp_Ropp. assert (0 < INR m * a) by (apply Rmult_lt_0_compat; auto).
      apply Rinv_le_contravar; auto. pose proof (exp_above (INR m * a)). lra. }
    assert (E0 : 0 < exp (- INR m * a)) by apply exp_pos. assert (A' : 0 < / a) by (apply Rinv_0_lt_compat; auto).
    replace (- (exp (- INR m * a) / a) - - (exp (-0 * a) / a) - / a) with (- (exp (- INR m * a) * / a)).
    2:{ replace (-0 * a) with 0 by ring. rewrite exp_0. field. lra. }
    rewrite Rabs_Ropp, Rabs_right by (apply Rle_ge, Rmult_le_pos; lra).
    replace (/ a * / a * / INR m) with (/ (INR m * a) * / a) by (field; split; lra). apply Rmult_le_compat_r; lra.
Qed.
Lemma inv_split : forall a t s, exp (- t * (a + s)) = exp (- t * a) * exp (- t * s).
Proof. intros. rewrite <- exp_plus. f_equal. ring. Qed.
Lemma cm_inv : forall a, 0 < a -> cm (fun s => / (a + s)).
Proof.
  intros a A. apply (cm_riem (fun t s => exp (- t * (a + s)))).
  - intros t T. apply (cm_ext (fun s => exp (- t * a) * exp (- t * s))). { intros. symmetry. apply inv_split. }
    apply cm_scal; [left; apply exp_pos|]. apply cm_gauss. lra.
  - intros s S0. apply riem_exp. lra.
Qed.
Lemma inv_low : forall n d x b, distinct n d x -> exists low, 0 < low /\
  forall a c, 0 < a <= b -> low * length2 n c <= quad n (kern d x (fun s => / (a + s))) c.
Proof.
  intros n d x b D. destruct (gauss_low n d x D) as (low & L & H). exists (exp (- 2 * b) * low). pose proof (exp_pos (- 2 * b)) as E.
  split. { apply Rmult_lt_0_compat; auto. }
  intros a c A. pose proof (length2_pos n c) as N.
  assert (G : forall t, quad n (kern d x (fun s => exp (- t * (a + s)))) c = exp (- t * a) * quad n (kern d x (fun s => exp (- t * s))) c).
  { intros t. rewrite <- quad_scal. apply quad_ext. intros. unfold kern. apply inv_split. }
  apply (riem_low n d x (fun t s => exp (- t * (a + s)))).
  - repeat apply Rmult_le_pos; lra.
  - intros t T. rewrite G. apply Rmult_le_pos; [left; apply exp_pos|]. apply mult_nonneg. apply (cm_gauss t). lra.
  - intros t T. rewrite G. rewrite Rmult_assoc. apply Rmult_le_compat; try lra.
    + apply Rmult_le_pos; lra.
    + apply exp_le. nra.
    + apply H; auto.
  - intros s S0. apply riem_exp. lra.
Qed.

(** * Square roots *)
Lemma atan_below : forall y, 0 <= y -> 0 <= atan y <= y.
Proof.
  intros y [P| <-]; [|rewrite atan_0; lra].
  destruct (MVT_cor2 atan (fun t => / (1 + t * t)) 0 y P) as (c & E & C).
  { intros t T. replace (t * t) with (t ^ 2) by ring. apply derivable_pt_lim_atan. }
  rewrite atan_0, !Rminus_0_r in E. assert (1 <= 1 + c * c) by nra. assert (0 < / (1 + c * c)) by (apply Rinv_0_lt_compat; lra).
  assert (/ (1 + c * c) <= 1). { rewrite <- Rinv_1. apply Rinv_le_contravar; lra. } rewrite E. split; nra.
Qed.
Lemma riem_invsqrt : forall a, 0 < a -> Un_cv (fun m => riem m (fun t => / (1 + a * (t * t)))) (PI / 2 * / sqrt a).
Proof.
  intros a A. pose proof (sqrt_lt_R0 a A) as Q. assert (QQ : sqrt a * sqrt a = a) by (apply sqrt_sqrt; lra).
  assert (P1 : forall t, 0 < 1 + a * (t * t)). { intros t. assert (0 <= t * t) by apply Rle_0_sqr. nra. }
  apply (riem_dec _ (fun t => atan (sqrt a * t) * / sqrt a) _ 0).
  - intros t T. replace (/ (1 + a * (t * t))) with (/ (1 + (sqrt a * t) ^ 2) * sqrt a * / sqrt a + atan (sqrt a * t) * 0).
    2:{ replace ((sqrt a * t) ^ 2) with (a * (t * t)) by (rewrite <- QQ at 1; ring). field. pose proof (P1 t). split; lra. }
    apply (derivable_pt_lim_mult (fun t => atan (sqrt a * t)) (fun _ => / sqrt a)); [|apply derivable_pt_lim_const].
    apply (derivable_pt_lim_comp (fun t => sqrt a * t) atan).
    + pose proof (derivable_pt_lim_mult (fun _ => sqrt a) (fun t => t) t _ _ (derivable_pt_lim_const (sqrt a) t) (derivable_pt_lim_id t)) as H.
      cbn beta in H. replace (0 * t + sqrt a * 1) with (sqrt a) in H by ring. exact H.
    + apply derivable_pt_lim_atan.
  - intros u t L. apply Rinv_le_contravar; auto. assert (u * u <= t * t) by nra. nra.
  - intros t _. left. apply Rinv_0_lt_compat; auto.
  - apply (cv_squeeze _ (fun _ => PI / 2 * / sqrt a) _ (/ a)); [|apply cv_const]. intros m M.
    assert (P : 0 < INR m) by (apply lt_0_INR; auto). assert (Y : 0 < sqrt a * INR m) by (apply Rmult_lt_0_compat; auto).
    pose proof (atan_inv (sqrt a * INR m) Y) as E. assert (Y' : 0 < / (sqrt a * INR m)) by (apply Rinv_0_lt_compat; auto).
    pose proof (atan_below (/ (sqrt a * INR m)) ltac:(lra)) as B. rewrite Rmult_0_r, atan_0.
    replace (atan (sqrt a * INR m) * / sqrt a - 0 * / sqrt a - PI / 2 * / sqrt a) with (- (atan (/ (sqrt a * INR m)) * / sqrt a)) by (rewrite E; ring).
    assert (0 < / sqrt a) by (apply Rinv_0_lt_compat; auto).
    rewrite Rabs_Ropp, Rabs_right by (apply Rle_ge, Rmult_le_pos; lra).
    replace (/ a * / INR m) with (/ (sqrt a * INR m) * / sqrt a) by (rewrite Rinv_mult; replace (/ a) with (/ sqrt a * / sqrt a) by (rewrite <- Rinv_mult, QQ; reflexivity); ring). apply Rmult_le_compat_r; lra.
Qed.
Lemma cm_invsqrt : forall a, 0 < a -> cm (fun s => / sqrt (a + s)).
Proof.
  intros a A. apply (cm_ext (fun s => 2 / PI * (PI / 2 * / sqrt (a + s)))).
  { intros s S0. field. split; [apply Rgt_not_eq, sqrt_lt_R0; lra|apply PI_neq0]. }
  apply cm_scal. { left. apply Rdiv_lt_0_compat; [lra|apply PI_RGT_0]. }
  apply (cm_riem (fun t s => / (1 + (a + s) * (t * t)))).
  - intros t T. assert (T2 : 0 < t * t) by (apply Rmult_lt_0_compat; auto). assert (T3 : 0 < / (t * t)) by (apply Rinv_0_lt_compat; auto).
    apply (cm_ext (fun s => / (t * t) * / ((/ (t * t) + a) + s))).
    { intros s S0. assert (0 < / (t * t) + a + s) by lra. assert (0 < 1 + (a + s) * (t * t)) by nra.
      rewrite <- Rinv_mult. f_equal. field. lra. }
    apply cm_scal; [lra|]. apply cm_inv. lra.
  - intros s S0. apply riem_invsqrt. lra.
Qed.
Lemma riem_sqrt : forall a, 0 <= a -> Un_cv (fun m => riem m (fun t => a / (a + t * t))) (PI / 2 * sqrt a).
Proof.
  intros a [A| <-].
  - replace (sqrt a) with (/ sqrt (/ a)).
    2:{ rewrite sqrt_inv, Rinv_inv. reflexivity. }
    apply (cv_shift_ext (fun m => riem m (fun t => / (1 + / a * (t * t)))) _ _ 1%nat); [|apply riem_invsqrt, Rinv_0_lt_compat; auto].
    intros m M. apply riem_ext; auto. intros t T. assert (0 < t * t) by (apply Rmult_lt_0_compat; auto).
    unfold Rdiv. replace (1 + / a * (t * t)) with ((a + t * t) * / a) by (field; lra). rewrite Rinv_mult, Rinv_inv. ring.
  - rewrite sqrt_0, Rmult_0_r. apply (cv_shift_ext (fun _ => 0) _ _ 1%nat); [|apply cv_const].
    intros m M. symmetry. apply riem_zero; auto. intros. unfold Rdiv. ring.
Qed.

(** * Logarithms *)
Lemma ln_slope : forall a b, 0 < a -> 0 < b -> ln b - ln a <= (b - a) / a.
Proof.
  intros a b A B. replace (ln b - ln a) with (ln (b / a)).
  2:{ unfold Rdiv. rewrite ln_mult, ln_Rinv; auto. apply Rinv_0_lt_compat; auto. }
  assert (P : 0 < b / a) by (apply Rdiv_lt_0_compat; auto). pose proof (exp_above (ln (b / a))) as E. rewrite exp_ln in E by auto.
  replace ((b - a) / a) with (b / a - 1) by (field; lra). lra.
Qed.
Lemma riem_ln : forall a, 0 < a -> Un_cv (fun m => riem m (fun u => / (1 + u) - / (a + u))) (ln a).
Proof.
  intros a A.
  assert (D : forall t, 0 <= t -> derivable_pt_lim (fun u => ln (1 + u) - ln (a + u)) t (/ (1 + t) - / (a + t))).
  { assert (G : forall b t, 0 < b -> 0 <= t -> derivable_pt_lim (fun u => ln (b + u)) t (/ (b + t))).
    { intros b t B T. replace (/ (b + t)) with (/ (b + t) * (0 + 1)) by ring.
      apply (derivable_pt_lim_comp (fun u => b + u) ln).
      - apply (derivable_pt_lim_plus (fun _ => b) (fun u => u)); [apply derivable_pt_lim_const|apply derivable_pt_lim_id].
      - apply derivable_pt_lim_ln. lra. }
    intros t T. apply derivable_pt_lim_minus; apply G; lra. }
  assert (C : Un_cv (fun m => ln (1 + INR m) - ln (a + INR m) - (ln (1 + 0) - ln (a + 0))) (ln a)).
  { apply (cv_squeeze _ (fun _ => ln a) _ (Rabs (1 - a))); [|apply cv_const]. intros m M.
    assert (P : 0 < INR m) by (apply lt_0_INR; auto). rewrite !Rplus_0_r, ln_1.
    replace (ln (1 + INR m) - ln (a + INR m) - (0 - ln a) - ln a) with (ln (1 + INR m) - ln (a + INR m)) by ring.
    pose proof (ln_slope (1 + INR m) (a + INR m) ltac:(lra) ltac:(lra)) as L1. pose proof (ln_slope (a + INR m) (1 + INR m) ltac:(lra) ltac:(lra)) as L2.
    assert (B : forall y b, 0 < b -> y / (b + INR m) <= Rabs y * / INR m).
    { intros y b B0. unfold Rdiv. apply Rle_trans with (Rabs y * / (b + INR m)).
      - apply Rmult_le_compat_r; [left; apply Rinv_0_lt_compat; lra|apply Rle_abs].
      - apply Rmult_le_compat_l; [apply Rabs_pos|]. apply Rinv_le_contravar; lra. }
    pose proof (B (1 - a) a A) as B1. pose proof (B (a - 1) 1 ltac:(lra)) as B2. rewrite (Rabs_minus_sym a 1) in B2.
    replace (a + INR m - (1 + INR m)) with (a - 1) in L1 by ring. replace (1 + INR m - (a + INR m)) with (1 - a) in L2 by ring.
    apply Rabs_le. lra. }
  assert (E : forall u, 0 <= u -> / (1 + u) - / (a + u) = (a - 1) * (/ (1 + u) * / (a + u))) by (intros; field; lra).
  assert (N : forall u t, 0 <= u <= t -> / (1 + t) * / (a + t) <= / (1 + u) * / (a + u)).
  { intros u t L. apply Rmult_le_compat; try (left; apply Rinv_0_lt_compat; lra); apply Rinv_le_contravar; lra. }
  assert (N0 : forall t, 0 <= t -> 0 <= / (1 + t) * / (a + t)).
  { intros t L. apply Rmult_le_pos; left; apply Rinv_0_lt_compat; lra. }
  destruct (Rle_or_lt 1 a) as [H|H].
  - apply (riem_dec _ (fun u => ln (1 + u) - ln (a + u)) _ 0); auto.
    + intros u t L. rewrite !E by lra. apply Rmult_le_compat_l; [lra|]. apply N; lra.
    + intros t L. rewrite E by lra. apply Rmult_le_pos; [lra|]. apply N0; lra.
  - apply (riem_inc _ (fun u => ln (1 + u) - ln (a + u)) _ 0); auto.
    + intros u t L. rewrite !E by lra. specialize (N u t L). nra.
    + intros t L. rewrite E by lra. specialize (N0 t L). nra.
Qed.
