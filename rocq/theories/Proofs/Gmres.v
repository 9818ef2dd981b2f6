From Coq Require Import Reals List Arith Bool Lia Lra.
From Verif Require Import Model.LinAlg Model.RasPreconditioner Model.Gmres Spec.Gmres Proofs.LinAlg Proofs.Orthonormalize.
Import ListNotations.
Local Open Scope R_scope.

Lemma upd_same : forall A (f : nat -> A) k x, upd f k x k = x.
Proof. intros. unfold upd. rewrite Nat.eqb_refl. auto. Qed.
Lemma upd_other : forall A (f : nat -> A) k x i, i <> k -> upd f k x i = f i.
Proof. intros A f k x i N. unfold upd. destruct (Nat.eqb_spec i k); [contradiction|auto]. Qed.
Lemma is0_spec : forall x, is0 x = true <-> x = 0.
Proof. intros x. unfold is0. destruct (Req_EM_T x 0); split; auto; discriminate. Qed.
Lemma is0_false : forall x, is0 x = false <-> x <> 0.
Proof. intros x. unfold is0. destruct (Req_EM_T x 0); split; auto; [discriminate|contradiction]. Qed.
Lemma norm_sq : forall n x, norm n x * norm n x = dot n x x.
Proof. intros n x. apply sqrt_sqrt, dot_self_pos. Qed.
Lemma norm_pos : forall n x, 0 <= norm n x.
Proof. intros. apply sqrt_pos. Qed.
Lemma norm_zero : forall n x, norm n x = 0 -> forall i, (i < n)%nat -> x i = 0.
Proof. intros n x E. apply dot_self_zero. rewrite <- norm_sq, E. lra. Qed.

(** ** Rotations *)
Section Rotations.
Notation rots c s k b := (rotations c s 0 k b).
Lemma rots_S : forall c s k b, rots c s (S k) b = rotate (c k) (s k) k (rots c s k b).
Proof. intros c s k b. unfold rotations. rewrite !Nat.sub_0_r, seq_S, fold_left_app. reflexivity. Qed.
Lemma rotate_lo : forall a b k x i, (i < k)%nat -> rotate a b k x i = x i.
Proof. intros a b k x i I. unfold rotate. rewrite !upd_other by lia. auto. Qed.
Lemma rotate_k : forall a b k x, rotate a b k x k = a * x k + b * x (S k).
Proof. intros a b k x. unfold rotate. rewrite upd_other by lia. apply upd_same. Qed.
Lemma rotate_Sk : forall a b k x, rotate a b k x (S k) = - b * x k + a * x (S k).
Proof. intros a b k x. unfold rotate. apply upd_same. Qed.
Lemma rotate_hi : forall a b k x i, (S k < i)%nat -> rotate a b k x i = x i.
Proof. intros a b k x i I. unfold rotate. rewrite !upd_other by lia. auto. Qed.
Lemma rotate_cases : forall k i, (i < k)%nat \/ i = k \/ i = S k \/ (S k < i)%nat.
Proof. lia. Qed.
Lemma rotate_ext : forall a b k n x x', (S k < n)%nat -> (forall i, (i < n)%nat -> x i = x' i) -> forall i, (i < n)%nat -> rotate a b k x i = rotate a b k x' i.
Proof.
  intros a b k n x x' K E i I. destruct (rotate_cases k i) as [H|[-> |[-> |H]]].
  - rewrite !rotate_lo by lia. auto.
  - rewrite !rotate_k, !E by lia. auto.
  - rewrite !rotate_Sk, !E by lia. auto.
  - rewrite !rotate_hi by lia. auto.
Qed.
Lemma rots_hi : forall c s k b i, (k < i)%nat -> rots c s k b i = b i.
Proof. induction k as [|k IH]; intros b i I; auto. rewrite rots_S, rotate_hi by lia. apply IH. lia. Qed.
Lemma rots_ext : forall c s c' s' k n b b', (k < n)%nat -> (forall i, (i < k)%nat -> c i = c' i /\ s i = s' i) ->
  (forall i, (i < n)%nat -> b i = b' i) -> forall i, (i < n)%nat -> rots c s k b i = rots c' s' k b' i.
Proof.
  induction k as [|k IH]; intros n b b' K C B i I; [apply B; auto|]. rewrite !rots_S. destruct (C k) as [-> ->]; [lia|].
  apply (rotate_ext _ _ _ n); auto. apply IH; auto. lia.
Qed.
Lemma rots_linear : forall c s k x y z a b, (forall i, z i = a * x i + b * y i) -> forall i, rots c s k z i = a * rots c s k x i + b * rots c s k y i.
Proof.
  induction k as [|k IH]; intros x y z a b Z i; [apply Z|]. rewrite !rots_S. pose proof (IH x y z a b Z) as E.
  destruct (rotate_cases k i) as [H|[-> |[-> |H]]].
  - rewrite !rotate_lo by lia. auto.
  - rewrite !rotate_k, !E by lia. lra.
  - rewrite !rotate_Sk, !E by lia. lra.
  - rewrite !rotate_hi by lia. auto.
Qed.
Lemma rots_sum : forall c s k n y (v : nat -> nat -> R) x i, rots c s k (fun i => x i - rsum n (fun j => v i j * y j)) i =
  rots c s k x i - rsum n (fun j => rots c s k (fun i => v i j) i * y j).
Proof.
  induction n as [|n IH]; intros y v x i.
  - cbn. rewrite (rots_linear c s k x x _ 1 0) by (intros; lra). lra.
  - cbn [rsum]. rewrite (rots_linear c s k (fun i => x i - rsum n (fun j => v i j * y j)) (fun i => v i n) _ 1 (- y n)) by (intros; cbn; lra).
    rewrite IH. lra.
Qed.
Lemma rots_norm : forall c s k b, (forall i, (i < k)%nat -> c i * c i + s i * s i = 1) ->
  rsum (S k) (fun i => rots c s k b i * rots c s k b i) = rsum (S k) (fun i => b i * b i).
Proof.
  induction k as [|k IH]; intros b C; auto. cbn [rsum]. cbn [rsum] in IH. rewrite <- (IH b) by (intros; apply C; lia).
  rewrite rots_S, rotate_k, rotate_Sk. rewrite (rots_hi c s k b (S k)) by lia.
  rewrite (rsum_ext k _ (fun i => rots c s k b i * rots c s k b i)) by (intros; rewrite rotate_lo by auto; auto).
  specialize (C k ltac:(lia)). set (u := rots c s k b k). set (w := b (S k)). set (t := rsum k _).
  replace (t + (c k * u + s k * w) * (c k * u + s k * w) + (- s k * u + c k * w) * (- s k * u + c k * w)) with (t + (c k * c k + s k * s k) * (u * u + w * w)) by ring.
  rewrite C. ring.
Qed.
End Rotations.

(** ** Orthonormal vectors *)
Section Vectors.
Variable m : nat.
Lemma combine_dot : forall k v d e, orthonormal_rows m k v ->
  dot m (fun q => rsum k (fun i => d i * v i q)) (fun q => rsum k (fun i => e i * v i q)) = rsum k (fun i => d i * e i).
Proof.
  intros k v d e O. unfold dot.
  rewrite (rsum_ext m _ (fun q => rsum k (fun i => rsum k (fun j => d i * e j * (v i q * v j q))))).
  2:{ intros q Q. rewrite <- rsum_scal_r. apply rsum_ext. intros i I. rewrite <- rsum_scal. apply rsum_ext. intros. lra. }
  rewrite rsum_swap. apply rsum_ext. intros i I. rewrite rsum_swap.
  rewrite (rsum_ext k _ (fun j => d i * e j * (if Nat.eqb i j then 1 else 0))).
  2:{ intros j J. rewrite rsum_scal. f_equal. apply (O i j I J). }
  rewrite (rsum_single k i); auto; [rewrite Nat.eqb_refl; lra|]. intros j J N. destruct (Nat.eqb_spec i j); [congruence|lra].
Qed.
Lemma combine_dot_one : forall k v d j, orthonormal_rows m k v -> (j < k)%nat -> dot m (v j) (fun q => rsum k (fun i => d i * v i q)) = d j.
Proof.
  intros k v d j O J. unfold dot. rewrite (rsum_ext m _ (fun q => rsum k (fun i => d i * (v j q * v i q)))).
  2:{ intros q Q. rewrite <- rsum_scal. apply rsum_ext. intros. lra. }
  rewrite rsum_swap, (rsum_ext k _ (fun i => d i * (if Nat.eqb j i then 1 else 0))).
  2:{ intros i I. rewrite rsum_scal. f_equal. apply (O j i J I). }
  rewrite (rsum_single k j); auto; [rewrite Nat.eqb_refl; lra|]. intros i I N. destruct (Nat.eqb_spec j i); [congruence|lra].
Qed.
Lemma bessel : forall k v q, orthonormal_rows m k v -> (q < m)%nat -> rsum k (fun i => v i q * v i q) <= 1.
Proof.
  intros k v q O Q. set (x := fun p => rsum k (fun i => v i q * v i p)).
  pose proof (dot_self_pos m (fun p => (if Nat.eqb p q then 1 else 0) - x p)) as P.
  assert (dot m (fun p => (if Nat.eqb p q then 1 else 0) - x p) (fun p => (if Nat.eqb p q then 1 else 0) - x p) = 1 - 2 * x q + dot m x x) as E.
  { unfold dot. rewrite (rsum_ext m _ (fun p => ((if Nat.eqb p q then 1 else 0) + (-2) * ((if Nat.eqb p q then 1 else 0) * x p)) + x p * x p)).
    2:{ intros p _. destruct (Nat.eqb p q); lra. }
    rewrite !rsum_plus, rsum_scal. rewrite (rsum_single m q (fun p => if Nat.eqb p q then 1 else 0)); auto.
    2:{ intros i I N. destruct (Nat.eqb_spec i q); [congruence|auto]. }
    rewrite (rsum_single m q (fun p => (if Nat.eqb p q then 1 else 0) * x p)); auto.
    2:{ intros i I N. destruct (Nat.eqb_spec i q); [congruence|lra]. }
    rewrite Nat.eqb_refl. lra. }
  rewrite E in P. unfold x in P at 2 3. rewrite combine_dot in P by auto. unfold x in P. lra.
Qed.
Lemma rsum_const : forall n a, rsum n (fun _ => a) = INR n * a.
Proof. induction n as [|n IH]; intros a; [cbn; lra|]. cbn [rsum]. rewrite IH, S_INR. lra. Qed.
Theorem orthonormal_le : forall k v, orthonormal_rows m k v -> (k <= m)%nat.
Proof.
  intros k v O. apply INR_le. replace (INR k) with (rsum k (fun i => dot m (v i) (v i))).
  2:{ rewrite (rsum_ext k _ (fun _ => 1)); [rewrite rsum_const; lra|]. intros i I. rewrite (O i i I I), Nat.eqb_refl. auto. }
  unfold dot. rewrite rsum_swap. replace (INR m) with (rsum m (fun _ => 1)) by (rewrite rsum_const; lra).
  apply rsum_le. intros q Q. apply bessel; auto.
Qed.
Lemma linear_sum : forall f, linear_map m f -> forall k x0 v y q, (q < m)%nat ->
  f (combination x0 k v y) q = f x0 q + rsum k (fun j => y j * f (v j) q).
Proof.
  intros f L. induction k as [|k IH]; intros x0 v y q Q.
  - cbn. rewrite (L 1 0 x0 x0) by (try (intros; unfold combination; cbn; lra); auto). lra.
  - cbn [rsum]. rewrite (L 1 (y k) (combination x0 k v y) (v k)); auto; [rewrite IH by auto; lra|]. intros j J. unfold combination. cbn [rsum]. lra.
Qed.
Lemma linear_compose : forall f h, linear_map m f -> linear_map m h -> linear_map m (fun x => f (h x)).
Proof. intros f h F H a b x y z Z i I. apply F; auto. Qed.
Lemma fold_add : forall ks (f : nat -> R) (v : nat -> nat -> R) x q,
  fold_left (fun x i => fun k => x k + f i * v i k) ks x q = x q + lsum ks (fun i => f i * v i q).
Proof. induction ks as [|k ks IH]; intros f v x q; cbn; [lra|]. rewrite IH. lra. Qed.
Lemma fold_sub : forall ks (f : nat -> R) (v : nat -> nat -> R) x q,
  fold_left (fun x i => fun k => x k - f i * v i k) ks x q = x q - lsum ks (fun i => f i * v i q).
Proof. induction ks as [|k ks IH]; intros f v x q; cbn; [lra|]. rewrite IH. lra. Qed.
End Vectors.

(** ** Back substitution *)
Definition upper_row (st : state) (i j : nat) : R := if (i <=? j)%nat then r st i j else 0.
Lemma fold_minus : forall ks (f : nat -> R) a, fold_left (fun acc i => acc - f i) ks a = a - lsum ks f.
Proof. induction ks as [|k ks IH]; intros f a; cbn; [lra|]. rewrite IH. lra. Qed.
Lemma back_spec : forall st, (forall j, (j < iter st)%nat -> r st j j <> 0) ->
  forall i, (i < iter st)%nat -> rsum (iter st) (fun j => upper_row st i j * back_substitution st j) = g st i.
Proof.
  intros st D. set (k := iter st) in *.
  assert (forall n t, (t + n = k)%nat -> forall i, (t <= i < k)%nat ->
    rsum k (fun j => upper_row st i j * fold_left (back_step st) (rev (seq t n)) (fun _ => 0) j) = g st i) as G.
  { induction n as [|n IH]; intros t T i I; [lia|]. cbn [seq rev]. rewrite fold_left_app. cbn [fold_left].
    set (y := fold_left (back_step st) (rev (seq (S t) n)) (fun _ => 0)) in *.
    destruct (Nat.eq_dec i t) as [-> |N].
    - replace k with (t + (1 + n))%nat by lia. rewrite rsum_app. rewrite (rsum_0 t).
      2:{ intros j J. unfold upper_row. destruct (Nat.leb_spec t j); [lia|lra]. }
      change (1 + n)%nat with (1 + n)%nat. rewrite rsum_app. cbn [rsum]. rewrite Nat.add_0_r. unfold upper_row at 1. rewrite Nat.leb_refl.
      unfold back_step at 1. rewrite upd_same. fold k. rewrite fold_minus. replace (k - S t)%nat with n by lia.
      rewrite (rsum_ext n _ (fun j => r st t (S t + j) * y (S t + j)%nat)).
      2:{ intros j J. unfold upper_row, back_step. rewrite upd_other by lia. destruct (Nat.leb_spec t (t + (1 + j))); [|lia]. f_equal; f_equal; lia. }
      assert (lsum (seq (S t) n) (fun i => r st t i * y i) = rsum n (fun j => r st t (S t + j) * y (S t + j)%nat)) as ->.
      { rewrite (lsum_nth _ _ 0%nat), seq_length. apply rsum_ext. intros j J. rewrite seq_nth by auto. auto. }
      field. apply D. lia.
    - rewrite <- (IH (S t) ltac:(lia) i ltac:(lia)). apply rsum_ext. intros j J. unfold upper_row, back_step.
      destruct (Nat.leb_spec i j); [|lra]. rewrite upd_other by lia. auto. }
  intros i I. apply (G k 0%nat); auto. lia.
Qed.
