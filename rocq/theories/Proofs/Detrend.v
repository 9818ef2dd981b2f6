From Coq Require Import Reals List Arith ZArith Lia Lra.
From Verif Require Import Model.Outcome Model.LinAlg Model.MonomialBasis Model.Detrend Spec.Grid Spec.MonomialBasis Spec.Detrend.
From Verif Require Import Proofs.LinAlg Proofs.MonomialBasis.
Import ListNotations.
Local Open Scope R_scope.

(** ** Normal equations always have a solution *)
Lemma sq_sum_zero : forall n (u : nat -> R), rsum n (fun i => u i * u i) = 0 -> forall i, (i < n)%nat -> u i = 0.
Proof.
  induction n as [|n IH]; intros u E i L; [lia|]. cbn in E. assert (0 <= rsum n (fun i => u i * u i)) by (apply rsum_pos; intros; apply Rle_0_sqr).
  pose proof (Rle_0_sqr (u n)) as S1. unfold Rsqr in S1. destruct (Nat.eq_dec i n) as [->|N].
  - apply Rsqr_0_uniq. unfold Rsqr. lra.
  - apply IH; [lra|lia].
Qed.
Lemma least_squares : forall n l (p : nat -> nat -> R) (v : nat -> R), exists c, forall k, (k < l)%nat -> rsum n (fun i => p i k * (v i - rsum l (fun j => p i j * c j))) = 0.
Proof.
  intros n. induction l as [|l IH]; intros p v; [exists (fun _ => 0); intros; lia|].
  destruct (IH p (fun i => p i l)) as [c1 C1]. destruct (IH p v) as [c0 C0].
  set (u := fun i => p i l - rsum l (fun j => p i j * c1 j)).
  assert (forall w, rsum n (fun i => p i l * w i) = rsum n (fun i => u i * w i) + rsum l (fun j => c1 j * rsum n (fun i => p i j * w i))) as SPLIT.
  { intros w. rewrite (rsum_ext l _ (fun j => rsum n (fun i => c1 j * (p i j * w i)))) by (intros; rewrite rsum_scal; reflexivity).
    rewrite <- rsum_swap, <- rsum_plus. apply rsum_ext. intros i _. unfold u.
    rewrite (rsum_ext l (fun j => c1 j * (p i j * w i)) (fun j => p i j * c1 j * w i)) by (intros; ring). rewrite rsum_scal_r. ring. }
  destruct (Req_dec (rsum n (fun i => u i * u i)) 0) as [Z|NZ].
  - exists (fun j => if Nat.eqb j l then 0 else c0 j).
    assert (forall i, rsum (S l) (fun j => p i j * (if Nat.eqb j l then 0 else c0 j)) = rsum l (fun j => p i j * c0 j)) as E.
    { intros i. cbn [rsum]. rewrite Nat.eqb_refl, Rmult_0_r, Rplus_0_r. apply rsum_ext. intros j J. destruct (Nat.eqb_spec j l); [lia|auto]. }
    intros k K. rewrite (rsum_ext n _ (fun i => p i k * (v i - rsum l (fun j => p i j * c0 j)))) by (intros; rewrite E; reflexivity).
    destruct (Nat.eq_dec k l) as [->|N]; [|apply C0; lia]. rewrite SPLIT.
    rewrite (rsum_0 n) by (intros i I; rewrite (sq_sum_zero n u Z i I); ring).
    rewrite (rsum_0 l) by (intros j J; rewrite (C0 j J); ring). ring.
  - set (t := rsum n (fun i => u i * v i) / rsum n (fun i => u i * u i)).
    exists (fun j => if Nat.eqb j l then t else c0 j - t * c1 j).
    assert (forall i, rsum (S l) (fun j => p i j * (if Nat.eqb j l then t else c0 j - t * c1 j)) = rsum l (fun j => p i j * c0 j) + t * u i) as E.
    { intros i. cbn [rsum]. rewrite Nat.eqb_refl. rewrite (rsum_ext l _ (fun j => p i j * c0 j - t * (p i j * c1 j))).
      2:{ intros j J. destruct (Nat.eqb_spec j l); [lia|ring]. }
      rewrite rsum_minus, rsum_scal. unfold u. ring. }
    assert (forall k, (k < l)%nat -> rsum n (fun i => p i k * u i) = 0) as ORTH by (intros k K; apply (C1 k K)).
    assert (forall k, (k < l)%nat -> rsum n (fun i => p i k * (v i - (rsum l (fun j => p i j * c0 j) + t * u i))) = 0) as LOW.
    { intros k K. rewrite (rsum_ext n _ (fun i => p i k * (v i - rsum l (fun j => p i j * c0 j)) - t * (p i k * u i))) by (intros; ring).
      rewrite rsum_minus, rsum_scal, (C0 k K), (ORTH k K). ring. }
    intros k K. rewrite (rsum_ext n _ (fun i => p i k * (v i - (rsum l (fun j => p i j * c0 j) + t * u i)))) by (intros; rewrite E; reflexivity).
    destruct (Nat.eq_dec k l) as [->|N]; [|apply LOW; lia]. rewrite SPLIT, (rsum_0 l) by (intros j J; rewrite (LOW j J); ring).
    assert (rsum n (fun i => u i * rsum l (fun j => p i j * c0 j)) = 0) as X.
    { rewrite (rsum_ext n _ (fun i => rsum l (fun j => c0 j * (p i j * u i)))).
      2:{ intros i _. rewrite <- rsum_scal. apply rsum_ext. intros; ring. }
      rewrite rsum_swap. apply rsum_0. intros j J. rewrite rsum_scal, (ORTH j J). ring. }
    rewrite (rsum_ext n _ (fun i => u i * v i - u i * rsum l (fun j => p i j * c0 j) - t * (u i * u i))) by (intros; ring).
    rewrite !rsum_minus, rsum_scal, X. unfold t. field. auto.
Qed.

Section D.
Variable solve : nat -> (nat -> nat -> R) -> (nat -> R) -> nat -> R.
Variable dim n : nat.
Hypothesis DIM : (1 <= dim <= 3)%nat.
Variable points : nat -> nat -> R.
Variable degree : nat.
Hypothesis DEG : (degree <= 2)%nat.
Hypothesis SOLVE : solves_consistent (basis_size dim (Z.of_nat degree)) solve.
Let l := length (columns dim degree).
Let p := evaluate dim degree n points (fun _ _ => 0).

Lemma size_l : basis_size dim (Z.of_nat degree) = l.
Proof.
  destruct (columns_monomials dim degree DIM DEG) as (as_ & A & L & _). unfold l. rewrite L. apply size_counts; auto.
Qed.
Lemma detrend_eq : forall values, exists c, detrend solve dim n points values (Z.of_nat degree) = Ok (fun i => values i - rsum l (fun k => p i k * c k)) /\
  forall k, (k < l)%nat -> rsum n (fun i => p i k * (values i - rsum l (fun j => p i j * c j))) = 0.
Proof.
  intros values. unfold detrend. destruct (Z.ltb_spec (Z.of_nat degree) 0); [lia|]. destruct (Z.ltb_spec 2 (Z.of_nat degree)); [lia|]. cbn [orb].
  cbv zeta. rewrite size_l, Nat2Z.id. fold p.
  set (c := solve l (fun a b => rsum n (fun i => p i a * p i b)) (fun a => rsum n (fun i => p i a * values i))). exists c. split; auto.
  assert (forall x k, rsum n (fun i => p i k * (values i - rsum l (fun j => p i j * x j))) = rsum n (fun i => p i k * values i) - mat_vec l (fun a b => rsum n (fun i => p i a * p i b)) x k) as E.
  { intros x k. unfold mat_vec. rewrite (rsum_ext l _ (fun j => rsum n (fun i => p i k * p i j * x j))) by (intros; rewrite rsum_scal_r; reflexivity).
    rewrite <- rsum_swap, <- rsum_minus. apply rsum_ext. intros i _. rewrite Rmult_minus_distr_l. f_equal. rewrite <- rsum_scal. apply rsum_ext. intros; ring. }
  intros k K. rewrite E. unfold c. unfold solves_consistent in SOLVE. rewrite size_l in SOLVE. rewrite SOLVE; auto; [lra|]. destruct (least_squares n l p values) as [x X]. exists x. intros k' K'.
  specialize (X k' K'). rewrite E in X. lra.
Qed.
Lemma p_col : forall i k, (i < n)%nat -> p i k = fst (nth k (columns dim degree) no_column) (points i).
Proof. intros i k I. unfold p, evaluate. cbv zeta. destruct (Nat.ltb_spec i n); [auto|lia]. Qed.
Lemma poly_combo : forall f, polynomial dim degree f -> exists a, forall q, f q = rsum l (fun k => a k * fst (nth k (columns dim degree) no_column) q).
Proof.
  intros f (terms & T & F). destruct (columns_monomials dim degree DIM DEG) as (as_ & (ND & A) & L & M).
  enough (exists a, forall q, poly_value terms q = rsum l (fun k => a k * fst (nth k (columns dim degree) no_column) q)) as [a H] by (exists a; intros; rewrite F; auto).
  clear F. induction terms as [|t terms IH]; [exists (fun _ => 0); intros q; cbn; rewrite rsum_0; auto; intros; ring|].
  destruct IH as [a H]; [intros; apply T; right; auto|]. assert (In (snd t) as_) as I by (apply A, T; left; auto).
  apply (In_nth _ _ []) in I. destruct I as (k0 & K0 & E0).
  exists (fun k => a k + if Nat.eqb k k0 then fst t else 0). intros q. cbn [poly_value fold_right]. fold (poly_value terms q). rewrite H.
  rewrite (rsum_ext l (fun k => (a k + (if Nat.eqb k k0 then fst t else 0)) * fst (nth k (columns dim degree) no_column) q)
    (fun k => a k * fst (nth k (columns dim degree) no_column) q + (if Nat.eqb k k0 then fst t else 0) * fst (nth k (columns dim degree) no_column) q)) by (intros; ring).
  rewrite rsum_plus, (rsum_single l k0 (fun k => (if Nat.eqb k k0 then fst t else 0) * _)).
  - rewrite Nat.eqb_refl, M by auto. rewrite E0. ring.
  - unfold l. lia.
  - intros k _ N. destruct (Nat.eqb_spec k k0); [contradiction|ring].
Qed.
Lemma col_poly : forall a, polynomial dim degree (fun q => rsum l (fun k => a k * fst (nth k (columns dim degree) no_column) q)).
Proof.
  intros a. destruct (columns_monomials dim degree DIM DEG) as (as_ & (ND & A) & L & M).
  exists (map (fun k => (a k, nth k as_ [])) (seq 0 l)). split.
  - intros t T. apply in_map_iff in T. destruct T as (k & <- & K). apply in_seq in K. cbn. apply A, nth_In. unfold l in K. lia.
  - intros q. rewrite <- lsum_seq. assert (forall k, In k (seq 0 l) -> (k < length as_)%nat) as B by (intros k K; apply in_seq in K; unfold l in K; lia).
    induction (seq 0 l) as [|k ks IH]; cbn; auto. rewrite IH by (intros; apply B; right; auto). rewrite M by (apply B; left; auto). reflexivity.
Qed.
Theorem residual_orthogonal : forall values r, detrend solve dim n points values (Z.of_nat degree) = Ok r ->
  forall f, polynomial dim degree f -> rsum n (fun i => r i * f (points i)) = 0.
Proof.
  intros values r E f PF. destruct (detrend_eq values) as (c & E' & O). rewrite E in E'. injection E' as ->.
  destruct (poly_combo f PF) as [a F].
  rewrite (rsum_ext n _ (fun i => rsum l (fun k => a k * (p i k * (values i - rsum l (fun j => p i j * c j)))))).
  - rewrite rsum_swap. apply rsum_0. intros k K. rewrite rsum_scal, (O k K). ring.
  - intros i I. rewrite F, <- rsum_scal. apply rsum_ext. intros k _. rewrite p_col by auto. ring.
Qed.
Theorem trend_restores : forall values r, detrend solve dim n points values (Z.of_nat degree) = Ok r ->
  exists trend, polynomial dim degree trend /\ forall i, (i < n)%nat -> values i = r i + trend (points i).
Proof.
  intros values r E. destruct (detrend_eq values) as (c & E' & O). rewrite E in E'. injection E' as ->.
  exists (fun q => rsum l (fun k => c k * fst (nth k (columns dim degree) no_column) q)). split; [apply col_poly|]. intros i I.
  rewrite (rsum_ext l (fun k => p i k * c k) (fun k => c k * fst (nth k (columns dim degree) no_column) (points i))); [ring|]. intros k _. rewrite p_col by auto. ring.
Qed.
Theorem residual_least : forall values r, detrend solve dim n points values (Z.of_nat degree) = Ok r ->
  forall f, polynomial dim degree f -> rsum n (fun i => r i * r i) <= rsum n (fun i => (values i - f (points i)) * (values i - f (points i))).
Proof.
  intros values r E f PF. destruct (trend_restores values r E) as (t & PT & R). pose proof (residual_orthogonal values r E) as O.
  rewrite (rsum_ext n (fun i => (values i - f (points i)) * (values i - f (points i)))
    (fun i => r i * r i + (2 * (r i * t (points i)) - 2 * (r i * f (points i)) + (t (points i) - f (points i)) * (t (points i) - f (points i))))) by (intros i I; rewrite (R i I); ring).
  rewrite !rsum_plus, rsum_minus, !rsum_scal, (O t PT), (O f PF).
  assert (0 <= rsum n (fun i => (t (points i) - f (points i)) * (t (points i) - f (points i)))) by (apply rsum_pos; intros; apply Rle_0_sqr). lra.
Qed.
Theorem polynomial_vanishes : forall f, polynomial dim degree f -> forall values r, (forall i, (i < n)%nat -> values i = f (points i)) ->
  detrend solve dim n points values (Z.of_nat degree) = Ok r -> forall i, (i < n)%nat -> r i = 0.
Proof.
  intros f PF values r V E. apply sq_sum_zero. apply Rle_antisym; [|apply rsum_pos; intros; apply Rle_0_sqr].
  eapply Rle_trans; [apply (residual_least values r E f PF)|]. rewrite rsum_0; [lra|]. intros i I. rewrite V by auto. ring.
Qed.
End D.
