From Coq Require Import Reals List Arith Lia Lra.
From Verif Require Import Model.LinAlg Model.RasPreconditioner Proofs.LinAlg Spec.Grid Spec.RasPreconditioner.
Import ListNotations.
Local Open Scope R_scope.

Lemma dot_comm : forall n x y, dot n x y = dot n y x.
Proof. intros n x y. apply rsum_ext. intros. lra. Qed.
Lemma dot_scal : forall n c x y, dot n x (fun r => c * y r) = c * dot n x y.
Proof. intros n c x y. unfold dot. rewrite <- rsum_scal. apply rsum_ext. intros. lra. Qed.
Lemma dot_minus : forall n x y z, dot n x (fun r => y r - z r) = dot n x y - dot n x z.
Proof. intros n x y z. unfold dot. rewrite <- rsum_minus. apply rsum_ext. intros. lra. Qed.
Lemma dot_ext : forall n x y x' y', (forall r, (r < n)%nat -> x r = x' r) -> (forall r, (r < n)%nat -> y r = y' r) -> dot n x y = dot n x' y'.
Proof. intros n x y x' y' H1 H2. apply rsum_ext. intros i I. rewrite H1, H2; auto. Qed.
Lemma dot_self_pos : forall n x, 0 <= dot n x x.
Proof. intros n x. apply rsum_pos. intros i _. apply Rle_0_sqr. Qed.
Lemma dot_self_zero : forall n x, dot n x x = 0 -> forall i, (i < n)%nat -> x i = 0.
Proof.
  induction n as [|n IH]; intros x E i I; [lia|]. unfold dot in *. cbn in E. pose proof (dot_self_pos n x) as P1. unfold dot in P1.
  pose proof (Rle_0_sqr (x n)) as P2. unfold Rsqr in P2. destruct (Nat.eq_dec i n) as [->|N].
  - assert (x n * x n = 0) as Z by lra. apply Rmult_integral in Z. tauto.
  - apply IH; [lra|lia].
Qed.

Section Gs.
Variable n l : nat.
Definition partly (i : nat) (q : nat -> nat -> R) : Prop :=
  (forall j k, (j < i)%nat -> (k < i)%nat -> dot n (fun r => q r j) (fun r => q r k) = if Nat.eqb j k then 1 else 0) /\
  (forall j k, (j < i)%nat -> (i <= k < l)%nat -> dot n (fun r => q r j) (fun r => q r k) = 0).

Lemma norm_nonzero : forall q i, independent n l q -> (i < l)%nat -> norm n (fun r => q r i) <> 0 /\
  norm n (fun r => q r i) * norm n (fun r => q r i) = dot n (fun r => q r i) (fun r => q r i).
Proof.
  intros q i IND I. unfold norm. split; [|apply sqrt_sqrt, dot_self_pos]. intros E. apply sqrt_eq_0 in E; [|apply dot_self_pos].
  pose proof (dot_self_zero _ _ E) as Z. cbv beta in Z.
  assert (1 = 0); [|lra]. apply (IND (fun k => if Nat.eqb k i then 1 else 0)) in I as C.
  - rewrite Nat.eqb_refl in C. auto.
  - intros r R. rewrite (rsum_single _ i); auto; [rewrite Z; auto; lra|]. intros k K N. destruct (Nat.eqb_spec k i); [congruence|lra].
Qed.

Section Step.
Variable q : nat -> nat -> R.
Variable i : nat.
Hypothesis IND : independent n l q.
Hypothesis I : (i < l)%nat.
Notation nu := (norm n (fun r => q r i)).
Notation q' := (gs_step n l i q).
Definition dj (j : nat) : R := dot n (fun r => q r i / nu) (fun r => q r j).
Lemma col_i : forall r, q' r i = q r i / nu.
Proof. intros r. unfold gs_step. rewrite Nat.eqb_refl. auto. Qed.
Lemma col_before : forall r j, (j < i)%nat -> q' r j = q r j.
Proof. intros r j J. unfold gs_step. destruct (Nat.eqb_spec j i); [lia|]. destruct (Nat.ltb_spec i j); [lia|auto]. Qed.
Lemma col_after : forall r j, (i < j)%nat -> q' r j = q r j - dj j * (q r i / nu).
Proof. intros r j J. unfold gs_step. destruct (Nat.eqb_spec j i); [lia|]. destruct (Nat.ltb_spec i j); [auto|lia]. Qed.

Lemma step_spanned : spanned n l q q'.
Proof.
  destruct (norm_nonzero q i IND I) as [NZ _].
  exists (fun k j => (if Nat.eqb k i then (if Nat.eqb j i then nu else if (i <? j)%nat then dj j else 0) else 0) + (if Nat.eqb k i then 0 else if Nat.eqb k j then 1 else 0)).
  intros r j R J. rewrite (rsum_ext l _ (fun k => (if Nat.eqb k i then q' r i * (if Nat.eqb j i then nu else if (i <? j)%nat then dj j else 0) else 0) + (if Nat.eqb k i then 0 else if Nat.eqb k j then q' r j else 0))).
  2:{ intros k K. destruct (Nat.eqb_spec k i) as [->|N]; [lra|]. destruct (Nat.eqb_spec k j) as [->|N']; lra. }
  rewrite rsum_plus. rewrite (rsum_single l i); auto. 2:{ intros k K N. destruct (Nat.eqb_spec k i); [congruence|auto]. }
  rewrite (rsum_single l j (fun k => if Nat.eqb k i then 0 else _)); auto. 2:{ intros k K N. destruct (Nat.eqb_spec k i); [auto|]. destruct (Nat.eqb_spec k j); [congruence|auto]. }
  rewrite !Nat.eqb_refl, col_i. destruct (Nat.eqb_spec j i) as [->|N]; [field; auto|]. destruct (Nat.ltb_spec i j).
  - rewrite col_after by auto. field. auto.
  - rewrite col_before by lia. lra.
Qed.
Lemma step_independent : independent n l q'.
Proof.
  destruct (norm_nonzero q i IND I) as [NZ _]. intros c H.
  set (s := c i / nu - rsum l (fun j => if (i <? j)%nat then dj j * c j / nu else 0)).
  assert (forall k, (k < l)%nat -> (if Nat.eqb k i then s else c k) = 0) as C.
  { apply IND. intros r R. rewrite <- (H r R).
    rewrite (rsum_ext l (fun k => q' r k * c k) (fun k => (if Nat.eqb k i then q r i * (c i / nu) else q r k * c k) - q r i * (if (i <? k)%nat then dj k * c k / nu else 0))).
    2:{ intros k K. destruct (Nat.eqb_spec k i) as [->|N]; [rewrite col_i; destruct (Nat.ltb_spec i i); [lia|field; auto]|]. destruct (Nat.ltb_spec i k).
        - rewrite col_after by auto. field. auto.
        - rewrite col_before by lia. lra. }
    rewrite rsum_minus, rsum_scal.
    rewrite (rsum_ext l (fun k => q r k * (if Nat.eqb k i then s else c k)) (fun k => (if Nat.eqb k i then q r i * (c i / nu) else q r k * c k) - (if Nat.eqb k i then q r i * rsum l (fun j => if (i <? j)%nat then dj j * c j / nu else 0) else 0))).
    2:{ intros k K. destruct (Nat.eqb_spec k i) as [->|N]; [unfold s|]; lra. }
    rewrite rsum_minus. f_equal. rewrite (rsum_single l i); auto; [rewrite Nat.eqb_refl; auto|]. intros k K N. destruct (Nat.eqb_spec k i); [congruence|auto]. }
  assert (forall k, (k < l)%nat -> k <> i -> c k = 0) as CK. { intros k K N. specialize (C k K). destruct (Nat.eqb_spec k i); [congruence|auto]. }
  intros k K. destruct (Nat.eq_dec k i) as [->|N]; [|auto]. specialize (C i I). rewrite Nat.eqb_refl in C. unfold s in C. rewrite rsum_0 in C.
  - rewrite Rminus_0_r in C. apply (Rmult_eq_reg_r (/ nu)); [unfold Rdiv in C; lra|apply Rinv_neq_0_compat; auto].
  - intros j J. destruct (Nat.ltb_spec i j); auto. rewrite CK by (auto; lia). field. auto.
Qed.
Lemma step_partly : partly i q -> partly (S i) q'.
Proof.
  destruct (norm_nonzero q i IND I) as [NZ NN]. intros [P1 P2].
  assert (forall x, dot n x (fun r => q r i / nu) = dot n x (fun r => q r i) / nu) as DI.
  { intros x. unfold Rdiv. rewrite (Rmult_comm (dot n x _)), <- dot_scal. apply dot_ext; intros; auto. lra. }
  assert (dot n (fun r => q' r i) (fun r => q' r i) = 1) as D1.
  { rewrite (dot_ext n _ _ (fun r => q r i / nu) (fun r => q r i / nu)) by (intros; apply col_i). rewrite DI, dot_comm, DI, <- NN. field. auto. }
  assert (forall j, (j < i)%nat -> dot n (fun r => q' r j) (fun r => q' r i) = 0) as D2.
  { intros j J. rewrite (dot_ext n _ _ (fun r => q r j) (fun r => q r i / nu)) by (intros; first [apply col_i | apply col_before; lia | apply col_after; lia]). rewrite DI, P2 by lia. field. auto. }
  assert (forall j, (i < j < l)%nat -> dot n (fun r => q' r i) (fun r => q' r j) = 0) as D3.
  { intros j J. rewrite (dot_ext n _ _ (fun r => q r i / nu) (fun r => q r j - dj j * (q r i / nu))) by (intros; first [apply col_i | apply col_before; lia | apply col_after; lia]).
    rewrite dot_minus, dot_scal.
    assert (dot n (fun r => q r i / nu) (fun r => q r i / nu) = 1) as -> by (rewrite <- D1; apply dot_ext; intros; rewrite col_i; auto). unfold dj. lra. }
  split.
  - intros j k J K. destruct (Nat.eq_dec j i) as [->|NJ]; destruct (Nat.eq_dec k i) as [->|NK].
    + rewrite Nat.eqb_refl. auto.
    + rewrite dot_comm, D2 by lia. destruct (Nat.eqb_spec i k); [lia|auto].
    + rewrite D2 by lia. destruct (Nat.eqb_spec j i); [lia|auto].
    + rewrite <- P1 by lia. apply dot_ext; intros; apply col_before; lia.
  - intros j k J K. destruct (Nat.eq_dec j i) as [->|NJ]; [apply D3; lia|].
    rewrite (dot_ext n _ _ (fun r => q r j) (fun r => q r k - dj k * (q r i / nu))) by (intros; first [apply col_i | apply col_before; lia | apply col_after; lia]).
    rewrite dot_minus, dot_scal, DI, !P2 by lia. field. auto.
Qed.
End Step.

Lemma spanned_refl : forall q, spanned n l q q.
Proof.
  intros q. exists (fun k j => if Nat.eqb k j then 1 else 0). intros r j R J. rewrite (rsum_single l j); auto; [rewrite Nat.eqb_refl; lra|].
  intros k K N. destruct (Nat.eqb_spec k j); [congruence|lra].
Qed.
Lemma spanned_trans : forall a b c, spanned n l a b -> spanned n l b c -> spanned n l a c.
Proof.
  intros a b c [x X] [y Y]. exists (fun k j => rsum l (fun t => y k t * x t j)). intros r j R J. rewrite X by auto.
  rewrite (rsum_ext l _ (fun t => rsum l (fun k => c r k * (y k t * x t j)))).
  2:{ intros t T. rewrite Y by auto. rewrite <- rsum_scal_r. apply rsum_ext. intros. lra. }
  rewrite rsum_swap. apply rsum_ext. intros k K. rewrite rsum_scal. auto.
Qed.
Theorem orthonormalize_spec : forall m, independent n l m -> orthonormal n l (orthonormalize n l m) /\ spanned n l m (orthonormalize n l m).
Proof.
  intros m IND. unfold orthonormalize.
  assert (forall k i q, (i + k = l)%nat -> independent n l q -> partly i q -> spanned n l m q ->
    orthonormal n l (fold_left (fun m i => gs_step n l i m) (seq i k) q) /\ spanned n l m (fold_left (fun m i => gs_step n l i m) (seq i k) q)) as G.
  { induction k as [|k IH]; intros i q E IQ PQ SQ; cbn [seq fold_left].
    - split; auto. intros a b A B. apply (proj1 PQ); lia.
    - apply IH; [lia|apply step_independent; auto; lia|apply step_partly; auto; lia|]. apply (spanned_trans _ q); auto. apply step_spanned; auto. lia. }
  apply G; auto; [|apply spanned_refl]. split; intros; lia.
Qed.
End Gs.
