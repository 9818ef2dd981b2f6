From Coq Require Import Reals List Arith Lia Lra.
From Verif Require Import Proofs.LinAlg Proofs.PositiveDefinite Proofs.PositiveSystem.
From Verif Require Import Model.LinAlg Spec.PositiveDefinite Spec.Grid Spec.GridProblem.
Local Open Scope R_scope.

Lemma rsum_first : forall n f, rsum (S n) f = f 0%nat + rsum n (fun i => f (S i)).
Proof. intros n f. change (S n) with (1 + n)%nat. rewrite rsum_app. cbn. ring. Qed.
Definition first (x : R) (c : nat -> R) (i : nat) : R := match i with O => x | S i' => c i' end.
Definition complement (a : nat -> nat -> R) (i j : nat) : R := a (S i) (S j) - a (S i) 0%nat / a 0%nat 0%nat * a 0%nat (S j).

Lemma quad_first : forall n a x c, symmetric (S n) a -> quad (S n) a (first x c) =
  a 0%nat 0%nat * (x * x) + 2 * x * rsum n (fun j => a 0%nat (S j) * c j) + quad n (fun i j => a (S i) (S j)) c.
Proof.
  intros n a x c SY. unfold quad. rewrite rsum_first. rewrite (rsum_first n (fun j => first x c 0%nat * first x c j * a 0%nat j)). cbn [first].
  rewrite (rsum_ext n (fun i => rsum (S n) _) (fun i => x * (a 0%nat (S i) * c i) + rsum n (fun j => c i * c j * a (S i) (S j)))).
  2:{ intros i I. rewrite rsum_first. cbn [first]. rewrite (SY (S i) 0%nat) by lia. ring. }
  rewrite rsum_plus, rsum_scal. rewrite (rsum_ext n (fun i => x * c i * a 0%nat (S i)) (fun i => x * (a 0%nat (S i) * c i))) by (intros; ring).
  rewrite rsum_scal. ring.
Qed.
Lemma pivot_pos : forall n a, definite (S n) any a -> symmetric (S n) a -> 0 < a 0%nat 0%nat.
Proof.
  intros n a (low & L & B) SY. specialize (B (first 1 (fun _ => 0)) Logic.I). rewrite quad_first in B by auto.
  unfold length2 in B. rewrite rsum_first in B. cbn [first] in B.
  rewrite (rsum_0 n (fun i => 0 * 0)), (rsum_0 n (fun j => a 0%nat (S j) * 0)) in B by (intros; ring).
  assert (Z : quad n (fun i j => a (S i) (S j)) (fun _ => 0) = 0). { unfold quad. apply rsum_0. intros. apply rsum_0. intros. ring. }
  rewrite Z in B. lra.
Qed.
Lemma complement_symmetric : forall n a, symmetric (S n) a -> symmetric n (complement a).
Proof. intros n a SY i j I J. unfold complement. rewrite (SY (S i) (S j)), (SY (S i) 0%nat), (SY 0%nat (S j)) by lia. unfold Rdiv. ring. Qed.
Lemma complement_definite : forall n a, definite (S n) any a -> symmetric (S n) a -> definite n any (complement a).
Proof.
  intros n a D SY. pose proof (pivot_pos n a D SY) as P. destruct D as (low & L & B). exists low. split; auto. intros c _.
  set (s := rsum n (fun j => a 0%nat (S j) * c j)). specialize (B (first (- s / a 0%nat 0%nat) c) Logic.I). rewrite quad_first in B by auto. fold s in B.
  assert (Q : quad n (complement a) c = quad n (fun i j => a (S i) (S j)) c - s * s / a 0%nat 0%nat).
  { unfold complement. rewrite (quad_ext n _ (fun i j => a (S i) (S j) + (- / a 0%nat 0%nat) * (a 0%nat (S i) * a 0%nat (S j)))).
    2:{ intros i j I J. rewrite (SY (S i) 0%nat) by lia. unfold Rdiv. ring. }
    rewrite quad_plus, quad_scal, quad_rank. rewrite (rsum_ext n (fun i => c i * _) (fun j => a 0%nat (S j) * c j)) by (intros; ring). fold s. unfold Rdiv. ring. }
  rewrite Q. unfold length2 in B at 1. rewrite rsum_first in B. cbn [first] in B. fold (length2 n c) in B.
  set (x := - s / a 0%nat 0%nat) in *. pose proof (Rle_0_sqr x) as X. unfold Rsqr in X.
  assert (E : a 0%nat 0%nat * (x * x) + 2 * x * s = - (s * s / a 0%nat 0%nat)). { unfold x. field. lra. }
  rewrite E in B. assert (0 <= low * (x * x)) by (apply Rmult_le_pos; lra). lra.
Qed.
Lemma eliminate_solves : forall n a b, definite n any a -> symmetric n a -> solves n a b (eliminate n a b).
Proof.
  induction n; intros a b D SY i I; [lia|]. pose proof (pivot_pos n a D SY) as P. cbn [eliminate].
  change (fun i j => a (S i) (S j) - a (S i) 0%nat / a 0%nat 0%nat * a 0%nat (S j)) with (complement a).
  set (y := eliminate n (complement a) _). assert (Y := IHn (complement a) (fun i => b (S i) - a (S i) 0%nat / a 0%nat 0%nat * b 0%nat)
    (complement_definite n a D SY) (complement_symmetric n a SY)). fold y in Y.
  unfold mat_vec. rewrite rsum_first. destruct i as [|i]; [field; lra|]. specialize (Y i ltac:(lia)). unfold mat_vec, complement in Y.
  rewrite (rsum_ext n _ (fun j => a (S i) (S j) * y j - a (S i) 0%nat / a 0%nat 0%nat * (a 0%nat (S j) * y j))) in Y by (intros; ring).
  rewrite rsum_minus, rsum_scal in Y. set (s := rsum n (fun j => a 0%nat (S j) * y j)) in *. set (u := rsum n (fun j => a (S i) (S j) * y j)) in *.
  replace u with (b (S i) - a (S i) 0%nat / a 0%nat 0%nat * b 0%nat + a (S i) 0%nat / a 0%nat 0%nat * s) by lra. field. lra.
Qed.
Lemma pivots_positive : forall n a, definite n any a -> symmetric n a -> forall k, (k < n)%nat -> 0 < pivot n a k.
Proof.
  induction n; intros a D SY k K; [lia|]. destruct k as [|k]; [cbn; apply (pivot_pos n a D SY)|]. cbn [pivot].
  apply (IHn (complement a)); [apply complement_definite|apply complement_symmetric|lia]; auto.
Qed.
Lemma lower_symmetric : forall n a, symmetric n (lower a).
Proof. intros n a i j I J. unfold lower. destruct (Nat.leb_spec j i), (Nat.leb_spec i j); auto; try lia. assert (i = j) as -> by lia. auto. Qed.
Lemma lower_id : forall n a i j, symmetric n a -> (i < n)%nat -> (j < n)%nat -> lower a i j = a i j.
Proof. intros n a i j SY I J. unfold lower. destruct (j <=? i)%nat; auto. Qed.
Lemma eliminate_right : forall n a, right_ldlt (fun n a => eliminate n (lower a)) n a.
Proof. intros n a D b. apply eliminate_solves; auto. apply lower_symmetric. Qed.
Lemma definite_once : forall n a, definite n any a -> solved_once n a.
Proof.
  intros n a (low & L & B). apply injective_solved. intros w E. apply length2_zero. specialize (B w Logic.I).
  assert (Z : quad n a w = 0).
  { unfold quad. apply rsum_0. intros i J. rewrite (rsum_ext n _ (fun j => w i * (a i j * w j))) by (intros; ring). rewrite rsum_scal.
    fold (mat_vec n a w i). rewrite E by auto. ring. }
  pose proof (length2_pos n w). nra.
Qed.
