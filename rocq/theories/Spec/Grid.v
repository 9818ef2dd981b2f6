From Coq Require Import Reals List Arith.
From Verif Require Import Model.LinAlg Model.Grid.
Import ListNotations.
Local Open Scope R_scope.

(** Solutions of linear systems; the LDLT solver sees the lower triangle only. *)
Definition lower (a : nat -> nat -> R) (i j : nat) : R := if (j <=? i)%nat then a i j else a j i.
Definition solves (n : nat) (a : nat -> nat -> R) (b x : nat -> R) : Prop := forall i, (i < n)%nat -> mat_vec n a x i = b i.
Definition exact_ldlt (ldlt : nat -> (nat -> nat -> R) -> (nat -> R) -> nat -> R) (n : nat) (a : nat -> nat -> R) : Prop :=
  forall b, solves n (lower a) b (ldlt n a b).
Definition exact_lu (lu : nat -> (nat -> nat -> R) -> (nat -> R) -> nat -> R) (n : nat) (a : nat -> nat -> R) : Prop :=
  forall b, solves n a b (lu n a b).
Definition left_inverse (n : nat) (b a : nat -> nat -> R) : Prop := forall i j, (i < n)%nat -> (j < n)%nat ->
  rsum n (fun k => b i k * a k j) = if Nat.eqb i j then 1 else 0.
Definition symmetric (n : nat) (a : nat -> nat -> R) : Prop := forall i j, (i < n)%nat -> (j < n)%nat -> a i j = a j i.

(** The interpolation conditions of a grid: values matched on all its rows, weights orthogonal to the polynomials. *)
Definition interpolates (m l : nat) (a p : nat -> nat -> R) (d lambda c : nat -> R) : Prop :=
  forall r, (r < m)%nat -> mat_vec m a lambda r + mat_vec l p c r = d r.
Definition orthogonal (m l : nat) (p : nat -> nat -> R) (lambda : nat -> R) : Prop :=
  forall k, (k < l)%nat -> rsum m (fun r => p r k * lambda r) = 0.
