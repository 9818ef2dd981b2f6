From Coq Require Import Reals List Arith Permutation.
From Verif Require Import Model.LinAlg.
Local Open Scope R_scope.

(** A permutation that sorts the data; equal values may be in any order. *)
Definition sorting (n : nat) (z : nat -> R) (indices : list nat) : Prop :=
  Permutation indices (seq 0 n) /\ forall i j, (i < j < n)%nat -> z (nth i indices 0%nat) <= z (nth j indices 0%nat).
(** The distribution has an increasing quantile function. *)
Definition increasing (quantile : R -> R) : Prop := forall a b, 0 < a -> a < b -> b < 1 -> quantile a < quantile b.

(** Probabilists' Hermite polynomials and their normalized form with alternating sign. *)
Fixpoint he_pair (p : nat) (y : R) : R * R := match p with O => (1, y) | S p' => let '(a, b) := he_pair p' y in (b, y * b - INR p * a) end.
Definition he (p : nat) (y : R) : R := fst (he_pair p y).
Definition hermite (p : nat) (y : R) : R := (-1) ^ p * he p y / sqrt (INR (fact p)).
