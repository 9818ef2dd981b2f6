From Coq Require Import Reals List Arith.
From Verif Require Import Model.LinAlg Model.RasPreconditioner.
Local Open Scope R_scope.

(** Linear maps of vectors with [m] rows. *)
Definition linear_map (m : nat) (f : (nat -> R) -> nat -> R) : Prop :=
  forall a b x y z, (forall j, (j < m)%nat -> z j = a * x j + b * y j) -> forall i, (i < m)%nat -> f z i = a * f x i + b * f y i.
Definition injective_map (m : nat) (f : (nat -> R) -> nat -> R) : Prop :=
  forall x, (forall i, (i < m)%nat -> f x i = 0) -> forall i, (i < m)%nat -> x i = 0.
Definition self_adjoint (m : nat) (f : (nat -> R) -> nat -> R) : Prop := forall x y, dot m (f x) y = dot m x (f y).
(** Norm of the preconditioned residual of [x]. *)
Definition residual_norm (m : nat) (op left : (nat -> R) -> nat -> R) (rhs x : nat -> R) : R :=
  norm m (left (fun i => rhs i - op x i)).
(** x0 plus a combination of [k] vectors. *)
Definition combination (x0 : nat -> R) (k : nat) (vs : nat -> nat -> R) (y : nat -> R) (i : nat) : R := x0 i + rsum k (fun j => y j * vs j i).
(** The first [k] vectors are orthonormal. *)
Definition orthonormal_rows (m k : nat) (vs : nat -> nat -> R) : Prop := forall i j, (i < k)%nat -> (j < k)%nat ->
  dot m (vs i) (vs j) = if Nat.eqb i j then 1 else 0.
(** A start that is taken for zero is zero. *)
Definition good_start (m : nat) (is_zero : bool) (x0 : nat -> R) : Prop := is_zero = true -> forall i, (i < m)%nat -> x0 i = 0.
