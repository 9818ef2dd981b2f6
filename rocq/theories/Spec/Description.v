From Coq Require Import Reals ZArith List Arith.
From Verif Require Import Model.LinAlg Model.Rbfs Model.VariogramFitting Model.Description Spec.Rbfs Spec.VariogramFitting.
Import ListNotations.
Local Open Scope R_scope.

(** What the eigensolver has to deliver for the matrix [m]: orthonormal columns that are eigenvectors, the eigenvalues ascending. *)
Definition column (a : nat -> nat -> R) (j i : nat) : R := a i j.
Definition eigen_system (n : nat) (m : nat -> nat -> R) (values : nat -> R) (vectors : nat -> nat -> R) : Prop :=
  (forall i j, (i < n)%nat -> (j < n)%nat -> dot n (column vectors i) (column vectors j) = identity i j) /\
  (forall i j, (i < n)%nat -> (j < n)%nat -> mat_vec n m (column vectors j) i = values j * vectors i j) /\
  (forall i j, (i <= j < n)%nat -> values i <= values j).
(** A rotation by its columns. *)
Definition column_rotation (n : nat) (a : nat -> nat -> R) : Prop :=
  (forall i j, (i < n)%nat -> (j < n)%nat -> dot n (column a i) (column a j) = identity i j) /\ det n a = 1.

(** Turning by [a] about the third axis, then by [b] about the first, then by [c] about the third, as in z-x-z Euler angles. *)
Definition about_z (a : R) (i j : nat) : R :=
  match i, j with
  | 0%nat, 0%nat | 1%nat, 1%nat => cos a | 0%nat, 1%nat => - sin a | 1%nat, 0%nat => sin a | 2%nat, 2%nat => 1 | _, _ => 0
  end.
Definition about_x (a : R) (i j : nat) : R :=
  match i, j with
  | 1%nat, 1%nat | 2%nat, 2%nat => cos a | 1%nat, 2%nat => - sin a | 2%nat, 1%nat => sin a | 0%nat, 0%nat => 1 | _, _ => 0
  end.
Definition product (a b : nat -> nat -> R) (i j : nat) : R := rsum 3 (fun k => a i k * b k j).
Definition zxz (a b c : R) : nat -> nat -> R := product (product (about_z a) (about_x b)) (about_z c).
(** The same axes: the columns agree up to their signs. *)
Definition same_axes (n : nat) (a b : nat -> nat -> R) : Prop :=
  forall j, (j < n)%nat -> exists s, (s = 1 \/ s = -1) /\ forall i, (i < n)%nat -> a i j = s * b i j.
