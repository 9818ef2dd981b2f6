From Coq Require Import Reals List Arith ZArith.
From Verif Require Import Model.LinAlg.
Import ListNotations.
Local Open Scope R_scope.

(** PolynomialBasisBase::basis_size (polynomial/polynomial_basis_base.hpp:26-45); other dimensions are unreachable. *)
Definition basis_size (dim : nat) (degree : Z) : nat :=
  if (degree <? 0)%Z then 0%nat else
  let k := (Z.to_nat degree + 1)%nat in
  match dim with
  | 1%nat => k
  | 2%nat => (k * (k + 1) / 2)%nat
  | 3%nat => (k * (k + 1) * (k + 2) / 6)%nat
  | _ => 0%nat
  end.

(** MonomialBasis::evaluate (polynomial/monomial_basis.hpp:31-262): one column per basis function, with its values and its
    partial derivatives as written out for each dimension and degree. Arithmetic is real. *)
Definition column : Type := ((nat -> R) -> R) * list ((nat -> R) -> R).
(** Within polynomial/monomial_basis.hpp:31-262. *)
Definition columns (dim degree : nat) : list column :=
  match dim, degree with
  | 1%nat, 0%nat => [(fun _ => 1, [fun _ => 0])]
  | 1%nat, 1%nat => [(fun _ => 1, [fun _ => 0]); (fun p => p 0%nat, [fun _ => 1])]
  | 1%nat, 2%nat => [(fun _ => 1, [fun _ => 0]); (fun p => p 0%nat, [fun _ => 1]); (fun p => p 0%nat * p 0%nat, [fun p => 2 * p 0%nat])]
  | 2%nat, 0%nat => [(fun _ => 1, [fun _ => 0; fun _ => 0])]
  | 2%nat, 1%nat => [(fun _ => 1, [fun _ => 0; fun _ => 0]); (fun p => p 0%nat, [fun _ => 1; fun _ => 0]); (fun p => p 1%nat, [fun _ => 0; fun _ => 1])]
  | 2%nat, 2%nat => [(fun _ => 1, [fun _ => 0; fun _ => 0]); (fun p => p 0%nat, [fun _ => 1; fun _ => 0]); (fun p => p 1%nat, [fun _ => 0; fun _ => 1]);
             (fun p => p 0%nat * p 0%nat, [fun p => 2 * p 0%nat; fun _ => 0]);
             (fun p => p 0%nat * p 1%nat, [fun p => p 1%nat; fun p => p 0%nat]);
             (fun p => p 1%nat * p 1%nat, [fun _ => 0; fun p => 2 * p 1%nat])]
  | 3%nat, 0%nat => [(fun _ => 1, [fun _ => 0; fun _ => 0; fun _ => 0])]
  | 3%nat, 1%nat => [(fun _ => 1, [fun _ => 0; fun _ => 0; fun _ => 0]); (fun p => p 0%nat, [fun _ => 1; fun _ => 0; fun _ => 0]);
             (fun p => p 1%nat, [fun _ => 0; fun _ => 1; fun _ => 0]); (fun p => p 2%nat, [fun _ => 0; fun _ => 0; fun _ => 1])]
  | 3%nat, 2%nat => [(fun _ => 1, [fun _ => 0; fun _ => 0; fun _ => 0]); (fun p => p 0%nat, [fun _ => 1; fun _ => 0; fun _ => 0]);
             (fun p => p 1%nat, [fun _ => 0; fun _ => 1; fun _ => 0]); (fun p => p 2%nat, [fun _ => 0; fun _ => 0; fun _ => 1]);
             (fun p => p 0%nat * p 0%nat, [fun p => 2 * p 0%nat; fun _ => 0; fun _ => 0]);
             (fun p => p 0%nat * p 1%nat, [fun p => p 1%nat; fun p => p 0%nat; fun _ => 0]);
             (fun p => p 0%nat * p 2%nat, [fun p => p 2%nat; fun _ => 0; fun p => p 0%nat]);
             (fun p => p 1%nat * p 1%nat, [fun _ => 0; fun p => 2 * p 1%nat; fun _ => 0]);
             (fun p => p 1%nat * p 2%nat, [fun _ => 0; fun p => p 2%nat; fun p => p 1%nat]);
             (fun p => p 2%nat * p 2%nat, [fun _ => 0; fun _ => 0; fun p => 2 * p 2%nat])]
  | _, _ => []
  end.
(** Helper without code of its own. *)
Definition no_column : column := (fun _ => 0, []).
(** The matrix: a row per point, then [dim] rows per gradient point. *)
Definition evaluate (dim degree mu : nat) (points grad_points : nat -> nat -> R) (i k : nat) : R :=
  let col := nth k (columns dim degree) no_column in
  if (i <? mu)%nat then fst col (points i)
  else nth ((i - mu) mod dim) (snd col) (fun _ => 0) (grad_points ((i - mu) / dim)%nat).

(** LagrangeBasis (polynomial/lagrange_basis.hpp:32-62): the monomials times [coeffs], the answer of FullPivLU::inverse for the
    monomials at the nodes. *)
Definition lagrange_evaluate (dim degree l : nat) (coeffs : nat -> nat -> R) (mu : nat) (points grad_points : nat -> nat -> R) (i k : nat) : R :=
  rsum l (fun j => evaluate dim degree mu points grad_points i j * coeffs j k).
