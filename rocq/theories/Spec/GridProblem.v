From Coq Require Import Reals List Arith Permutation.
From Verif Require Import Model.LinAlg Model.MonomialBasis Model.Operator Model.Grid Model.GridProblem.
From Verif Require Import Spec.Rbfs Spec.PositiveDefinite Spec.Hermite Spec.Grid.
Import ListNotations.
Local Open Scope R_scope.

(** The number of moments that vanish for weights orthogonal to the polynomials of a degree (None is -1). *)
Definition order (degree : option nat) : nat := match degree with None => 0%nat | Some k => S k end.
Definition degree_ok (degree : option nat) : Prop := match degree with None => True | Some k => (k <= 2)%nat end.
(** The data and the terms of a model whose interpolation problem is covered by C64 or C65: values only, or also gradients. *)
Definition posed (d m : nat) (n : data) (terms : list term) (nugget : R) : Prop :=
  (gradients n = 0%nat /\ Forall (good_term d m) terms /\ has_weight (values n) d (pt (nat -> R) n) terms nugget) \/
  (Forall (usable d m n) terms /\ separated d n terms nugget).
(** Indices of different points. *)
Definition indices_ok (n : data) (pidx gidx : list nat) : Prop :=
  NoDup pidx /\ NoDup gidx /\ (forall i, In i pidx -> (i < values n)%nat) /\ (forall i, In i gidx -> (i < gradients n)%nat).
(** The grid has all points, no gradient points, or there are no polynomials: see C24. *)
Definition rows_found (l : nat) (n : data) (pidx gidx : list nat) : Prop := length pidx = values n \/ gidx = [] \/ l = 0%nat.

(** Every weight. *)
Definition any (w : nat -> R) : Prop := True.
(** A solver that is right for a positive definite matrix, given as its lower triangle, and one that is right for a matrix that
    takes every value once. *)
Definition right_ldlt (ldlt : nat -> (nat -> nat -> R) -> (nat -> R) -> nat -> R) (n : nat) (a : nat -> nat -> R) : Prop :=
  definite n any (lower a) -> exact_ldlt ldlt n a.
Definition right_lu (lu : nat -> (nat -> nat -> R) -> (nat -> R) -> nat -> R) (n : nat) (a : nat -> nat -> R) : Prop :=
  solved_once n a -> exact_lu lu n a.

(** Such a solver: elimination of the first unknown and the same for the rest; it divides by the pivots. *)
Fixpoint eliminate (n : nat) (a : nat -> nat -> R) (b : nat -> R) : nat -> R :=
  match n with
  | O => fun _ => 0
  | S k =>
      let y := eliminate k (fun i j => a (S i) (S j) - a (S i) 0%nat / a 0%nat 0%nat * a 0%nat (S j))
                 (fun i => b (S i) - a (S i) 0%nat / a 0%nat 0%nat * b 0%nat) in
      fun i => match i with O => (b 0%nat - rsum k (fun j => a 0%nat (S j) * y j)) / a 0%nat 0%nat | S i' => y i' end
  end.
Fixpoint pivot (n : nat) (a : nat -> nat -> R) (k : nat) : R :=
  match n, k with
  | S n', S k' => pivot n' (fun i j => a (S i) (S j) - a (S i) 0%nat / a 0%nat 0%nat * a 0%nat (S j)) k'
  | _, _ => a 0%nat 0%nat
  end.
(** One level: all points, those of the polynomials first, and all gradient points (ras_preconditioner.hpp:80-113). *)
Definition all_indices (n : data) (pidx gidx : list nat) : Prop := Permutation pidx (seq 0 (values n)) /\ gidx = seq 0 (gradients n).
(** A right-hand side and a start whose polynomial rows are zero, as in Solver::solve (interpolation/solver.hpp:84-100). *)
Definition zero_tail (m l : nat) (v : nat -> R) : Prop := forall k, (k < l)%nat -> v (m + k)%nat = 0.
(** What the theorems assume: a model and data covered by C64 or C65; points for the polynomials that determine them, with the
    right answer of FullPivLU::inverse; solvers that are right for the matrices they are given. *)
Definition good_problem (d : nat) (degree : option nat) (n : data) (terms : list term) (nugget : R) : Prop :=
  (1 <= d <= 3)%nat /\ degree_ok degree /\ posed d (order degree) n terms nugget.
Definition good_basis (d : nat) (degree : option nat) (n : data) (pidx gidx : list nat) (coeffs : nat -> nat -> R) : Prop :=
  let l := basis_size d degree in (l <= g_size d pidx gidx)%nat /\ left_inverse l coeffs (top_rows d degree n pidx gidx).
Definition good_solvers (d : nat) (degree : option nat) (n : data) (terms : list term) (nugget : R) (pidx gidx : list nat) (coeffs : nat -> nat -> R)
    (ldlt lu : nat -> (nat -> nat -> R) -> (nat -> R) -> nat -> R) : Prop :=
  let l := basis_size d degree in let m := g_size d pidx gidx in let rbfs := map (term_rbf d) terms in
  ((0 < l < m)%nat -> right_ldlt ldlt (m - l) (reduced d difference rbfs nugget degree coeffs n pidx gidx)) /\
  (l = 0%nat -> right_ldlt ldlt m (grid_matrix d difference rbfs nugget n pidx gidx)) /\
  right_lu lu l (top_rows d degree n pidx gidx).
