From Coq Require Import Reals List Arith.
From Verif Require Import Model.LinAlg Model.MonomialBasis Model.Operator Model.Grid.
Import ListNotations.
Local Open Scope R_scope.

(** The problem that a grid of the preconditioner solves (include/polatory/preconditioner/coarse_grid.hpp,
    ras_preconditioner.hpp), put together from the matrix (Operator), the polynomials (MonomialBasis) and the solve (Grid).
    Numbers are real. Points are functions of their coordinate. *)

(** points_full(point_idcs_, kAll) and grad_points_full(grad_point_idcs_, kAll) (coarse_grid.hpp:42-43, fine_grid.hpp:61-62). *)
Definition sub_nodes (n : nodes (nat -> R)) (pidx gidx : list nat) : nodes (nat -> R) :=
  Nodes (nat -> R) (length pidx) (length gidx) (fun i => pt (nat -> R) n (nth i pidx 0%nat)) (fun j => gpt (nat -> R) n (nth j gidx 0%nat)).

(** basis_size (polynomial/polynomial_basis_base.hpp:26-45); the degree -1 is None. *)
Definition basis_size (dim : nat) (degree : option nat) : nat := match degree with None => 0%nat | Some k => length (columns dim k) end.
(** MonomialBasis::evaluate at the rows of the problem (ras_preconditioner.hpp:174-175); no column for the degree -1. *)
Definition basis (dim : nat) (degree : option nat) (n : nodes (nat -> R)) : nat -> nat -> R :=
  match degree with None => fun _ _ => 0 | Some k => MonomialBasis.evaluate dim k (mu (nat -> R) n) (pt (nat -> R) n) (gpt (nat -> R) n) end.

Section Grid.
Variable dim : nat.
Variable dif : (nat -> R) -> (nat -> R) -> nat -> R.
Variable rbfs : list (rbf (nat -> R)).
Variable nugget : R.
Variable degree : option nat.
(** The answers of FullPivLU::inverse for the Lagrange basis, of LDLT and of FullPivLU. *)
Variable coeffs : nat -> nat -> R.
Variable ldlt lu : nat -> (nat -> nat -> R) -> (nat -> R) -> nat -> R.
Variable n : nodes (nat -> R).
Variable pidx gidx : list nat.

(** a (coarse_grid.hpp:46). *)
Definition grid_matrix : nat -> nat -> R := mat_a (nat -> R) dif (fun _ => 0) dim rbfs nugget (sub_nodes n pidx gidx).
(** lagrange_p_ (ras_preconditioner.hpp:84-93). *)
Definition lagrange_full : nat -> nat -> R := lagrange (basis_size dim degree) (basis dim degree n) coeffs.
(** The matrix that is decomposed (coarse_grid.hpp:63-67). *)
Definition reduced : nat -> nat -> R := qtaq (basis_size dim degree) grid_matrix lagrange_full (flat_index dim pidx gidx).
(** p_top (coarse_grid.hpp:72-80): the polynomials at the first rows of the grid. *)
Definition top_rows (i k : nat) : R := basis dim degree n (Grid.row dim (mu (nat -> R) n) pidx gidx i) k.
(** The head and the tail of lambda_c_ after solve (coarse_grid.hpp:101-131). *)
Definition problem_weights (v : nat -> R) : nat -> R :=
  grid_weights dim (basis_size dim degree) (mu (nat -> R) n) pidx gidx grid_matrix lagrange_full ldlt v.
(** Within coarse_grid.hpp:101-131. *)
Definition problem_coefficients (v : nat -> R) : nat -> R :=
  grid_coefficients dim (basis_size dim degree) (mu (nat -> R) n) pidx gidx grid_matrix (basis dim degree n) lagrange_full ldlt lu v.
(** solve(0, ...) of the preconditioner (ras_preconditioner.hpp:280-297): solve and set_solution_to a vector of zeros. *)
Definition coarse_correction (v : nat -> R) : nat -> R :=
  scatter dim (mu (nat -> R) n) pidx gidx (sigma (nat -> R) n) (problem_weights v) (problem_coefficients v).
End Grid.
