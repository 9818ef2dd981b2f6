From Coq Require Import Reals List Arith.
From Verif Require Import Model.LinAlg.
Import ListNotations.
Local Open Scope R_scope.

(** CoarseGrid (include/polatory/preconditioner/coarse_grid.hpp) and FineGrid (fine_grid.hpp). Numbers are real. The
    answers of Eigen's LDLT and FullPivLU solvers are given ([ldlt] reads only the lower triangle of its matrix). *)
Section Grid.
Variable dim : nat.
(** Size of the polynomial basis, number of points of the whole problem, indices of the grid. *)
Variable l mu_full : nat.
Variable pidx gidx : list nat.
(** Within coarse_grid.hpp:134-141. *)
Definition g_mu : nat := length pidx.
(** Within coarse_grid.hpp:134-141. *)
Definition g_size : nat := (g_mu + dim * length gidx)%nat.

(** The rows of the grid: the points, then [dim] rows from [base] on per gradient point. *)
Definition rows (base : nat) : list nat :=
  pidx ++ flat_map (fun i => map (fun j => (base + dim * i + j)%nat) (seq 0 dim)) gidx.
(** The row in the whole problem (coarse_grid.hpp:91-107: tail(kDim * sigma_full_) begins at row mu_full). *)
Definition row (r : nat) : nat := nth r (rows mu_full) 0%nat.
(** flat_indices (coarse_grid.hpp:50-56, fine_grid.hpp:69-75) counts from mu_, the number of points of the grid. *)
Definition flat_index (r : nat) : nat := nth r (rows g_mu) 0%nat.

(** The matrix of the grid (mat_a), the polynomial basis and the Lagrange basis at the rows of the whole problem. *)
Variable a : nat -> nat -> R.
Variable p_full lagrange_full : nat -> nat -> R.
Variable ldlt : nat -> (nat -> nat -> R) -> (nat -> R) -> nat -> R.
Variable lu : nat -> (nat -> nat -> R) -> (nat -> R) -> nat -> R.

(** setup, coarse_grid.hpp:49-68, with the rows of the Lagrange basis looked up by [look]. *)
Section Elimination.
Variable look : nat -> nat.
(** Within coarse_grid.hpp:49-68. *)
Definition q_top (k j : nat) : R := - lagrange_full (look (l + j)%nat) k.
(** Within coarse_grid.hpp:49-68. *)
Definition qtaq (i j : nat) : R :=
  rsum l (fun k => rsum l (fun k' => q_top k i * a k k' * q_top k' j)) +
  rsum l (fun k => q_top k i * a k (l + j)%nat) +
  rsum l (fun k => a (l + i)%nat k * q_top k j) +
  a (l + i)%nat (l + j)%nat.
(** Within coarse_grid.hpp:49-68. *)
Definition qtd (d : nat -> R) (j : nat) : R := rsum l (fun k => q_top k j * d k) + d (l + j)%nat.

(** solve (coarse_grid.hpp:101-131; fine_grid.hpp:112-143): the RBF weights of the grid. *)
Definition weights (values_full : nat -> R) : nat -> R :=
  let d := fun r => values_full (row r) in
  if Nat.eqb l 0 then ldlt g_size a d
  else if (l <? g_size)%nat then
    let gamma := ldlt (g_size - l)%nat qtaq (qtd d) in
    fun r => if (r <? l)%nat then rsum (g_size - l) (fun j => q_top r j * gamma j) else gamma (r - l)%nat
  else fun _ => 0.
(** coarse_grid.hpp:125-127: the polynomial coefficients; p_top are the first l rows (coarse_grid.hpp:72-80). *)
Definition coefficients (values_full : nat -> R) : nat -> R :=
  lu l (fun i k => p_full (row i) k)
    (fun i => values_full (row i) - rsum g_size (fun j => a i j * weights values_full j)).
End Elimination.

(** As written. *)
Definition grid_weights := weights flat_index.
(** Within coarse_grid.hpp:72-80. *)
Definition grid_coefficients := coefficients flat_index.

(** CoarseGrid::set_solution_to (coarse_grid.hpp:91-99) on a vector of zeros: assignments in the order of the rows. *)
Definition scatter (sigma_full : nat) (lambda c : nat -> R) : nat -> R :=
  fun i => if (mu_full + dim * sigma_full <=? i)%nat then c (i - (mu_full + dim * sigma_full))%nat
           else fold_left (fun w r => if Nat.eqb (row r) i then lambda r else w) (seq 0 g_size) 0.
End Grid.

(** LagrangeBasis (lagrange_basis.hpp:32-62): [coeffs] is the answer of FullPivLU::inverse. *)
Definition lagrange (l : nat) (p_full coeffs : nat -> nat -> R) (r k : nat) : R := rsum l (fun j => p_full r j * coeffs j k).
