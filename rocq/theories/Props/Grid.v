From Coq Require Import Reals List Arith Lia Lra.
From Verif Require Import Model.LinAlg Model.Grid Spec.Grid Proofs.Grid.
Import ListNotations.
Local Open Scope R_scope.

(** C24: the weights and coefficients of a grid fit its values exactly and are orthogonal to the polynomials, provided that
    the rows of the Lagrange basis are found: the grid has all points, no gradient points, or there are no polynomials. *)
Theorem C24_grid : forall dim l mu_full pidx gidx a p_full coeffs ldlt lu v,
  let m := g_size dim pidx gidx in
  let lag := lagrange l p_full coeffs in
  let p := fun r k => p_full (row dim mu_full pidx gidx r) k in
  (l <= m)%nat -> left_inverse l coeffs p -> symmetric m a -> g_mu pidx = mu_full \/ gidx = [] \/ l = 0%nat ->
  ((0 < l < m)%nat -> exact_ldlt ldlt (m - l) (qtaq l a lag (flat_index dim pidx gidx))) ->
  (l = 0%nat -> exact_ldlt ldlt m a) -> exact_lu lu l p ->
  interpolates m l a p (fun r => v (row dim mu_full pidx gidx r)) (grid_weights dim l mu_full pidx gidx a lag ldlt v)
    (grid_coefficients dim l mu_full pidx gidx a p_full lag ldlt lu v) /\
  orthogonal m l p (grid_weights dim l mu_full pidx gidx a lag ldlt v).
Proof. exact grid_solves. Qed.
Print Assumptions C24_grid.

(** C24: in the rows of the whole problem: the correction of the coarse grid has the given residuals on the rows of the grid, is
    zero on all others and orthogonal to the polynomials. *)
Theorem C24_coarse : forall dim l mu_full pidx gidx a p_full coeffs ldlt lu sigma_full,
  (forall i, In i pidx -> (i < mu_full)%nat) -> (forall i, In i gidx -> (i < sigma_full)%nat) -> NoDup pidx -> NoDup gidx ->
  forall a_full v,
  let m := g_size dim pidx gidx in
  let n := (mu_full + dim * sigma_full)%nat in
  let lag := lagrange l p_full coeffs in
  let p := fun r k => p_full (row dim mu_full pidx gidx r) k in
  (forall i j, (i < m)%nat -> (j < m)%nat -> a i j = a_full (row dim mu_full pidx gidx i) (row dim mu_full pidx gidx j)) ->
  symmetric n a_full -> (l <= m)%nat -> left_inverse l coeffs p -> g_mu pidx = mu_full \/ gidx = [] \/ l = 0%nat ->
  ((0 < l < m)%nat -> exact_ldlt ldlt (m - l) (qtaq l a lag (flat_index dim pidx gidx))) ->
  (l = 0%nat -> exact_ldlt ldlt m a) -> exact_lu lu l p ->
  let w := scatter dim mu_full pidx gidx sigma_full (grid_weights dim l mu_full pidx gidx a lag ldlt v)
             (grid_coefficients dim l mu_full pidx gidx a p_full lag ldlt lu v) in
  (forall i, In i (rows dim pidx gidx mu_full) -> mat_vec n a_full w i + mat_vec l p_full (fun k => w (n + k)%nat) i = v i) /\
  orthogonal n l p_full w /\
  (forall i, (i < n)%nat -> ~ In i (rows dim pidx gidx mu_full) -> w i = 0).
Proof. exact coarse_full. Qed.
Print Assumptions C24_coarse.

(** C24: a grid with some of the points and a gradient point eliminates with the wrong row: whatever the solver answers, if it
    is right then the weights are not orthogonal to the constants. *)
Theorem C24_wrong_rows_refuted :
  let p := fun r k => wrong_p (row 1 3 [0; 1]%nat [0]%nat r) k in
  let q := qtaq 1 wrong_a (lagrange 1 wrong_p unit) (flat_index 1 [0; 1]%nat [0]%nat) in
  left_inverse 1 unit p /\ symmetric 3 wrong_a /\ exact_ldlt solve2 2 q /\
  forall ldlt, exact_ldlt ldlt 2 q ->
  ~ orthogonal 3 1 p (grid_weights 1 1 3 [0; 1]%nat [0]%nat wrong_a (lagrange 1 wrong_p unit) ldlt wrong_v).
Proof. exact wrong_rows. Qed.
Print Assumptions C24_wrong_rows_refuted.

(** Three points listed out of order, a constant: all assumptions hold and the weights are the deviations from the mean. *)
Definition first_row (n : nat) (a : nat -> nat -> R) (b : nat -> R) (i : nat) : R := b i / a 0%nat 0%nat.
Example C24_deviations :
  let v := fun r => nth r [1; 2; 6] 0 in
  let lag := lagrange 1 wrong_p unit in
  let pidx := [2; 0; 1]%nat in
  left_inverse 1 unit (fun r k => wrong_p (row 1 3 pidx [] r) k) /\ symmetric 3 wrong_a /\
  exact_ldlt solve2 2 (qtaq 1 wrong_a lag (flat_index 1 pidx [])) /\
  exact_lu first_row 1 (fun r k => wrong_p (row 1 3 pidx [] r) k) /\
  let lam := grid_weights 1 1 3 pidx [] wrong_a lag solve2 v in
  lam 0%nat = 3 /\ lam 1%nat = - 2 /\ lam 2%nat = - 1 /\
  grid_coefficients 1 1 3 pidx [] wrong_a wrong_p lag solve2 first_row v 0%nat = 3.
Proof.
  cbv zeta. split; [|split; [|split; [|split]]].
  - intros i j I J. replace i with 0%nat by lia. replace j with 0%nat by lia. cbn. unfold unit, wrong_p. cbn. lra.
  - intros i j I J. unfold wrong_a. rewrite Nat.eqb_sym. auto.
  - intros b i I. destruct i as [|[|i]]; [| |lia]; unfold mat_vec, solve2, lower, qtaq, q_top, lagrange, flat_index, wrong_a, wrong_p, unit; cbn; lra.
  - intros b i I. replace i with 0%nat by lia. unfold mat_vec, first_row, wrong_p. cbn. lra.
  - unfold grid_weights, grid_coefficients, coefficients, weights, solve2, first_row, qtd, q_top, lagrange, flat_index, row, wrong_a, wrong_p, unit; cbn. repeat split; lra.
Qed.
