From Coq Require Import Reals List Arith Lia Lra Permutation.
From Verif Require Import Proofs.LinAlg Proofs.Grid Proofs.PositiveSystem Proofs.Pivots Proofs.GridProblem Proofs.OneLevel.
From Verif Require Import Model.LinAlg Model.MonomialBasis Model.Rbfs Model.Operator Model.Grid Model.GridProblem Model.RasPreconditioner Model.Gmres.
From Verif Require Import Spec.Rbfs Spec.Operator Spec.PositiveDefinite Spec.Hermite Spec.Grid Spec.RasPreconditioner Spec.Gmres Spec.GridProblem.
Import ListNotations.
Local Open Scope R_scope.

(** C71: the matrix that a grid decomposes is positive definite: all pivots are positive. *)
Theorem C71_reduced : forall d degree n terms nugget pidx gidx coeffs, good_problem d degree n terms nugget -> indices_ok n pidx gidx ->
  good_basis d degree n pidx gidx coeffs -> rows_found (basis_size d degree) n pidx gidx -> (0 < basis_size d degree)%nat ->
  let k := (g_size d pidx gidx - basis_size d degree)%nat in
  let q := reduced d difference (map (term_rbf d) terms) nugget degree coeffs n pidx gidx in
  definite k any q /\ symmetric k q /\ forall i, (i < k)%nat -> 0 < pivot k q i.
Proof.
  intros d degree n terms nugget pidx gidx coeffs (D & DG & PO) OK (LM & INV) RF L0 k q.
  assert (A := reduced_definite d degree n terms nugget pidx gidx coeffs D DG PO OK LM INV RF L0).
  assert (B := reduced_symmetric d degree n terms nugget pidx gidx coeffs). split; [|split]; auto. apply pivots_positive; auto.
Qed.
Print Assumptions C71_reduced.
(** C71: so is the matrix of a grid without polynomials. *)
Theorem C71_plain : forall d n terms nugget pidx gidx, good_problem d None n terms nugget -> indices_ok n pidx gidx ->
  let k := g_size d pidx gidx in let a := grid_matrix d difference (map (term_rbf d) terms) nugget n pidx gidx in
  definite k any a /\ symmetric k a /\ forall i, (i < k)%nat -> 0 < pivot k a i.
Proof.
  intros d n terms nugget pidx gidx (D & DG & PO) OK k a.
  assert (A := plain_definite d None n terms nugget pidx gidx D DG PO OK (Nat.le_0_l _) eq_refl).
  assert (B := mat_a_symmetric d terms nugget (sub_nodes n pidx gidx) k). split; [|split]; auto. apply pivots_positive; auto.
Qed.
Print Assumptions C71_plain.
(** C71: elimination without exchanges solves such systems from the lower triangle, and they have no other solution. *)
Theorem C71_elimination : forall n a, right_ldlt (fun n a => eliminate n (lower a)) n a /\ (definite n any a -> solved_once n a).
Proof. intros n a. split; [apply eliminate_right|apply definite_once]. Qed.
Print Assumptions C71_elimination.

(** C71: the weights and coefficients of a grid are the only ones that fit its values and are orthogonal to the polynomials. *)
Theorem C71_grid : forall d degree n terms nugget pidx gidx coeffs ldlt lu, good_problem d degree n terms nugget -> indices_ok n pidx gidx ->
  good_basis d degree n pidx gidx coeffs -> rows_found (basis_size d degree) n pidx gidx ->
  good_solvers d degree n terms nugget pidx gidx coeffs ldlt lu -> forall v,
  let rbfs := map (term_rbf d) terms in let m := g_size d pidx gidx in let l := basis_size d degree in
  let a := grid_matrix d difference rbfs nugget n pidx gidx in let p := basis d degree (sub_nodes n pidx gidx) in
  let values := fun r => v (Grid.row d (values n) pidx gidx r) in
  let w := problem_weights d difference rbfs nugget degree coeffs ldlt n pidx gidx v in
  let c := problem_coefficients d difference rbfs nugget degree coeffs ldlt lu n pidx gidx v in
  interpolates m l a p values w c /\ orthogonal m l p w /\
  forall w' c', interpolates m l a p values w' c' -> orthogonal m l p w' ->
  (forall r, (r < m)%nat -> w' r = w r) /\ (forall k, (k < l)%nat -> c' k = c k).
Proof.
  intros d degree n terms nugget pidx gidx coeffs ldlt lu (D & DG & PO) OK (LM & INV) RF (RL & RP & RU) v. cbv zeta.
  exact (grid_problem d degree n terms nugget pidx gidx coeffs ldlt lu D DG PO OK LM INV RF RL RP RU v).
Qed.
Print Assumptions C71_grid.

(** C71: with one level (up to about a thousand rows) the preconditioner inverts the operator, with or without a nugget. *)
Theorem C71_one_level : forall d degree n terms nugget pidx gidx coeffs ldlt lu, good_problem d degree n terms nugget -> all_indices n pidx gidx ->
  good_basis d degree n pidx gidx coeffs -> good_solvers d degree n terms nugget pidx gidx coeffs ldlt lu ->
  let rbfs := map (term_rbf d) terms in let m := rows d n in let l := basis_size d degree in let p := basis d degree n in
  let solve := fun _ => coarse_correction d difference rbfs nugget degree coeffs ldlt lu n pidx gidx in
  forall ss, schedules_ok (nat -> R) rbfs m ss -> let A := direct_operator (nat -> R) difference d rbfs nugget l ss n p in
  forall lev kern v, let w := precondition m l lev kern p solve 1 v in (forall i, (i < m)%nat -> A w i = v i) /\ zero_tail m l (A w).
Proof.
  intros d degree n terms nugget pidx gidx coeffs ldlt lu (D & DG & PO) AI (LM & INV) (RL & RP & RU). cbv zeta.
  exact (one_level d degree n terms nugget pidx gidx coeffs ldlt lu D DG PO LM INV RL RP RU AI).
Qed.
Print Assumptions C71_one_level.
(** C71: the first iteration of the solver then gives the solution, whatever the start. *)
Theorem C71_one_step : forall d degree n terms nugget pidx gidx coeffs ldlt lu, good_problem d degree n terms nugget -> all_indices n pidx gidx ->
  good_basis d degree n pidx gidx coeffs -> good_solvers d degree n terms nugget pidx gidx coeffs ldlt lu ->
  let rbfs := map (term_rbf d) terms in let m := rows d n in let l := basis_size d degree in let p := basis d degree n in
  let solve := fun _ => coarse_correction d difference rbfs nugget degree coeffs ldlt lu n pidx gidx in
  forall ss, schedules_ok (nat -> R) rbfs m ss -> let A := direct_operator (nat -> R) difference d rbfs nugget l ss n p in
  forall lev kern max_iter x0 rhs, let M := precondition m l lev kern p solve 1 in
  (1 <= max_iter)%nat -> zero_tail m l rhs -> zero_tail m l (A x0) -> good_start (m + l) (is_zero (m + l) x0) x0 ->
  (exists i, (i < m + l)%nat /\ A x0 i <> rhs i) ->
  let st := gmres (m + l) max_iter A (fun x => x) M x0 rhs 1 in
  absolute_residual st = Some 0 /\ forall i, (i < m + l)%nat -> A (fgmres_solution x0 st) i = rhs i.
Proof.
  intros d degree n terms nugget pidx gidx coeffs ldlt lu (D & DG & PO) AI (LM & INV) (RL & RP & RU). cbv zeta.
  exact (one_step d degree n terms nugget pidx gidx coeffs ldlt lu D DG PO LM INV RL RP RU AI).
Qed.
Print Assumptions C71_one_step.
(** C71: with more levels and no nugget the preconditioner inverts the operator on the coarse rows and is orthogonal to the
    polynomials, whatever the fine grids do on their rows. *)
Theorem C71_levels : forall d degree n terms pidx gidx coeffs ldlt lu, good_problem d degree n terms 0 -> indices_ok n pidx gidx ->
  good_basis d degree n pidx gidx coeffs -> rows_found (basis_size d degree) n pidx gidx -> good_solvers d degree n terms 0 pidx gidx coeffs ldlt lu ->
  let rbfs := map (term_rbf d) terms in let m := rows d n in let l := basis_size d degree in let p := basis d degree n in
  let a := mat_a (nat -> R) difference (fun _ => 0) d rbfs 0 n in
  forall n_levels lev solve, (1 < n_levels)%nat -> nested m n_levels lev -> lev 0%nat = Grid.rows d pidx gidx (values n) ->
  (forall k r i, (0 < k < n_levels)%nat -> (i < m)%nat -> ~ In i (lev k) -> solve k r i = 0) ->
  solve 0%nat = coarse_correction d difference rbfs 0 degree coeffs ldlt lu n pidx gidx ->
  forall v, let w := precondition m l lev a p solve n_levels v in
  (forall i, In i (lev 0%nat) -> applied m l a p w i = v i) /\ orthogonal m l p w.
Proof.
  intros d degree n terms pidx gidx coeffs ldlt lu (D & DG & PO) OK (LM & INV) RF (RL & RP & RU). cbv zeta.
  exact (more_levels d degree n terms 0 pidx gidx coeffs ldlt lu D DG PO LM INV RL RP RU eq_refl OK RF).
Qed.
Print Assumptions C71_levels.

(** Two points of a line, the second one for the constants, a biharmonic term: all assumptions hold. *)
Definition line_points : data := points 2 (fun i _ => INR i).
Definition distance_term : term := Term Bh3 1 0 (fun i j => if Nat.eqb i j then 1 else 0).
Definition divide (n : nat) (a : nat -> nat -> R) (b : nat -> R) (i : nat) : R := b i / a 0%nat 0%nat.
Example C71_two_points : good_problem 1 (Some 0%nat) line_points [distance_term] 0 /\ all_indices line_points [1; 0]%nat [] /\
  good_basis 1 (Some 0%nat) line_points [1; 0]%nat [] (fun _ _ => 1) /\
  good_solvers 1 (Some 0%nat) line_points [distance_term] 0 [1; 0]%nat [] (fun _ _ => 1) (fun n a => eliminate n (lower a)) divide /\
  schedules_ok (nat -> R) (map (term_rbf 1) [distance_term]) (rows 1 line_points) [([0%nat], fun _ => 0%nat)] /\
  eliminate 2 (fun i j => if Nat.eqb i j then 2 else 1) (fun i => if Nat.eqb i 0 then 4 else 5) 1 = 2 /\
  pivot 2 (fun i j => if Nat.eqb i j then 2 else 1) 1 = 3 / 2.
Proof.
  split; [|split; [|split; [|split; [|split; [|split]]]]].
  - split; [lia|split; [cbn; lia|]]. left. split; [reflexivity|split].
    + constructor; auto. exists 1%nat. cbn. split; [reflexivity|]. split; [lia|]. split; [lra|]. split; [lia|].
      intros v H e E. specialize (H e E). assert (e = 0%nat) as -> by lia. unfold mat_vec in H. cbn in H. lra.
    + right. split; [reflexivity|]. split; [|exists distance_term; cbn; split; [auto|lra]]. intros i j I J NE. exists 0%nat. split; [lia|].
      cbn. intros E. apply INR_eq in E. contradiction.
  - split; [constructor|reflexivity].
  - split; [cbn; lia|]. intros i j I J. cbn in I, J. assert (i = 0%nat) as -> by lia. assert (j = 0%nat) as -> by lia. cbn. lra.
  - split; [intros; apply eliminate_right|split; [intros; apply eliminate_right|]]. intros _ b i I. cbn in I. assert (i = 0%nat) as -> by lia.
    unfold mat_vec, divide. cbn. lra.
  - split; auto. constructor; auto. split; cbn; [repeat constructor; auto|auto].
  - cbn. lra.
  - cbn. lra.
Qed.
