From Coq Require Import Reals Lra List Arith Bool Lia Permutation.
From Verif Require Import Proofs.CoarsePoints Proofs.Levels Proofs.LevelsSweep Props.Levels.
From Verif Require Import Model.LinAlg Model.MonomialBasis Model.Rbfs Model.Operator Model.Grid Model.GridProblem Model.RasPreconditioner.
From Verif Require Import Spec.Rbfs Spec.Operator Spec.PositiveDefinite Spec.Hermite Spec.Grid Spec.RasPreconditioner Spec.GridProblem.
From Verif Require Import Model.Outcome Model.DomainDivider Spec.DomainDivider Model.Levels Spec.Levels.
Import ListNotations.
Local Open Scope nat_scope.

(** C82: on such a hierarchy every solve of the sweep reads the residuals of the weights accumulated so far, whatever the grids
    return and in whatever order the threads write. *)
Theorem C82_sweep : forall dim mu sigma poly wanted levels ls, 1 <= dim -> hierarchy_of dim mu sigma poly wanted levels ls ->
  forall coarse order, (forall k r ws, Permutation (order k r ws) ws) -> forall lam, 1 < levels ->
  (forall r i, ~ In i (level_rows dim mu ls 0) -> i < mu + dim * sigma -> coarse r i = 0%R) ->
  forall l kern p v, let lev := level_rows dim mu ls in let solve := level_solve dim mu ls coarse order lam in
  Forall (sound (mu + dim * sigma) l levels lev kern p v) (solves_of (mu + dim * sigma) l lev kern p solve (program levels) (start v)).
Proof. exact sweep_residuals. Qed.
Print Assumptions C82_sweep.

(** C82: with the coarse grid of C71, no nugget and no gradients beside polynomials, the preconditioner inverts the operator on
    the coarse rows and is orthogonal to the polynomials; the Lagrange basis need only be right for the polynomial points. *)
Theorem C82_exact : forall d degree n terms poly coeffs ldlt lu wanted levels ls coarse order lam,
  good_problem d degree n terms 0 -> hierarchy_of d (values n) (gradients n) poly wanted levels ls -> 1 < levels ->
  nth_error ls 0 = Some coarse -> length poly = basis_size d degree -> good_basis d degree n poly [] coeffs ->
  gradients n = 0 \/ basis_size d degree = 0 ->
  good_solvers d degree n terms 0 (g_points coarse) (g_grads coarse) coeffs ldlt lu ->
  (forall k r ws, Permutation (order k r ws) ws) ->
  let rbfs := map (term_rbf d) terms in let m := Hermite.rows d n in let l := basis_size d degree in let p := basis d degree n in
  let a := mat_a (nat -> R) difference (fun _ => 0%R) d rbfs 0 n in
  let lev := level_rows d (values n) ls in
  let solve := level_solve d (values n) ls (coarse_correction d difference rbfs 0 degree coeffs ldlt lu n (g_points coarse) (g_grads coarse)) order lam in
  forall v, let w := precondition m l lev a p solve levels v in
  (forall i, In i (lev 0) -> applied m l a p w i = v i) /\ orthogonal m l p w.
Proof. exact sweep_exact. Qed.
Print Assumptions C82_exact.

(** A hierarchy of three levels of nine points with one polynomial point exists. *)
Example C82_nine : exists ls, hierarchy_of 1 9 0 [4] (fun level => 2 * level) 3 ls.
Proof.
  destruct (C82_rounded 1 (fun n => half_even (n + 512)) (fun l => l) (fun l => l) (fun _ => 0) lowest (fun c _ => c_level c) (fun q => q) [4]) with
    (wanted := fun level => 2 * level) (levels := 3) (mu := 9) (sigma := 0) as (f & ls & _ & H).
  - lia.
  - apply C82_orders.
  - repeat constructor. intros [].
  - split; [repeat constructor; intros []|intros i [<-|[]]; lia].
  - lia.
  - split; [intros; lia|]. split; [intros; lia|intros _; cbn [length]; lia].
  - exists ls. exact H.
Qed.
