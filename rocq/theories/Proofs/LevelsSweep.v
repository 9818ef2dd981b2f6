From Coq Require Import Reals Lra List Arith Bool Lia Permutation.
From Verif Require Import Proofs.DomainWrites Proofs.Grid Proofs.GridProblem Proofs.OneLevel Proofs.RasPreconditioner Proofs.Levels.
From Verif Require Import Model.LinAlg Model.MonomialBasis Model.Rbfs Model.Operator Model.Grid Model.GridProblem Model.RasPreconditioner.
From Verif Require Import Spec.Rbfs Spec.Operator Spec.PositiveDefinite Spec.Hermite Spec.Grid Spec.RasPreconditioner Spec.GridProblem.
From Verif Require Import Model.DomainDivider Spec.DomainDivider Model.Levels Spec.Levels.
Import ListNotations.
Local Open Scope nat_scope.

Lemma level_indices : forall dim mu sigma poly wanted levels ls, hierarchy_of dim mu sigma poly wanted levels ls ->
  forall j k g, k + j = levels - 1 -> k < levels -> nth_error ls k = Some g ->
  (forall i, In i (g_points g) -> i < mu) /\ (forall i, In i (g_grads g) -> i < sigma).
Proof.
  intros dim mu sigma poly wanted levels ls (LEN & (f & F1 & F2 & F3) & ALL & NEXT). induction j as [|j IH]; intros k g E K G.
  - assert (k = levels - 1) by lia. subst k. rewrite F1 in G. injection G as <-. split; intros i I.
    + apply (Permutation_in _ F2), in_seq in I. lia.
    + rewrite F3 in I. apply in_seq in I. lia.
  - destruct (nth_error ls (S k)) as [fine|] eqn:FE; [|apply nth_error_None in FE; lia].
    destruct (IH (S k) fine ltac:(lia) ltac:(lia) FE) as [I1 I2]. destruct (NEXT k g fine G FE) as (_ & _ & S1 & S2).
    split; intros i I; [apply I1, S1; auto|apply I2, S2; auto].
Qed.

Section Sweep.
Variables dim mu sigma : nat.
Variable poly : list nat.
Variable wanted : nat -> nat.
Variable levels : nat.
Variable ls : list level_grids.
Hypothesis D : 1 <= dim.
Hypothesis H : hierarchy_of dim mu sigma poly wanted levels ls.
Variable coarse : (nat -> R) -> nat -> R.
Variable order : nat -> (nat -> R) -> list (nat * R) -> list (nat * R).
Hypothesis ORD : forall k r ws, Permutation (order k r ws) ws.
Variable lam : nat -> (nat -> R) -> nat -> nat -> R.
Notation solve := (level_solve dim mu ls coarse order lam).

Lemma fine_local : forall k r i, 0 < k < levels -> ~ In i (level_rows dim mu ls k) -> solve k r i = 0%R.
Proof.
  intros k r i [K0 K] NI. destruct k as [|k]; [lia|]. unfold level_solve. unfold level_rows in NI.
  destruct (nth_error ls (S k)) as [g|] eqn:G; [|reflexivity].
  destruct (level_indices dim mu sigma poly wanted levels ls H (levels - 1 - S k) (S k) g ltac:(lia) K G) as [R1 _].
  destruct H as (LEN & _ & ALL & NEXT). destruct (ALL _ _ G) as (N1 & N2 & _).
  destruct (nth_error ls k) as [c|] eqn:C; [|apply nth_error_None in C; lia].
  destruct (NEXT k c g C G) as (DIV & _).
  destruct (level_spec R dim D mu (g_domains g) (lam (S k) r) (g_points g) (g_grads g) poly (order (S k) r (level_writes R dim mu (g_domains g) (lam (S k) r)))
    (fun _ => 0%R) DIV N1 N2 R1 (ORD _ _ _)) as (_ & _ & _ & X & _).
  apply X; rewrite in_rows in NI; tauto.
Qed.
Lemma solve_local : (forall r i, ~ In i (level_rows dim mu ls 0) -> i < mu + dim * sigma -> coarse r i = 0%R) ->
  local_solve (mu + dim * sigma) levels (level_rows dim mu ls) solve.
Proof.
  intros CL k r i K I NI. destruct k as [|k]; [apply CL; auto|]. apply fine_local; auto. lia.
Qed.
Lemma sweep_residuals : 1 < levels -> (forall r i, ~ In i (level_rows dim mu ls 0) -> i < mu + dim * sigma -> coarse r i = 0%R) ->
  forall l kern p v, Forall (sound (mu + dim * sigma) l levels (level_rows dim mu ls) kern p v)
    (solves_of (mu + dim * sigma) l (level_rows dim mu ls) kern p solve (program levels) (start v)).
Proof.
  intros L CL l kern p v. apply program_sound; auto; [apply (hierarchy_nested dim mu sigma poly wanted); auto|apply solve_local; auto].
Qed.
End Sweep.

Lemma sweep_exact : forall d degree n terms poly coeffs ldlt lu wanted levels ls coarse order lam,
  good_problem d degree n terms 0 -> hierarchy_of d (values n) (gradients n) poly wanted levels ls -> 1 < levels ->
  nth_error ls 0 = Some coarse -> length poly = basis_size d degree -> good_basis d degree n poly [] coeffs ->
  gradients n = 0 \/ basis_size d degree = 0 ->
  good_solvers d degree n terms 0 (g_points coarse) (g_grads coarse) coeffs ldlt lu ->
  (forall k r ws, Permutation (order k r ws) ws) ->
  let rbfs := map (term_rbf d) terms in let m := Hermite.rows d n in let l := basis_size d degree in let p := basis d degree n in
  let a := mat_a (nat -> R) difference (fun _ => 0%R) d rbfs 0 n in
  let lev := level_rows d (values n) ls in
  let solve := level_solve d (values n) ls (coarse_correction d difference rbfs 0 degree coeffs ldlt lu n (g_points coarse) (g_grads coarse)) order lam in
  forall v, let w := precondition m l lev a p solve levels v in
  (forall i, In i (lev 0) -> applied m l a p w i = v i) /\ orthogonal m l p w.
Proof.
  intros d degree n terms poly coeffs ldlt lu wanted levels ls coarse order lam GP H L C LP GB NG GS ORD rbfs m l p a lev solve v w.
  pose proof (level_indices d (values n) (gradients n) poly wanted levels ls H (levels - 1) 0 coarse ltac:(lia) ltac:(lia) C) as [R1 R2].
  pose proof (hierarchy_nested d (values n) (gradients n) poly wanted levels ls H) as NE.
  destruct GP as (D & DG & PO). pose proof H as (_ & _ & ALL & _). destruct (ALL 0 coarse C) as (N1 & N2 & FN).
  assert (SPLIT : g_points coarse = poly ++ skipn (length poly) (g_points coarse)).
  { pose proof (firstn_skipn (length poly) (g_points coarse)) as X. rewrite FN in X. symmetry. exact X. }
  assert (TOP : forall i, i < basis_size d degree -> Grid.row d (values n) (g_points coarse) (g_grads coarse) i = Grid.row d (values n) poly [] i).
  { intros i I. unfold Grid.row, Grid.rows. cbn [flat_map]. rewrite app_nil_r. rewrite SPLIT, <- app_assoc. apply app_nth1. lia. }
  destruct GB as [GB1 GB2]. destruct GS as (RL & RP & RU).
  assert (LM : basis_size d degree <= g_size d (g_points coarse) (g_grads coarse)).
  { unfold g_size, g_mu. rewrite SPLIT, app_length. lia. }
  assert (INV : left_inverse (basis_size d degree) coeffs (top_rows d degree n (g_points coarse) (g_grads coarse))).
  { intros i j I J. rewrite <- (GB2 i j I J). apply LinAlg.rsum_ext. intros k K. f_equal. unfold top_rows. f_equal. apply TOP. exact K. }
  assert (RF : rows_found (basis_size d degree) n (g_points coarse) (g_grads coarse)).
  { destruct NG as [NG|NG]; [right; left|right; right; exact NG]. destruct (g_grads coarse) as [|x g]; auto.
    pose proof (R2 x (or_introl eq_refl)). lia. }
  apply (more_levels d degree n terms 0 (g_points coarse) (g_grads coarse) coeffs ldlt lu D DG PO LM INV RL RP RU eq_refl); auto.
  - split; [exact N1|]. split; [exact N2|]. split; auto.
  - unfold lev, level_rows. rewrite C. reflexivity.
  - intros k r i K I NI. apply (fine_local d (values n) (gradients n) poly wanted levels); auto. lia.
Qed.
