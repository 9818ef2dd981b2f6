From Coq Require Import Reals ZArith List Arith Lia Lra.
From Verif Require Import Proofs.LinAlg Proofs.Operator Proofs.FastOperator Proofs.FastEvaluator Proofs.SolverRun.
From Verif Require Import Model.MonomialBasis Model.Grid Model.GridProblem Model.RasPreconditioner Model.Gmres Model.SolverRun Model.Outcome Model.LinAlg Model.Rbfs Model.Solver Model.Operator Model.Fmm Model.FastOperator Model.FastEvaluator.
From Verif Require Import Spec.Grid Spec.RasPreconditioner Spec.Gmres Spec.GridProblem Spec.SolverRun Spec.Rbfs Spec.Operator Spec.Fmm Spec.PositiveDefinite Spec.Hermite Spec.FastOperator Spec.FastEvaluator Spec.IncrementalFitter Spec.Fitted Spec.DataFit.
Import ListNotations.
Local Open Scope R_scope.

Lemma evaluates_surface : forall d degree terms s t w y, evaluates d (basis_size d degree) (basis d degree) terms s t w y ->
  surface d degree (map (term_rbf d) terms) s (weight w) t (weight y).
Proof.
  intros d degree terms s t w y (L & H). exists (repeat ([0%nat], fun _ => 0%nat) (length (map (term_rbf d) terms))).
  assert (X : schedules_ok (nat -> R) (map (term_rbf d) terms) (rows d t) (repeat ([0%nat], fun _ => 0%nat) (length (map (term_rbf d) terms)))).
  { split; [apply repeat_length|]. apply Forall_forall. intros z Z. apply repeat_spec in Z. subst z.
    split; [repeat constructor; intros []|]. intros r _. left. reflexivity. }
  split; [exact X|]. intros r R0. unfold weight at 1. rewrite (H _ r X R0). destruct degree; reflexivity.
Qed.
Lemma distinct_length : forall c m, distinct_rows c m -> (length c <= m)%nat.
Proof.
  intros c m [N B]. rewrite <- (seq_length m 0). apply NoDup_incl_length; auto. intros i I0. apply in_seq. specialize (B i I0). lia.
Qed.
Lemma few_chosen : forall n c g cc cg, few n -> distinct_rows c (values n) -> distinct_rows g (gradients n) -> distinct_rows cc (values n) -> distinct_rows cg (gradients n) ->
  few_between false (chosen n c g) (chosen n cc cg).
Proof.
  intros n c g cc cg [F G] A B C D. apply distinct_length in A, B, C, D. change (Nat.max (length c) (length g) * Nat.max (length cc) (length cg) < 2 ^ 20)%nat.
  assert (2 ^ 20 = 2 ^ 10 * 2 ^ 10)%nat as -> by (rewrite <- Nat.pow_add_r; reflexivity).
  set (k := (2 ^ 10)%nat) in *. clearbody k. apply Nat.mul_lt_mono; lia.
Qed.

Lemma fitter_evaluator : forall d degree accuracy grad_accuracy rest near fresh, sound_rest rest -> sound_search d near ->
  forall terms us s ys n c g cc cg w, Forall (fun t => range_ok (tk t) (t1 t)) terms -> Forall (use_of false) us -> few n ->
  distinct_rows c (values n) -> distinct_rows g (gradients n) -> distinct_rows cc (values n) -> distinct_rows cg (gradients n) ->
  Forall (kernels_between d (chosen n c g) (chosen n cc cg)) terms ->
  evaluator_used d accuracy grad_accuracy (basis_size d degree) (basis d degree) (new_evaluator d rest near fresh (basis_size d degree) false (map function_of terms))
    (us ++ [UseSource (chosen n c g); UseWeights w; UseTarget (chosen n cc cg)]) = Ok (s, ys) ->
  exists s' y, run_evaluator d (basis_size d degree) (basis d degree) s = Ok (s', inl y) /\ length y = (length cc + d * length cg)%nat /\
  surface d degree (map (term_rbf d) terms) (chosen n c g) (weight w) (chosen n cc cg) (weight y).
Proof.
  intros d degree accuracy grad_accuracy rest near fresh SR SS terms us s ys n c g cc cg w RO UO FW DC DG DCC DGG KB H.
  destruct (evaluator_exact d accuracy grad_accuracy rest near fresh (basis_size d degree) (basis d degree) false SR SS terms
    (us ++ [UseSource (chosen n c g); UseWeights w; UseTarget (chosen n cc cg)]) s ys (chosen n c g) (chosen n cc cg) w) as (s' & y & Q & EV); auto.
  - apply Forall_app. split; auto. repeat constructor.
  - unfold given_by. rewrite fold_left_app. cbn [fold_left given_step g_source g_target g_weights]. reflexivity.
  - apply few_chosen; auto.
  - exists s', y. split; [exact Q|]. split; [apply EV|]. apply evaluates_surface. exact EV.
Qed.

Lemma exact_fits : forall d degree n terms nugget A w v tol gtol, exact_operator d degree n terms nugget A -> fits (rows d n) (values n) (A w) v tol gtol ->
  let rbfs := map (term_rbf d) terms in
  exists ss, schedules_ok (nat -> R) rbfs (rows d n) ss /\
  fits (rows d n) (values n) (direct_operator (nat -> R) difference d rbfs nugget (space_size d degree) ss n (space d degree n) w) v tol gtol.
Proof.
  intros d degree n terms nugget A w v tol gtol (ss & S0 & H) [F1 F2] rbfs. exists ss. split; [exact S0|].
  assert (forall i, (i < rows d n)%nat -> direct_operator (nat -> R) difference d rbfs nugget (space_size d degree) ss n (space d degree n) w i = A w i) as X.
  { intros i I0. rewrite H by lia. destruct degree; reflexivity. }
  split.
  - intros i I0. rewrite X; [apply F1; auto|]. unfold rows, size. unfold values in I0. lia.
  - intros i I0. rewrite X by tauto. apply F2. auto.
Qed.
