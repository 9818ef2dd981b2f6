From Coq Require Import Reals List Arith.
From Verif Require Import Model.LinAlg Model.Rbfs Model.Operator Model.Fmm Model.FastOperator Model.FastEvaluator.
From Verif Require Import Spec.Rbfs Spec.Operator Spec.Fmm Spec.PositiveDefinite Spec.Hermite Spec.FastOperator.
Import ListNotations.
Local Open Scope R_scope.

(** What was given to an evaluator: the sources and targets last set and the weights set since the sources. *)
Record given := Given { g_source : option data; g_target : data; g_weights : option (list R) }.
Definition given_step (g : given) (u : evaluator_use) : given :=
  match u with
  | UseSource n => Given (Some n) (g_target g) None
  | UseTarget n => Given (g_source g) n (g_weights g)
  | UseBoth n => Given (Some n) n None
  | UseWeights w => Given (g_source g) (g_target g) (Some w)
  | UseRun => g
  end.
Definition given_by (us : list evaluator_use) : given := fold_left given_step us (Given None no_nodes None).
(** The functions of an Evaluator and of a SymmetricEvaluator. *)
Definition use_of (own : bool) (u : evaluator_use) : Prop :=
  match u with UseSource _ | UseTarget _ => own = false | UseBoth _ => own = true | _ => True end.

(** Few enough points to be summed directly: for an Evaluator the product of the numbers of sources and targets counts. *)
Definition few_between (own : bool) (s t : data) : Prop :=
  if own then few s else (Nat.max (values s) (gradients s) * Nat.max (values t) (gradients t) < 2 ^ 20)%nat.
(** The values of the kernels are numbers. *)
Definition kernels_between (d : nat) (s t : data) (tm : term) : Prop :=
  defined_between d tm KGradient (gradient_rows s) (point_rows t) /\ defined_between d tm KGradientT (point_rows s) (gradient_rows t) /\
  defined_between d tm KHessian (gradient_rows s) (gradient_rows t).
(** The result of the direct evaluator of C16. *)
Definition evaluates (d l : nat) (basis : data -> nat -> nat -> R) (terms : list term) (s t : data) (w y : list R) : Prop :=
  length y = rows d t /\
  forall ss r, schedules_ok (nat -> R) (map (term_rbf d) terms) (rows d t) ss -> (r < rows d t)%nat ->
  nth r y 0 = direct_evaluator (nat -> R) difference d (map (term_rbf d) terms) l ss s t (basis t) (fun i => nth i w 0) r.
