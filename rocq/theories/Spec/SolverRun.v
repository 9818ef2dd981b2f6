From Coq Require Import Reals List Arith Permutation.
From Verif Require Import Model.LinAlg Model.Operator Model.Solver Spec.Rbfs Spec.Operator Spec.PositiveDefinite Spec.Hermite Spec.GridProblem Model.GridProblem.
Local Open Scope R_scope.

(** The values are fitted within one tolerance and the gradients within the other. *)
Definition fits (m values : nat) (fit v : nat -> R) (tol gtol : R) : Prop :=
  (forall i, (i < values)%nat -> Rabs (fit i - v i) <= tol) /\ (forall i, (values <= i < m)%nat -> Rabs (fit i - v i) <= gtol).
(** Data that need one level of the preconditioner and are checked as a whole. *)
Definition small_data (d : nat) (n : data) : Prop := (1 <= rows d n <= 2 ^ 11)%nat /\ (values n <= 2 ^ 10)%nat /\ (gradients n <= 2 ^ 10)%nat.
(** An operator that is the direct one on the rows of the system, with some schedule; see C16 and C27 for the fast one. *)
Definition exact_operator (d : nat) (degree : option nat) (n : data) (terms : list term) (nugget : R) (A : (nat -> R) -> nat -> R) : Prop :=
  exists ss, schedules_ok (nat -> R) (map (term_rbf d) terms) (rows d n) ss /\ forall w i, (i < rows d n + basis_size d degree)%nat ->
  A w i = direct_operator (nat -> R) difference d (map (term_rbf d) terms) nugget (basis_size d degree) ss n (basis d degree n) w i.
(** What the standard library and the fast evaluator are trusted with. *)
Definition good_rest (m : nat) (arrange : (nat -> bool) -> list nat -> list nat) (fast : list num -> list num) : Prop :=
  (forall q is, Permutation (arrange q is) is) /\ forall w, length (fast w) = m.
