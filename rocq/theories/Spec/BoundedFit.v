From Coq Require Import Reals List Arith.
From Verif Require Import Model.Outcome Model.LinAlg Model.MonomialBasis Model.Rbfs Model.Operator Model.InequalityFitter.
From Verif Require Import Spec.Rbfs Spec.Operator Spec.PositiveDefinite Spec.Hermite Spec.SolverRun Spec.IncrementalFitter Spec.InequalityFitter Spec.Fitted Spec.DataFit.
Import ListNotations.
Local Open Scope R_scope.

(** The points of the rows [c]. *)
Definition picked (x : nat -> nat -> R) (c : list nat) (i : nat) : nat -> R := x (nth i c 0%nat).

Section BoundedFit.
Context {Pt : Type}.
Variables (d : nat) (degree : option nat) (rbfs : list (rbf (nat -> R))).

(** A fitter with bounds that is given the points [x], without a nugget. Solutions fit the chosen rows and are orthogonal to the polynomials (C72
    for small data); evaluations are those of the direct evaluator (C76 for small data). *)
Record bounded_on (x : nat -> nat -> R) (tol : R) (E : ienv Pt R) : Prop := {
  bo_ok : ienv_ok E;
  bo_size : n_poly E = space_size d degree;
  bo_below : forall f b, below E f b = true <-> f < b - tol;
  bo_above : forall f b, above E f b = true <-> b + tol < f;
  bo_nonpositive : forall w, nonpositive E w = true <-> w <= 0;
  bo_nonnegative : forall w, nonnegative E w = true <-> 0 <= w;
  bo_solve : forall r c cv w0 w, distinct_rows c (n_points E) -> isolve E r c cv w0 = Ok w -> let s := points (length c) (picked x c) in
    (exists ss, schedules_ok (nat -> R) rbfs (length c) ss /\ forall k, (k < length c)%nat ->
       Rabs (direct_operator (nat -> R) difference d rbfs 0 (space_size d degree) ss s (space d degree s) (weight w) k - weight cv k) <= tol) /\
    orthogonal d (length c) degree (picked x c) (weight w);
  bo_evaluate : forall r c w is, distinct_rows c (n_points E) -> distinct_rows is (n_points E) ->
    surface d degree rbfs (points (length c) (picked x c)) (weight w) (points (length is) (picked x is)) (weight (ievaluate E r c w is))
}.

(** [f] meets all values and all bounds up to [t]. *)
Definition meets (E : ienv Pt R) (t : R) (f : nat -> R) : Prop :=
  (forall i v, nth_error (Model.InequalityFitter.values E) i = Some (Some v) -> Rabs (f i - v) <= t) /\
  (forall i b, nth_error (values_lb E) i = Some (Some b) -> b - t <= f i) /\
  (forall i b, nth_error (values_ub E) i = Some (Some b) -> f i <= b + t).
(** Every center has a value, or it pushes up at its lower bound or down at its upper bound. *)
Definition pushes (E : ienv Pt R) (t : R) (c : list nat) (w : list R) (f : nat -> R) : Prop :=
  forall k, (k < length c)%nat -> let i := nth k c 0%nat in
  (exists v, nth_error (Model.InequalityFitter.values E) i = Some (Some v) /\ Rabs (f i - v) <= t) \/
  (exists b, nth_error (values_lb E) i = Some (Some b) /\ Rabs (f i - b) <= t /\ 0 < weight w k) \/
  (exists b, nth_error (values_ub E) i = Some (Some b) /\ Rabs (f i - b) <= t /\ weight w k < 0).
End BoundedFit.
