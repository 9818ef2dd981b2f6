From Coq Require Import Reals List Arith Sorted.
From Verif Require Import Model.Outcome Model.LinAlg Model.MonomialBasis Model.Rbfs Model.Operator Model.IncrementalFitter.
From Verif Require Import Spec.Rbfs Spec.Operator Spec.PositiveDefinite Spec.Hermite Spec.SolverRun Spec.IncrementalFitter Spec.Fitted.
Import ListNotations.
Local Open Scope R_scope.

(** The rows [c] of the points of some data and the rows [g] of the gradient points. *)
Definition chosen (n : data) (c g : list nat) : data :=
  Nodes (nat -> R) (length c) (length g) (fun i => pt (nat -> R) n (nth i c 0%nat)) (fun j => gpt (nat -> R) n (nth j g 0%nat)).
Definition weight (w : list R) (i : nat) : R := nth i w 0.

Section DataFit.
Variables (Pt : Type) (near : R -> Pt -> Pt -> Prop).
Variables (d : nat) (degree : option nat) (rbfs : list (rbf (nat -> R))) (nugget : R).

(** A fitter that is given the data [n] with the values and gradients [v]. Solutions fit the chosen rows (C72 for small data); evaluations are
    those of the direct evaluator (C76 for small data). *)
Record works_on (n : data) (v : nat -> R) (tol gtol : R) (E : env Pt R) : Prop := {
  on_ok : env_ok near E;
  on_dim : dim E = d;
  on_size : l E = space_size d degree;
  on_degree : degree_one E = true <-> degree = Some 1%nat;
  on_points : length (points_full E) = values n;
  on_gradients : length (grad_points_full E) = gradients n;
  on_values : values_full E = map v (seq 0 (rows d n));
  on_tolerance : tolerance E = tol;
  on_grad_tolerance : grad_tolerance E = gtol;
  on_zero : zero E = 0;
  on_less : forall a b, ltb E a b = true <-> a < b;
  on_max : forall a b, maxd E a b = Rmax a b;
  on_sort : forall rs, StronglySorted (fun a b => snd a <= snd b) (sort E rs);
  on_difference : forall a b, absdiff E a b = Rabs (a - b);
  on_solve : forall r c g cv w0 w, distinct_rows c (values n) -> distinct_rows g (gradients n) -> solve E r c g cv w0 = Ok w ->
    let s := chosen n c g in exists ss, schedules_ok (nat -> R) rbfs (rows d s) ss /\
    fits (rows d s) (values s) (direct_operator (nat -> R) difference d rbfs nugget (space_size d degree) ss s (space d degree s) (weight w)) (weight cv) tol gtol;
  on_evaluate : forall r c g w cc cg, distinct_rows c (values n) -> distinct_rows g (gradients n) -> distinct_rows cc (values n) ->
    distinct_rows cg (gradients n) -> surface d degree rbfs (chosen n c g) (weight w) (chosen n cc cg) (weight (evaluate E r c g w cc cg))
}.

(** The values of the chosen rows. *)
Definition chosen_values (n : data) (v : nat -> R) (c g : list nat) : list R :=
  map v c ++ flat_map (fun j => map (fun t => v (values n + d * j + t)%nat) (seq 0 d)) g.
(** The solver succeeds whenever there are enough centers for the polynomial. *)
Definition always_solves (n : data) (v : nat -> R) (E : env Pt R) : Prop :=
  forall r c g w0, distinct_rows c (values n) -> distinct_rows g (gradients n) -> length w0 = (length c + d * length g + space_size d degree)%nat ->
  (space_size d degree <= length c)%nat \/ (degree = Some 1%nat /\ length c = 1%nat /\ (1 <= length g)%nat) ->
  exists w, solve E r c g (chosen_values n v c g) w0 = Ok w.

(** The centers suffice for the polynomial, or there are none at all. *)
Definition enough (c g : list nat) : Prop :=
  (space_size d degree <= length c)%nat \/ (degree = Some 1%nat /\ length c = 1%nat /\ (1 <= length g)%nat) \/ (c = [] /\ g = []).

(** The values of a function at the rows of all data: within the tolerance of the values at all points, up to the nugget at the centers, and
    within the other tolerance of all gradients. *)
Definition reproduces (n : data) (v : nat -> R) (tol gtol : R) (c g : list nat) (w : list R) (f : nat -> R) : Prop :=
  (forall i, (i < values n)%nat -> ~ In i c -> Rabs (f i - v i) < tol) /\
  (forall k, (k < length c)%nat -> let i := nth k c 0%nat in Rabs (f i + nugget * weight w k - v i) <= tol) /\
  (forall j t, (j < gradients n)%nat -> (t < d)%nat -> let r := (values n + d * j + t)%nat in
     (In j g -> Rabs (f r - v r) <= gtol) /\ (~ In j g -> Rabs (f r - v r) < gtol)).
End DataFit.
