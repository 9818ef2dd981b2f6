From Coq Require Import List Arith Reals Permutation.
From Verif Require Import Model.Outcome Model.InequalityFitter Spec.DistanceFilter Spec.IncrementalFitter.
Import ListNotations.

Section Spec.
Context {Pt D : Type}.

(** What the fitter relies on: consistent sizes, sorting that permutes, answers of the right size. *)
Record ienv_ok (E : ienv Pt D) : Prop := {
  iok_values : length (values E) = n_points E;
  iok_lb : length (values_lb E) = n_points E;
  iok_ub : length (values_ub E) = n_points E;
  iok_weights : length (initial_weights E) = n_points E + n_poly E;
  iok_sort : forall rs, Permutation (isort E rs) rs;
  iok_solve : forall r c v w0 w, isolve E r c v w0 = Ok w -> length w = length c + n_poly E;
  iok_evaluate : forall r c w is, length (ievaluate E r c w is) = length is
}.

(** A lower (upper) bound of row [i] that is not active and violated by [f], or active with a weight of
    the wrong sign. *)
Definition violates_lb (E : ienv Pt D) (act : list nat) (f : D) (i : nat) : Prop :=
  ~ In i act /\ exists b, nth_error (values_lb E) i = Some (Some b) /\ below E f b = true.
Definition violates_ub (E : ienv Pt D) (act : list nat) (f : D) (i : nat) : Prop :=
  ~ In i act /\ exists b, nth_error (values_ub E) i = Some (Some b) /\ above E f b = true.
Definition stale_lb (E : ienv Pt D) (act : list nat) (w : list D) (i : nat) : Prop :=
  In i act /\ exists b x, nth_error (values_lb E) i = Some (Some b) /\
                          nth_error w i = Some x /\ nonpositive E x = true.
Definition stale_ub (E : ienv Pt D) (act : list nat) (w : list D) (i : nat) : Prop :=
  In i act /\ exists b x, nth_error (values_ub E) i = Some (Some b) /\
                          nth_error w i = Some x /\ nonnegative E x = true.

(** The value a center is fitted to. *)
Definition target (E : ienv Pt D) (lb ub : list nat) (i : nat) (v : D) : Prop :=
  nth_error (values E) i = Some (Some v) \/
  (nth_error (values E) i = Some None /\ In i lb /\ nth_error (values_lb E) i = Some (Some v)) \/
  (nth_error (values E) i = Some None /\ ~ In i lb /\ In i ub /\ nth_error (values_ub E) i = Some (Some v)).

(** Weight of row [i] when the centers [c] carry the weights [w]. *)
Definition weight_of (c : list nat) (w : list D) (i : nat) (x : D) : Prop :=
  exists k, nth_error c k = Some i /\ nth_error w k = Some x.

(** The bounds hold for fitted values [fit] (one per bounded row): every active bound has a weight of the
    right sign and every other bound holds within the tolerance. *)
Definition bounds_hold (E : ienv Pt D) (lb ub c : list nat) (w fit : list D) : Prop :=
  forall k i, nth_error (ineq_idcs E) k = Some i -> exists f, nth_error fit k = Some f /\
    (forall b, nth_error (values_lb E) i = Some (Some b) ->
       (In i lb /\ exists x, weight_of c w i x /\ nonpositive E x = false) \/
       (~ In i lb /\ below E f b = false)) /\
    (forall b, nth_error (values_ub E) i = Some (Some b) ->
       (In i ub /\ exists x, weight_of c w i x /\ nonnegative E x = false) \/
       (~ In i ub /\ above E f b = false)).

(** The result contract. *)
Definition ineq_fitted (E : ienv Pt D) (c : list nat) (w : list D) : Prop :=
  exists round lb ub cv w0,
    distinct_rows c (n_points E) /\
    (forall i, In i c <-> In i (eq_idcs E) \/ In i lb \/ In i ub) /\
    (forall i, In i lb -> has (values_lb E) i = true /\ has (values E) i = false) /\
    (forall i, In i ub -> has (values_ub E) i = true /\ has (values E) i = false) /\
    isolve E round c cv w0 = Ok w /\ length cv = length c /\ length w = length c + n_poly E /\
    (forall k i v, nth_error c k = Some i -> nth_error cv k = Some v -> target E lb ub i v) /\
    bounds_hold E lb ub c w (ievaluate E round c w (ineq_idcs E)).

(** Every row has a value or a bound. *)
Definition all_constrained (E : ienv Pt D) : Prop :=
  forall i, i < n_points E ->
  has (values E) i = true \/ has (values_lb E) i = true \/ has (values_ub E) i = true.

End Spec.
