From Coq Require Import List Arith Reals Permutation.
From Verif Require Import Model.Outcome Model.Solver.
Import ListNotations.
Local Open Scope R_scope.

(** Consistent sizes, and shuffling that keeps the elements. *)
Record senv_ok (E : senv) : Prop := {
  sok_values : length (values E) = (mu E + dim E * sigma E)%nat;
  sok_arrange : forall p is, Permutation (arrange E p is) is;
  sok_solution : forall k, length (solution E k) = (mu E + dim E * sigma E + l E)%nat;
  sok_fast : forall w, length (fast E w) = (mu E + dim E * sigma E)%nat
}.

(** [a] and [b] are numbers at distance at most [t]. *)
Definition close (a b : num) (t : R) : Prop :=
  exists x y, a = Some x /\ b = Some y /\ Rabs (x - y) <= t.

(** The value predicted at point [i] by the direct evaluator, with the nugget effect. *)
Definition predicted (E : senv) (w : list num) (i : nat) : num :=
  match nth_error w i with
  | Some (Some x) =>
      match direct E w i with Some d => Some (d + x * nugget E) | None => None end
  | _ => None
  end.
(** The same with the fast evaluator. *)
Definition predicted_fast (E : senv) (w : list num) (i : nat) : num :=
  match nth_error w i, nth_error (fast E w) i with
  | Some (Some x), Some (Some d) => Some (d + x * nugget E)
  | _, _ => None
  end.

(** The weights reproduce all values within the tolerances, by the direct / the fast evaluator. *)
Definition reproduces (E : senv) (w : list num) (tol gtol : R) : Prop :=
  (forall i, (i < mu E)%nat -> exists v, nth_error (values E) i = Some v /\ close (predicted E w i) v tol) /\
  (forall i k, (i < sigma E)%nat -> (k < dim E)%nat ->
     exists v, nth_error (values E) (mu E + dim E * i + k) = Some v /\
               close (direct_grad E w i k) v gtol).
Definition reproduces_fast (E : senv) (w : list num) (tol gtol : R) : Prop :=
  (forall i, (i < mu E)%nat ->
     exists v, nth_error (values E) i = Some v /\ close (predicted_fast E w i) v tol) /\
  (forall i k, (i < sigma E)%nat -> (k < dim E)%nat ->
     exists v f, nth_error (values E) (mu E + dim E * i + k) = Some v /\
                 nth_error (fast E w) (mu E + dim E * i + k) = Some f /\ close f v gtol).

(** No NaN is involved in judging the weights [w]. *)
Definition no_nan (E : senv) (w : list num) : Prop :=
  (forall i v, nth_error (values E) i = Some v -> v <> None) /\
  (forall i, (i < mu E)%nat -> predicted E w i <> None) /\
  (forall i k, (i < sigma E)%nat -> (k < dim E)%nat -> direct_grad E w i k <> None) /\
  (forall i f, nth_error (fast E w) i = Some f -> f <> None).

(** The fast evaluator is as accurate as it was asked to be. *)
Definition accurate (E : senv) (w : list num) (acc gacc : R) : Prop :=
  (forall i, (i < mu E)%nat ->
     exists f d, nth_error (fast E w) i = Some (Some f) /\ direct E w i = Some d /\ Rabs (f - d) <= acc) /\
  (forall i k, (i < sigma E)%nat -> (k < dim E)%nat ->
     exists f d, nth_error (fast E w) (mu E + dim E * i + k) = Some (Some f) /\
                 direct_grad E w i k = Some d /\ Rabs (f - d) <= gacc).

(** The whole data set fits into the sample of the direct evaluator. *)
Definition small (E : senv) : Prop := (mu E <= target_size E)%nat /\ (sigma E <= target_size E)%nat.

(** The initial weights solve the system exactly, as far as the Krylov method can tell. *)
Definition exact_start (E : senv) : Prop := relative_residual E = Some 0.
