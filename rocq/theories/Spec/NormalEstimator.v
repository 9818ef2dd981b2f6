From Coq Require Import Reals List Arith ZArith.
From Verif Require Import Model.LinAlg Model.NormalEstimator.
Import ListNotations.
Local Open Scope R_scope.

Definition kept_or_negated (v w : vec3) : Prop := v = w \/ v = neg3 w.

(** [x] is the first choice of greatest plane factor among the scales. *)
Definition best_scale (xs : list (R * vec3)) (x : R * vec3) : Prop := In x xs /\ forall y, In y xs -> fst y <= fst x.

(** Every row but the first has an earlier one it is a neighbour of, and their normals do not point against each other. *)
Definition linked (near : nat -> list nat) (nrm : nat -> vec3) (component : list nat) : Prop :=
  forall before i after, component = before ++ i :: after -> before <> [] ->
  exists p, In p before /\ In i (near p) /\ 0 <= dot 3 (nrm i) (nrm p).
(** The highest point's normal does not point down. *)
Definition faces_up (points nrm : nat -> vec3) (component : list nat) : Prop :=
  exists h, In h component /\ (forall i, In i component -> points i 2%nat <= points h 2%nat) /\ 0 <= nrm h 2%nat.
(** Nothing but zero normals and earlier components is next to it. *)
Definition closed_under (near : nat -> list nat) (given : nat -> vec3) (component earlier : list nat) : Prop :=
  forall i next, In i component -> In next (near i) -> is_zero (given next) = false -> In next component \/ In next earlier.

Definition oriented (n_points : nat) (points : nat -> vec3) (near : nat -> list nat) (given nrm : nat -> vec3) (components : list (list nat)) : Prop :=
  (forall i, kept_or_negated (nrm i) (given i)) /\
  (forall i, is_zero (given i) = true -> nrm i = given i) /\
  NoDup (concat components) /\
  (forall i, In i (concat components) <-> (i < n_points)%nat /\ is_zero (given i) = false) /\
  (forall cs component cs', components = cs ++ component :: cs' ->
     component <> [] /\ linked near nrm component /\ faces_up points nrm component /\ closed_under near given component (concat cs)).
Definition largest (radii : list R) : R := fold_right Rmax 0 radii.
