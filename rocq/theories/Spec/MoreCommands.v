From Coq Require Import List Arith ZArith Reals.
From Verif Require Import Model.Outcome Spec.DistanceFilter Model.Directions Model.Commands.
Import ListNotations.

(** The point in the first [dim] columns of a row, and the entries of one column. *)
Definition point_of {D : Type} (dim : nat) (t : mat D) (i : nat) : list D := map (entry t i) (seq 0 dim).
Definition points_of {D : Type} (dim : nat) (t : mat D) : list (list D) := map (point_of dim t) (seq 0 (rows t)).
Definition column {D : Type} (c : nat) (t : mat D) : list D := map (fun i => entry t i c) (seq 0 (rows t)).

(** Row [k] of [r] is row [kept k] of [table], all columns; the kept rows are in the order of the table, not near each other, and every other row
    is near an earlier kept one. *)
Definition thinned {D : Type} (near : list D -> list D -> Prop) (dim : nat) (table r : mat D) (kept : list nat) : Prop :=
  rows r = length kept /\ cols r = cols table /\ increasing kept /\ (forall i, In i kept -> i < rows table) /\
  (forall k i, nth_error kept k = Some i -> forall j, entry r k j = entry table i j) /\
  (forall i j, In i kept -> In j kept -> i <> j -> ~ near (point_of dim table i) (point_of dim table j)) /\
  (forall j, j < rows table -> ~ In j kept -> exists i, In i kept /\ i < j /\ near (point_of dim table i) (point_of dim table j)).

Definition same {D : Type} (a b : mat D) : Prop :=
  rows a = rows b /\ cols a = cols b /\ forall i j, i < rows a -> j < cols a -> entry a i j = entry b i j.

(** The columns of [a] followed by those of [b]. *)
Definition beside {D : Type} (a b r : mat D) : Prop :=
  rows r = rows a /\ cols r = cols a + cols b /\
  forall i, i < rows a -> (forall j, j < cols a -> entry r i j = entry a i j) /\ (forall j, j < cols b -> entry r i (cols a + j) = entry b i j).

Local Open Scope R_scope.
(** [z] is [x] without its digits after the point. *)
Definition whole_part (x : R) (z : Z) : Prop :=
  (0 <= x -> IZR z <= x < IZR z + 1) /\ (x <= 0 -> IZR z - 1 < x <= IZR z).

(** The tolerance that an option stands for. *)
Definition tolerance (t : R) (o : option R) : Prop := (t = -1 /\ o = None) \/ (0 < t /\ o = Some t).
