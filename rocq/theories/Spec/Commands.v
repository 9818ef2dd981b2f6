From Coq Require Import List Arith ZArith Reals.
From Verif Require Import Model.Outcome Model.Commands.
Import ListNotations.

(** Where the [k]-th of several matrices begins when they are put side by side. *)
Definition start {D : Type} (f : mat D -> nat) (k : nat) (ms : list (mat D)) : nat := list_sum (map f (firstn k ms)).

(** Side by side, or one above the other: the size, and every entry at its place. *)
Definition side_by_side {D : Type} (ms : list (mat D)) (r : mat D) : Prop :=
  (forall m, In m ms -> rows m = rows r) /\ cols r = list_sum (map cols ms) /\
  forall k m i j, nth_error ms k = Some m -> i < rows m -> j < cols m -> entry r i (start cols k ms + j) = entry m i j.
Definition stacked {D : Type} (ms : list (mat D)) (r : mat D) : Prop :=
  (forall m, In m ms -> cols m = cols r) /\ rows r = list_sum (map rows ms) /\
  forall k m i j, nth_error ms k = Some m -> i < rows m -> j < cols m -> entry r (start rows k ms + i) j = entry m i j.

Local Open Scope R_scope.
Definition is_asin (f : R -> R) : Prop := forall z, -1 <= z <= 1 -> - (PI / 2) <= f z <= PI / 2 /\ sin (f z) = z.
(** atan2(y, x): the angle of the point (x, y), any for the origin. *)
Definition is_atan2 (f : R -> R -> R) : Prop := forall y x, - PI < f y x <= PI /\
  y = sqrt (x * x + y * y) * sin (f y x) /\ x = sqrt (x * x + y * y) * cos (f y x).
(** The unit vector of given azimuth (from y towards x) and elevation, in degrees. *)
Definition of_angles (az elev : R) : R * R * R :=
  (sin (az * deg) * cos (elev * deg), cos (az * deg) * cos (elev * deg), sin (elev * deg)).
