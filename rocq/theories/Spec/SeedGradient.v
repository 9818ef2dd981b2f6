From Coq Require Import Reals List ZArith.
From Verif Require Import Model.Clip Model.PointTriangle Model.Lattice Model.SeedTracking.
Local Open Scope R_scope.

(** What a solver of systems of four equations has to return for one system. *)
Definition solved (solve : (nat -> nat -> R) -> (nat -> R) -> nat -> R) (m : nat -> nat -> R) (r : nat -> R) : Prop :=
  forall i, (i < 4)%nat -> m i 0%nat * solve m r 0%nat + m i 1%nat * solve m r 1%nat + m i 2%nat * solve m r 2%nat + m i 3%nat * solve m r 3%nat = r i.
(** The length of a corrector that is no NaN. *)
Definition length_of (c g : option pt) (v : pt) (d : R) : Prop := exists w, corrected c g v = Some w /\ d = sqrt (dot3 w w).
