From Coq Require Import Reals List Arith.
From Verif Require Import Model.LinAlg.
Local Open Scope R_scope.

Definition inside_cuboid (lo hi p : nat -> R) : Prop := forall e, (e < 3)%nat -> lo e <= p e < hi e.
Definition distance (p q : nat -> R) : R := sqrt (dot 3 (fun e => p e - q e) (fun e => p e - q e)).
(** Pairs inside the unit disk are drawn again and again. *)
Definition keeps_hitting (draw : nat -> R) : Prop :=
  forall pos, exists k, draw (pos + 2 * k)%nat * draw (pos + 2 * k)%nat + draw (pos + 2 * k + 1)%nat * draw (pos + 2 * k + 1)%nat < 1.
