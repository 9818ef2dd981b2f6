From Coq Require Import List Arith ZArith QArith Sorting.Sorted.
From Verif Require Import Model.UnisolventPointSet Model.MonomialBasis.
Import ListNotations.

(** What is promised: sorted distinct indices of points, as many as there are basis functions, that are unisolvent. *)
Definition unisolvent_indices (dim n_points : nat) (degree : Z) (lagrange : list nat -> option (option Q)) (idcs : list nat) : Prop :=
  StronglySorted lt idcs /\ (forall i, In i idcs -> (i < n_points)%nat) /\ length idcs = basis_size dim degree /\
  exists q, lagrange idcs = Some (Some q).
(** Invertible matrices have a positive reciprocal condition number. *)
Definition positive_rcond (lagrange : list nat -> option (option Q)) : Prop := forall set rc, lagrange set = Some rc -> exists q, rc = Some q /\ (0 < q)%Q.
(** Every point is drawn again and again. *)
Definition fair (n_points : nat) (stream : nat -> nat) : Prop := forall pos v, (v < n_points)%nat -> exists p, (pos <= p)%nat /\ stream p = v.
