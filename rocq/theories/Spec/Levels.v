From Coq Require Import List Arith Permutation.
From Verif Require Model.Grid.
From Verif Require Import Model.DomainDivider Spec.DomainDivider Model.Levels.
Import ListNotations.

(** A hierarchy of [levels] levels, coarsest first: the finest has all points, polynomial points first, and all gradient
    points. Every finer level is divided into subdomains, and the level below it is a selection from it that keeps the
    polynomial points. *)
Definition hierarchy_of (dim mu sigma : nat) (poly : list nat) (wanted : nat -> nat) (levels : nat) (ls : list level_grids) : Prop :=
  length ls = levels /\
  (exists finest, nth_error ls (levels - 1) = Some finest /\ Permutation (g_points finest) (seq 0 mu) /\
     g_grads finest = seq 0 sigma) /\
  (forall k g, nth_error ls k = Some g ->
     NoDup (g_points g) /\ NoDup (g_grads g) /\ firstn (length poly) (g_points g) = poly) /\
  (forall k coarse fine, nth_error ls k = Some coarse -> nth_error ls (S k) = Some fine ->
     division dim (g_points fine) (g_grads fine) poly (g_domains fine) /\
     selection dim (g_points fine) (g_grads fine) poly (wanted (S k)) (g_points coarse) (g_grads coarse) /\
     incl (g_points coarse) (g_points fine) /\ incl (g_grads coarse) (g_grads fine)).

(** The arbitrary orders of the division and the selection (as in the properties about subdomains and coarse points), with the
    level of a cluster read before its pop. *)
Definition orders_ok (sub : nat -> nat) (sort arrange : list mixed -> list mixed) (nearest : list mixed -> nat)
  (pick : list cluster -> nat) (level_read : cluster -> list cluster -> nat) (drain : list cluster -> list cluster) : Prop :=
  rounding_ok sub /\ reorders sort /\ reorders arrange /\ in_range nearest /\ tops pick /\
  (forall c rest, level_read c rest = c_level c) /\ (forall q, Permutation (drain q) q).

(** Distinct polynomial points among [mu] points. *)
Definition poly_ok (mu : nat) (poly : list nat) : Prop := NoDup poly /\ (forall i, In i poly -> i < mu).

(** The numbers asked for grow with the level, are positive, and the largest leaves room for the polynomial points. *)
Definition counts_ok (n npoly : nat) (wanted : nat -> nat) (levels : nat) : Prop :=
  (forall k, 1 <= k < levels -> 1 <= wanted k) /\
  (forall k, 1 <= k -> S k < levels -> wanted k <= wanted (S k)) /\
  (1 < levels -> wanted (levels - 1) + npoly <= n).

(** The rows of a level in the whole problem: its points, then the components of its gradient points. *)
Definition level_rows (dim mu : nat) (ls : list level_grids) (k : nat) : list nat :=
  match nth_error ls k with Some g => Grid.rows dim (g_points g) (g_grads g) mu | None => [] end.
