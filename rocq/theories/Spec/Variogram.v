From Coq Require Import Reals List Arith ZArith Permutation.
From Verif Require Import Model.LinAlg Model.Variogram Proofs.LinAlg.
Import ListNotations.
Local Open Scope R_scope.

(** Bin [b] is for the distances within the tolerance of [b] lags. *)
Definition in_bin (lag_distance tolerance : R) (b : nat) (d : R) : Prop := Rabs (d - INR b * lag_distance) <= tolerance.

(** Direction [k] takes the pair: the closest direction (the first one of several) or all within the angle. *)
Definition takes (dim n_directions : nat) (points directions : nat -> nat -> R) (angle_tolerance : option R) (i j k : nat) : Prop :=
  (k < n_directions)%nat /\
  let c := fun k' => Rabs (dot dim (lag points i j) (directions k')) in
  match angle_tolerance with
  | None => (forall k', (k' < n_directions)%nat -> c k' <= c k) /\ (forall k', (k' < k)%nat -> c k' < c k)
  | Some a => dist dim points i j * cos a <= c k
  end.

(** The pairs of a bin of a direction, each once. *)
Definition pairs_of (n_points : nat) (take : nat -> nat -> Prop) (belongs : R -> Prop) (d : nat -> nat -> R) (l : list (nat * nat)) : Prop :=
  NoDup l /\ forall i j, In (i, j) l <-> (i < j < n_points)%nat /\ take i j /\ belongs (d i j).

(** The averages over a list of pairs. *)
Definition averages (d g : nat -> nat -> R) (l : list (nat * nat)) : bin :=
  (lsum l (fun p => d (fst p) (snd p)) / INR (length l), lsum l (fun p => g (fst p) (snd p)) / INR (length l), length l).
(** The variogram of a direction: the nonempty bins; none if all are empty. *)
Definition variogram (d g : nat -> nat -> R) (num_lags : nat) (pairs : nat -> list (nat * nat)) : list bin :=
  flat_map (fun b => match pairs b with [] => [] | l => [averages d g l] end) (seq 0 num_lags).
Definition variograms (d g : nat -> nat -> R) (num_lags n_directions : nat) (pairs : nat -> nat -> list (nat * nat)) : list (nat * list bin) :=
  flat_map (fun k => match variogram d g num_lags (pairs k) with [] => [] | v => [(k, v)] end) (seq 0 n_directions).

(** The rows 0..n-2 divided among threads in any way. *)
Definition divided (n_points : nat) (schedule : list (list nat)) : Prop := Permutation (concat schedule) (seq 0 (n_points - 1)).
