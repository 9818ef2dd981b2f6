From Coq Require Import ZArith List.
From Verif Require Import Model.Outcome.
Import ListNotations.
Local Open Scope Z_scope.

(** std::sort on indices (complementary_indices.hpp:15). Integers are totally ordered and equal
    integers are indistinguishable, so the sorted sequence is unique; insertion sort stands for the
    library's introsort. *)
Fixpoint insert_z (x : Z) (l : list Z) : list Z :=
  match l with
  | [] => [x]
  | y :: l' => if x <=? y then x :: l else y :: insert_z x l'
  end.

(** Helper without code of its own. *)
Fixpoint sort_z (l : list Z) : list Z :=
  match l with
  | [] => []
  | x :: l' => insert_z x (sort_z l')
  end.

(** std::set_difference on two sorted ranges (complementary_indices.hpp:16): the reference algorithm
    of the standard, i.e. when the heads are equal both advance, when the second head is smaller only
    the second advances, otherwise the first head is output. *)
Fixpoint set_difference (xs : list Z) : list Z -> list Z :=
  fix inner (ys : list Z) : list Z :=
    match xs, ys with
    | [], _ => []
    | x :: xs', [] => x :: set_difference xs' []
    | x :: xs', y :: ys' =>
        if x <? y then x :: set_difference xs' (y :: ys')
        else if y <? x then inner ys'
        else set_difference xs' ys'
    end.

(** boost::irange(0, n) (complementary_indices.hpp:13). *)
Definition irange (n : nat) : list Z := map Z.of_nat (seq 0 n).

(** complementary_indices (common/complementary_indices.hpp:10-19).
    Line 11 allocates n_points - indices.size() value-initialised entries (the subtraction is
    unsigned: when it would be negative the size is astronomically large and the vector constructor
    throws). Line 16 writes the set difference through a raw iterator: writing more elements than were
    allocated is undefined behaviour; unwritten entries stay 0. *)
Definition complementary_indices (indices : list Z) (n_points : nat) : outcome (list Z) :=
  if Nat.ltb n_points (length indices) then Throw ExLengthError
  else
    let cap := (n_points - length indices)%nat in
    let d := set_difference (irange n_points) (sort_z indices) in
    if Nat.leb (length d) cap then Ok (d ++ repeat 0 (cap - length d))
    else UB.
