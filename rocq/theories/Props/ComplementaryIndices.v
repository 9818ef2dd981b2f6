From Coq Require Import ZArith List Lia.
From Verif Require Import Model.Outcome Model.ComplementaryIndices Spec.ComplementaryIndices.
From Verif Require Import Proofs.ComplementaryIndices.
Import ListNotations.
Local Open Scope Z_scope.

(** C07: on a set of row numbers the function returns exactly the other rows, in order. *)
Theorem C07_complement_of_valid_set : forall indices n,
  valid_index_set indices n ->
  exists r, complementary_indices indices n = Ok r /\ is_complement indices n r.
Proof. exact complementary_indices_ok. Qed.
Print Assumptions C07_complement_of_valid_set.

Example C07_complement_of_valid_set_ex :
  valid_index_set [4; 1; 3] 6 /\ complementary_indices [4; 1; 3] 6 = Ok [0; 2; 5].
Proof.
  split; [|reflexivity]. split.
  - repeat constructor; simpl; lia.
  - simpl. intros i. lia.
Qed.

(** C07: with a repeated or out-of-range index the call never returns a value: it throws when there
    are more indices than rows and otherwise writes past the end of the result buffer. *)
Theorem C07_invalid_set_never_returns : forall indices n,
  ~ valid_index_set indices n ->
  complementary_indices indices n =
    (if Nat.ltb n (length indices) then Throw ExLengthError else UB).
Proof. exact complementary_indices_invalid. Qed.
Print Assumptions C07_invalid_set_never_returns.

Example C07_invalid_set_ex :
  ~ valid_index_set [2; 2] 4 /\ complementary_indices [2; 2] 4 = UB.
Proof.
  split; [|reflexivity]. intros [H _]. inversion H as [|x l Hx Hl]; subst. apply Hx. now left.
Qed.
