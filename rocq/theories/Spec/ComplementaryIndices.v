From Coq Require Import ZArith List Sorted.
Local Open Scope Z_scope.

(** The argument of complementary_indices is a set of rows of an n-row table. *)
Definition valid_index_set (indices : list Z) (n : nat) : Prop :=
  NoDup indices /\ (forall i, In i indices -> 0 <= i < Z.of_nat n).

(** The answer a caller expects: the other rows, each once, in increasing order. *)
Definition is_complement (indices : list Z) (n : nat) (r : list Z) : Prop :=
  StronglySorted Z.lt r /\
  (forall i, In i r <-> (0 <= i < Z.of_nat n /\ ~ In i indices)).
