From Coq Require Import List Arith Relations Permutation.
Import ListNotations.

(** The equivalence generated by a list of pairs. *)
Definition joined (es : list (nat * nat)) : nat -> nat -> Prop :=
  clos_refl_sym_trans nat (fun i j => In (i, j) es).

(** [gs] partitions the indices below [n] into the classes of [joined es]. *)
Definition classes (es : list (nat * nat)) (n : nat) (gs : list (list nat)) : Prop :=
  Permutation (concat gs) (seq 0 n) /\ Forall (fun g => g <> []) gs /\
  forall i j, i < n -> j < n -> (joined es i j <-> exists g, In g gs /\ In i g /\ In j g).
