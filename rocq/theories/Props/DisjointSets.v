From Coq Require Import List Arith Lia.
From Verif Require Import Model.Outcome Model.DisjointSets Spec.DisjointSets Proofs.DisjointSets.
Import ListNotations.

(** C33: for any sequence of unite calls on indices below [n], every find ends within [n] turns of its
    loop, nothing throws, and groups() returns exactly the classes of the generated equivalence. *)
Theorem C33_union_find_classes :
  forall es n, (forall i j, In (i, j) es -> i < n /\ j < n) ->
  exists p gs p', unite_all n (ds_init n) es = Ok (Some p) /\ groups n p = Ok (Some (gs, p')) /\
                  classes es n gs.
Proof. exact union_find. Qed.
Print Assumptions C33_union_find_classes.

Example C33_union_find_classes_ex :
  unite_all 5 (ds_init 5) [(0, 3); (4, 1); (3, 4)] = Ok (Some [3; 1; 2; 1; 1])
  /\ groups 5 [3; 1; 2; 1; 1] = Ok (Some ([[0; 1; 3; 4]; [2]], [1; 1; 2; 1; 1]))
  /\ unite 5 (ds_init 5) 0 5 = Throw ExOutOfRange.
Proof. repeat split; reflexivity. Qed.
