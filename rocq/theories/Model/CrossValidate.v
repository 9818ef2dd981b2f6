From Coq Require Import List Arith ZArith.
From Verif Require Import Model.Outcome Model.ComplementaryIndices.
Import ListNotations.

(** cross_validate (include/polatory/kriging/cross_validate.hpp:14-47). *)
Section CrossValidate.
Context {Pt V : Type}.
Variable zero : V.
(** Fitting an interpolant to points and values and evaluating it (cross_validate.hpp:37-39). *)
Variable fit_evaluate : list Pt -> list V -> list Pt -> outcome (list V).
Variable points : list Pt.
Variable values : list V.
Variable set_ids : list Z.

(** Helper without code of its own. *)
Definition at_row {A : Type} (l : list A) (i : nat) : outcome A := of_option (nth_error l i).
(** points(rows, kAll). *)
Fixpoint select {A : Type} (l : list A) (rows : list nat) : outcome (list A) :=
  match rows with
  | [] => Ok []
  | i :: rows' => let* x := at_row l i in let* xs := select l rows' in Ok (x :: xs)
  end.
(** cross_validate.hpp:23-28. *)
Fixpoint test_set (id : Z) (rows : list nat) : outcome (list nat) :=
  match rows with
  | [] => Ok []
  | i :: rows' => let* s := at_row set_ids i in let* t := test_set id rows' in Ok (if (s =? id)%Z then i :: t else t)
  end.
(** Helper without code of its own. *)
Definition set_row (p : nat -> V) (i : nat) (v : V) : nat -> V := fun k => if Nat.eqb k i then v else p k.
(** cross_validate.hpp:41-43. *)
Fixpoint scatter (rows : list nat) (fitted : list V) (p : nat -> V) : outcome (nat -> V) :=
  match rows with
  | [] => Ok p
  | i :: rows' => match fitted with [] => UB | v :: fitted' => scatter rows' fitted' (set_row p i v) end
  end.
(** One pass of the loop (cross_validate.hpp:22-44). *)
Definition one_set (id : Z) (p : nat -> V) : outcome (nat -> V) :=
  let* test := test_set id (seq 0 (length points)) in
  let* tr := complementary_indices (map Z.of_nat test) (length points) in
  let train := map Z.to_nat tr in
  let* train_points := select points train in
  let* test_points := select points test in
  let* train_values := select values train in
  let* fitted := fit_evaluate train_points train_values test_points in
  scatter test fitted p.
(** Within cross_validate.hpp:22-44. *)
Fixpoint all_sets (order : list Z) (p : nat -> V) : outcome (nat -> V) :=
  match order with [] => Ok p | id :: order' => let* p' := one_set id p in all_sets order' p' end.
(** [order] is the order in which the hash set of cross_validate.hpp:21 is traversed. *)
Definition cross_validate (order : list Z) : outcome (list V) :=
  let* p := all_sets order (fun _ => zero) in Ok (map p (seq 0 (length points))).
End CrossValidate.
