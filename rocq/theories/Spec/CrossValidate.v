From Coq Require Import List Arith ZArith.
From Verif Require Import Model.Outcome.
Import ListNotations.

(** Rows of the same set as [id], and the others, in increasing order. *)
Definition rows_in (n : nat) (set_ids : list Z) (id : Z) : list nat := filter (fun j => Z.eqb (nth j set_ids 0%Z) id) (seq 0 n).
Definition rows_out (n : nat) (set_ids : list Z) (id : Z) : list nat := filter (fun j => negb (Z.eqb (nth j set_ids 0%Z) id)) (seq 0 n).

(** [v] is what a model fitted to the rows outside the set of row [i], and nothing else, predicts at row [i]. *)
Definition held_out_prediction {Pt V : Type} (dp : Pt) (dv : V) (fit_evaluate : list Pt -> list V -> list Pt -> outcome (list V))
  (points : list Pt) (values : list V) (set_ids : list Z) (i : nat) (v : V) : Prop :=
  let id := nth i set_ids 0%Z in
  let train := rows_out (length points) set_ids id in
  let test := rows_in (length points) set_ids id in
  exists fitted j,
    fit_evaluate (map (fun k => nth k points dp) train) (map (fun k => nth k values dv) train) (map (fun k => nth k points dp) test) = Ok fitted /\
    nth_error test j = Some i /\ nth_error fitted j = Some v.

(** A traversal of the set of all ids. *)
Definition traversal (set_ids order : list Z) : Prop := NoDup order /\ forall id, In id order <-> In id set_ids.

Definition one_value_per_point {Pt V : Type} (fit_evaluate : list Pt -> list V -> list Pt -> outcome (list V)) : Prop :=
  forall tp tv p vs, fit_evaluate tp tv p = Ok vs -> length vs = length p.
