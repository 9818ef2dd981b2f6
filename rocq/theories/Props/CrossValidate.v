From Coq Require Import List Arith ZArith Lia.
From Verif Require Import Model.Outcome Model.CrossValidate Spec.CrossValidate Proofs.CrossValidate.
Import ListNotations.

(** C40: every point is predicted by a model fitted to the points of the other sets and to nothing else. *)
Theorem C40_held_out : forall {Pt V : Type} (zero : V) (dp : Pt) (dv : V) (fit_evaluate : list Pt -> list V -> list Pt -> outcome (list V)),
  one_value_per_point fit_evaluate -> forall points values set_ids,
  (length points <= length set_ids)%nat -> (length points <= length values)%nat ->
  forall order preds, traversal set_ids order ->
  cross_validate zero fit_evaluate points values set_ids order = Ok preds ->
  length preds = length points /\
  forall i v, nth_error preds i = Some v -> held_out_prediction dp dv fit_evaluate points values set_ids i v.
Proof. exact @predictions_held_out. Qed.
Print Assumptions C40_held_out.

(** C40: the values of a point's own set do not influence its prediction. *)
Theorem C40_no_leak : forall {Pt V : Type} (zero : V) (fit_evaluate : list Pt -> list V -> list Pt -> outcome (list V)) points values values' set_ids order preds preds',
  one_value_per_point fit_evaluate -> (length points <= length set_ids)%nat -> (length points <= length values)%nat -> (length points <= length values')%nat ->
  traversal set_ids order ->
  cross_validate zero fit_evaluate points values set_ids order = Ok preds -> cross_validate zero fit_evaluate points values' set_ids order = Ok preds' ->
  forall i, (i < length points)%nat ->
    (forall j, (j < length points)%nat -> nth j set_ids 0%Z <> nth i set_ids 0%Z -> nth_error values j = nth_error values' j) ->
    nth_error preds i = nth_error preds' i.
Proof. exact @no_leak. Qed.
Print Assumptions C40_no_leak.

(** C40: the order in which the sets are visited does not matter. *)
Theorem C40_order : forall {Pt V : Type} (zero : V) (dp : Pt) (dv : V) (fit_evaluate : list Pt -> list V -> list Pt -> outcome (list V)),
  one_value_per_point fit_evaluate -> forall points values set_ids,
  (length points <= length set_ids)%nat -> (length points <= length values)%nat ->
  forall order order' preds, traversal set_ids order -> traversal set_ids order' ->
  cross_validate zero fit_evaluate points values set_ids order = Ok preds -> cross_validate zero fit_evaluate points values set_ids order' = Ok preds.
Proof. exact @order_irrelevant. Qed.
Print Assumptions C40_order.

(** C40: it succeeds exactly when every fit and evaluation does. *)
Theorem C40_ok : forall {Pt V : Type} (zero : V) (dp : Pt) (dv : V) (fit_evaluate : list Pt -> list V -> list Pt -> outcome (list V)),
  one_value_per_point fit_evaluate -> forall points values set_ids,
  (length points <= length set_ids)%nat -> (length points <= length values)%nat -> forall order, traversal set_ids order ->
  ((exists preds, cross_validate zero fit_evaluate points values set_ids order = Ok preds) <->
   forall id, In id set_ids -> exists fitted,
     fit_evaluate (map (fun k => nth k points dp) (rows_out (length points) set_ids id)) (map (fun k => nth k values dv) (rows_out (length points) set_ids id))
       (map (fun k => nth k points dp) (rows_in (length points) set_ids id)) = Ok fitted).
Proof. exact @ok_iff. Qed.
Print Assumptions C40_ok.

(** C40, refuted without the size condition: no ids at all give zeros, too few read past the end. *)
Theorem C40_sizes_refuted : forall (fit_evaluate : list nat -> list nat -> list nat -> outcome (list nat)),
  cross_validate 0%nat fit_evaluate [1; 2] [5; 6] [] [] = Ok [0; 0]%nat /\ traversal [] [] /\
  cross_validate 0%nat fit_evaluate [1; 2] [5; 6] [7%Z] [7%Z] = UB /\ traversal [7%Z] [7%Z].
Proof.
  intros fe. split; [reflexivity|]. split; [split; [constructor|tauto]|]. split; [reflexivity|]. split; [|tauto]. constructor; auto. constructor.
Qed.
Print Assumptions C40_sizes_refuted.

(** The hypotheses can be met: predicting by the sum of the training values. *)
Example C40_sums : let fe := fun (_ tv p : list nat) => Ok (map (fun _ => fold_right Nat.add 0 tv)%nat p) in
  one_value_per_point fe /\ traversal [4; 3; 4]%Z [4; 3]%Z /\ traversal [4; 3; 4]%Z [3; 4]%Z /\
  cross_validate 0%nat fe [0; 1; 2]%nat [5; 6; 7]%nat [4; 3; 4]%Z [4; 3]%Z = Ok [6; 12; 6]%nat.
Proof.
  intros fe. split; [intros tp tv p vs E; injection E as <-; apply map_length|].
  assert (NoDup [4; 3]%Z /\ NoDup [3; 4]%Z) as [A B] by (split; repeat constructor; cbn; intuition discriminate).
  split; [split; auto; cbn; tauto|]. split; [split; auto; cbn; tauto|]. reflexivity.
Qed.
