From Coq Require Import Reals List Arith Lia Lra.
From Verif Require Import Model.LinAlg Model.Operator Proofs.LinAlg Spec.Operator Proofs.Operator.
Import ListNotations.

(** C16: whatever rows the threads are given and whatever order they finish in, every row of the result is the
    old value plus the row computed by its thread, in every arithmetic where adding zero changes nothing. *)
Theorem C16_schedule : forall (A : Type) (add : A -> A -> A) (zero : A), (forall x, add x zero = x) ->
  forall order who f y r, NoDup order -> In (who r) order -> parallel A add zero order who f y r = add (y r) (f r).
Proof. exact parallel_spec. Qed.
Print Assumptions C16_schedule.

Local Open Scope R_scope.
(** C16: the direct operator is multiplication by the block matrix of the system. *)
Theorem C16_entries : forall V dif dim rbfs nugget l ss n p w r, schedules_ok V rbfs (size V dim n) ss -> (r < size V dim n + l)%nat ->
  direct_operator V dif dim rbfs nugget l ss n p w r = mat_vec (size V dim n + l) (system V dif dim rbfs nugget n p) w r.
Proof. exact direct_entries. Qed.
Print Assumptions C16_entries.

(** C16: that matrix is symmetric. *)
Theorem C16_symmetric : forall V dif dim rbfs nugget l, Forall (even_rbf V dif dim) rbfs ->
  forall n p r c, (r < size V dim n + l)%nat -> (c < size V dim n + l)%nat ->
  system V dif dim rbfs nugget n p r c = system V dif dim rbfs nugget n p c r.
Proof. exact system_symmetric. Qed.
Print Assumptions C16_symmetric.

Theorem C16_linear : forall V dif dim rbfs nugget l ss n p a b w v r, schedules_ok V rbfs (size V dim n) ss -> (r < size V dim n + l)%nat ->
  direct_operator V dif dim rbfs nugget l ss n p (fun i => a * w i + b * v i) r =
  a * direct_operator V dif dim rbfs nugget l ss n p w r + b * direct_operator V dif dim rbfs nugget l ss n p v r.
Proof. exact operator_linear. Qed.
Print Assumptions C16_linear.

(** C16: the evaluator at the nodes gives the operator without the nugget. *)
Theorem C16_evaluator : forall V dif dim rbfs nugget l ss ss' n p w r, schedules_ok V rbfs (size V dim n) ss ->
  schedules_ok V rbfs (size V dim n) ss' -> (r < size V dim n)%nat ->
  direct_operator V dif dim rbfs nugget l ss n p w r =
  direct_evaluator V dif dim rbfs l ss' n n p w r + (if (r <? mu V n)%nat then nugget * w r else 0).
Proof. exact evaluator_operator. Qed.
Print Assumptions C16_evaluator.

(** C16: the evaluator at other nodes multiplies by the kernel matrix between the two sets. *)
Theorem C16_evaluator_entries : forall V dif dim rbfs l ss s t p w r, schedules_ok V rbfs (size V dim t) ss -> (r < size V dim t)%nat ->
  direct_evaluator V dif dim rbfs l ss s t p w r =
  mat_vec (size V dim s) (kernel V dif dim rbfs s t) w r + mat_vec l p (fun k => w (size V dim s + k)%nat) r.
Proof. exact evaluator_entries. Qed.
Print Assumptions C16_evaluator_entries.

(** C16: the operator made of fast evaluators is the direct one as far as these are exact. *)
Theorem C16_fast : forall V dif dim rbfs nugget l ss fs n p w r, schedules_ok V rbfs (size V dim n) ss ->
  Forall2 (exact_fast V dif dim n) rbfs fs -> (r < size V dim n + l)%nat ->
  fast_operator V dim nugget l fs n p w r = direct_operator V dif dim rbfs nugget l ss n p w r.
Proof. exact fast_direct. Qed.
Print Assumptions C16_fast.

(** C16: the matrix of the preconditioner is the same matrix. *)
Theorem C16_mat_a : forall V dif origin dim rbfs nugget, (forall x, dif x x = origin) -> Forall (even_rbf V dif dim) rbfs ->
  forall n i j, (i < size V dim n)%nat -> (j < size V dim n)%nat ->
  mat_a V dif origin dim rbfs nugget n i j = kernel V dif dim rbfs n n i j + nugget_at V nugget n i j.
Proof. exact mat_a_system. Qed.
Print Assumptions C16_mat_a.

(** One dimension, phi(d) = 3 - d^2, points 0 and 2, gradient at 1, two threads finishing in reverse order. *)
Definition parabola : rbf R := Rbf R (fun d => 3 - d * d) (fun d _ => - (2 * d)) (fun _ _ _ => - 2).
Definition three : nodes R := Nodes R 2 1 (fun i => INR (2 * i)) (fun _ => 1).
Example C16_three_rows : even_rbf R Rminus 1 parabola /\
  schedules_ok R [parabola] 3 [([1; 0]%nat, fun r => r mod 2)%nat] /\
  let y := direct_operator R Rminus 1 [parabola] (1 / 2) 1 [([1; 0]%nat, fun r => r mod 2)%nat] three
             (fun r _ => if (r <? 2)%nat then 1 else 0) (fun i => INR (i + 1)) in
  y 0%nat = - 1 / 2 /\ y 1%nat = 16 /\ y 2%nat = 8 /\ y 3%nat = 3.
Proof.
  split; [|split].
  - intros x y. cbn. repeat split; intros; lra.
  - split; [reflexivity|]. constructor; [|constructor]. split.
    + repeat constructor; cbn; intuition discriminate.
    + intros r L. destruct r as [|[|[|r]]]; cbn; auto. lia.
  - cbn. unfold sweep, parallel, row, value_row, grad_row, mat_vec. cbn. repeat split; lra.
Qed.
