From Coq Require Import Reals List Arith Lia Lra.
From Verif Require Import Model.Outcome Model.LinAlg Model.Operator Proofs.LinAlg Spec.Operator Model.DirectLifecycle Spec.DirectLifecycle Proofs.DirectLifecycle.
Import ListNotations.
Local Open Scope R_scope.

(** Whatever was called before, evaluate depends on the sources, targets and weights set last alone; it is undefined just if there are fewer
    weights than sources need. *)
Theorem C87_latest : forall V dif origin dim rbfs l basis os s y ss, run V dif dim rbfs l basis (start V origin l) os = Ok (s, y) ->
  schedules_ok V rbfs (size V dim (last_target V origin os)) ss ->
  evaluate V dif dim rbfs l basis ss s =
  if (length (last_weights V os) <? size V dim (last_source V origin os))%nat then UB
  else Ok (values V dif dim rbfs l basis (last_source V origin os) (last_target V origin os) (last_weights V os)).
Proof. exact latest. Qed.
Print Assumptions C87_latest.

(** Once weights for the present sources are set, every evaluation at any targets in any order is defined and exact. *)
Theorem C87_reused : forall V dif origin dim rbfs l basis os s y ws ps, run V dif dim rbfs l basis (start V origin l) os = Ok (s, y) ->
  length ws = (size V dim (last_source V origin os) + l)%nat -> Forall (keeps V) ps -> scheduled V dim rbfs (last_target V origin os) ps ->
  exists s', run V dif dim rbfs l basis s (SetWeights V ws :: ps) =
    Ok (s', answers V dif dim rbfs l basis (last_source V origin os) (last_target V origin os) ws ps).
Proof. exact reused. Qed.
Print Assumptions C87_reused.

(** Weights of a wrong number fail the assertion. *)
Theorem C87_mismatch : forall V dif origin dim rbfs l basis os s y ws, run V dif dim rbfs l basis (start V origin l) os = Ok (s, y) ->
  (set_weights V dim l s ws = UB <-> length ws <> (size V dim (last_source V origin os) + l)%nat).
Proof. exact mismatch. Qed.
Print Assumptions C87_mismatch.

Definition bump : rbf R := Rbf R (fun d => 3 - d * d) (fun d _ => - (2 * d)) (fun _ _ _ => - 2).
Definition points (n : nat) (x : R) : nodes R := Nodes R n 0 (fun _ => x) (fun _ => 0).
Definition one_thread : list schedule := [([0%nat], fun _ => 0%nat)].
Definition ones (n : nodes R) (i k : nat) : R := 1.

(** Sources set after the weights: with fewer of them evaluate does not notice that the weights belong to other points. *)
Theorem C87_stale_refuted : ~ forall V dif origin dim rbfs l basis os s y ss r, run V dif dim rbfs l basis (start V origin l) os = Ok (s, y) ->
  schedules_ok V rbfs (size V dim (last_target V origin os)) ss -> evaluate V dif dim rbfs l basis ss s = Ok r ->
  length (last_weights V os) = (size V dim (last_source V origin os) + l)%nat.
Proof.
  intros H.
  assert (S : schedules_ok R [bump] 1 one_thread).
  { split; [reflexivity|]. constructor; [|constructor]. split; [repeat constructor; cbn; auto|]. cbn. auto. }
  pose proof (H R Rminus 0 1%nat [bump] 1%nat ones [SetTarget R (points 1 1); SetSource R (points 2 0); SetWeights R [1; 2; 3]; SetSource R (points 1 5)]
    _ _ one_thread _ eq_refl S eq_refl) as E. discriminate E.
Qed.
Print Assumptions C87_stale_refuted.

(** Two sources at 0 with weights 1 and 2 and the constant 3: at 1 the value is 3 * 2 + 3, at 2 it is 3 * -1 + 3. *)
Example C87_example :
  exists s y z, run R Rminus 1 [bump] 1 ones (start R 0 1) [SetTarget R (points 1 7); SetSource R (points 2 0); SetWeights R [1; 2; 3];
    EvaluateAt R one_thread (points 1 1); EvaluateAt R one_thread (points 1 2)] = Ok (s, [[y]; [z]]) /\ y = 9 /\ z = 0.
Proof.
  eexists. eexists. eexists. split; [reflexivity|]. unfold sweep, parallel, row, value_row, grad_row, mat_vec. cbn. unfold ones. split; lra.
Qed.
