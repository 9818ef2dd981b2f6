From Coq Require Import Reals List Arith.
From Verif Require Import Model.Outcome Model.LinAlg Model.Operator Spec.Operator Model.DirectLifecycle.
Import ListNotations.
Local Open Scope R_scope.

Section Spec.
Variable V : Type.
Variable dif : V -> V -> V.
Variable origin : V.
Variable dim : nat.
Variable rbfs : list (rbf V).
Variable l : nat.
Variable basis : nodes V -> nat -> nat -> R.

(** What was set last. *)
Definition last_source (os : list (op V)) : nodes V :=
  fold_left (fun a o => match o with SetSource _ n => n | _ => a end) os (none V origin).
Definition last_target (os : list (op V)) : nodes V :=
  fold_left (fun a o => match o with SetTarget _ n | EvaluateAt _ _ n => n | _ => a end) os (none V origin).
Definition last_weights (os : list (op V)) : list R :=
  fold_left (fun a o => match o with SetWeights _ ws => ws | _ => a end) os [].

(** Row [r] of the values at [t]: the kernel matrix times the first weights plus the polynomial with the last [l] ones. *)
Definition value (s t : nodes V) (ws : list R) (r : nat) : R :=
  mat_vec (size V dim s) (kernel V dif dim rbfs s t) (fun i => nth i ws 0) r +
  mat_vec l (basis t) (fun k => nth (length ws - l + k) ws 0) r.
Definition values (s t : nodes V) (ws : list R) : list R := map (value s t ws) (seq 0 (size V dim t)).

(** A call that leaves sources and weights alone. *)
Definition keeps (o : op V) : Prop := match o with SetSource _ _ | SetWeights _ _ => False | _ => True end.
(** The schedules of all evaluations are fit for their targets [t]. *)
Fixpoint scheduled (t : nodes V) (os : list (op V)) : Prop :=
  match os with
  | [] => True
  | SetTarget _ n :: os' => scheduled n os'
  | Evaluate _ ss :: os' => schedules_ok V rbfs (size V dim t) ss /\ scheduled t os'
  | EvaluateAt _ ss n :: os' => schedules_ok V rbfs (size V dim n) ss /\ scheduled n os'
  | _ :: os' => scheduled t os'
  end.
(** What the evaluations return when only targets change. *)
Fixpoint answers (s t : nodes V) (ws : list R) (os : list (op V)) : list (list R) :=
  match os with
  | [] => []
  | SetTarget _ n :: os' => answers s n ws os'
  | Evaluate _ _ :: os' => values s t ws :: answers s t ws os'
  | EvaluateAt _ _ n :: os' => values s n ws :: answers s n ws os'
  | _ :: os' => answers s t ws os'
  end.
End Spec.
