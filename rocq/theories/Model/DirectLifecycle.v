From Coq Require Import Reals List Arith.
From Verif Require Import Model.Outcome Model.LinAlg Model.Operator.
Import ListNotations.
Local Open Scope R_scope.

(** * The members of DirectEvaluator (include/polatory/interpolation/direct_evaluator.hpp:24-146)

    The loops of evaluate are those of Model/Operator.v. Here are the members it keeps from call to call, together with those of its
    PolynomialEvaluator (include/polatory/polynomial/polynomial_evaluator.hpp:9-42). Numbers are real. A failed POLATORY_ASSERT, a segment
    that leaves its vector and a sum of vectors of different sizes are undefined. *)
Section Lifecycle.
Variable V : Type.
Variable dif : V -> V -> V.
Variable origin : V.
Variable dim : nat.
Variable rbfs : list (rbf V).
(** l_ (line 32 of direct_evaluator.hpp). *)
Variable l : nat.
(** MonomialBasis::evaluate at a set of points and gradient points. *)
Variable basis : nodes V -> nat -> nat -> R.

(** Points(0, kDim). *)
Definition none : nodes V := Nodes V 0 0 (fun _ => origin) (fun _ => origin).
(** The members (direct_evaluator.hpp:134-146); [ptrg] and [pweights] are those of p_ (polynomial_evaluator.hpp:39-41), without use if l_ is 0. *)
Record state := State { src : nodes V; trg : nodes V; weights : list R; ptrg : nodes V; pweights : list R }.
(** The constructor without points (direct_evaluator.hpp:32-36; polynomial_evaluator.hpp:15-16). *)
Definition start : state := State none none [] none (repeat 0 l).

(** set_source_points (direct_evaluator.hpp:98-104). *)
Definition set_source (s : state) (n : nodes V) : state := State n (trg s) (weights s) (ptrg s) (pweights s).
(** set_target_points (direct_evaluator.hpp:106-120; polynomial_evaluator.hpp:24-27). *)
Definition set_target (s : state) (n : nodes V) : state :=
  State (src s) n (weights s) (if (0 <? l)%nat then n else ptrg s) (pweights s).
(** set_weights (direct_evaluator.hpp:122-131; polynomial_evaluator.hpp:29-33). *)
Definition set_weights (s : state) (ws : list R) : outcome state :=
  if (length ws =? size V dim (src s) + l)%nat
  then Ok (State (src s) (trg s) ws (ptrg s) (if (0 <? l)%nat then skipn (length ws - l) ws else pweights s))
  else UB.
(** evaluate (direct_evaluator.hpp:38-88; polynomial_evaluator.hpp:18-22). [ss] are the schedules of the threads. *)
Definition evaluate (ss : list schedule) (s : state) : outcome (list R) :=
  if (length (weights s) <? size V dim (src s))%nat then UB else
  let y := sweep V dif dim rbfs ss (src s) (trg s) (fun i => nth i (weights s) 0) (fun _ => 0) in
  let rows := seq 0 (size V dim (trg s)) in
  if (0 <? l)%nat then
    if (size V dim (ptrg s) =? size V dim (trg s))%nat
    then Ok (map (fun r => y r + mat_vec l (basis (ptrg s)) (fun k => nth k (pweights s) 0) r) rows)
    else UB
  else Ok (map y rows).

(** What a caller does. *)
Inductive op :=
| SetSource (n : nodes V)
| SetTarget (n : nodes V)
| SetWeights (ws : list R)
| Evaluate (ss : list schedule)
| EvaluateAt (ss : list schedule) (n : nodes V).
(** One call; the last case is evaluate with points (direct_evaluator.hpp:90-96). *)
Definition step (s : state) (o : op) : outcome (state * list (list R)) :=
  match o with
  | SetSource n => Ok (set_source s n, [])
  | SetTarget n => Ok (set_target s n, [])
  | SetWeights ws => let* s' := set_weights s ws in Ok (s', [])
  | Evaluate ss => let* y := evaluate ss s in Ok (s, [y])
  | EvaluateAt ss n => let s' := set_target s n in let* y := evaluate ss s' in Ok (s', [y])
  end.
(** Helper without code of its own. *)
Fixpoint run (s : state) (os : list op) : outcome (state * list (list R)) :=
  match os with
  | [] => Ok (s, [])
  | o :: os' => let* r := step s o in let* t := run (fst r) os' in Ok (fst t, snd r ++ snd t)
  end.
End Lifecycle.
