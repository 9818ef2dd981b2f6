From Coq Require Import Reals List Arith.
From Verif Require Import Model.LinAlg.
Import ListNotations.

(** The interpolation operator: DirectOperator (include/polatory/interpolation/direct_operator.hpp), Operator
    (operator.hpp), DirectEvaluator (direct_evaluator.hpp) and mat_a (preconditioner/mat_a.hpp). Numbers are real.
    Points are elements of [V] with differences; the matrix of polynomial values is given (see MonomialBasis). *)

(** "#pragma omp for" over the rows with a vector per thread, added to the result one thread after the other
    (direct_operator.hpp:42-75): row [r] belongs to thread [who r], threads arrive in the order [order]. *)
Section Parallel.
Variable A : Type.
Variable add : A -> A -> A.
Variable zero : A.
(** Within direct_operator.hpp:42-75. *)
Definition parallel (order : list nat) (who : nat -> nat) (f y : nat -> A) : nat -> A :=
  fun r => fold_left (fun acc t => add acc (if Nat.eqb (who r) t then f r else zero)) order (y r).
End Parallel.

Local Open Scope R_scope.
Section Operator.
Variable V : Type.
Variable dif : V -> V -> V.
Variable origin : V.
Variable dim : nat.
(** evaluate, evaluate_gradient and evaluate_hessian of an RBF. *)
Record rbf := Rbf { ev : V -> R; gr : V -> nat -> R; he : V -> nat -> nat -> R }.
Variable rbfs : list rbf.
Variable nugget : R.
Variable l : nat.

(** A set of points and gradient points; its rows are the points followed by [dim] rows per gradient point. *)
Record nodes := Nodes { mu : nat; sigma : nat; pt : nat -> V; gpt : nat -> V }.
(** Within direct_operator.hpp:42-75. *)
Definition size (n : nodes) : nat := (mu n + dim * sigma n)%nat.

(** The inner loops (direct_operator.hpp:46-71, direct_evaluator.hpp:50-75): sums over the sources [s] at one point, and
    component [e] at one gradient point. *)
Definition value_row (f : rbf) (s : nodes) (w : nat -> R) (x : V) : R :=
  rsum (mu s) (fun j => w j * ev f (dif x (pt s j))) +
  rsum (sigma s) (fun j => rsum dim (fun e => w (mu s + dim * j + e)%nat * - gr f (dif x (gpt s j)) e)).
(** Within direct_operator.hpp:46-71, direct_evaluator.hpp:50-75. *)
Definition grad_row (f : rbf) (s : nodes) (w : nat -> R) (x : V) (e : nat) : R :=
  rsum (mu s) (fun j => w j * gr f (dif x (pt s j)) e) +
  rsum (sigma s) (fun j => rsum dim (fun c => w (mu s + dim * j + c)%nat * - he f (dif x (gpt s j)) c e)).
(** Within direct_operator.hpp:46-71, direct_evaluator.hpp:50-75. *)
Definition row (f : rbf) (s t : nodes) (w : nat -> R) (r : nat) : R :=
  if (r <? mu t)%nat then value_row f s w (pt t r)
  else grad_row f s w (gpt t ((r - mu t) / dim)) ((r - mu t) mod dim).

(** The loop over the RBFs (direct_operator.hpp:41-76) with a schedule for each. *)
Definition schedule := (list nat * (nat -> nat))%type.
(** Within direct_operator.hpp:41-76. *)
Definition sweep (scheds : list schedule) (s t : nodes) (w y : nat -> R) : nat -> R :=
  fold_left (fun y fs => parallel R Rplus 0 (fst (snd fs)) (snd (snd fs)) (row (fst fs) s t w) y) (combine rbfs scheds) y.

(** DirectOperator::operator() (direct_operator.hpp:31-85). [p] is p_, the polynomial basis at the nodes. *)
Definition direct_operator (scheds : list schedule) (n : nodes) (p : nat -> nat -> R) (w : nat -> R) : nat -> R :=
  let y := sweep scheds n n w (fun r => if (r <? mu n)%nat then w r * nugget else 0) in
  fun r => if (r <? size n)%nat then y r + mat_vec l p (fun k => w (size n + k)%nat) r
           else rsum (size n) (fun i => p i (r - size n)%nat * w i).

(** DirectEvaluator::evaluate (direct_evaluator.hpp:38-88) at the rows of [t]; [p] is the basis at the targets. *)
Definition direct_evaluator (scheds : list schedule) (s t : nodes) (p : nat -> nat -> R) (w : nat -> R) : nat -> R :=
  fun r => sweep scheds s t w (fun _ => 0) r + mat_vec l p (fun k => w (size s + k)%nat) r.

(** Operator::operator() (operator.hpp:56-82). An evaluator maps weights to potentials. *)
Record fast := Fast { fa : (nat -> R) -> nat -> R; ff : (nat -> R) -> nat -> R; fft : (nat -> R) -> nat -> R; fh : (nat -> R) -> nat -> R }.
(** Within operator.hpp:56-82. *)
Definition fast_operator (fs : list fast) (n : nodes) (p : nat -> nat -> R) (w : nat -> R) : nat -> R :=
  let gw := fun k => w (mu n + k)%nat in
  let y := fold_left (fun y f r => if (r <? mu n)%nat then y r + fa f w r + ff f gw r
                                   else y r + fft f w (r - mu n)%nat + fh f gw (r - mu n)%nat)
             fs (fun r => if (r <? mu n)%nat then w r * nugget else 0) in
  fun r => if (r <? size n)%nat then y r + mat_vec l p (fun k => w (size n + k)%nat) r
           else rsum (size n) (fun i => p i (r - size n)%nat * w i).

(** mat_a (mat_a.hpp:10-61): the upper triangle is accumulated, then mirrored. *)
Definition upper (n : nodes) (i j : nat) : R :=
  if (j <? mu n)%nat then
    if Nat.eqb i j then fold_left (fun a f => a + ev f origin) rbfs nugget
    else fold_left (fun a f => a + ev f (dif (pt n i) (pt n j))) rbfs 0
  else let b := ((j - mu n) / dim)%nat in let e := ((j - mu n) mod dim)%nat in
    if (i <? mu n)%nat then fold_left (fun a f => a + - gr f (dif (pt n i) (gpt n b)) e) rbfs 0
    else let a' := ((i - mu n) / dim)%nat in let c := ((i - mu n) mod dim)%nat in
      if Nat.eqb a' b then fold_left (fun a f => a + - he f origin c e) rbfs 0
      else fold_left (fun a f => a + - he f (dif (gpt n a') (gpt n b)) c e) rbfs 0.
(** mat_a (mat_a.hpp:10-61). *)
Definition mat_a (n : nodes) (i j : nat) : R := if (i <=? j)%nat then upper n i j else upper n j i.
End Operator.
