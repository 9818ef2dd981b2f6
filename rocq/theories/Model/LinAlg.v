From Coq Require Import Reals Arith.
Local Open Scope R_scope.

(** Real vectors and matrices as functions of their indices; sizes are given where they are used. *)
Fixpoint rsum (n : nat) (f : nat -> R) : R :=
  match n with O => 0 | S k => rsum k f + f k end.
(** Helper without code of its own. *)
Definition mat_vec (n : nat) (a : nat -> nat -> R) (x : nat -> R) (i : nat) : R := rsum n (fun j => a i j * x j).
(** Helper without code of its own. *)
Definition dot (n : nat) (x y : nat -> R) : R := rsum n (fun i => x i * y i).
