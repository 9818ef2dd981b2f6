From Coq Require Import Reals List Arith.
From Verif Require Import Model.LinAlg.
Import ListNotations.
Local Open Scope R_scope.

(** Exponents of the monomials of degree at most [d] in [n] variables, and all of them without repetition. *)
Definition exponent_of (n d : nat) (alpha : list nat) : Prop := length alpha = n /\ (list_sum alpha <= d)%nat.
Definition all_exponents (n d : nat) (as_ : list (list nat)) : Prop := NoDup as_ /\ forall alpha, In alpha as_ <-> exponent_of n d alpha.
(** The value of a monomial. *)
Fixpoint monomial (alpha : list nat) (i : nat) (p : nat -> R) : R :=
  match alpha with [] => 1 | a :: alpha' => p i ^ a * monomial alpha' (S i) p end.
(** [p] with coordinate [e] replaced. *)
Definition with_coord (p : nat -> R) (e : nat) (t : R) (i : nat) : R := if Nat.eqb i e then t else p i.
(** Partial derivative. *)
Definition partial (f : (nat -> R) -> R) (e : nat) (p : nat -> R) (d : R) : Prop :=
  derivable_pt_lim (fun t => f (with_coord p e t)) (p e) d.
