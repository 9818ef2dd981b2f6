From Coq Require Import Reals List Arith ZArith.
From Verif Require Import Model.LinAlg Spec.MonomialBasis.
Import ListNotations.
Local Open Scope R_scope.

(** A linear solver for [l] unknowns that is right whenever there is a solution. *)
Definition solves_consistent (l : nat) (solve : nat -> (nat -> nat -> R) -> (nat -> R) -> nat -> R) : Prop :=
  forall a b, (exists x, forall k, (k < l)%nat -> mat_vec l a x k = b k) -> forall k, (k < l)%nat -> mat_vec l a (solve l a b) k = b k.

(** Polynomials of degree at most [d] in [dim] variables. *)
Definition poly_value (terms : list (R * list nat)) (p : nat -> R) : R := fold_right (fun t s => fst t * monomial (snd t) 0 p + s) 0 terms.
Definition polynomial (dim d : nat) (f : (nat -> R) -> R) : Prop :=
  exists terms, (forall t, In t terms -> exponent_of dim d (snd t)) /\ forall p, f p = poly_value terms p.
