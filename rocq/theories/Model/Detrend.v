From Coq Require Import Reals List Arith ZArith.
From Verif Require Import Model.Outcome Model.LinAlg Model.MonomialBasis.
Local Open Scope bool_scope.
Local Open Scope R_scope.

(** detrend (include/polatory/kriging/detrend.hpp:12-27). [solve] is system.ldlt().solve(rhs); arithmetic is real. *)
Definition detrend (solve : nat -> (nat -> nat -> R) -> (nat -> R) -> nat -> R) (dim n : nat) (points : nat -> nat -> R) (values : nat -> R) (degree : Z) :
    outcome (nat -> R) :=
  if (degree <? 0)%Z || (2 <? degree)%Z then Throw ExInvalidArgument
  else
    let l := basis_size dim degree in
    let p := evaluate dim (Z.to_nat degree) n points (fun _ _ => 0) in
    let system := fun a b => rsum n (fun i => p i a * p i b) in
    let rhs := fun a => rsum n (fun i => p i a * values i) in
    let coeffs := solve l system rhs in
    Ok (fun i => values i - rsum l (fun k => p i k * coeffs k)).
