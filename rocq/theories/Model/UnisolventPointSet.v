From Coq Require Import List Arith ZArith QArith Bool.
From Verif Require Import Model.Outcome Model.MonomialBasis.
Import ListNotations.

(** UnisolventPointSet (include/polatory/polynomial/unisolvent_point_set.hpp:25-66). *)
Section Unisolvent.
Variable dim : nat.
Variable n_points : nat.
(** The numbers drawn one after another (unisolvent_point_set.hpp:33-34). *)
Variable stream : nat -> nat.
(** LagrangeBasis of the points with these indices and its rcond (lagrange_basis.hpp:32-49): None is the exception, Some None a
    NaN. Degrees above 2 are not modelled (MonomialBasis is undefined for them). *)
Variable lagrange : list nat -> option (option Q).

(** std::set<Index>::insert. *)
Fixpoint insert (x : nat) (l : list nat) : list nat :=
  match l with
  | [] => [x]
  | y :: l' => if (x <? y)%nat then x :: l else if Nat.eqb x y then l else y :: insert x l'
  end.
(** unisolvent_point_set.hpp:41-45; None when the fuel is used up. *)
Fixpoint draw (fuel size pos : nat) (set : list nat) : option (list nat * nat) :=
  if (size <=? length set)%nat then Some (set, pos)
  else match fuel with O => None | S f => draw f size (S pos) (insert (stream pos) set) end.
(** The sets of the trials (unisolvent_point_set.hpp:43). *)
Fixpoint draw_sets (fuel size trials pos : nat) : option (list (list nat)) :=
  match trials with
  | O => Some []
  | S t => match draw fuel size pos [] with
           | None => None
           | Some (set, pos') => match draw_sets fuel size t pos' with None => None | Some sets => Some (set :: sets) end
           end
  end.
(** unisolvent_point_set.hpp:40-59: best set, best rcond, found. *)
Definition consider (st : list nat * Q * bool) (set : list nat) : list nat * Q * bool :=
  let '(best, rc, found) := st in
  match lagrange set with
  | None => st
  | Some None => (best, rc, true)
  | Some (Some q) => if negb (Qle_bool q rc) then (set, q, true) else (best, rc, true)
  end.
(** Within unisolvent_point_set.hpp:40-59. *)
Definition num_trials : nat := 100.
(** The constructor; None when the fuel is used up. *)
Definition construct (fuel : nat) (degree : Z) : option (outcome (list nat)) :=
  if (degree <? 0)%Z then Some (Ok [])
  else if Nat.eqb n_points 0 then Some UB      (* uniform_int_distribution(0, -1) *)
  else match draw_sets fuel (basis_size dim degree) num_trials 0 with
       | None => None
       | Some sets =>
           let '(best, _, found) := fold_left consider sets ([], 0%Q, false) in
           if found then Some (Ok best) else Some (Throw ExRuntimeError)
       end.
End Unisolvent.
