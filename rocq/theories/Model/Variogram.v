From Coq Require Import Reals List Arith ZArith.
From Verif Require Import Model.Outcome Model.LinAlg.
Import ListNotations.
Local Open Scope R_scope.

(** The experimental variogram (include/polatory/kriging/variogram_builder.hpp, variogram_calculator.hpp). Exact arithmetic; conversions
    to Index of numbers beyond its range (a lag distance of zero) are not modelled. *)
Definition floor (x : R) : Z := Int_part x.
(** Helper without code of its own. *)
Definition ceil (x : R) : Z := (- Int_part (- x))%Z.

(** A bin: sum of distances, sum of gammas, number of pairs (three vectors of equal length, variogram_builder.hpp:96-98). *)
Definition bin : Type := R * R * nat.
(** Helper without code of its own. *)
Definition empty_bin : bin := (0, 0, 0%nat).
(** Within variogram_builder.hpp:96-98. *)
Definition plus_bin (a b : bin) : bin := let '(d, g, n) := a in let '(d', g', n') := b in (d + d', g + g', (n + n')%nat).
(** .at(i) and a change of that element. *)
Fixpoint change {A : Type} (l : list A) (i : nat) (f : A -> outcome A) : outcome (list A) :=
  match l, i with
  | [], _ => Throw ExOutOfRange
  | a :: l', O => let* r := f a in Ok (r :: l')
  | a :: l', S i' => let* r := change l' i' f in Ok (a :: r)
  end.
(** Helper without code of its own. *)
Fixpoint each {A B : Type} (f : A -> B -> outcome B) (l : list A) (b : B) : outcome B :=
  match l with [] => Ok b | a :: l' => let* b' := f a b in each f l' b' end.

Section Calculator.
Variable dim : nat.
Variable n_points : nat.
Variable points : nat -> nat -> R.
Variable values : nat -> R.
Variable lag_distance : R.
Variable num_lags : nat.
Variable lag_tolerance : option R.   (* None: kAutomaticLagTolerance *)
Variable n_directions : nat.
Variable directions : nat -> nat -> R.
Variable angle_tolerance : option R. (* None: kAutomaticAngleTolerance *)

(** The tolerance (variogram_calculator.hpp:42-43); the lag, the distance and gamma of a pair (variogram_builder.hpp:35-38). *)
Definition tolerance : R := match lag_tolerance with None => 0.5 * lag_distance | Some t => t end.
(** Within variogram_calculator.hpp:42-43, variogram_builder.hpp:35-38. *)
Definition lag (i j : nat) (e : nat) : R := points j e - points i e.
(** Within variogram_calculator.hpp:42-43, variogram_builder.hpp:35-38. *)
Definition dist (i j : nat) : R := sqrt (dot dim (lag i j) (lag i j)).
(** Within variogram_calculator.hpp:42-43, variogram_builder.hpp:35-38. *)
Definition gamma (i j : nat) : R := 0.5 * ((values j - values i) * (values j - values i)).
(** variogram_builder.hpp:40-43: the numbers of the bins. *)
Definition bins_of (d : R) : list nat :=
  let first := Z.max (ceil (/ lag_distance * (d - tolerance))) 0 in
  let last := Z.min (floor (/ lag_distance * (d + tolerance))) (Z.of_nat num_lags - 1) in
  seq (Z.to_nat first) (Z.to_nat (last - first + 1)).
(** add_pair (variogram_builder.hpp:34-50). *)
Definition add_pair (i j : nat) (bins : list bin) : outcome (list bin) :=
  each (fun b bs => change bs b (fun x => Ok (plus_bin x (dist i j, gamma i j, 1%nat)))) (bins_of (dist i j)) bins.
(** into_variogram (variogram_builder.hpp:52-75): empty bins are removed, the others divided by their counts. *)
Definition into_variogram (bins : list bin) : list bin :=
  flat_map (fun '(d, g, np) => if Nat.eqb np 0 then [] else [(d / INR np, g / INR np, np)]) bins.
(** merge (variogram_builder.hpp:77-88). *)
Fixpoint merge (a b : list bin) : outcome (list bin) :=
  match a, b with
  | [], _ => Ok []
  | x :: a', y :: b' => let* r := merge a' b' in Ok (plus_bin x y :: r)
  | _ :: _, [] => Throw ExOutOfRange
  end.

(** variogram_calculator.hpp:72-73. *)
Definition squared_dot (i j k : nat) : R := dot dim (lag i j) (directions k) * dot dim (lag i j) (directions k).
(** maxCoeff: the first of the largest among 0..m. *)
Fixpoint arg_max (f : nat -> R) (m : nat) : nat :=
  match m with
  | O => 0%nat
  | S m' => let k := arg_max f m' in if Rlt_dec (f k) (f m) then m else k
  end.
(** variogram_calculator.hpp:75-86: the directions the pair is added to. *)
Definition targets (i j : nat) : list nat :=
  match angle_tolerance with
  | None => [arg_max (squared_dot i j) (n_directions - 1)]
  | Some a => filter (fun k => if Rle_dec (dot dim (lag i j) (lag i j) * (cos a * cos a)) (squared_dot i j k) then true else false) (seq 0 n_directions)
  end.
(** Within variogram_calculator.hpp:75-86. *)
Definition builders : list (list bin) := repeat (repeat empty_bin num_lags) n_directions.
(** variogram_calculator.hpp:64-87 for one i. *)
Definition row (i : nat) (bs : list (list bin)) : outcome (list (list bin)) :=
  each (fun j => each (fun k bs => change bs k (add_pair i j)) (targets i j)) (seq (S i) (n_points - S i)) bs.
(** One thread: the rows given to it (variogram_calculator.hpp:55-88). *)
Definition thread (rows : list nat) : outcome (list (list bin)) := each row rows builders.
(** Within variogram_calculator.hpp:55-88. *)
Fixpoint merge_all (a b : list (list bin)) : outcome (list (list bin)) :=
  match a, b with
  | [], _ => Ok []
  | x :: a', y :: b' => let* m := merge x y in let* r := merge_all a' b' in Ok (m :: r)
  | _ :: _, [] => Throw ExOutOfRange
  end.
(** calculate (variogram_calculator.hpp:39-105). [schedule] lists, in the order of the critical section, the rows of each thread. *)
Definition calculate (schedule : list (list nat)) : outcome (list (nat * list bin)) :=
  let* bs := each (fun rows acc => let* l := thread rows in merge_all acc l) schedule builders in
  Ok (flat_map (fun '(k, bins) => let v := into_variogram bins in
                  if Nat.eqb (list_sum (map snd v)) 0 then [] else [(k, v)]) (combine (seq 0 n_directions) bs)).
End Calculator.
