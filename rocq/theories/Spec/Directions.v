From Coq Require Import Reals List Arith ZArith.
From Verif Require Import Model.Outcome Model.LinAlg Model.Variogram Model.Directions.
Local Open Scope R_scope.

Definition len (dim : nat) (v : nat -> R) : R := sqrt (dot dim v v).
(** The angle between [u] and the line along [d] has a cosine of at least (at most) [c]. *)
Definition near (dim : nat) (c : R) (u d : nat -> R) : Prop := c * len dim u * len dim d <= Rabs (dot dim u d).
Definition far (dim : nat) (c : R) (u d : nat -> R) : Prop := Rabs (dot dim u d) <= c * len dim u * len dim d.

(** How close the tables come to any direction, and how close their directions come to each other (cosines): in three dimensions 13.9 and
    19.9 degrees, in two dimensions 11.5 and 22.4 degrees. *)
Definition coverage (dim : nat) : R := match dim with 1%nat => 1 | 2%nat => 98 / 100 | _ => 971 / 1000 end.
Definition separation (dim : nat) : R := match dim with 2%nat => 924 / 1000 | _ => 94 / 100 end.

(** The setters change one member each. *)
Definition same_but_angle (c c' : calculator) : Prop :=
  lag_distance c' = lag_distance c /\ num_lags c' = num_lags c /\ lag_tolerance c' = lag_tolerance c /\
  n_directions c' = n_directions c /\ directions c' = directions c.
Definition same_but_lag (c c' : calculator) : Prop :=
  lag_distance c' = lag_distance c /\ num_lags c' = num_lags c /\ angle_tolerance c' = angle_tolerance c /\
  n_directions c' = n_directions c /\ directions c' = directions c.
Definition same_but_directions (c c' : calculator) : Prop :=
  lag_distance c' = lag_distance c /\ num_lags c' = num_lags c /\ angle_tolerance c' = angle_tolerance c /\
  lag_tolerance c' = lag_tolerance c.

(** The pair (i, j) is counted for direction [k]. *)
Definition counted (dim : nat) (points : nat -> nat -> R) (c : calculator) (i j k : nat) : Prop :=
  List.In k (targets dim points (n_directions c) (directions c) (angle_tolerance c) i j).

(** Two points whose line lies between three directions of the table. *)
Definition hole (i e : nat) : R := match i, e with 1%nat, 0%nat => -910 | 1%nat, 2%nat => 415 | _, _ => 0 end.
