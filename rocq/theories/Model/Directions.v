From Coq Require Import Reals List Arith ZArith.
From Verif Require Import Model.Outcome Model.LinAlg Model.Variogram.
Import ListNotations.
Local Open Scope R_scope.

(** The directions and the settings of the variogram calculator (include/polatory/kriging/variogram_calculator.hpp,
    src/kriging/variogram_calculator.cpp). Exact arithmetic; NaN tolerances are not modelled.

    The tables are written in units of 10^-9, which all of their decimals are multiples of; the rounding of a decimal to a double is left
    out. *)
Definition nano : R := / 1000000000.
(** Helper without code of its own: rows of integers as rows of numbers. *)
Definition rows (table : list (list Z)) (k e : nat) : R := IZR (nth e (nth k table []) 0%Z) * nano.

(** kIsotropicDirections (variogram_calculator.cpp:5-6, 11-12, 19-20): the first axis. *)
Definition isotropic (dim : nat) : list (list Z) := [1000000000%Z :: repeat 0%Z (dim - 1)].
(** kAnisotropicDirections in two dimensions (variogram_calculator.cpp:14-17). *)
Definition anisotropic_2 : list (list Z) :=
   [[1000000000; 0]; [923879530; 382683430]; [707106780; 707106780]; [382683430; 923879530];
    [0; 1000000000]; [(-382683430); 923879530]; [(-707106780); 707106780]; [(-923879530); 382683430]]%Z.
(** kAnisotropicDirections in three dimensions (variogram_calculator.cpp:22-69). *)
Definition anisotropic_3 : list (list Z) :=
   [[0; 0; 1000000000]; [106078920; 326477350; 939233600]; [(-277718250); 201774110; 939233600];
    [(-187592480); 577350260; 794654490]; [(-555436490); 403548210; 727075760]; [(-449357540); 730025590; 514917910];
    [(-723606820); 525731090; 447213590]; [212157850; 652954700; 727075760]; [(-65560378); 854728820; 514917910];
    [276393200; 850650790; 447213590]; [(-277718250); (-201774110); 939233600]; [(-607061980); 0; 794654490];
    [(-555436490); (-403548210); 727075760]; [(-833154680); (-201774110); 514917910]; [(-723606820); (-525731090); 447213590];
    [(-833154680); 201774110; 514917910]; [106078920; (-326477350); 939233600]; [(-187592480); (-577350260); 794654490];
    [212157850; (-652954700); 727075760]; [(-65560378); (-854728820); 514917910]; [276393200; (-850650790); 447213590];
    [(-449357540); (-730025590); 514917910]; [343278620; 0; 939233600]; [491123470; (-356822100); 794654490];
    [686557230; 0; 727075760]; [792636160; (-326477350); 514917910]; [894427180; 0; 447213590];
    [555436490; (-652954700); 514917910]; [491123470; 356822100; 794654490]; [555436490; 652954700; 514917910];
    [792636160; 326477350; 514917910]; [106078920; 979432110; 171639310]; [(-303530990); 934172330; 187592480];
    [(-661515410); 730025590; 171639310]; [(-898715080); 403548210; 171639310]; [(-982246940); 0; 187592480];
    [(-898715080); (-403548210); 171639310]; [(-661515410); (-730025590); 171639310]; [(-303530990); (-934172330); 187592480];
    [106078920; (-979432110); 171639310]; [489876090; (-854728820); 171639310]; [794654490; (-577350260); 187592480];
    [964275480; (-201774110); 171639310]; [964275480; 201774110; 171639310]; [794654490; 577350260; 187592480];
    [489876090; 854728820; 171639310]]%Z.
(** kAnisotropicDirections (variogram_calculator.cpp:8-9, 14-17, 22-69). *)
Definition anisotropic (dim : nat) : list (list Z) :=
  match dim with 2%nat => anisotropic_2 | 3%nat => anisotropic_3 | _ => isotropic dim end.

(** rowwise().normalized() (variogram_calculator.hpp:124): Eigen leaves a row of zeros as it is. *)
Definition normalized (dim : nat) (v : nat -> R) (e : nat) : R :=
  if Rlt_dec 0 (dot dim v v) then v e / sqrt (dot dim v v) else v e.

(** The members (variogram_calculator.hpp:135-140); None is the automatic tolerance, -1 in the code. *)
Record calculator : Type := {
  lag_distance : R; num_lags : nat; lag_tolerance : option R; n_directions : nat; directions : nat -> nat -> R; angle_tolerance : option R }.
(** The constructor (variogram_calculator.hpp:34-35) and the initializers of the other members (variogram_calculator.hpp:138-140). *)
Definition make (dim : nat) (distance : R) (lags : nat) : calculator :=
  {| lag_distance := distance; num_lags := lags; lag_tolerance := None; n_directions := length (isotropic dim);
     directions := rows (isotropic dim); angle_tolerance := None |}.
(** kAutomaticAngleTolerance and kAutomaticLagTolerance (variogram_calculator.hpp:28-29). *)
Definition automatic : R := -1.
(** The test of both setters of a tolerance (variogram_calculator.hpp:112-116, 128-132). *)
Definition checked (t : R) : outcome (option R) :=
  if Req_EM_T t automatic then Ok None else if Rlt_dec 0 t then Ok (Some t) else Throw ExInvalidArgument.
(** set_angle_tolerance (variogram_calculator.hpp:111-117). *)
Definition set_angle_tolerance (t : R) (c : calculator) : outcome calculator :=
  let* o := checked t in
  Ok {| lag_distance := lag_distance c; num_lags := num_lags c; lag_tolerance := lag_tolerance c; n_directions := n_directions c;
        directions := directions c; angle_tolerance := o |}.
(** set_lag_tolerance (variogram_calculator.hpp:127-133). *)
Definition set_lag_tolerance (t : R) (c : calculator) : outcome calculator :=
  let* o := checked t in
  Ok {| lag_distance := lag_distance c; num_lags := num_lags c; lag_tolerance := o; n_directions := n_directions c;
        directions := directions c; angle_tolerance := angle_tolerance c |}.
(** set_directions (variogram_calculator.hpp:119-125). *)
Definition set_directions (dim n : nat) (v : nat -> nat -> R) (c : calculator) : outcome calculator :=
  if Nat.eqb n 0 then Throw ExInvalidArgument
  else Ok {| lag_distance := lag_distance c; num_lags := num_lags c; lag_tolerance := lag_tolerance c; n_directions := n;
             directions := fun k => normalized dim (v k); angle_tolerance := angle_tolerance c |}.
(** calculate (variogram_calculator.hpp:39-105) with the settings. *)
Definition run (dim n_points : nat) (points : nat -> nat -> R) (values : nat -> R) (c : calculator) (schedule : list (list nat)) :
  outcome (list (nat * list bin)) :=
  calculate dim n_points points values (lag_distance c) (num_lags c) (lag_tolerance c) (n_directions c) (directions c) (angle_tolerance c) schedule.
