From Coq Require Import Reals List Arith.
From Verif Require Import Model.Outcome Model.LinAlg.
Import ListNotations.
Local Open Scope R_scope.

(** random_points (src/point_cloud/random_points.cpp). [draw] are the numbers of the distribution one after another; points have
    three coordinates; arithmetic is real. *)
Definition vec (x y z : R) (e : nat) : R := match e with 0%nat => x | 1%nat => y | _ => z end.
Section RandomPoints.
Variable draw : nat -> R.
(** The loop of the cuboid (random_points.cpp:18-24). *)
Fixpoint cuboid_points (lo size : nat -> R) (n pos : nat) : list (nat -> R) :=
  match n with
  | O => []
  | S n' =>
      let x := draw pos * size 0%nat in
      let y := draw (pos + 1)%nat * size 1%nat in
      let z := draw (pos + 2)%nat * size 2%nat in
      (fun e => lo e + vec x y z e) :: cuboid_points lo size n' (pos + 3)
  end.
(** random_points of a cuboid (random_points.cpp:7-27). *)
Definition random_cuboid (lo hi : nat -> R) (n : nat) : outcome (list (nat -> R)) :=
  let size := fun e => hi e - lo e in
  if Rlt_dec 0 (Rmin (size 0%nat) (Rmin (size 1%nat) (size 2%nat))) then Ok (cuboid_points lo size n 0)
  else Throw ExInvalidArgument.

(** The rejection loop (random_points.cpp:42-49); None when the fuel is used up. *)
Fixpoint pick (fuel pos : nat) : option (R * R * nat) :=
  match fuel with
  | O => None
  | S f =>
      let x1 := draw pos in
      let x2 := draw (pos + 1)%nat in
      if Rle_dec 1 (x1 * x1 + x2 * x2) then pick f (pos + 2) else Some (x1, x2, (pos + 2)%nat)
  end.
(** The loop of the sphere (random_points.cpp:41-56). *)
Fixpoint sphere_points (fuel : nat) (center : nat -> R) (radius : R) (n pos : nat) : option (list (nat -> R)) :=
  match n with
  | O => Some []
  | S n' =>
      match pick fuel pos with
      | None => None
      | Some (x1, x2, pos') =>
          let rsq := x1 * x1 + x2 * x2 in
          let x := 2 * x1 * sqrt (1 - rsq) in
          let y := 2 * x2 * sqrt (1 - rsq) in
          let z := 1 - 2 * rsq in
          match sphere_points fuel center radius n' pos' with
          | None => None
          | Some ps => Some ((fun e => center e + radius * vec x y z e) :: ps)
          end
      end
  end.
(** random_points of a sphere (random_points.cpp:31-59). *)
Definition random_sphere (fuel : nat) (center : nat -> R) (radius : R) (n : nat) : option (outcome (list (nat -> R))) :=
  if Rlt_dec 0 radius then match sphere_points fuel center radius n 0 with None => None | Some ps => Some (Ok ps) end
  else Some (Throw ExInvalidArgument).
End RandomPoints.
