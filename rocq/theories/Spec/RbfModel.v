From Coq Require Import List ZArith.
From Verif Require Import Model.RbfModel.
Import ListNotations.

(** Every RBF object that a constructor can produce carries exactly two parameters. *)
Definition valid_rbf {D : Type} (r : rbf D) : Prop := length (rparams r) = 2.
Definition valid_model {D : Type} (m : model D) : Prop := Forall valid_rbf (rbfs m).

(** The order of conditional positive definiteness as mathematics gives it: covariances are positive
    definite (0); r^2 log r has order 2, r^4 log r order 3, -r order 1, r^3 order 2. *)
Definition math_order (k : kind) : Z :=
  match k with Bh2 => 2 | Th2 => 3 | Bh3 => 1 | Th3 => 2 | _ => 0 end%Z.

(** Degree [deg] is high enough for the RBF list: a function of order q needs degree >= q - 1. *)
Definition high_enough {D : Type} (rs : list (rbf D)) (deg : Z) : Prop :=
  (-1 <= deg)%Z /\ Forall (fun r => math_order (rkind r) - 1 <= deg)%Z rs.

(** What a constructor makes of its parameter list: covariance functions need both parameters;
    polyharmonic functions take 1.0 and 0.0 for missing ones. *)
Definition constructed_parameters {D : Type} (dzero done : D) (k : kind) (ps : list D)
  : option (list D) :=
  match k, ps with
  | _, [a; b] => Some [a; b]
  | (Bh2 | Bh3 | Th2 | Th3), [] => Some [done; dzero]
  | (Bh2 | Bh3 | Th2 | Th3), [a] => Some [a; dzero]
  | _, _ => None
  end.
