From Coq Require Import Reals ZArith List Arith Bool.
From Verif Require Import Model.Outcome Model.LinAlg Model.Rbfs Model.VariogramFitting.
Import ListNotations.
Local Open Scope R_scope.

(** Model::description (include/polatory/model.hpp:185-300) and decompose_inverse_anisotropy (include/polatory/geometry/anisotropy.hpp) with
    real numbers, in [n] dimensions, n = 1, 2 or 3; the numbers of the text, not their layout. *)

(** decompose_inverse_anisotropy (anisotropy.hpp:13-27). [vectors] holds the eigenvectors as columns and [values] the eigenvalues, as the eigensolver
    (anisotropy.hpp:17) found them for [gram]. *)
Definition gram (n : nat) (a : nat -> nat -> R) (i j : nat) : R := rsum n (fun k => a k i * a k j).
(** Within anisotropy.hpp:13-27, anisotropy.hpp:17. *)
Definition decompose (n : nat) (values : nat -> R) (vectors : nat -> nat -> R) : (nat -> nat -> R) * (nat -> R) :=
  (fun i j => if lt_dec_b (det n vectors) 0 && (j =? 0)%nat then vectors i j * -1 else vectors i j,
   fun i => / sqrt (values i)).

(** std::fmod with a finite second argument. *)
Definition trunc (x : R) : Z := if Rle_dec 0 x then Int_part x else (- Int_part (- x))%Z.
(** Within model.hpp:229-233. *)
Definition fmod (x y : R) : R := x - y * IZR (trunc (x / y)).
(** Within model.hpp:229-233. *)
Definition deg : R := PI / 180.

(** The angle in two dimensions (model.hpp:229-233); [angle] is atan2(rotation(1, 0), rotation(0, 0)). *)
Definition half_turn (x : R) : R := let x := fmod x 180 in if lt_dec_b x 0 then x + 180 else x.
(** Within model.hpp:229-233. *)
Definition angle2 (angle : R) : R := half_turn (- angle / deg).
(** The angles in three dimensions (model.hpp:265-290) from the Euler angles of canonicalEulerAngles(2, 0, 2). *)
Definition full_turn (x : R) : R := let x := fmod x 360 in if lt_dec_b x 0 then x + 360 else x.
(** Within model.hpp:265-290. *)
Definition angles3 (e0 e1 e2 : R) : R * R * R :=
  let az := - e0 / deg in
  let dip := fmod (- e1 / deg) 360 in
  let rot := - e2 / deg in
  let '(dip, az) := if lt_dec_b dip 0 then (- dip, az + 180) else (dip, az) in
  let '(dip, az) := if lt_dec_b 180 dip then (360 - dip, az + 180) else (dip, az) in
  let '(dip, az, rot) := if lt_dec_b 90 dip then (180 - dip, az + 180, - rot) else (dip, az, rot) in
  (full_turn az, dip, half_turn rot).

(** One line of the description: partial sill and the ranges (model.hpp:199-201, 224-227, 259-263). The whole throws if a function is not a
    covariance function (model.hpp:187, 210, 244). *)
Definition is_covariance_function (k : kind) : bool := match k with Bh2 | Th2 | Bh3 | Th3 => false | _ => true end.
(** Within model.hpp:199-201, 224-227, 259-263, model.hpp:187, 210, 244. *)
Definition ranges (n : nat) (f : function) (scale : nat -> R) : list R := map (fun i => scale i * f_p1 f) (seq 0 n).
(** Within model.hpp:199-201, 224-227, 259-263, model.hpp:187, 210, 244. *)
Definition line (n : nat) (f : function) (values : nat -> R) (vectors : nat -> nat -> R) : R * list R :=
  (f_p0 f, ranges n f (snd (decompose n values vectors))).
(** description (model.hpp:185-300). *)
Definition description (n : nat) (m : rbf_model) (eigen : function -> (nat -> R) * (nat -> nat -> R)) : outcome (R * list (R * list R)) :=
  if negb (forallb (fun f => is_covariance_function (f_kind f)) (m_rbfs m)) then Throw ExRuntimeError
  else Ok (m_nugget m, map (fun f => line n f (fst (eigen f)) (snd (eigen f))) (m_rbfs m)).
