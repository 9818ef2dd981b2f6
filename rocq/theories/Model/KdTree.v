From Coq Require Import Reals ZArith List Arith Bool.
From Verif Require Import Model.Outcome Model.LinAlg.
Import ListNotations.
Local Open Scope R_scope.

(** KdTree (include/polatory/point_cloud/kdtree.hpp, src/point_cloud/kdtree.cpp). Points have exact coordinates; the radius, its square and the
    conversion of the square to float are rounded as the types say. *)

(** Powers of two, the exponent of a positive number, the nearest integer with ties to even. *)
Definition pow2 (e : Z) : R := powerRZ 2 e.
(** Helper without code of its own. *)
Definition exponent (x : R) : Z := Int_part (ln x / ln 2).
(** Helper without code of its own. *)
Definition nearest (x : R) : Z :=
  let f := Int_part x in
  if Rlt_dec (x - IZR f) (1 / 2) then f else if Rlt_dec (1 / 2) (x - IZR f) then (f + 1)%Z else if Z.even f then f else (f + 1)%Z.
(** A number that is not negative, with [p] digits that begin at most at the exponent of the number and end at least at [emin]. *)
Definition rounded (p emin : Z) (x : R) : R :=
  if Req_EM_T x 0 then 0 else let e := Z.max (exponent x - (p - 1)) emin in IZR (nearest (x / pow2 e)) * pow2 e.
(** What a type holds; [None] is infinity. *)
Definition below (emax : Z) (x : R) : option R := if Rlt_dec x (pow2 emax) then Some x else None.
(** A product of doubles (kdtree.cpp:52). *)
Definition to_double (x : R) : option R := below 1024 (rounded 53 (-1074) x).
(** static_cast<float> (kdtree.cpp:52); a double too large becomes infinite, as in IEC 559. *)
Definition to_float (x : option R) : option R := match x with Some x => below 128 (rounded 24 (-149) x) | None => None end.
(** radius_sq (kdtree.cpp:52). *)
Definition radius_sq (radius : R) : option R := to_float (to_double (radius * radius)).

(** The squared distance (flann::L2, kdtree.cpp:14). *)
Definition squared_distance (d : nat) (x y : nat -> R) : R := rsum d (fun e => (x e - y e) * (x e - y e)).

Section Tree.
(** flann_index_->radiusSearch and knnSearch (kdtree.cpp:35, 53-54): pairs of an index and a squared distance. *)
Variable flann_radius : list (nat -> R) -> (nat -> R) -> option R -> list (nat * R).
Variable flann_knn : list (nat -> R) -> (nat -> R) -> nat -> list (nat * R).

(** What indices and distances become (kdtree.cpp:37-44, 56-63). *)
Definition converted (found : list (nat * R)) : list nat * list R := (map fst found, map (fun q => sqrt (snd q)) found).
(** radius_search (kdtree.cpp:47-64, 94-106); [before] is what the caller's vectors hold, a radius [None] is NaN. *)
Definition radius_search (pts : list (nat -> R)) (x : nat -> R) (radius : option R) (before : list nat * list R) : outcome (list nat * list R) :=
  match radius with
  | None => Throw ExInvalidArgument
  | Some r =>
      if Rle_dec 0 r then
        match pts with [] => Ok before | _ => Ok (converted (flann_radius pts x (radius_sq r))) end
      else Throw ExInvalidArgument
  end.
(** knn_search (kdtree.cpp:30-45, 80-92). *)
Definition knn_search (pts : list (nat -> R)) (x : nat -> R) (k : Z) (before : list nat * list R) : outcome (list nat * list R) :=
  if (k <=? 0)%Z then Throw ExInvalidArgument
  else match pts with [] => Ok before | _ => Ok (converted (flann_knn pts x (Z.to_nat k))) end.
(** The search of DistanceFilter (distance_filter.hpp:25, 39-47): the vectors are local to filter, and a tree without points is never asked. *)
Definition filter_search (pts : list (nat -> R)) (x : nat -> R) (radius : R) : list nat :=
  match radius_search pts x (Some radius) ([], []) with Ok r => fst r | _ => [] end.
End Tree.
(** kMinDistance and the test of filter (distance_filter.hpp:23, 32). *)
Definition k_min_distance : R := 1.0842021724855044 / 10 ^ 19.
(** The double nearest to that constant; for normal numbers [rounded] is the conversion of the compiler. *)
Definition min_distance : R := rounded 53 (-1074) k_min_distance.
(** Within distance_filter.hpp:32. *)
Definition distance_allowed (distance : R) : bool := if Rle_dec min_distance distance then true else false.
