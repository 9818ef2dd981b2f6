From Coq Require Import Reals List Arith ZArith Bool.
From Verif Require Import Model.Outcome Model.LinAlg Model.NormalEstimator.
Import ListNotations.
Local Open Scope R_scope.

(** SdfDataGenerator (src/point_cloud/sdf_data_generator.cpp). Vectors have three coordinates; arithmetic is real, and a division by zero
    is the answer [NotFinite] (the distance is then NaN or infinite; what follows is not modelled). *)
Inductive answer (A : Type) : Type := Value (a : A) | NotFinite | NoFuel.
Arguments Value {A} a.
Arguments NotFinite {A}.
Arguments NoFuel {A}.

(** Helper without code of its own. *)
Definition sub3 (v w : vec3) : vec3 := fun e => v e - w e.
(** p + sign * d * n. *)
Definition along (p n : vec3) (sign d : R) : vec3 := fun e => p e + sign * d * n e.
(** Helper without code of its own. *)
Definition norm3 (v : vec3) : R := sqrt (dot 3 v v).
(** Eigen's normalized(): zero vectors are returned as they are. *)
Definition normalized (v : vec3) : vec3 := if Rlt_dec 0 (dot 3 v v) then fun e => v e / norm3 v else v.

Section Generator.
Variable n_points : nat.
Variable points normals : nat -> vec3.
(** knn_search(q, 1): the answer of the tree. *)
Variable nearest : vec3 -> nat.
(** The distances found by knn_search(points i, k). *)
Variable knn : nat -> nat -> list R.
Variable offset : R.

(** sdf_data_generator.cpp:68-71; max_element of nothing would be dereferenced. *)
Definition start (i : nat) : outcome R :=
  if Rle_dec offset 0 then match knn i (min 6 n_points) with [] => UB | x :: l => Ok (fold_left Rmax l x) end else Ok offset.
(** sdf_data_generator.cpp:74-87; [fuel] bounds the passes of the loop. *)
Fixpoint shrink (fuel i : nat) (sign d : R) : answer R :=
  let p := points i in
  let q := along p (normals i) sign d in
  let j := nearest q in
  if Nat.eqb j i then Value d
  else match fuel with
       | O => NoFuel
       | S f =>
           let v := sub3 (points j) p in
           let r := norm3 v / 2 in
           let cos := dot 3 (normalized (sub3 q p)) (normalized v) in
           if Req_EM_T cos 0 then NotFinite else shrink f i sign (99 / 100 * r / cos)
       end.
(** sdf_data_generator.cpp:59-92 for one sign: the rows appended. *)
Fixpoint pass (fuel : nat) (sign : R) (rows : list nat) : outcome (answer (list (vec3 * R))) :=
  match rows with
  | [] => Ok (Value [])
  | i :: rows' =>
      if is_zero (normals i) then pass fuel sign rows'
      else
        let* d0 := start i in
        match shrink fuel i sign d0 with
        | NotFinite => Ok NotFinite
        | NoFuel => Ok NoFuel
        | Value d =>
            let* rest := pass fuel sign rows' in
            Ok match rest with
               | Value l => Value ((along (points i) (normals i) sign d, sign * d) :: l)
               | NotFinite => NotFinite
               | NoFuel => NoFuel
               end
        end
  end.
(** estimate_impl (sdf_data_generator.cpp:43-99). *)
Definition estimate_impl (fuel : nat) : outcome (answer (list (vec3 * R))) :=
  let* inside := pass fuel (-1) (seq 0 n_points) in
  match inside with
  | NotFinite => Ok NotFinite
  | NoFuel => Ok NoFuel
  | Value l =>
      let* outside := pass fuel 1 (seq 0 n_points) in
      Ok match outside with
         | Value l' => Value (map (fun i => (points i, 0)) (seq 0 n_points) ++ l ++ l')
         | NotFinite => NotFinite
         | NoFuel => NoFuel
         end
  end.
End Generator.

(** The constructor (sdf_data_generator.cpp:14-41). [inverse] is aniso.inverse(); matrices are 3x3. *)
Definition det3 (a : nat -> nat -> R) : R :=
  a 0%nat 0%nat * (a 1%nat 1%nat * a 2%nat 2%nat - a 1%nat 2%nat * a 2%nat 1%nat)
  - a 0%nat 1%nat * (a 1%nat 0%nat * a 2%nat 2%nat - a 1%nat 2%nat * a 2%nat 0%nat)
  + a 0%nat 2%nat * (a 1%nat 0%nat * a 2%nat 1%nat - a 1%nat 1%nat * a 2%nat 0%nat).
(** isIdentity(): |x - 1| <= 1e-12 min(|x|, 1) on the diagonal, |x| <= 1e-12 elsewhere. *)
Definition is_identity (a : nat -> nat -> R) : bool :=
  forallb (fun i => forallb (fun j =>
    if Nat.eqb i j then if Rle_dec (Rabs (a i j - 1)) (Rmin (Rabs (a i j)) 1 * / 10 ^ 12) then true else false
    else if Rle_dec (Rabs (a i j)) (/ 10 ^ 12) then true else false) (seq 0 3)) (seq 0 3).
(** transform_points (geometry/point3d.hpp:42-46): a row times the transpose. *)
Definition apply (a : nat -> nat -> R) (v : vec3) : vec3 := fun e => rsum 3 (fun k => v k * a e k).
(** Helper without code of its own. *)
Definition transpose (a : nat -> nat -> R) : nat -> nat -> R := fun i j => a j i.
(** sdf_data_generator.cpp:31-36. *)
Definition transformed_normal (inverse : nat -> nat -> R) (n : vec3) : vec3 :=
  let t := apply (transpose inverse) n in if is_zero t then t else normalized t.
(** [nearest] and [knn] are those of the tree of the points given to estimate_impl. *)
Definition sdf_data (n_points n_normals : nat) (points normals : nat -> vec3) (nearest : (nat -> vec3) -> vec3 -> nat) (knn : (nat -> vec3) -> nat -> nat -> list R)
    (offset : R) (aniso inverse : nat -> nat -> R) (fuel : nat) : outcome (answer (list (vec3 * R))) :=
  if negb (Nat.eqb n_normals n_points) then Throw ExInvalidArgument
  else if Rlt_dec 0 (det3 aniso) then
    if is_identity aniso then estimate_impl n_points points normals (nearest points) (knn points) offset fuel
    else
      let a_points := fun i => apply aniso (points i) in
      let a_normals := fun i => transformed_normal inverse (normals i) in
      let* data := estimate_impl n_points a_points a_normals (nearest a_points) (knn a_points) offset fuel in
      Ok match data with
         | Value l => Value (map (fun x => (apply inverse (fst x), snd x)) l)
         | NotFinite => NotFinite
         | NoFuel => NoFuel
         end
  else Throw ExInvalidArgument.
