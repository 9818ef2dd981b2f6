From Coq Require Import Reals List Arith ZArith Bool.
From Verif Require Import Model.Outcome Model.LinAlg.
Import ListNotations.
Local Open Scope R_scope.

(** NormalEstimator (src/point_cloud/normal_estimator.cpp). Vectors have three coordinates; arithmetic is real. *)
Definition vec3 : Type := nat -> R.
(** Helper without code of its own. *)
Definition zero3 : vec3 := fun _ => 0.
(** Helper without code of its own. *)
Definition neg3 (v : vec3) : vec3 := fun e => - v e.
(** Helper without code of its own. *)
Definition unit_z : vec3 := fun e => if Nat.eqb e 2 then 1 else 0.
(** Eigen's isZero(): every coordinate is at most 1e-12. *)
Definition is_zero (v : vec3) : bool :=
  if Rle_dec (Rabs (v 0%nat)) (/ 10 ^ 12) then if Rle_dec (Rabs (v 1%nat)) (/ 10 ^ 12) then if Rle_dec (Rabs (v 2%nat)) (/ 10 ^ 12) then true else false else false else false.

(** Within normal_estimator.hpp:92-93. *)
Record estimate := { normals : nat -> vec3; factors : nat -> R }.

Section Estimator.
Variable n_points : nat.
Variable points : nat -> vec3.
(** PlaneEstimator on these rows (src/point_cloud/plane_estimator.cpp:8-31): plane factor and normal. *)
Variable plane : list nat -> R * vec3.
(** With fewer than three rows there are fewer than three singular values and plane_estimator.cpp:16 reads past the end. *)
Definition plane_estimator (rows : list nat) : outcome (R * vec3) := if (length rows <? 3)%nat then UB else Ok (plane rows).
(** std::vector::resize. *)
Definition resize (l : list nat) (k : nat) : list nat := firstn k l ++ repeat 0%nat (k - length l).
(** std::max_element on the factors, with the normals. *)
Fixpoint best_of (best : R * vec3) (l : list (R * vec3)) : R * vec3 :=
  match l with [] => best | x :: l' => best_of (if Rlt_dec (fst best) (fst x) then x else best) l' end.
(** Within normal_estimator.cpp:61-68. *)
Definition best (l : list (R * vec3)) : outcome (R * vec3) := match l with [] => Throw ExOutOfRange | x :: l' => Ok (best_of x l') end.

(** normal_estimator.cpp:58-66: the rows shrink from one scale to the next. *)
Fixpoint knn_scales (ks : list Z) (rows : list nat) : outcome (list (R * vec3)) :=
  match ks with
  | [] => Ok []
  | k :: ks' => let rows' := resize rows (min (Z.to_nat k) n_points) in
                let* x := plane_estimator rows' in let* r := knn_scales ks' rows' in Ok (x :: r)
  end.
(** Sorting from the largest to the smallest (normal_estimator.cpp:42-43). *)
Fixpoint insert_down (k : Z) (l : list Z) : list Z :=
  match l with [] => [k] | x :: l' => if (x <=? k)%Z then k :: l else x :: insert_down k l' end.
(** Helper without code of its own. *)
Definition sort_down (l : list Z) : list Z := fold_right insert_down [] l.
(** Helper without code of its own. *)
Fixpoint for_rows {A : Type} (f : nat -> outcome A) (rows : list nat) : outcome (list A) :=
  match rows with [] => Ok [] | i :: rows' => let* x := f i in let* r := for_rows f rows' in Ok (x :: r) end.
(** Helper without code of its own. *)
Definition of_rows (l : list (R * vec3)) : estimate :=
  {| normals := fun i => snd (nth i l (0, zero3)); factors := fun i => fst (nth i l (0, zero3)) |}.
(** estimate_with_knn (normal_estimator.cpp:22-76). [nearest i k] are the k rows nearest to row i from the nearest to the farthest (normal_estimator.cpp:51-56). *)
Definition estimate_with_knn (nearest : nat -> nat -> list nat) (ks : list Z) : outcome estimate :=
  if match ks with [] => true | _ => false end then Throw ExRuntimeError
  else if existsb (fun k => (k <? 3)%Z) ks then Throw ExRuntimeError
  else if (n_points <? 3)%nat then Ok {| normals := fun _ => zero3; factors := fun _ => 0 |}
  else
    let sorted := sort_down ks in
    let k_max := min (Z.to_nat (hd 0%Z sorted)) n_points in
    let* l := for_rows (fun i => let* xs := knn_scales sorted (nearest i k_max) in best xs) (seq 0 n_points) in
    Ok (of_rows l).

(** normal_estimator.cpp:117-127. [count i r] is the number of the rows within r of row i that upper_bound finds. *)
Fixpoint radius_scales (count : R -> nat) (radii : list R) (rows : list nat) : outcome (list (R * vec3)) :=
  match radii with
  | [] => Ok []
  | r :: radii' => let rows' := resize rows (min (count r) (length rows)) in
                   let* x := plane_estimator rows' in let* xs := radius_scales count radii' rows' in Ok (x :: xs)
  end.
(** Helper without code of its own. *)
Fixpoint insert_r (k : R) (l : list R) : list R :=
  match l with [] => [k] | x :: l' => if Rle_dec x k then k :: l else x :: insert_r k l' end.
(** Helper without code of its own. *)
Definition sort_r (l : list R) : list R := fold_right insert_r [] l.
(** estimate_with_radius (normal_estimator.cpp:82-138). [within i r] are the rows within r of row i, from the nearest to the farthest. *)
Definition estimate_with_radius (within : nat -> R -> list nat) (count : nat -> R -> nat) (radii : list R) : outcome estimate :=
  if match radii with [] => true | _ => false end then Throw ExRuntimeError
  else if existsb (fun r => if Rlt_dec 0 r then false else true) radii then Throw ExRuntimeError
  else
    let sorted := sort_r radii in
    let* l := for_rows (fun i =>
                let rows := within i (hd 0 sorted) in
                if (length rows <? 3)%nat then Ok (0, zero3)
                else let* xs := radius_scales (count i) sorted rows in best xs) (seq 0 n_points) in
    Ok (of_rows l).

(** filter_by_plane_factor (normal_estimator.cpp:140-150). *)
Definition filter_by_plane_factor (threshold : R) (s : estimate) : estimate :=
  {| normals := fun i => if Rlt_dec (factors s i) threshold then zero3 else normals s i; factors := factors s |}.
(** orient_toward_direction (normal_estimator.cpp:152-164), orient_toward_point (normal_estimator.cpp:166-179). *)
Definition orient_toward_direction (direction : vec3) (s : estimate) : estimate :=
  {| normals := fun i => if Rlt_dec (dot 3 (normals s i) direction) 0 then neg3 (normals s i) else normals s i; factors := factors s |}.
(** orient_toward_point (normal_estimator.cpp:166-179). *)
Definition orient_toward_point (point : vec3) (s : estimate) : estimate :=
  {| normals := fun i => if Rlt_dec (dot 3 (normals s i) (fun e => point e - points i e)) 0 then neg3 (normals s i) else normals s i; factors := factors s |}.

(** orient_closed_surface (normal_estimator.cpp:189-284). [near i] are the rows found by the search of normal_estimator.cpp:224 and 255. The priority queue is a list;
    [pop t] says which of its elements is at the top in step t: nothing is assumed about the weights, which only order the queue. *)
Section Closed.
Variable near : nat -> list nat.
Variable pop : nat -> nat.
(** Helper without code of its own. *)
Definition turn (nrm : nat -> vec3) (i : nat) : nat -> vec3 := fun k => if Nat.eqb k i then neg3 (nrm i) else nrm k.
(** Helper without code of its own. *)
Definition mark (ori : nat -> bool) (i : nat) : nat -> bool := fun k => if Nat.eqb k i then true else ori k.
(** normal_estimator.cpp:225-235 and 256-266. *)
Definition push (ori : nat -> bool) (cur : nat) (queue : list (nat * nat)) : list (nat * nat) :=
  queue ++ flat_map (fun next => if ori next then [] else [(cur, next)]) (near cur).
(** normal_estimator.cpp:238-267: normals, marks, component; None when the fuel is used up. *)
Fixpoint spread (fuel t : nat) (nrm : nat -> vec3) (ori : nat -> bool) (component : list nat) (queue : list (nat * nat)) :
    option (nat * (nat -> vec3) * (nat -> bool) * list nat) :=
  match queue with
  | [] => Some (t, nrm, ori, component)
  | _ =>
      match fuel with
      | O => None
      | S f =>
          let j := Nat.modulo (pop t) (length queue) in
          let '(prev, cur) := nth j queue (0%nat, 0%nat) in
          let rest := firstn j queue ++ skipn (S j) queue in
          if ori cur then spread f (S t) nrm ori component rest
          else
            let nrm' := if Rlt_dec (dot 3 (nrm cur) (nrm prev)) 0 then turn nrm cur else nrm in
            let ori' := mark ori cur in
            spread f (S t) nrm' ori' (component ++ [cur]) (push ori' cur rest)
      end
  end.
(** max_element (normal_estimator.cpp:269-273): the first of the highest. *)
Fixpoint highest (best : nat) (l : list nat) : nat :=
  match l with
  | [] => best
  | i :: l' => highest (if Rlt_dec (dot 3 (points best) unit_z) (dot 3 (points i) unit_z) then i else best) l'
  end.
(** Within normal_estimator.cpp:269-273. *)
Definition turn_all (nrm : nat -> vec3) (l : list nat) : nat -> vec3 := fun k => if existsb (Nat.eqb k) l then neg3 (nrm k) else nrm k.
(** normal_estimator.cpp:203-279; also returns the components. *)
Fixpoint closed_loop (rounds fuel t : nat) (nrm : nat -> vec3) (ori : nat -> bool) (components : list (list nat)) : option ((nat -> vec3) * list (list nat)) :=
  match find (fun i => negb (ori i)) (seq 0 n_points) with
  | None => Some (nrm, components)
  | Some cur =>
      match rounds with
      | O => None
      | S r =>
          let ori' := mark ori cur in
          match spread fuel t nrm ori' [cur] (push ori' cur []) with
          | None => None
          | Some (t', nrm', ori'', component) =>
              let seed := highest cur (tl component) in
              let nrm'' := if Rlt_dec (dot 3 (nrm' seed) unit_z) 0 then turn_all nrm' component else nrm' in
              closed_loop r fuel t' nrm'' ori'' (components ++ [component])
          end
      end
  end.
(** orient_closed_surface (normal_estimator.cpp:189-284). *)
Definition orient_closed_surface (rounds fuel : nat) (s : estimate) : option (estimate * list (list nat)) :=
  match closed_loop rounds fuel 0 (normals s) (fun i => is_zero (normals s i)) [] with
  | None => None
  | Some (nrm, components) => Some ({| normals := nrm; factors := factors s |}, components)
  end.
End Closed.
End Estimator.
