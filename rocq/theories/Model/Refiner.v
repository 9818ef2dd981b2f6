From Coq Require Import Reals List Arith Bool.
From Verif Require Import Model.Outcome Model.Clip Model.PointTriangle Model.Predicates Model.MeshDefects Model.AbstractMesh Model.Smoother.
Import ListNotations.
Local Open Scope R_scope.

(** Moving the vertices to the level set (src/isosurface/vertex_refiner.hpp, src/isosurface/refine.cpp), with real numbers. [p] are the [nv]
    vertices. The field function is taken to give each point its value by [field] (the values are requested in one batch, vertex_refiner.hpp:77), and the
    rows of vertices to exist. [faces_near] is what the grid of faces calls back for a box when the vertices are at the given places
    (vertex_refiner.hpp:41-43, 129-135). *)

Section Refiner.
Variable field : pt -> R.
Variable isovalue : R.
Variables blo bhi : pt.
Variable res : R.
Variable aniso : triangle.
Variable faces_near : (nat -> pt) -> mesh -> pt -> pt -> list nat.

(** project (vertex_refiner.hpp:67-99). *)
Definition spread : R := / 10 ^ 3 * res.
(** Within vertex_refiner.hpp:67-99. *)
Definition offsets : list pt :=
  let d := spread in [(d, d, d); (d, - d, - d); (- d, d, - d); (- d, - d, d)].
(** Within vertex_refiner.hpp:67-99. *)
Definition samples (x : pt) : list R := map (fun s => field (add3 s x) - isovalue) offsets.
(** Helper without code of its own. *)
Definition sum3 (ps : list pt) : pt := fold_right add3 (0, 0, 0) ps.
(** Helper without code of its own. *)
Definition sum1 (vs : list R) : R := fold_right Rplus 0 vs.
(** Within vertex_refiner.hpp:67-99. *)
Definition gradient (x : pt) : pt :=
  scale3 (1 / (4 * spread * spread)) (sum3 (map (fun '(v, s) => scale3 v s) (combine (samples x) offsets))).
(** Within vertex_refiner.hpp:67-99. *)
Definition value (x : pt) : R := 1 / 4 * sum1 (samples x).
(** Within vertex_refiner.hpp:67-99. *)
Definition step (x : pt) : pt := scale3 (value x / norm2 (gradient x)) (gradient x).
(** Within vertex_refiner.hpp:67-99. *)
Definition capped (s : pt) : pt :=
  let len := norm (apply aniso s) in
  let max_move := 1 / 2 * res in
  if ltb max_move len then scale3 (max_move / len) s else s.
(** Within vertex_refiner.hpp:67-99. *)
Definition newton (x : pt) : option pt :=
  if eqb (norm2 (gradient x)) 0 then None else Some (sub3 x (capped (step x))).
(** project (vertex_refiner.hpp:67-99). *)
Definition project (nv : nat) (p : nat -> pt) : list (nat * pt) :=
  flat_map (fun i => match newton (p i) with Some t => [(i, t)] | None => [] end) (seq 0 nv).

(** moved_face (vertex_refiner.hpp:57-65), in the form of changed vertices. *)
Definition place (p : nat -> pt) (vi : nat) (q : pt) : nat -> pt := fun v => if (v =? vi)%nat then q else p v.
(** The test of the faces around the vertex (vertex_refiner.hpp:103-127): true if the move is refused. *)
Fixpoint refused (p : nat -> pt) (m : mesh) (vi : nat) (q : pt) (fis : list nat) : outcome bool :=
  match fis with
  | [] => Ok false
  | fi :: fis' =>
      let f := m_face m fi in
      let p' := place p vi q in
      let '(a, b, c) := at_rows p' f in
      if leb (dot3 (normal p f) (normal p' f)) 0 then Ok true else
      let* hit := any_of (faces_near p m (lo_of a [b; c]) (hi_of a [b; c]))
        (fun fj => if (fj =? fi)%nat then Ok false else triangles_intersect (at_rows p' f) (at_rows p' (m_face m fj))) in
      if hit then Ok true else refused p m vi q fis'
  end.
(** try_move (vertex_refiner.hpp:101-137). *)
Definition new_place (t : pt) : pt := snap_to_bbox t blo bhi res.
(** try_move (vertex_refiner.hpp:101-137). *)
Definition try_move (m : mesh) (p : nat -> pt) (vi : nat) (t : pt) : outcome (nat -> pt) :=
  let q := new_place t in
  let* no := refused p m vi q (vertex_faces m vi) in
  Ok (if no then p else place p vi q).
(** Within vertex_refiner.hpp:101-137. *)
Fixpoint move_all (m : mesh) (p : nat -> pt) (moves : list (nat * pt)) : outcome (nat -> pt) :=
  match moves with
  | [] => Ok p
  | (vi, t) :: moves' => let* p' := try_move m p vi t in move_all m p' moves'
  end.
(** refine_vertices (refine.cpp:7-13). A mesh without faces is empty or entire; the result of the refiner never is entire. *)
Definition refine (nv : nat) (p : nat -> pt) (fs : list face) (entire : bool) : outcome ((nat -> pt) * list face * bool) :=
  if (length fs =? 0)%nat && negb entire then Ok (p, fs, entire) else
  let* m := construct fs in
  let* p' := move_all m p (project nv p) in
  Ok (p', take_faces m, false).
End Refiner.
