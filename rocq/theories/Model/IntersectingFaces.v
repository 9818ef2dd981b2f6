From Coq Require Import Reals List Arith Bool.
From Verif Require Import Model.Outcome Model.SpatialGrid Model.Clip Model.Predicates.
Import ListNotations.

(** * MeshDefectsFinder::intersecting_faces (src/isosurface/mesh_defects_finder.cpp:37-76)

    Coordinates are finite reals and [pos] gives the rows of the vertices; the face grid and the test of two triangles are those of
    Model.SpatialGrid and Model.Predicates. An exception that leaves the parallel region ends the program; here it is the outcome. *)
Definition face := (nat * nat * nat)%type.

Section Finder.
Variables (rnd : R -> R) (resolution : R) (pos : nat -> pt).

(** The corners of a face (mesh_defects_finder.cpp:32-35, 40). *)
Definition tri_of (f : face) : triangle := let '(a, b, c) := f in (pos a, pos b, pos c).
(** The box of three points (face_grid.hpp:50-52): the smallest and the largest coordinates. *)
Definition lowest (t : triangle) : pt :=
  let '(a, b, c) := t in
  (Rmin (Rmin (px a) (px b)) (px c), Rmin (Rmin (py a) (py b)) (py c), Rmin (Rmin (pz a) (pz b)) (pz c)).
(** Within face_grid.hpp:50-52. *)
Definition highest (t : triangle) : pt :=
  let '(a, b, c) := t in
  (Rmax (Rmax (px a) (px b)) (px c), Rmax (Rmax (py a) (py b)) (py c), Rmax (Rmax (pz a) (pz b)) (pz c)).
(** Row [fi] of the faces. *)
Definition face_at (fs : list face) (fi : nat) : face := nth fi fs (0, 0, 0).

(** The grid of all faces (mesh_defects_finder.cpp:38-41). *)
Fixpoint insert_faces (g : face_grid) (fs : list face) (fis : list nat) : outcome face_grid :=
  match fis with
  | [] => Ok g
  | fi :: fis' =>
      let t := tri_of (face_at fs fi) in
      let* g' := fg_insert rnd resolution g fi (lowest t) (highest t) in insert_faces g' fs fis'
  end.

(** The pairs of faces to test (mesh_defects_finder.cpp:43-52). The box of a face never inserted has no definite corners. *)
Fixpoint collect_pairs (g : face_grid) (fis : list nat) : outcome (list (nat * nat)) :=
  match fis with
  | [] => Ok []
  | fi :: fis' =>
      match nth_error (fg_box g) fi with
      | None => Throw ExOutOfRange
      | Some None => UB
      | Some (Some (lo, hi)) =>
          let* q := fg_for_each rnd resolution g lo hi (fun _ _ => true) in
          let '(g', out, _) := q in
          let* ps := collect_pairs g' fis' in
          Ok (map (fun fj => (fi, fj)) (filter (fun fj => fi <? fj) (rev out)) ++ ps)
      end
  end.

(** intersect (mesh_defects_finder.cpp:31-36). *)
Definition intersect (fs : list face) (fi fj : nat) : outcome bool := triangles_intersect (tri_of (face_at fs fi)) (tri_of (face_at fs fj)).

(** The loop over pairs (mesh_defects_finder.cpp:60-66), for the numbers of the pairs in the order in which their results are put together. *)
Fixpoint test_pairs (fs : list face) (pairs : list (nat * nat)) (is : list nat) : outcome (list nat) :=
  match is with
  | [] => Ok []
  | i :: is' =>
      match nth_error pairs i with
      | None => Throw ExOutOfRange
      | Some (fi, fj) =>
          let* hit := intersect fs fi fj in
          let* r := test_pairs fs pairs is' in
          Ok (if hit then fi :: fj :: r else r)
      end
  end.
End Finder.

(** std::ranges::sort (mesh_defects_finder.cpp:72); equal numbers cannot be told apart, so insertion sort stands for it. *)
Fixpoint insert_index (x : nat) (l : list nat) : list nat :=
  match l with [] => [x] | y :: l' => if x <=? y then x :: l else y :: insert_index x l' end.
(** Within mesh_defects_finder.cpp:72. *)
Definition sort_indices (l : list nat) : list nat := fold_right insert_index [] l.
(** std::ranges::unique with erase (mesh_defects_finder.cpp:73): an element equal to the last one kept is dropped. *)
Fixpoint unique_after (x : nat) (l : list nat) : list nat :=
  match l with [] => [] | y :: l' => if x =? y then unique_after x l' else y :: unique_after y l' end.
(** Within mesh_defects_finder.cpp:73. *)
Definition unique_indices (l : list nat) : list nat := match l with [] => [] | x :: l' => x :: unique_after x l' end.

(** The constructor puts each face at its vertices (mesh_defects_finder.cpp:22-27), which throws if there is no such vertex. *)
Definition faces_ok (nv : nat) (fs : list face) : bool :=
  forallb (fun f => let '(a, b, c) := f in (a <? nv) && (b <? nv) && (c <? nv)) fs.

(** intersecting_faces (mesh_defects_finder.cpp:37-76). [schedule n] is, for n pairs, the numbers of the pairs each thread handles, the threads
    in the order in which they enter the critical section (mesh_defects_finder.cpp:59, 68-69). *)
Definition intersecting_faces (rnd : R -> R) (resolution : R) (nv : nat) (pos : nat -> pt) (fs : list face) (schedule : nat -> list (list nat))
  : outcome (list nat) :=
  if faces_ok nv fs then
    let* g := insert_faces rnd resolution pos (fg_new (length fs)) fs (seq 0 (length fs)) in
    let* pairs := collect_pairs rnd resolution g (seq 0 (length fs)) in
    let* r := test_pairs pos fs pairs (concat (schedule (length pairs))) in
    Ok (unique_indices (sort_indices r))
  else Throw ExOutOfRange.
