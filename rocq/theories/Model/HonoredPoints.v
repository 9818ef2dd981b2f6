From Coq Require Import Reals List Arith Bool.
From Verif Require Import Model.Outcome Model.Clip Model.PointTriangle.
Import ListNotations.
Local Open Scope R_scope.

(** Which points the surface honors while a mesh is snapped (src/isosurface/snapper/snapper.hpp:85-90, 123-128, 250-256, 315-364, 384-451, 657-768).
    Numbers are real. Only what these tests read is kept: the transformed positions of the rows, the committed faces of each patch, the
    boxes in the face grid and the cached lists. A query of a grid is a given function of the stored boxes and of the box asked for: it
    returns the visited items, which in the code also depend on the cells (Model.SpatialGrid). *)

Definition face := (nat * nat * nat)%type.
(** Helper without code of its own. *)
Definition corners (f : face) : list nat := [fst (fst f); snd (fst f); snd f].
(** (f.array() == v).any() (snapper.hpp:358, 413). *)
Definition has (f : face) (v : nat) : bool := existsb (Nat.eqb v) (corners f).

(** cwiseMin, cwiseMax. *)
Definition pmin (p q : pt) : pt := (Rmin (px p) (px q), Rmin (py p) (py q), Rmin (pz p) (pz q)).
(** Helper without code of its own. *)
Definition pmax (p q : pt) : pt := (Rmax (px p) (px q), Rmax (py p) (py q), Rmax (pz p) (pz q)).

(** The box of a face (snapper.hpp:316-319). *)
Definition face_box (ap : nat -> pt) (f : face) : pt * pt :=
  let '(a, b, c) := f in (pmin (pmin (ap a) (ap b)) (ap c), pmax (pmax (ap a) (ap b)) (ap c)).
(** The box of several faces (snapper.hpp:441-448, 409-418); without any face the code has infinite corners, here [None]. *)
Fixpoint faces_box (ap : nat -> pt) (fs : list face) : option (pt * pt) :=
  match fs with
  | [] => None
  | f :: fs' =>
      match faces_box ap fs' with
      | None => Some (face_box ap f)
      | Some b => Some (pmin (fst (face_box ap f)) (fst b), pmax (snd (face_box ap f)) (snd b))
      end
  end.

(** What changes; a cache that is not valid is [None] (snapper.hpp:85-90). *)
Record patches := Patches { h_ap : nat -> pt; h_faces : nat -> list face; h_box : nat -> pt * pt; h_cache : nat -> option (list nat) }.
(** Helper without code of its own. *)
Definition put {A : Type} (f : nat -> A) (k : nat) (x : A) : nat -> A := fun i => if i =? k then x else f i.

Section Honored.
Variable tols : nat -> R.
Variable scan_points : pt * pt -> list nat.
Variable scan_faces : (nat -> pt * pt) -> pt * pt -> list nat.
Variable vertex_faces : nat -> list nat.

(** snap_tols2_ (snapper.hpp:124). *)
Definition tol2 (i : nat) : R := tols i * tols i.
(** honored_by (snapper.hpp:315-325); a comparison with NaN is false. *)
Definition honored_by (ap : nat -> pt) (i : nat) (f : face) : bool :=
  let '(a, b, c) := f in
  let aq := pmin (pmax (ap i) (fst (face_box ap f))) (snd (face_box ap f)) in
  if ltb (tol2 i) (norm2 (sub3 (ap i) aq)) then false
  else match point_triangle_closest (ap i) (ap a) (ap b) (ap c) with Some (_, d) => leb d (tol2 i) | None => false end.
(** honored_by_patch (snapper.hpp:345-352). *)
Definition honored_by_patch (s : patches) (i fi : nat) : bool := existsb (honored_by (h_ap s) i) (h_faces s fi).
(** honored_by_star (snapper.hpp:355-364). *)
Definition honored_by_star (s : patches) (i v : nat) : bool :=
  existsb (fun fi => existsb (fun f => has f v && honored_by (h_ap s) i f) (h_faces s fi)) (vertex_faces v).
(** The box around a point (snapper.hpp:329-332; spatial_grid.hpp:88-89). *)
Definition ball (p : pt) (r : R) : pt * pt := (sub3 p (r, r, r), add3 p (r, r, r)).
(** honored_by_mesh (snapper.hpp:328-342). *)
Definition honored_by_mesh (s : patches) (i : nat) : bool :=
  existsb (honored_by_patch s i) (scan_faces (h_box s) (ball (h_ap s i) (sqrt (tol2 i)))).

(** points_honored_by_patches (snapper.hpp:384-405), one patch and all. *)
Definition points_of_patch (s : patches) (fi : nat) : list nat * patches :=
  match h_cache s fi with
  | Some l => (l, s)
  | None =>
      let l := filter (fun i => honored_by_patch s i fi) (scan_points (h_box s fi)) in
      (l, Patches (h_ap s) (h_faces s) (h_box s) (put (h_cache s) fi (Some l)))
  end.
(** points_honored_by_patches (snapper.hpp:384-405). *)
Fixpoint points_of_patches (s : patches) (l : list nat) : list nat * patches :=
  match l with
  | [] => ([], s)
  | fi :: l' => let r := points_of_patch s fi in let q := points_of_patches (snd r) l' in (fst r ++ fst q, snd q)
  end.
(** points_honored_by_star (snapper.hpp:408-428); an infinite corner has no cell. *)
Definition points_of_star (s : patches) (v : nat) : outcome (list nat) :=
  match faces_box (h_ap s) (filter (fun f => has f v) (flat_map (h_faces s) (vertex_faces v))) with
  | None => UB
  | Some b => Ok (filter (fun i => honored_by_star s i v) (scan_points b))
  end.
(** collect_dishonored (snapper.hpp:250-256). *)
Definition collect (s : patches) (prev : list nat) : list nat := filter (fun i => negb (honored_by_mesh s i)) prev.

(** reindex_patch (snapper.hpp:438-451). *)
Definition reindex (s : patches) (fi : nat) : outcome patches :=
  match faces_box (h_ap s) (h_faces s fi) with
  | None => UB
  | Some b => Ok (Patches (h_ap s) (h_faces s) (put (h_box s) fi b) (put (h_cache s) fi None))
  end.
(** The loop over the changed patches (snapper.hpp:705-708, 734-735). *)
Fixpoint commit (s : patches) (changed : list (nat * list face)) : outcome patches :=
  match changed with
  | [] => Ok s
  | (fi, fs) :: rest =>
      let* s' := reindex (Patches (h_ap s) (put (h_faces s) fi fs) (h_box s) (h_cache s)) fi in commit s' rest
  end.
(** The loop over the faces around a vertex (snapper.hpp:762-764). *)
Fixpoint reindex_all (s : patches) (l : list nat) : outcome patches :=
  match l with [] => Ok s | fi :: l' => let* s' := reindex s fi in reindex_all s' l' end.

(** An accepted step that changes the faces of patches (snapper.hpp:678-710, 716-737): the points it dishonors. *)
Definition change_patches (s : patches) (changed : list (nat * list face)) : outcome (list nat * patches) :=
  let r := points_of_patches s (map fst changed) in
  let* s' := commit (snd r) changed in Ok (collect s' (fst r), s').
(** An accepted step that moves a vertex (snapper.hpp:741-768). *)
Definition move_vertex (s : patches) (v : nat) (p : pt) : outcome (list nat * patches) :=
  let* prev := points_of_star s v in
  let* s' := reindex_all (Patches (put (h_ap s) v p) (h_faces s) (h_box s) (h_cache s)) (vertex_faces v) in
  Ok (collect s' prev, s').
(** After construction (snapper.hpp:110-128): one face per patch, boxes of the faces, no cached lists. *)
Definition start_patches (ap : nat -> pt) (faces : nat -> face) : patches :=
  Patches ap (fun fi => [faces fi]) (fun fi => face_box ap (faces fi)) (fun _ => None).
End Honored.
