From Coq Require Import Reals ZArith List Arith Bool.
From Verif Require Import Model.Outcome Model.Clip Model.PointTriangle Model.Predicates Model.MeshDefects Model.AbstractMesh Model.Smoother Model.Thinner.
Import ListNotations.

(** Isosurface (include/polatory/isosurface/isosurface.hpp). The stages are functions; None is a stage that did not come to an end within
    the number of turns granted. *)
Record surface := Surface { s_v : list pt; s_f : list face; s_entire : bool }.
(** Mesh::is_empty (mesh.hpp:54). *)
Definition is_empty (s : surface) : bool := (length (s_f s) =? 0)%nat && negb (s_entire s).
(** Within mesh.hpp:54. *)
Definition entire : surface := Surface [] [] true.
(** Helper without code of its own. *)
Definition bind_opt {A B : Type} (x : outcome (option A)) (f : A -> outcome (option B)) : outcome (option B) :=
  let* r := x in match r with Some a => f a | None => Ok None end.
Notation "'let?' x ':=' e 'in' f" := (bind_opt e (fun x => f)) (at level 200, x name, e at level 100, f at level 200).

Section Generate.
Variables cluster refine smooth0 smooth thin clip : surface -> outcome (option surface).
(** snap_mesh (isosurface.hpp:94) with skipped + dishonored of the statistics. *)
Variable snap : surface -> outcome (option (surface * nat)).
Variable hash : surface -> Z.

(** isosurface.hpp:78-84; [smooth0] is without snap points. *)
Definition first_pass (refining : bool) (s : surface) : outcome (option surface) :=
  let? s := cluster s in
  let? s := if refining then refine s else Ok (Some s) in
  smooth0 s.
(** One turn of isosurface.hpp:92-108, up to the tests. *)
Definition turn (s : surface) : outcome (option (surface * nat)) :=
  let? r := snap s in
  let? s' := smooth (fst r) in
  Ok (Some (s', snd r)).
(** The loop of isosurface.hpp:91-108; [n] turns are left, and the hashes are kept in reverse. *)
Fixpoint turns (n : nat) (s : surface) (hashes : list Z) : outcome (option surface) :=
  match n with
  | O => Ok (Some s)
  | S n' =>
      let? r := turn s in
      let s' := fst r in
      if (snd r =? 0)%nat then Ok (Some s') else
      if existsb (Z.eqb (hash s')) hashes then Ok (Some s') else turns n' s' (hash s' :: hashes)
  end.
(** isosurface.hpp:110-113. *)
Definition polish (s : surface) : outcome (option surface) :=
  let? s := thin s in
  let? s := smooth s in
  let? s := thin s in
  smooth s.
(** generate_common (isosurface.hpp:73-127). [start] is the mesh of the lattice; [negative] the sign at a point within the box, which exists whenever
    nodes were added. Clearing the lattice is left out; it is not reached when a stage throws. *)
Definition generate_common (start : surface) (negative : bool) (refining : bool) (n_points : nat) : outcome (option surface) :=
  let? s :=
    if is_empty start then Ok (Some start) else
    let? s := first_pass false start in
    let? s := first_pass refining s in
    let? s :=
      if (n_points =? 0)%nat then Ok (Some s) else
      let? s := turns 20 s [] in
      polish s in
    clip s in
  Ok (Some (if is_empty s && negative then entire else s)).
End Generate.

(** The stages smooth_snapped_mesh and thin_snapped_mesh (src/isosurface/snap.cpp:25-37) on whole meshes; [faces_near] is given the
    vertices. [fuel] grants the turns. *)
Section Stages.
Variable aniso : triangle.
Variable n_points : nat.
Variables point target : nat -> pt.
Variable tol : nat -> R.
Variable max_edge2 : R.
Variable near : pt -> pt -> list nat.
Variable faces_near : (nat -> pt) -> mesh -> pt -> pt -> list nat.
Variable take : list item -> option (item * list item).
Variable fuel : list face -> nat.
(** Helper without code of its own. *)
Definition vertex (s : surface) (v : nat) : pt := nth v (s_v s) (0, 0, 0)%R.
(** Helper without code of its own. *)
Definition moved_vertex (s : surface) (v : nat) : pt := apply aniso (vertex s v).
(** Within src/isosurface/snap.cpp:25-37. *)
Definition smooth_stage (s : surface) : outcome (option surface) :=
  let* r := smooth (vertex s) (moved_vertex s) n_points target tol max_edge2 near (faces_near (vertex s)) take (fuel (s_f s)) (s_f s) in
  Ok (option_map (fun r => Surface (s_v s) (fst r) false) r).
(** Within src/isosurface/snap.cpp:25-37. *)
Definition thin_stage (s : surface) : outcome (option surface) :=
  if (n_points =? 0)%nat || (length (s_f s) =? 0)%nat then Ok (Some s) else
  let* r := thin (length (s_v s)) (vertex s) (moved_vertex s) n_points point target tol max_edge2 near (faces_near (vertex s)) (S (length (s_f s))) (s_f s) in
  Ok (option_map (fun r => Surface (map (vertex s) (fst r)) (snd r) false) r).
End Stages.

(** set_snap_points (isosurface.hpp:58-70) on numbers; the empty list is no tolerances. The earlier points stay when it throws. *)
Definition set_snap_points (points : list pt) (tolerances : list R) : outcome (list pt * list R) :=
  match tolerances with
  | [] => Ok (points, tolerances)
  | t :: ts =>
      if negb (length tolerances =? length points)%nat then Throw ExInvalidArgument else
      if negb (leb 0 (fold_left Rmin ts t) && leb (fold_left Rmax ts t) 1) then Throw ExInvalidArgument else Ok (points, tolerances)
  end.
