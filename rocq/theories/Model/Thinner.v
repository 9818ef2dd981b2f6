From Coq Require Import Reals List Arith Bool.
From Verif Require Import Model.Outcome Model.Clip Model.PointTriangle Model.Predicates Model.MeshDefects Model.AbstractMesh Model.Smoother.
Import ListNotations.
Local Open Scope R_scope.

(** Thinning by edge collapses (src/isosurface/snapper/thinner.hpp, src/isosurface/snap.cpp:25-32), with real numbers. [p] are the [nv]
    vertices, [ap] the transformed vertices, [point] the snap points, [target] and [tol] the transformed points and their tolerances (thinner.hpp:44,
    48-53; missing tolerances are zero), [max_edge2] the square of 1.3 times the resolution (thinner.hpp:47). What the two grids call back for a box
    is given by [near] and [faces_near]; the latter depends on the current faces, so indexing faces (thinner.hpp:69-71, 286-291) is not modelled.
    Rows of vertices are taken to exist. *)

(** vertex_outgoing_halfedges (abstract_mesh.hpp:298-302). *)
Definition outgoing (m : mesh) (v : nat) : list halfedge := if (v <? m_nv m)%nat then m_vh m v else [].
(** on_edge (thinner.hpp:255-257). *)
Definition on_edge (f : face) (a b : nat) : bool := has_vertex f a && has_vertex f b.
(** Within thinner.hpp:255-257. *)
Definition corner_list (f : face) : list nat := let '(a, b, c) := f in [a; b; c].

(** Distances with infinity, or NaN on the left, as None. *)
Definition less (x y : option R) : bool :=
  match x, y with None, _ => false | Some _, None => true | Some a, Some b => ltb a b end.

Section Thinner.
Variable nv : nat.
Variables p ap : nat -> pt.
Variable n_points : nat.
Variables point target : nat -> pt.
Variable tol : nat -> R.
Variable max_edge2 : R.
Variable near : pt -> pt -> list nat.
Variable faces_near : mesh -> pt -> pt -> list nat.

(** thinner.hpp:57-65. *)
Definition snapped (v : nat) : bool := existsb (fun i => pt_eqb (point i) (p v)) (seq 0 n_points).

(** dist2 (thinner.hpp:182-184), and the deviation (thinner.hpp:144-147). *)
Definition distance2 (q : pt) (f : face) : option R :=
  let '(a, b, c) := at_rows ap f in
  match point_triangle_closest q a b c with Some (_, d2) => Some d2 | None => None end.
(** Within thinner.hpp:182-184, thinner.hpp:144-147. *)
Definition deviation (a : nat) (kept : list face) : option R :=
  fold_left (fun d f => let x := distance2 (ap a) f in if less x d then x else d) kept None.

(** The faces of the star not on the edge (thinner.hpp:115-129) and those near (thinner.hpp:150-159). *)
Definition staying (m : mesh) (a b : nat) (hs : list halfedge) : list face :=
  filter (fun f => negb (on_edge f a b)) (map (fun h => m_face m (fst h)) hs).
(** Within thinner.hpp:115-129, thinner.hpp:150-159. *)
Definition in_star (hs : list halfedge) (fi : nat) : bool := existsb (fun h => (fst h =? fi)%nat) hs.
(** Within thinner.hpp:115-129, thinner.hpp:150-159. *)
Definition nearby (m : mesh) (hs : list halfedge) (kept : list face) : list face :=
  map (m_face m) (filter (fun fi => negb (in_star hs fi)) (flat_map (fun f => flat_map (vertex_faces m) (corner_list f)) kept)).

(** honors_ok (thinner.hpp:213-240); honored_by (thinner.hpp:207-209) is that of the smoother. *)
Definition star_points (m : mesh) (hs : list halfedge) : list pt :=
  map ap (flat_map (fun h => corner_list (m_face m (fst h))) hs).
(** Within thinner.hpp:213-240, thinner.hpp:207-209. *)
Definition keeps_points (m : mesh) (hs : list halfedge) (kept : list face) : bool :=
  if (n_points =? 0)%nat then true else
  match star_points m hs with
  | [] => true
  | x :: xs =>
      forallb (fun i => negb (existsb (fun h => honored_by ap target tol i (m_face m (fst h))) hs) ||
                        existsb (honored_by ap target tol i) (kept ++ nearby m hs kept))
              (near (lo_of x xs) (hi_of x xs))
  end.
(** The guard against crossings (thinner.hpp:168-177). *)
Fixpoint meets (m : mesh) (hs : list halfedge) (kept : list face) : outcome bool :=
  match kept with
  | [] => Ok false
  | f :: kept' =>
      let '(a, b, c) := at_rows p f in
      let* hit := any_of (faces_near m (lo_of a [b; c]) (hi_of a [b; c]))
        (fun gi => if in_star hs gi then Ok false else triangles_intersect (at_rows p f) (at_rows p (m_face m gi))) in
      if hit then Ok true else meets m hs kept'
  end.

(** collapse_ok (thinner.hpp:96-180): whether the collapse is admissible, and its deviation. *)
Definition linked (m : mesh) (b c d : nat) (hs : list halfedge) : bool :=
  existsb (fun hh => let v := to m hh in negb (v =? b)%nat && negb (v =? c)%nat && negb (v =? d)%nat && joined m v b) hs.
(** Within thinner.hpp:96-180. *)
Definition too_long (m : mesh) (b c d : nat) (hs : list halfedge) : bool :=
  existsb (fun hh => let v := to m hh in
    negb (v =? b)%nat && negb (v =? c)%nat && negb (v =? d)%nat && ltb max_edge2 (norm2 (sub3 (ap b) (ap v)))) hs.
(** collapse_ok (thinner.hpp:96-180). *)
Definition collapse_ok (m : mesh) (h : halfedge) (hs : list halfedge) : outcome (bool * option R) :=
  let a := from m h in
  let b := to m h in
  if negb (snapped b) then Ok (false, None) else
  match m_opp m h with
  | None => UB
  | Some o =>
      let c := apex m h in
      let d := apex m o in
      if linked m b c d hs then Ok (false, None) else
      let stay := staying m a b hs in
      let kept := map (fun f => retarget f a b) stay in
      if existsb (fun f => ltb (dot3 (normal ap (retarget f a b)) (normal ap f)) 0) stay then Ok (false, None) else
      if match kept with [] => true | _ => false end then Ok (false, None) else
      if too_long m b c d hs then Ok (false, None) else
      let dev := deviation a kept in
      if negb (keeps_points m hs kept) then Ok (false, dev) else
      let* hit := meets m hs kept in
      Ok (negb hit, dev)
  end.

(** try_collapse (thinner.hpp:260-293). *)
Fixpoint choose (m : mesh) (hs rest : list halfedge) (best : option (halfedge * R)) : outcome (option (halfedge * R)) :=
  match rest with
  | [] => Ok best
  | h :: rest' =>
      let* r := collapse_ok m h hs in
      choose m hs rest' (if fst r && less (snd r) (option_map snd best)
                         then match snd r with Some d => Some (h, d) | None => best end else best)
  end.
(** try_collapse (thinner.hpp:260-293). *)
Definition try_collapse (m : mesh) (v : nat) : outcome (mesh * bool) :=
  let hs := outgoing m v in
  if (length hs <? 3)%nat then Ok (m, false) else
  if existsb (fun h => match m_opp m h with None => true | Some _ => false end) hs then Ok (m, false) else
  let* best := choose m hs hs None in
  match best with
  | None => Ok (m, false)
  | Some (h, _) => let* r := collapse m h in Ok (fst r, true)
  end.

(** The sweeps (thinner.hpp:72-80): [any] tells whether a vertex was removed. Ok None: out of fuel. *)
Fixpoint sweep (m : mesh) (vs : list nat) (any : bool) : outcome (mesh * bool) :=
  match vs with
  | [] => Ok (m, any)
  | v :: vs' =>
      if snapped v then let* r := try_collapse m v in sweep (fst r) vs' (any || snd r)
      else sweep m vs' any
  end.
(** Within thinner.hpp:72-80. *)
Fixpoint sweeps (fuel : nat) (m : mesh) : outcome (option mesh) :=
  match fuel with
  | O => Ok None
  | S fuel' =>
      let* r := sweep m (seq 0 nv) false in
      if snd r then sweeps fuel' (fst r) else Ok (Some (fst r))
  end.

(** emit (thinner.hpp:186-204): the rows in the order of their first use, the place of a row being its new number. *)
Fixpoint place (r : nat) (vv : list nat) : option nat :=
  match vv with [] => None | x :: vv => if (x =? r)%nat then Some 0%nat else option_map S (place r vv) end.
(** Within thinner.hpp:186-204. *)
Definition visit (vv : list nat) (r : nat) : outcome (nat * list nat) :=
  if (nv <=? r)%nat then Throw ExOutOfRange
  else match place r vv with Some k => Ok (k, vv) | None => Ok (length vv, vv ++ [r]) end.
(** emit (thinner.hpp:186-204). *)
Fixpoint emit (vv : list nat) (fs : list face) : outcome (list nat * list face) :=
  match fs with
  | [] => Ok (vv, [])
  | (a, b, c) :: fs =>
      let* x := visit vv a in
      let* y := visit (snd x) b in
      let* z := visit (snd y) c in
      let* r := emit (snd z) fs in
      Ok (fst r, (fst x, fst y, fst z) :: snd r)
  end.
(** thin_snapped_mesh (snap.cpp:25-32): the rows of the vertices and the faces of the result. *)
Definition thin (fuel : nat) (fs : list face) : outcome (option (list nat * list face)) :=
  if (n_points =? 0)%nat || (length fs =? 0)%nat then Ok (Some (seq 0 nv, fs)) else
  let* m := construct fs in
  let* r := sweeps fuel m in
  match r with
  | None => Ok None
  | Some m' => let* e := emit [] (take_faces m') in Ok (Some e)
  end.
End Thinner.
