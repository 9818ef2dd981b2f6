From Coq Require Import Reals List Arith Bool.
From Verif Require Import Model.Outcome Model.Clip Model.PointTriangle Model.Predicates Model.MeshDefects Model.AbstractMesh.
Import ListNotations.
Local Open Scope R_scope.

(** Smoothing by edge flips (src/isosurface/snapper/smoother.hpp), with real numbers. [p] are the vertices, [ap] the transformed
    vertices, [target] and [tol] the transformed snap points and their tolerances (smoother.hpp:76, 86-91; missing tolerances are zero). What the two
    grids call back for a box is given by [near] and [faces_near]; their contents follow from the points and the current faces. [kPi] is the
    real number. Rows of vertices are taken to exist. *)

(** Edge (include/polatory/isosurface/edge.hpp:15). *)
Definition edge : Type := (nat * nat)%type.
(** Within include/polatory/isosurface/edge.hpp:15. *)
Definition edge_of (u w : nat) : edge := if (u <? w)%nat then (u, w) else (w, u).
(** next, prev (abstract_mesh.hpp:267, 276), has_edge (abstract_mesh.hpp:237-239). *)
Definition next (h : halfedge) : halfedge := (fst h, ccw (snd h)).
(** Within abstract_mesh.hpp:267, 276, abstract_mesh.hpp:237-239. *)
Definition prev (h : halfedge) : halfedge := (fst h, cw (snd h)).
(** Within abstract_mesh.hpp:267, 276, abstract_mesh.hpp:237-239. *)
Definition joined (m : mesh) (a b : nat) : bool :=
  match halfedge_of m a b, halfedge_of m b a with None, None => false | _, _ => true end.
(** for_each_halfedge (abstract_mesh.hpp:208-218). *)
Definition halfedges (m : mesh) : list halfedge :=
  flat_map (fun fi => if m_deleted m fi then [] else [(fi, 0); (fi, 1); (fi, 2)]%nat) (seq 0 (m_nf m)).

(** Flip (smoother.hpp:46-57): the two sides of the edge, whose faces are fi0 and fi1; the vertices; the bend removed. *)
Record flip_of := Flip { l_h : halfedge; l_o : halfedge; l_x : nat; l_y : nat; l_c : nat; l_d : nat; l_improve : R }.
(** Within smoother.hpp:46-57. *)
Definition new_f0 (l : flip_of) : face := (l_c l, l_x l, l_d l).
(** Within smoother.hpp:46-57. *)
Definition new_f1 (l : flip_of) : face := (l_d l, l_y l, l_c l).
(** Item (smoother.hpp:61-68). *)
Definition item : Type := (edge * R)%type.

Section Smoother.
Variables p ap : nat -> pt.
Variable n_points : nat.
Variable target : nat -> pt.
Variable tol : nat -> R.
Variable max_edge2 : R.
Variable near : pt -> pt -> list nat.
Variable faces_near : mesh -> pt -> pt -> list nat.
(** pop of the priority queue (smoother.hpp:108-109). *)
Variable take : list item -> option (item * list item).

(** Within smoother.hpp:108-109. *)
Definition at_rows (q : nat -> pt) (f : face) : triangle := let '(a, b, c) := f in (q a, q b, q c).
(** smoother.hpp:231-233. *)
Definition normal (f : face) : pt := let '(a, b, c) := f in triangle_normal (ap a) (ap b) (ap c).
(** std::clamp, bend (smoother.hpp:141-150), bend_with (smoother.hpp:153). *)
Definition clamp1 (x : R) : R := if ltb x (-1) then -1 else if ltb 1 x then 1 else x.
(** bend (smoother.hpp:141-150). *)
Definition bend (f g : face) : R :=
  let na := normal f in
  let nb := normal g in
  if negb (ltb 0 (norm na)) || negb (ltb 0 (norm nb)) then PI else acos (clamp1 (dot3 na nb / (norm na * norm nb))).
(** Within smoother.hpp:141-150, smoother.hpp:153. *)
Definition bend_with (m : mesh) (f : face) (o : option halfedge) : R :=
  match o with None => 0 | Some g => bend f (m_face m (fst g)) end.

(** score (smoother.hpp:246-291). *)
Definition score (m : mesh) (e : edge) : option flip_of :=
  match halfedge_of m (fst e) (snd e) with
  | None => None
  | Some h =>
      match m_opp m h with
      | None => None
      | Some o =>
          let x := from m h in
          let y := to m h in
          let c := apex m h in
          let d := apex m o in
          if (c =? d)%nat || joined m c d then None else
          let f0 := m_face m (fst h) in
          let f1 := m_face m (fst o) in
          let n0 := (c, x, d) in
          let n1 := (d, y, c) in
          let gi_cx := m_opp m (prev h) in
          let gi_yc := m_opp m (next h) in
          let gi_xd := m_opp m (next o) in
          let gi_dy := m_opp m (prev o) in
          let before := bend f0 f1 + bend_with m f0 gi_cx + bend_with m f0 gi_yc + bend_with m f1 gi_xd + bend_with m f1 gi_dy in
          let after := bend n0 n1 + bend_with m n0 gi_cx + bend_with m n1 gi_yc + bend_with m n0 gi_xd + bend_with m n1 gi_dy in
          if ltb after (before - / 10 ^ 6) then
            let cap2 := Rmax (norm2 (sub3 (ap x) (ap y))) max_edge2 in
            if ltb cap2 (norm2 (sub3 (ap c) (ap d))) then None
            else Some (Flip h o x y c d (before - after))
          else None
      end
  end.

(** honored_by (smoother.hpp:186-188): a comparison with NaN is false. *)
Definition honored_by (i : nat) (f : face) : bool :=
  let '(a, b, c) := at_rows ap f in
  match point_triangle_closest (target i) a b c with Some (_, d2) => leb d2 (tol i * tol i) | None => false end.
(** honors_ok (smoother.hpp:192-228). *)
Definition neighbour (m : mesh) (u v : nat) : list face :=
  match halfedge_of m u v with
  | None => []
  | Some h => match m_opp m h with None => [] | Some g => [m_face m (fst g)] end
  end.
(** honors_ok (smoother.hpp:192-228). *)
Definition honors_ok (m : mesh) (l : flip_of) : bool :=
  if (n_points =? 0)%nat then true else
  let f0 := m_face m (fst (l_h l)) in
  let f1 := m_face m (fst (l_o l)) in
  let after := [new_f0 l; new_f1 l] ++ neighbour m (l_c l) (l_x l) ++ neighbour m (l_y l) (l_c l) ++
               neighbour m (l_x l) (l_d l) ++ neighbour m (l_d l) (l_y l) in
  let ps := [ap (l_y l); ap (l_c l); ap (l_d l)] in
  forallb (fun i => (negb (honored_by i f0) && negb (honored_by i f1)) || existsb (honored_by i) after)
          (near (lo_of (ap (l_x l)) ps) (hi_of (ap (l_x l)) ps)).

(** any_of (face_grid.hpp:20-31), crosses (smoother.hpp:157-164), guard_ok (smoother.hpp:181-183). *)
Fixpoint any_of (fis : list nat) (hits : nat -> outcome bool) : outcome bool :=
  match fis with
  | [] => Ok false
  | fi :: fis' => let* b := hits fi in if b then Ok true else any_of fis' hits
  end.
(** crosses (smoother.hpp:157-164). *)
Definition crosses (m : mesh) (f : face) (fi0 fi1 : nat) : outcome bool :=
  let '(a, b, c) := at_rows p f in
  any_of (faces_near m (lo_of a [b; c]) (hi_of a [b; c]))
    (fun gi => if (gi =? fi0)%nat || (gi =? fi1)%nat then Ok false else triangles_intersect (at_rows p f) (at_rows p (m_face m gi))).
(** guard_ok (smoother.hpp:181-183). *)
Definition guard_ok (m : mesh) (l : flip_of) : outcome bool :=
  let* b := crosses m (new_f0 l) (fst (l_h l)) (fst (l_o l)) in
  if b then Ok false else let* b := crosses m (new_f1 l) (fst (l_h l)) (fst (l_o l)) in Ok (negb b).

(** The queue: enqueue and its start (smoother.hpp:93-103), what is added after a flip (smoother.hpp:118-131). *)
Definition enqueue (m : mesh) (q : list item) (e : edge) : list item :=
  match score m e with Some l => (e, l_improve l) :: q | None => q end.
(** Within smoother.hpp:93-103, smoother.hpp:118-131. *)
Definition canonical (m : mesh) (h : halfedge) : bool :=
  (from m h <? to m h)%nat && match m_opp m h with Some _ => true | None => false end.
(** Within smoother.hpp:93-103, smoother.hpp:118-131. *)
Definition initial (m : mesh) : list item :=
  fold_left (enqueue m) (map (fun h => edge_of (from m h) (to m h)) (filter (canonical m) (halfedges m))) [].
(** Within smoother.hpp:93-103, smoother.hpp:118-131. *)
Definition face_edges (f : face) : list edge := let '(a, b, c) := f in [edge_of a b; edge_of b c; edge_of c a].
(** Within smoother.hpp:93-103, smoother.hpp:118-131. *)
Definition changed (m : mesh) (fi0 fi1 : nat) : list edge :=
  flat_map (fun h => edge_of (from m h) (to m h) ::
      match m_opp m h with
      | Some g => if (fst g =? fi0)%nat || (fst g =? fi1)%nat then [] else face_edges (m_face m (fst g))
      | None => []
      end) [(fi0, 0); (fi0, 1); (fi0, 2); (fi1, 0); (fi1, 1); (fi1, 2)]%nat.

(** The loop (smoother.hpp:105-132), for at most [fuel] turns; the result has the number of flips. Ok None: out of fuel. *)
Definition cap (m : mesh) : nat := (50 * Nat.max (m_nf m) 1)%nat.
(** Within smoother.hpp:105-132. *)
Fixpoint loop (fuel : nat) (m : mesh) (q : list item) (flips : nat) : outcome (option (mesh * nat)) :=
  match fuel with
  | O => Ok None
  | S fuel' =>
      match take q with
      | None => Ok (Some (m, flips))
      | Some ((e, _), q') =>
          match score m e with
          | None => loop fuel' m q' flips
          | Some l =>
              if honors_ok m l then
                let* ok := guard_ok m l in
                if ok then
                  let* m' := flip m (l_x l) (l_y l) in
                  if (cap m <? S flips)%nat then Ok (Some (m', S flips))
                  else loop fuel' m' (fold_left (enqueue m') (changed m' (fst (l_h l)) (fst (l_o l))) q') (S flips)
                else loop fuel' m q' flips
              else loop fuel' m q' flips
          end
      end
  end.
(** The constructor (smoother.hpp:71-135): the faces of the result and the number of flips. *)
Definition smooth (fuel : nat) (fs : list face) : outcome (option (list face * nat)) :=
  let* m := construct fs in
  let* r := loop fuel m (initial m) 0 in
  Ok (option_map (fun '(m', n) => (take_faces m', n)) r).
End Smoother.
