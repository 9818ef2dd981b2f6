From Coq Require Import List Arith Bool ZArith QArith.
From Verif Require Import Model.Outcome Model.MeshDefects Model.AbstractMesh.
Import ListNotations.
Local Open Scope nat_scope.

(** Triangulation (src/isosurface/snapper/triangulation.hpp). Vertices are numbered as in points_:
    boundary first, then interior. The geometric predicates are arbitrary functions of vertex numbers, so
    nothing is assumed about rounding. Barycentric coordinates are rationals, as finite doubles are; not-a-number
    coordinates are not modelled, and 1e-9 is the decimal number. *)
Record tenv := mk_tenv {
  nb : nat; ni : nat;
  backwards : bool;                           (* signed_area2 < 0 (triangulation.hpp:87-93) *)
  convex : nat -> nat -> nat -> bool;         (* orient2d(prev, cur, next) > area_tol (triangulation.hpp:105) *)
  covers : nat -> nat -> nat -> nat -> bool;  (* in_triangle(vj, prev, cur, next) (triangulation.hpp:117) *)
  bary : nat -> face -> option (Q * Q * Q);   (* triangulation.hpp:162-168: [None] if the area is not positive *)
  encroached : nat -> nat -> nat -> nat -> bool; (* incircle(x, y, c, d) > incircle_tol (triangulation.hpp:249) *)
  positive : nat -> nat -> nat -> bool;       (* orient2d(p, q, r) > area_tol (triangulation.hpp:253-254) *)
  labels : list (Z * Z)                       (* boundary_edges *)
}.
Section Triangulation.
Variable E : tenv.

(** shares_edge (triangulation.hpp:272-288); the constructor of Edge sorts the ends (edge.hpp:15). *)
Definition same_label (a b : Z * Z) : bool :=
  let hit x := (0 <=? x)%Z && ((x =? fst b)%Z || (x =? snd b)%Z) in hit (fst a) || hit (snd a).
(** shares_edge (triangulation.hpp:272-288). *)
Definition shares_edge (a b : nat) : outcome bool :=
  let i := Nat.min a b in
  let j := Nat.max a b in
  match labels E with
  | [] => Ok false
  | _ =>
      if (nb E <=? i) || (nb E <=? j) then Ok false
      else match nth_error (labels E) i with
           | None => Throw ExOutOfRange
           | Some x => if (fst x <? 0)%Z && (snd x <? 0)%Z then Ok false
                       else match nth_error (labels E) j with None => Throw ExOutOfRange | Some y => Ok (same_label x y) end
           end
  end.

(** ear_clip (triangulation.hpp:82-144): the search for an ear (triangulation.hpp:101-130). *)
Definition at_ (ring : list nat) (i : nat) : nat := nth i ring 0.
(** Within triangulation.hpp:82-144, triangulation.hpp:101-130. *)
Fixpoint find_ear (ring : list nat) (is : list nat) : outcome (option nat) :=
  match is with
  | [] => Ok None
  | i :: is' =>
      let m := length ring in
      let cur := at_ ring i in
      let prev := at_ ring ((i + m - 1) mod m) in
      let next := at_ ring ((i + 1) mod m) in
      if negb (convex E prev cur next) then find_ear ring is' else
      let* s := shares_edge prev next in
      if s then find_ear ring is' else
      if existsb (fun v => negb (Nat.eqb v prev || Nat.eqb v cur || Nat.eqb v next) && covers E v prev cur next) ring
      then find_ear ring is' else Ok (Some i)
  end.
(** The fan (triangulation.hpp:134-136), for the rest of the ring. *)
Fixpoint fan (m : mesh) (r0 : nat) (rest : list nat) : outcome mesh :=
  match rest with
  | a :: (b :: _) as rest' => let* m := add_face m (r0, a, b) in fan m r0 rest'
  | _ => Ok m
  end.
(** The loop (triangulation.hpp:98-140) and the last triangle (triangulation.hpp:141-143); [k] is the size of the ring minus three.
    The first result is simple_. *)
Fixpoint clip (k : nat) (ring : list nat) (m : mesh) : outcome (bool * mesh) :=
  match k with
  | 0 =>
      let* m := add_face m (at_ ring 0, at_ ring 1, at_ ring 2) in Ok (true, m)
  | S k' =>
      let n := length ring in
      let* e := find_ear ring (seq 0 n) in
      match e with
      | Some i =>
          let* m := add_face m (at_ ring ((i + n - 1) mod n), at_ ring i, at_ ring ((i + 1) mod n)) in
          clip k' (firstn i ring ++ skipn (S i) ring) m
      | None => let* m := fan m (at_ ring 0) (tl ring) in Ok (false, m)
      end
  end.
(** Within triangulation.hpp:98-140, triangulation.hpp:141-143. *)
Definition ring0 : list nat := if backwards E then rev (seq 0 (nb E)) else seq 0 (nb E).

(** insert_interior (triangulation.hpp:153-199). The best face so far with its smallest coordinate and its coordinates. *)
Definition min3 (l : Q * Q * Q) : Q :=
  let '(a, b, c) := l in
  let m := if Qlt_le_dec b a then b else a in if Qlt_le_dec c m then c else m.
(** Within triangulation.hpp:153-199. *)
Definition min_index (l : Q * Q * Q) : nat :=
  let '(a, b, c) := l in
  if Qlt_le_dec b a then (if Qlt_le_dec c b then 2 else 1) else if Qlt_le_dec c a then 2 else 0.
(** Within triangulation.hpp:153-199. *)
Definition coord (l : Q * Q * Q) (k : nat) : Q := let '(a, b, c) := l in match k with 0 => a | 1 => b | _ => c end.
(** Within triangulation.hpp:153-199. *)
Definition locate (m : mesh) (v : nat) : option (nat * (Q * Q * Q)) :=
  fold_left (fun best fi =>
    match bary E v (m_face m fi) with
    | None => best
    | Some l => match best with
                | Some (_, l0) => if Qlt_le_dec (min3 l0) (min3 l) then Some (fi, l) else best
                | None => Some (fi, l)
                end
    end) (seq 0 (m_nf m)) None.
(** is_constraint (triangulation.hpp:201): membership in the boundary edges (triangulation.hpp:49-53). *)
Definition succ (i : nat) : nat := (i + 1) mod nb E.
(** Within triangulation.hpp:201, triangulation.hpp:49-53. *)
Definition is_constraint (a b : nat) : bool :=
  existsb (fun i => (Nat.eqb i a && Nat.eqb (succ i) b) || (Nat.eqb i b && Nat.eqb (succ i) a)) (seq 0 (nb E)).
(** Within triangulation.hpp:201, triangulation.hpp:49-53. *)
Definition on_edge : Q := 1 # 1000000000.
(** Helper without code of its own. *)
Definition lt (x y : Q) : bool := if Qlt_le_dec x y then true else false.
(** Within triangulation.hpp:201, triangulation.hpp:49-53. *)
Definition insert_point (m : mesh) (v : nat) : outcome mesh :=
  match locate m v with
  | None => Ok m
  | Some (best, l) =>
      if lt (min3 l) (Qopp on_edge) then Ok m else
      if lt on_edge (min3 l) then insert_in_face m best v else
      let k := min_index l in
      if lt (coord l (ccw k)) on_edge || lt (coord l (cw k)) on_edge then Ok m else
      let u := corner (m_face m best) (ccw k) in
      let w := corner (m_face m best) (cw k) in
      if is_constraint u w then Ok m else
      insert_on_edge m (Nat.min u w) (Nat.max u w) v
  end.
(** insert_interior (triangulation.hpp:153-199). *)
Fixpoint insert_interior (m : mesh) (vs : list nat) : outcome mesh :=
  match vs with
  | [] => Ok m
  | v :: vs' => let* m := insert_point m v in insert_interior m vs'
  end.

(** make_delaunay (triangulation.hpp:205-268): the sides of interior edges (triangulation.hpp:215-223), one pass (triangulation.hpp:225-266), and
    the loop with its budget. *)
Definition key_le (m : mesh) (g h : halfedge) : bool :=
  (from m g <? from m h) || (Nat.eqb (from m g) (from m h) && (to m g <=? to m h)).
(** Within triangulation.hpp:205-268, triangulation.hpp:215-223, triangulation.hpp:225-266. *)
Fixpoint insert_sorted (m : mesh) (h : halfedge) (l : list halfedge) : list halfedge :=
  match l with
  | [] => [h]
  | g :: l' => if key_le m h g then h :: l else g :: insert_sorted m h l'
  end.
(** Within triangulation.hpp:205-268, triangulation.hpp:215-223, triangulation.hpp:225-266. *)
Definition interior_sides (m : mesh) : list halfedge :=
  filter (fun h => (from m h <? to m h) && match m_opp m h with Some _ => true | None => false end)
    (flat_map (fun fi => map (pair fi) [0; 1; 2]) (filter (fun fi => negb (m_deleted m fi)) (seq 0 (m_nf m)))).
(** Within triangulation.hpp:205-268, triangulation.hpp:215-223, triangulation.hpp:225-266. *)
Definition sorted_sides (m : mesh) : list halfedge := fold_right (insert_sorted m) [] (interior_sides m).
(** Whether a side would be flipped if its faces are not flipped yet (triangulation.hpp:228, 244-260); [o] is the other side. *)
Definition to_flip (m : mesh) (h o : halfedge) : outcome bool :=
  if is_constraint (from m h) (to m h) then Ok false else
  let c := apex m h in
  let d := apex m o in
  let x := from m h in
  let y := to m h in
  let* s := shares_edge c d in
  Ok (negb s && encroached E x y c d && (positive E x d c && positive E d y c) &&
      negb (match halfedge_of m (Nat.min c d) (Nat.max c d), halfedge_of m (Nat.max c d) (Nat.min c d) with
            | None, None => false | _, _ => true end)).
(** Within triangulation.hpp:228, 244-260. *)
Fixpoint flip_pass (hs : list halfedge) (m : mesh) (flipped : nat -> bool) (changed : bool) : outcome (mesh * bool) :=
  match hs with
  | [] => Ok (m, changed)
  | h :: hs' =>
      if is_constraint (from m h) (to m h) then flip_pass hs' m flipped changed else
      match m_opp m h with
      | None => flip_pass hs' m flipped changed
      | Some o =>
          if flipped (fst h) || flipped (fst o) then flip_pass hs' m flipped changed else
          let* t := to_flip m h o in
          if t then
            let* m' := flip m (Nat.min (from m h) (to m h)) (Nat.max (from m h) (to m h)) in
            flip_pass hs' m' (upd (upd flipped (fst h) true) (fst o) true) true
          else flip_pass hs' m flipped changed
      end
  end.
(** Within triangulation.hpp:228, 244-260. *)
Fixpoint delaunay (budget : nat) (m : mesh) : outcome (mesh * bool) :=
  match budget with
  | 0 => Ok (m, true)
  | S budget' =>
      let* r := flip_pass (sorted_sides m) m (fun _ => false) false in
      if snd r then delaunay budget' (fst r) else Ok (fst r, false)
  end.
(** make_delaunay (triangulation.hpp:205-268). *)
Definition make_delaunay (m : mesh) : outcome (mesh * bool) := delaunay (10 + 3 * m_nf m) m.

(** Constructor (triangulation.hpp:30-64): simple_, faces_, and whether make_delaunay ran out of budget. *)
Definition triangulate : outcome (bool * list face * bool) :=
  if nb E <? 3 then Throw ExInvalidArgument else
  let* r := clip (nb E - 3) ring0 (empty (nb E - 2 + 2 * ni E)) in
  if fst r then
    let* m := insert_interior (snd r) (seq (nb E) (ni E)) in
    let* d := make_delaunay m in
    Ok (true, take_faces (fst d), snd d)
  else Ok (false, [], false).
End Triangulation.
