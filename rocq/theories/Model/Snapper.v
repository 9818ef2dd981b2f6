(** Snapping a mesh to points: src/isosurface/snapper/snapper.hpp.

    The control flow, the data it keeps and the way it is undone are modelled; every geometric
    decision is an arbitrary function of the current state:
    - which face a point projects on, where, and in which order the simplices are tried
      ([classify], snapper.hpp:178-236), and the order of the candidates ([arrange], snapper.hpp:238-245);
    - the distance tests ([near], [satisfied], [honored], snapper.hpp:158-170, 315-364);
    - the tests for folds and self-intersections ([accept], snapper.hpp:287-300, 455-494);
    - the points found to be no longer honored after a step ([knocked], snapper.hpp:250-256);
    - the triangulation of a flat polygon ([tri], with the frame of snapper.hpp:302-312).
    These tests read the triangulations of patches and so fill their caches; which patches they
    read is given by [looks].  Positions, anchors (rows of [aq_]) and floating-point numbers are of
    arbitrary types (the arithmetic of snapper.hpp:663-668 and its comparison are given functions); the
    transformed positions [ap_] move together with [p_] and are not kept.  The caches of honored
    points and the two grids only serve the tests and are left out. *)
From Coq Require Import List Arith Bool.
From Verif.Model Require Import Outcome.
Import ListNotations.

(** Helper without code of its own. *)
Definition tri3 : Type := (nat * nat * nat)%type.

(** include/polatory/isosurface/edge.hpp:11-18: an edge is named by its endpoints, smaller first. *)
Definition edge : Type := (nat * nat)%type.
(** Within include/polatory/isosurface/edge.hpp:11-18. *)
Definition edge_of (u w : nat) : edge := if u <? w then (u, w) else (w, u).
(** Helper without code of its own. *)
Definition edge_eqb (e e' : edge) : bool := (fst e =? fst e') && (snd e =? snd e').

(** snapper.hpp:60: the simplices of a face: its vertices, its edges (named by the opposite
    vertex) and its interior. *)
Inductive simplex : Type := Corner (k : nat) | Side (k : nat) | Inside.

(** Helper without code of its own. *)
Definition corner (f : tri3) (k : nat) : nat :=
  match k with 0 => fst (fst f) | 1 => snd (fst f) | _ => snd f end.

(** snapper.hpp:62-69: a point to be snapped. *)
Record candidate (A T : Type) : Type := Candidate {
  c_point : nat; c_face : nat; c_anchor : A; c_d2 : T; c_l : nat -> T; c_order : list simplex }.
Arguments c_point {A T} _. Arguments c_face {A T} _. Arguments c_anchor {A T} _.
Arguments c_d2 {A T} _. Arguments c_l {A T} _. Arguments c_order {A T} _. Arguments Candidate {A T}.

(** snapper.hpp:85-90, 780-787: what changes while snapping: the positions of the rows, their
    anchors, the vertices put on each edge (parameter and row), the vertices put into each face and
    the cached triangulation of each face (empty: not computed).  An edge without an entry in
    [edge_chains_] is one with an empty chain; the code removes a chain that becomes empty. *)
Record state (P A T : Type) : Type := State {
  s_p : nat -> P; s_aq : nat -> A; s_chain : edge -> list (T * nat);
  s_interior : nat -> list nat; s_faces : nat -> list tri3 }.
Arguments s_p {P A T} _. Arguments s_aq {P A T} _. Arguments s_chain {P A T} _.
Arguments s_interior {P A T} _. Arguments s_faces {P A T} _. Arguments State {P A T}.

(** Helper without code of its own. *)
Definition set {B : Type} (f : nat -> B) (k : nat) (x : B) : nat -> B := fun i => if i =? k then x else f i.
(** Helper without code of its own. *)
Definition set_edge {B : Type} (f : edge -> B) (e : edge) (x : B) : edge -> B :=
  fun e' => if edge_eqb e' e then x else f e'.

(** The input, and the geometric decisions. *)
Record env (P A T : Type) : Type := Env {
  np : nat;                                             (* number of snap points *)
  nv : nat;                                             (* number of vertices *)
  points : nat -> P; vertices : nat -> P;               (* their positions *)
  faces : list tri3;                                    (* the faces of the mesh *)
  anchors : nat -> A;                                   (* initial contents of aq_ *)
  classify : nat -> option (candidate A T);               (* 178-236; c_point is replaced by the point *)
  arrange : list (candidate A T) -> list (candidate A T);   (* 238-245 *)
  between : A -> A -> T -> A;                           (* 679 *)
  zero : T; add : T -> T -> T; div : T -> T -> T; lt : T -> T -> bool;
  tri : nat -> list A -> list (nat * option nat) -> list A -> outcome (bool * list tri3);
  near : state P A T -> candidate A T -> nat -> bool;       (* 631-632, 638 *)
  satisfied : state P A T -> candidate A T -> bool;         (* 154-172 *)
  accept : state P A T -> list (nat * list tri3) -> bool; (* not (folded or self_intersects) *)
  knocked : state P A T -> list nat;                      (* 249-256 *)
  honored : state P A T -> nat -> bool;                   (* 327-341 *)
  looks : state P A T -> nat -> list nat                  (* patches read by the tests *) }.
Arguments np {P A T} _. Arguments nv {P A T} _. Arguments points {P A T} _. Arguments vertices {P A T} _.
Arguments faces {P A T} _. Arguments anchors {P A T} _. Arguments classify {P A T} _.
Arguments arrange {P A T} _. Arguments between {P A T} _. Arguments zero {P A T} _. Arguments add {P A T} _. Arguments div {P A T} _. Arguments lt {P A T} _. Arguments tri {P A T} _. Arguments near {P A T} _.
Arguments satisfied {P A T} _. Arguments accept {P A T} _. Arguments knocked {P A T} _.
Arguments honored {P A T} _. Arguments looks {P A T} _.

Section Snapper.
Context {P A T : Type}.
Variable E : env P A T.
Notation cand := (candidate A T).
Notation st := (state P A T).

(** snapper.hpp:100: the faces of [mesh_] use rows [np + v]. *)
Definition shift (f : tri3) : tri3 := (np E + fst (fst f), np E + snd (fst f), np E + snd f).
(** Within snapper.hpp:100. *)
Definition face (fi : nat) : tri3 := shift (nth fi (faces E) (0, 0, 0)).
(** Within snapper.hpp:100. *)
Definition num_faces : nat := length (faces E).

(** abstract_mesh.hpp:177-186: the faces on both sides of an edge, first the one that runs along it
    from the smaller row to the larger.  ([AbstractMesh] refuses a mesh with two faces running
    along an edge in the same direction; here the first would be taken.) *)
Definition runs (f : tri3) (a b : nat) : bool :=
  existsb (fun k => (corner f k =? a) && (corner f ((k + 1) mod 3) =? b)) [0; 1; 2].
(** Within abstract_mesh.hpp:177-186. *)
Definition side_faces (a b : nat) : list nat :=
  firstn 1 (filter (fun fi => runs (face fi) a b) (seq 0 num_faces)).
(** faces_of (abstract_mesh.hpp:177-186). *)
Definition faces_of (e : edge) : list nat := side_faces (fst e) (snd e) ++ side_faces (snd e) (fst e).

(** abstract_mesh.hpp:292-296: the faces around a vertex. *)
Definition vertex_faces (v : nat) : list nat :=
  filter (fun fi => existsb (fun k => corner (face fi) k =? v) [0; 1; 2]) (seq 0 num_faces).

(** snapper.hpp:110-119: snap points first, then the vertices of the mesh. *)
Definition start : st :=
  State (fun r => if r <? np E then points E r else vertices E (r - np E)) (anchors E)
    (fun _ => []) (fun _ => []) (fun _ => []).

(** snapper.hpp:572-594: the vertices on side [k] of a face, in the direction of the face. *)
Definition along (s : st) (u w : nat) : list nat :=
  let c := map snd (s_chain s (edge_of u w)) in if u <? w then c else rev c.
(** Within snapper.hpp:572-594. *)
Definition side (s : st) (f : tri3) (k : nat) : list nat := along s (corner f k) (corner f ((k + 1) mod 3)).

(** snapper.hpp:559-600: the polygon of a patch, and the sides each of its vertices lies on. *)
Definition boundary (s : st) (f : tri3) : list nat :=
  corner f 0 :: side s f 0 ++ corner f 1 :: side s f 1 ++ corner f 2 :: side s f 2.
(** Within snapper.hpp:559-600. *)
Definition boundary_edges (s : st) (f : tri3) : list (nat * option nat) :=
  (0, Some 2) :: map (fun _ => (0, None)) (side s f 0) ++
  (1, Some 0) :: map (fun _ => (1, None)) (side s f 1) ++
  (2, Some 1) :: map (fun _ => (2, None)) (side s f 2).

(** snapper.hpp:612-617: from the numbers of a triangulation back to rows; [.at] throws. *)
Definition row_of (b i : list nat) (k : nat) : outcome nat :=
  match (if k <? length b then nth_error b k else nth_error i (k - length b)) with
  | Some r => Ok r | None => Throw ExOutOfRange end.
(** Within snapper.hpp:612-617. *)
Definition rows_of (b i : list nat) (f : tri3) : outcome tri3 :=
  let* x := row_of b i (fst (fst f)) in let* y := row_of b i (snd (fst f)) in
  let* z := row_of b i (snd f) in Ok (x, y, z).
(** Helper without code of its own. *)
Fixpoint each {B C : Type} (g : B -> outcome C) (l : list B) : outcome (list C) :=
  match l with
  | [] => Ok []
  | x :: l => let* y := g x in let* ys := each g l in Ok (y :: ys)
  end.

(** snapper.hpp:544-619: whether the polygon is simple, and the faces of a patch. *)
Definition is_nil {B : Type} (l : list B) : bool := match l with [] => true | _ => false end.
(** Within snapper.hpp:544-619. *)
Definition unsplit (s : st) (fi : nat) : bool :=
  let f := face fi in
  is_nil (s_interior s fi) && is_nil (s_chain s (edge_of (corner f 0) (corner f 1))) &&
  is_nil (s_chain s (edge_of (corner f 1) (corner f 2))) &&
  is_nil (s_chain s (edge_of (corner f 2) (corner f 0))).
(** Within snapper.hpp:544-619. *)
Definition triangulate (s : st) (fi : nat) : outcome (bool * list tri3) :=
  let f := face fi in
  if unsplit s fi then Ok (true, [f])
  else
    let b := boundary s f in let i := s_interior s fi in
    let* r := tri E fi (map (s_aq s) b) (boundary_edges s f) (map (s_aq s) i) in
    let* fs := each (rows_of b i) (snd r) in
    Ok (fst r, fs).

(** snapper.hpp:369-375: the faces of a patch, computed when the cache is empty. *)
Definition with_faces (s : st) (fi : nat) (fs : list tri3) : st :=
  State (s_p s) (s_aq s) (s_chain s) (s_interior s) (set (s_faces s) fi fs).
(** patch_faces (snapper.hpp:369-375). *)
Definition patch_faces (s : st) (fi : nat) : outcome (list tri3 * st) :=
  if num_faces <=? fi then Throw ExOutOfRange
  else match s_faces s fi with
    | [] => let* r := triangulate s fi in Ok (snd r, with_faces s fi (snd r))
    | fs => Ok (fs, s)
    end.

(** Reading the faces of several patches. *)
Fixpoint read (s : st) (l : list nat) : outcome (list (nat * list tri3) * st) :=
  match l with
  | [] => Ok ([], s)
  | fi :: l => let* r := patch_faces s fi in let* q := read (snd r) l in Ok ((fi, fst r) :: fst q, snd q)
  end.
(** Within snapper.hpp:369-375. *)
Definition look (s : st) (k : nat) : outcome st := let* r := read s (looks E s k) in Ok (snd r).
(** Within snapper.hpp:369-375. *)
Definition look_outside (s : st) (k : nat) (changed : list nat) : outcome st :=
  let* r := read s (filter (fun fi => negb (existsb (Nat.eqb fi) changed)) (looks E s k)) in Ok (snd r).

(** The result of an attempt: whether it succeeded, the points it dishonored, and the state. *)
Definition attempt : Type := outcome (bool * list nat * st).

(** snapper.hpp:741-768: move vertex [v] onto the point. *)
Definition with_p (s : st) (p : nat -> P) : st := State p (s_aq s) (s_chain s) (s_interior s) (s_faces s).
(** Within snapper.hpp:741-768. *)
Definition try_vertex (s0 : st) (c : cand) (v : nat) : attempt :=
  let* s := look s0 0 in
  let t := with_p s (set (s_p s) v (s_p s (c_point c))) in
  let* r := read t (vertex_faces v) in
  let* t := look_outside (snd r) 1 (vertex_faces v) in
  if accept E t (fst r) then
    let* t := look t 2 in Ok (true, knocked E t, t)
  else Ok (false, [], with_p t (set (s_p t) v (s_p s v))).

(** snapper.hpp:681, 683: [lower_bound] and [erase_if]. *)
Fixpoint insert_at (t : T) (v : nat) (l : list (T * nat)) : list (T * nat) :=
  match l with
  | [] => [(t, v)]
  | x :: r => if lt E (fst x) t then x :: insert_at t v r else (t, v) :: l
  end.
(** Helper without code of its own. *)
Definition erase (v : nat) (l : list (T * nat)) : list (T * nat) := filter (fun x => negb (snd x =? v)) l.

(** snapper.hpp:691-698: triangulate the patches in turn, stopping at one that is not simple. *)
Fixpoint retriangulate (s : st) (l : list nat) : outcome (bool * list (nat * list tri3)) :=
  match l with
  | [] => Ok (true, [])
  | fi :: l =>
      let* r := triangulate s fi in
      if fst r then let* q := retriangulate s l in Ok (fst q, (fi, snd r) :: snd q)
      else Ok (false, [(fi, snd r)])
  end.

(** Within snapper.hpp:691-698. *)
Definition with_chain (s : st) (e : edge) (l : list (T * nat)) : st :=
  State (s_p s) (s_aq s) (set_edge (s_chain s) e l) (s_interior s) (s_faces s).
(** Within snapper.hpp:691-698. *)
Definition with_anchor (s : st) (r : nat) (a : A) : st :=
  State (s_p s) (set (s_aq s) r a) (s_chain s) (s_interior s) (s_faces s).
(** Helper without code of its own. *)
Definition store (s : st) (changed : list (nat * list tri3)) : st :=
  fold_left (fun s x => with_faces s (fst x) (snd x)) changed s.

(** snapper.hpp:657-711: put the point on the edge opposite to corner [i]. *)
Definition try_edge (s0 : st) (c : cand) (i : nat) : attempt :=
  let j := (i + 1) mod 3 in let k := (i + 2) mod 3 in
  let f := face (c_face c) in
  if lt E (zero E) (add E (c_l c j) (c_l c k)) then
    let e := edge_of (corner f j) (corner f k) in
    let t := div E (c_l c (if fst e =? corner f j then k else j)) (add E (c_l c (if fst e =? corner f j then j else k)) (c_l c (if fst e =? corner f j then k else j))) in
    let inc := faces_of e in
    if length inc <? 2 then Ok (false, [], s0)
    else
      let* s := look s0 3 in
      let new_v := c_point c in
      let s := with_anchor s new_v (between E (s_aq s (fst e)) (s_aq s (snd e)) t) in
      let s := with_chain s e (insert_at t new_v (s_chain s e)) in
      let revert (s : st) := with_chain s e (erase new_v (s_chain s e)) in
      let* r := retriangulate s inc in
      if fst r then
        let* s := look_outside s 4 inc in
        if accept E s (snd r) then
          let s := store s (snd r) in
          let* s := look s 5 in Ok (true, knocked E s, s)
        else Ok (false, [], revert s)
      else Ok (false, [], revert s)
  else Ok (false, [], s0).

(** snapper.hpp:714-738: put the point into the interior of its face. *)
Definition with_interior (s : st) (fi : nat) (l : list nat) : st :=
  State (s_p s) (s_aq s) (s_chain s) (set (s_interior s) fi l) (s_faces s).
(** Within snapper.hpp:714-738. *)
Definition uses (fs : list tri3) (r : nat) : bool :=
  existsb (fun f => existsb (fun k => corner f k =? r) [0; 1; 2]) fs.
(** Within snapper.hpp:714-738. *)
Definition try_face (s0 : st) (c : cand) : attempt :=
  let fi := c_face c in
  let* s := look s0 6 in
  let s := with_anchor s (c_point c) (c_anchor c) in
  let s := with_interior s fi (s_interior s fi ++ [c_point c]) in
  let revert (s : st) := with_interior s fi (removelast (s_interior s fi)) in
  let* r := triangulate s fi in
  if fst r && uses (snd r) (c_point c) then
    let* s := look_outside s 7 [fi] in
    if accept E s [(fi, snd r)] then
      let s := with_faces s fi (snd r) in
      let* s := look s 8 in Ok (true, knocked E s, s)
    else Ok (false, [], revert s)
  else Ok (false, [], revert s).

(** snapper.hpp:640-654. *)
Definition try_simplex (s : st) (c : cand) (x : simplex) : attempt :=
  match x with
  | Corner k => try_vertex s c (corner (face (c_face c)) k)
  | Side k => try_edge s c k
  | Inside => try_face s c
  end.

(** snapper.hpp:522-527: the first simplex that works. *)
Fixpoint cascade (s : st) (c : cand) (l : list simplex) : attempt :=
  match l with
  | [] => Ok (false, [], s)
  | x :: l =>
      let* r := try_simplex s c x in
      if fst (fst r) then Ok r else cascade (snd r) c l
  end.

(** snapper.hpp:624-638: the nearest vertex, if it is within the tolerance. *)
Fixpoint nearest (l : list simplex) : option nat :=
  match l with [] => None | Corner k :: _ => Some k | _ :: l => nearest l end.
(** Within snapper.hpp:624-638. *)
Definition try_nearby (s : st) (c : cand) : attempt :=
  match nearest (c_order c) with
  | Some k =>
      let v := corner (face (c_face c)) k in
      if near E s c v then try_vertex s c v else Ok (false, [], s)
  | None => Ok (false, [], s)
  end.

(** snapper.hpp:518-528: one candidate. *)
Definition place (s : st) (c : cand) : attempt :=
  let* r := try_nearby s c in
  if fst (fst r) then Ok r
  else
    let* s := look (snd r) 9 in
    if satisfied E s c then Ok (false, [], s) else cascade s c (c_order c).

(** snapper.hpp:501-511: the queue; the smallest distance first, then the smallest number. *)
Definition sooner (x y : T * nat) : bool :=
  if lt E (fst x) (fst y) then true else if lt E (fst y) (fst x) then false else snd x <? snd y.
(** Within snapper.hpp:501-511. *)
Fixpoint pop (x : T * nat) (l : list (T * nat)) : (T * nat) * list (T * nat) :=
  match l with
  | [] => (x, [])
  | y :: l => if sooner y x then let r := pop y l in (fst r, x :: snd r)
              else let r := pop x l in (fst r, y :: snd r)
  end.

(** snapper.hpp:131-134: the candidate of a point; a later one replaces an earlier one. *)
Definition candidate_of (cs : list cand) : nat -> option nat :=
  fold_left (fun f ic => set f (c_point (snd ic)) (Some (fst ic))) (combine (seq 0 (length cs)) cs) (fun _ => None).

(** snapper.hpp:529-537: put the dishonored points that have budget left back into the queue. *)
Fixpoint requeue (cs : list cand) (of_point : nat -> option nat) (dis : list nat)
    (queue : list (T * nat)) (budget : nat -> nat) : outcome (list (T * nat) * (nat -> nat)) :=
  match dis with
  | [] => Ok (queue, budget)
  | p :: dis =>
      if np E <=? p then Throw ExOutOfRange
      else match of_point p with
        | Some ci =>
            match nth_error cs ci with
            | None => Throw ExOutOfRange
            | Some c =>
                match budget ci with
                | 0 => requeue cs of_point dis queue budget
                | S b => requeue cs of_point dis ((c_d2 c, ci) :: queue) (set budget ci b)
                end
            end
        | None => requeue cs of_point dis queue budget
        end
  end.

(** snapper.hpp:499-540: the main loop; [None] when [fuel] candidates were not enough. *)
Definition kSnapBudget : nat := 8.
(** Within snapper.hpp:499-540. *)
Fixpoint loop (fuel : nat) (cs : list cand) (of_point : nat -> option nat) (s : st)
    (queue : list (T * nat)) (budget : nat -> nat) : outcome (option st) :=
  match queue with
  | [] => Ok (Some s)
  | x :: l =>
      match fuel with
      | 0 => Ok None
      | S fuel =>
          let top := fst (pop x l) in
          let rest := snd (pop x l) in
          match nth_error cs (snd top) with
          | None => Throw ExOutOfRange
          | Some c =>
              let* r := place s c in
              if fst (fst r) then
                let* q := requeue cs of_point (snd (fst r)) rest budget in
                loop fuel cs of_point (snd r) (fst q) (snd q)
              else loop fuel cs of_point (snd r) rest budget
          end
      end
  end.

(** snapper.hpp:174-246: one candidate for each point near the mesh. *)
Definition classified : list cand :=
  flat_map (fun i => match classify E i with
    | Some c => [Candidate i (c_face c) (c_anchor c) (c_d2 c) (c_l c) (c_order c)]
    | None => [] end) (seq 0 (np E)).
(** Within snapper.hpp:174-246. *)
Definition candidates : list cand := arrange E classified.
(** Within snapper.hpp:174-246. *)
Definition skipped : nat := length (filter (fun i => match classify E i with Some _ => false | None => true end) (seq 0 (np E))).

(** Within snapper.hpp:174-246. *)
Definition first_queue (cs : list cand) : list (T * nat) := combine (map c_d2 cs) (seq 0 (length cs)).
(** snap (snapper.hpp:499-540). *)
Definition snap (fuel : nat) : outcome (option st) :=
  loop fuel candidates (candidate_of candidates) start (first_queue candidates) (fun _ => kSnapBudget).

(** snapper.hpp:136-145: the statistics. *)
Definition has_candidate (i : nat) : bool := match candidate_of candidates i with Some _ => true | None => false end.
(** Within snapper.hpp:136-145. *)
Fixpoint count (s : st) (l : list nat) (h d : nat) : outcome (nat * nat * st) :=
  match l with
  | [] => Ok (h, d, s)
  | i :: l =>
      if has_candidate i then
        let* s := look s (10 + i) in
        if honored E s i then count s l (S h) d else count s l h (S d)
      else count s l h d
  end.

(** snapper.hpp:258-285: number the rows in the order of their first use.  [vv] holds the rows
    numbered so far, newest last. *)
Fixpoint position (r : nat) (vv : list nat) : option nat :=
  match vv with [] => None | x :: vv => if x =? r then Some 0 else option_map S (position r vv) end.
(** Within snapper.hpp:258-285. *)
Definition number (vv : list nat) (r : nat) : outcome (nat * list nat) :=
  if np E + nv E <=? r then Throw ExOutOfRange
  else match position r vv with
    | Some k => Ok (k, vv)
    | None => Ok (length vv, vv ++ [r])
    end.
(** Within snapper.hpp:258-285. *)
Fixpoint renumber (vv : list nat) (fs : list tri3) : outcome (list nat * list tri3) :=
  match fs with
  | [] => Ok (vv, [])
  | f :: fs =>
      let* x := number vv (fst (fst f)) in
      let* y := number (snd x) (snd (fst f)) in
      let* z := number (snd y) (snd f) in
      let* r := renumber (snd z) fs in
      Ok (fst r, (fst x, fst y, fst z) :: snd r)
  end.
(** emit (snapper.hpp:258-285). *)
Definition emit (s : st) : outcome (list P * list tri3) :=
  let* a := read s (seq 0 num_faces) in
  let* b := read (snd a) (seq 0 num_faces) in
  let* r := renumber [] (flat_map snd (fst b)) in
  Ok (map (s_p (snd b)) (fst r), snd r).

(** snapper.hpp:96-148, after the check of the tolerances. *)
Record result : Type := Result {
  r_skipped : nat; r_honored : nat; r_dishonored : nat; r_vertices : list P; r_faces : list tri3 }.
(** Within snapper.hpp:96-148. *)
Definition snapper (fuel : nat) : outcome (option result) :=
  let* o := snap fuel in
  match o with
  | None => Ok None
  | Some s =>
      let* n := count s (seq 0 (np E)) 0 0 in
      let* m := emit (snd n) in
      Ok (Some (Result skipped (fst (fst n)) (snd (fst n)) (fst m) (snd m)))
  end.

(** snapper.hpp:106-108 and snap.cpp:9-24: the tolerances and the trivial cases. *)
Definition snap_mesh (fuel ntol : nat) : outcome (option result) :=
  if (np E =? 0) || is_nil (faces E) then
    Ok (Some (Result 0 0 0 (map (vertices E) (seq 0 (nv E))) (faces E)))
  else if negb (ntol =? 0) && negb (ntol =? np E) then Throw ExInvalidArgument
  else snapper fuel.

End Snapper.
Arguments Result {P}. Arguments r_skipped {P} _. Arguments r_honored {P} _.
Arguments r_dishonored {P} _. Arguments r_vertices {P} _. Arguments r_faces {P} _.
