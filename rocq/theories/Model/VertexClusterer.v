From Coq Require Import List Arith Bool.
From Verif Require Import Model.Outcome Model.DisjointSets Model.MeshDefects.
Import ListNotations.

(** VertexClusterer (src/isosurface/vertex_clusterer.hpp). Only the topology is kept: a vertex of the
    clustered mesh is described by where its position comes from, an input vertex ([inl]) or a cluster
    ([inr]). The lattice node of a vertex, the test that skips a component at the bounding box, and the
    defect finder are arbitrary. *)

Record cluster := Cluster { c_vertices : list nat; c_rep : nat; c_deleted : bool }.
(** Within vertex_clusterer.hpp:296-306. *)
Definition no_cluster : cluster := Cluster [] 0 true.

(** clusters_ and cluster_of_ (-1 is None). Indices stored in [s_of] are valid, so .at() is [nth]. *)
Record state := State { s_clusters : list cluster; s_of : nat -> option nat }.

(** Within vertex_clusterer.hpp:296-306. *)
Definition source := (nat + nat)%type.

(** Within vertex_clusterer.hpp:296-306. *)
Definition corners (f : face) : list nat := let '(a, b, c) := f in [a; b; c].
(** Within vertex_clusterer.hpp:296-306. *)
Definition edges (f : face) : list (nat * nat) := let '(a, b, c) := f in [(a, b); (b, c); (c, a)].

(** Constructor, vertex_clusterer.hpp:67-78. *)
Definition unions (node : nat -> nat) (fs : list face) : list (nat * nat) :=
  filter (fun e => Nat.eqb (node (fst e)) (node (snd e))) (flat_map edges fs).

(** register_cluster (vertex_clusterer.hpp:220-224), unregister_cluster (vertex_clusterer.hpp:290-294). *)
Definition register (of : nat -> option nat) (vs : list nat) (x : option nat) : nat -> option nat :=
  fold_left (fun of v => upd of v x) vs of.

(** Helper without code of its own. *)
Definition list_min (l : list nat) : nat := match l with [] => 0 | a :: l' => fold_left Nat.min l' a end.

(** Constructor, vertex_clusterer.hpp:82-99. [skip] is the test of vertex_clusterer.hpp:87-93. *)
Fixpoint make_clusters (skip : list nat -> bool) (components : list (list nat)) (s : state) : state :=
  match components with
  | [] => s
  | comp :: components' =>
      if (length comp <? 2) || skip comp then make_clusters skip components' s
      else make_clusters skip components'
             (State (s_clusters s ++ [Cluster comp (list_min comp) false])
                    (register (s_of s) comp (Some (length (s_clusters s)))))
  end.

(** clustered_mesh (vertex_clusterer.hpp:162-199). One corner (vertex_clusterer.hpp:171-178). *)
Definition put_corner (s : state) (st : (nat -> option nat) * list source) (u : nat)
  : (nat -> option nat) * list source * nat :=
  let (vv, vs) := st in
  let v := match s_of s u with None => u | Some ci => c_rep (nth ci (s_clusters s) no_cluster) end in
  match vv v with
  | Some i => (vv, vs, i)
  | None =>
      (upd vv v (Some (length vs)), vs ++ [match s_of s u with None => inl u | Some ci => inr ci end], length vs)
  end.
(** Within vertex_clusterer.hpp:162-199, vertex_clusterer.hpp:171-178. *)
Definition degenerate (g : face) : bool :=
  let '(a, b, c) := g in Nat.eqb a b || Nat.eqb b c || Nat.eqb c a.
(** Within vertex_clusterer.hpp:162-199, vertex_clusterer.hpp:171-178. *)
Fixpoint put_faces (s : state) (fs : list face) (st : (nat -> option nat) * list source) (out : list face)
  : (nat -> option nat) * list source * list face :=
  match fs with
  | [] => (st, out)
  | (a, b, c) :: fs' =>
      let (st, i) := put_corner s st a in
      let (st, j) := put_corner s st b in
      let (st, k) := put_corner s st c in
      put_faces s fs' st (if degenerate (i, j, k) then out else out ++ [(i, j, k)])
  end.
(** vertex_ci (vertex_clusterer.hpp:189-196). *)
Fixpoint vertex_ci_from (vv : nat -> option nat) (ci : nat) (cs : list cluster) (m : nat -> option nat)
  : nat -> option nat :=
  match cs with
  | [] => m
  | c :: cs' =>
      vertex_ci_from vv (S ci) cs'
        (if c_deleted c then m else match vv (c_rep c) with Some i => upd m i (Some ci) | None => m end)
  end.
(** clustered_mesh (vertex_clusterer.hpp:162-199). *)
Definition clustered_mesh (s : state) (fs : list face) : list source * list face * (nat -> option nat) :=
  let '(vv, vs, out) := put_faces s fs (fun _ => None, []) [] in
  (vs, out, vertex_ci_from vv 0 (s_clusters s) (fun _ => None)).

(** remove_back_to_back (vertex_clusterer.hpp:233-279). *)
Definition sort3 (f : face) : face :=
  let '(a, b, c) := f in
  let lo := Nat.min a (Nat.min b c) in
  let hi := Nat.max a (Nat.max b c) in
  (lo, a + b + c - lo - hi, hi).
(** Helper without code of its own. *)
Definition face_eqb (f g : face) : bool :=
  let '(a, b, c) := f in let '(x, y, z) := g in Nat.eqb a x && Nat.eqb b y && Nat.eqb c z.
(** Within vertex_clusterer.hpp:233-279. *)
Definition edge_of (e : nat * nat) : nat * nat :=
  let (u, w) := e in (if u <? w then u else w, if u <? w then w else u).
(** Within vertex_clusterer.hpp:233-279. *)
Definition edge_faces (fs : list face) (e : nat * nat) : nat :=
  length (filter (fun e' => let '(a, b) := edge_of e' in let '(x, y) := edge_of e in Nat.eqb a x && Nat.eqb b y)
                 (flat_map edges fs)).
(** same_winding (vertex_clusterer.hpp:281-288). *)
Definition same_winding (f g : face) : bool :=
  let '(x, y, z) := g in face_eqb f (x, y, z) || face_eqb f (y, z, x) || face_eqb f (z, x, y).
(** Within vertex_clusterer.hpp:281-288. *)
Definition face_at (fs : list face) (i : nat) : face := nth i fs (0, 0, 0).
(** Within vertex_clusterer.hpp:281-288. *)
Definition by_vertices (fs : list face) (key : face) : list nat :=
  filter (fun i => face_eqb (sort3 (face_at fs i)) key) (seq 0 (length fs)).
(** vertex_clusterer.hpp:250-264, seen from face [i]: the verdict only depends on the group that contains it. *)
Definition dropped (fs : list face) (i : nat) : bool :=
  match by_vertices fs (sort3 (face_at fs i)) with
  | [a; b] =>
      negb (same_winding (face_at fs a) (face_at fs b)) &&
      forallb (fun e => Nat.eqb (edge_faces fs e) 2 || Nat.eqb (edge_faces fs e) 4) (edges (face_at fs a))
  | _ => false
  end.
(** remove_back_to_back (vertex_clusterer.hpp:233-279). *)
Definition remove_back_to_back (fs : list face) : list face :=
  map (face_at fs) (filter (fun i => negb (dropped fs i)) (seq 0 (length fs))).

(** incident (vertex_clusterer.hpp:122-131). *)
Definition incident_clusters (vci : nat -> option nat) (fs : list face) (v : nat) : list nat :=
  flat_map (fun f => let '(a, b, c) := f in
    flat_map (fun p => let '(k, k1, k2) := p in
      match vci k with
      | Some ci => (if Nat.eqb k1 v then [ci] else []) ++ (if Nat.eqb k2 v then [ci] else [])
      | None => []
      end) [(a, b, c); (b, c, a); (c, a, b)]) fs.

(** rollback (vertex_clusterer.hpp:134-141). *)
Definition rollback (s : state) (changed : bool) (ci : nat) : state * bool :=
  let c := nth ci (s_clusters s) no_cluster in
  if c_deleted c then (s, changed)
  else (State (firstn ci (s_clusters s) ++ Cluster (c_vertices c) (c_rep c) true :: skipn (S ci) (s_clusters s))
              (register (s_of s) (c_vertices c) None), true).
(** Within vertex_clusterer.hpp:134-141. *)
Definition rollbacks (s : state) (changed : bool) (cis : list nat) : state * bool :=
  fold_left (fun st ci => rollback (fst st) (snd st) ci) cis (s, changed).
(** vertex_clusterer.hpp:145-153. *)
Definition blamed (vci : nat -> option nat) (fs : list face) (flagged : list nat) : list nat :=
  flat_map (fun v => match vci v with Some ci => [ci] | None => incident_clusters vci fs v end) flagged.

(** The defect finder: singular vertices and intersecting faces of a mesh, in any order. *)
Definition finder := list source -> list face -> list nat * list nat.
(** Within vertex_clusterer.hpp:203-225. *)
Definition flagged_of (detect : finder) (vs : list source) (fs : list face) : list nat :=
  let (vis, fis) := detect vs fs in vis ++ flat_map (fun fi => corners (face_at fs fi)) fis.

(** cluster (vertex_clusterer.hpp:107-159), for at most [fuel] rounds. *)
Fixpoint cluster_loop (fuel : nat) (detect : finder) (fs : list face) (s : state)
  : option (list source * list face * state) :=
  match fuel with
  | 0 => None
  | S fuel' =>
      let '(vs, mid, vci) := clustered_mesh s fs in
      let out := remove_back_to_back mid in
      let (s', changed) := rollbacks s false (blamed vci out (flagged_of detect vs out)) in
      if changed then cluster_loop fuel' detect fs s' else Some (vs, out, s')
  end.

(** Constructor (vertex_clusterer.hpp:46-102). None: a loop used up its fuel. *)
Definition vertex_clusterer (nv : nat) (fs : list face) (node : nat -> nat) (skip : list nat -> bool) (detect : finder)
  : outcome (option (list source * list face * state)) :=
  if faces_ok nv fs then
    let* r := unite_all nv (ds_init nv) (unions node fs) in
    match r with
    | None => Ok None
    | Some p =>
        let* r := groups nv p in
        match r with
        | None => Ok None
        | Some (components, _) =>
            let s := make_clusters skip components (State [] (fun _ => None)) in
            Ok (cluster_loop (S (length (s_clusters s))) detect fs s)
        end
    end
  else Throw ExOutOfRange.
