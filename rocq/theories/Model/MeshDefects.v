From Coq Require Import List Arith Bool.
From Verif Require Import Model.Outcome.
Import ListNotations.

(** * DenseUndirectedGraph (src/isosurface/dense_undirected_graph.hpp)

    The matrix m_ is a function on indices below the order; its int counters are unbounded here. *)
Definition matrix := nat -> nat -> nat.

(** Constructor (dense_undirected_graph.hpp:18-22). *)
Definition graph_new (n : nat) : outcome matrix :=
  if n <=? 0 then Throw ExInvalidArgument else Ok (fun _ _ => 0).

(** add_edge (dense_undirected_graph.hpp:24-29). *)
Definition add_edge (m : matrix) (i j : nat) : matrix :=
  let (i, j) := if j <? i then (j, i) else (i, j) in
  fun a b => if Nat.eqb a i && Nat.eqb b j then S (m a b) else m a b.

(** has_edge (dense_undirected_graph.hpp:123-128). *)
Definition has_edge (m : matrix) (i j : nat) : bool :=
  let (i, j) := if j <? i then (j, i) else (i, j) in negb (Nat.eqb (m i j) 0).

(** Helper without code of its own. *)
Definition upd {A} (f : nat -> A) (i : nat) (x : A) : nat -> A := fun j => if Nat.eqb j i then x else f j.

(** connected_components (dense_undirected_graph.hpp:32-59). [comp] holds None for -1; the stack top is the list head. *)
Fixpoint label_row (m : matrix) (c i : nat) (js : list nat) (comp : nat -> option nat) (st : list nat)
  : (nat -> option nat) * list nat :=
  match js with
  | [] => (comp, st)
  | j :: js' =>
      if has_edge m i j && match comp j with None => true | Some _ => false end
      then label_row m c i js' (upd comp j (Some c)) (j :: st)
      else label_row m c i js' comp st
  end.
(** The while loop (dense_undirected_graph.hpp:42-51), for at most [fuel] turns. *)
Fixpoint flood (fuel n : nat) (m : matrix) (c : nat) (comp : nat -> option nat) (st : list nat)
  : option (nat -> option nat) :=
  match st with
  | [] => Some comp
  | i :: st' =>
      match fuel with
      | 0 => None
      | S fuel' => let (comp', st'') := label_row m c i (seq 0 n) comp st' in flood fuel' n m c comp' st''
      end
  end.
(** The loop over start vertices (dense_undirected_graph.hpp:35-53). *)
Fixpoint components_from (fuel n : nat) (m : matrix) (ss : list nat) (comp : nat -> option nat) (count : nat)
  : option ((nat -> option nat) * nat) :=
  match ss with
  | [] => Some (comp, count)
  | s :: ss' =>
      match comp s with
      | Some _ => components_from fuel n m ss' comp count
      | None =>
          match flood fuel n m count (upd comp s (Some count)) [s] with
          | None => None
          | Some comp' => components_from fuel n m ss' comp' (S count)
          end
      end
  end.
(** dense_undirected_graph.hpp:54-58: the vertices are appended to their components in increasing order. *)
Definition connected_components (fuel n : nat) (m : matrix) : option (list (list nat)) :=
  match components_from fuel n m (seq 0 n) (fun _ => None) 0 with
  | None => None
  | Some (comp, count) =>
      Some (map (fun c => filter (fun i => match comp i with Some c' => Nat.eqb c' c | None => false end)
                                 (seq 0 n)) (seq 0 count))
  end.

(** is_connected (dense_undirected_graph.hpp:61-81), for at most [fuel] turns. Pushing in increasing order of j puts the
    largest on top. *)
Fixpoint dfs (fuel n : nat) (m : matrix) (visited : nat -> bool) (st : list nat) : option (nat -> bool) :=
  match st with
  | [] => Some visited
  | i :: st' =>
      match fuel with
      | 0 => None
      | S fuel' =>
          let visited' := upd visited i true in
          dfs fuel' n m visited'
            (rev (filter (fun j => has_edge m i j && negb (visited' j)) (seq 0 n)) ++ st')
      end
  end.
(** is_connected (dense_undirected_graph.hpp:61-81). *)
Definition is_connected (fuel n : nat) (m : matrix) : option bool :=
  match dfs fuel n m (fun _ => false) [0] with
  | None => None
  | Some visited => Some (forallb visited (seq 0 n))
  end.

(** is_simple (dense_undirected_graph.hpp:83-97). *)
Definition is_simple (n : nat) (m : matrix) : bool :=
  forallb (fun i => Nat.eqb (m i i) 0 && forallb (fun j => m i j <=? 1) (seq (S i) (n - S i))) (seq 0 n).

(** Helper without code of its own. *)
Definition sum (l : list nat) : nat := fold_right Nat.add 0 l.

(** degree (dense_undirected_graph.hpp:118-121), max_degree (dense_undirected_graph.hpp:99-105). *)
Definition degree (n : nat) (m : matrix) (i : nat) : nat :=
  sum (map (fun k => m k i) (seq 0 n)) + sum (map (fun k => m i k) (seq 0 n)) - m i i.
(** max_degree (dense_undirected_graph.hpp:99-105). *)
Definition max_degree (n : nat) (m : matrix) : nat :=
  fold_left (fun d i => Nat.max d (degree n m i)) (seq 0 n) 0.

(** * MeshDefectsFinder::singular_vertices (src/isosurface/mesh_defects_finder.cpp)

    Vertex indices are natural numbers; only the topology is kept. *)
Definition face := (nat * nat * nat)%type.

(** Constructor (mesh_defects_finder.cpp:22-27): [vf_of v fs] is vf_[v]; faces are kept instead of face indices. *)
Definition corners_at (v : nat) (f : face) : list face :=
  let '(a, b, c) := f in
  (if Nat.eqb a v then [f] else []) ++ (if Nat.eqb b v then [f] else []) ++ (if Nat.eqb c v then [f] else []).
(** Within mesh_defects_finder.cpp:22-27. *)
Definition vf_of (v : nat) (fs : list face) : list face := flat_map (corners_at v) fs.
(** Within mesh_defects_finder.cpp:22-27. *)
Definition faces_ok (nv : nat) (fs : list face) : bool :=
  forallb (fun f => let '(a, b, c) := f in (a <? nv) && (b <? nv) && (c <? nv)) fs.

(** next_vertex (mesh_defects_finder.cpp:126-135), prev_vertex (mesh_defects_finder.cpp:137-146). *)
Definition next_vertex (f : face) (v : nat) : nat :=
  let '(a, b, c) := f in if Nat.eqb a v then b else if Nat.eqb b v then c else a.
(** prev_vertex (mesh_defects_finder.cpp:137-146). *)
Definition prev_vertex (f : face) (v : nat) : nat :=
  let '(a, b, c) := f in if Nat.eqb a v then c else if Nat.eqb b v then a else b.

(** to_local_vi (mesh_defects_finder.cpp:95-99) as the list of its keys in insertion order; the value is the position. *)
Definition emplace (ks : list nat) (k : nat) : list nat := if existsb (Nat.eqb k) ks then ks else ks ++ [k].
(** Helper without code of its own. *)
Fixpoint position (ks : list nat) (k : nat) : outcome nat :=
  match ks with
  | [] => Throw ExOutOfRange
  | k' :: ks' => if Nat.eqb k' k then Ok 0 else let* p := position ks' k in Ok (S p)
  end.
(** Within mesh_defects_finder.cpp:95-99. *)
Definition local_keys (v : nat) (fis : list face) : list nat :=
  fold_left (fun ks f => emplace (emplace ks (next_vertex f v)) (prev_vertex f v)) fis [].

(** The graph of the link (mesh_defects_finder.cpp:104-110). *)
Fixpoint add_links (ks : list nat) (v : nat) (fis : list face) (m : matrix) : outcome matrix :=
  match fis with
  | [] => Ok m
  | f :: fis' =>
      let* i := position ks (next_vertex f v) in
      let* j := position ks (prev_vertex f v) in
      add_links ks v fis' (add_edge m i j)
  end.

(** The loop body (mesh_defects_finder.cpp:87-117): true when the vertex is appended to the result. *)
Definition is_singular (v : nat) (fs : list face) : outcome (option bool) :=
  let fis := vf_of v fs in
  match fis with
  | [] => Ok (Some false)
  | _ =>
      let ks := local_keys v fis in
      let n := length ks in
      let* m0 := graph_new n in
      let* m := add_links ks v fis m0 in
      if is_simple n m
      then match is_connected (n * n + 1) n m with
           | None => Ok None
           | Some b => Ok (Some (negb (b && (max_degree n m <=? 2))))
           end
      else Ok (Some true)
  end.

(** The whole method. [chunks] are the vertices handled by each thread, in the order in which the
    threads enter the critical section (mesh_defects_finder.cpp:82-121). *)
Fixpoint singular_in (fs : list face) (vs : list nat) : outcome (option (list nat)) :=
  match vs with
  | [] => Ok (Some [])
  | v :: vs' =>
      let* b := is_singular v fs in
      let* r := singular_in fs vs' in
      match b, r with
      | Some true, Some l => Ok (Some (v :: l))
      | Some false, Some l => Ok (Some l)
      | _, _ => Ok None
      end
  end.
(** singular_vertices (mesh_defects_finder.cpp:79-124). *)
Definition singular_vertices (nv : nat) (fs : list face) (chunks : list (list nat)) : outcome (option (list nat)) :=
  if faces_ok nv fs then singular_in fs (concat chunks) else Throw ExOutOfRange.
