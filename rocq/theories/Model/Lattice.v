From Coq Require Import List Arith ZArith Reals Bool.
From Verif Require Import Model.Outcome Model.MeshDefects Model.Solver.
Import ListNotations.

(** * Marching tetrahedra on the lattice (include/polatory/isosurface/rmt)

    Values are real numbers or NaN (None); infinities and rounding are not modelled. A node's position
    is a function of its coordinates and is not stored. Coordinates do not overflow int. *)

Definition lc := (Z * Z * Z)%type.
(** Helper without code of its own. *)
Definition lc_eqb (a b : lc) : bool :=
  let '(a0, a1, a2) := a in let '(b0, b1, b2) := b in (Z.eqb a0 b0 && Z.eqb a1 b1 && Z.eqb a2 b2)%bool.
(** Helper without code of its own. *)
Definition lc_add (a b : lc) : lc :=
  let '(a0, a1, a2) := a in let '(b0, b1, b2) := b in (a0 + b0, a1 + b1, a2 + b2)%Z.
(** LatticeCoordinatesLess (lattice_coordinates.hpp:20-24). *)
Definition lc_less (a b : lc) : bool :=
  let '(a0, a1, a2) := a in let '(b0, b1, b2) := b in
  ((a0 <? b0) || ((a0 =? b0) && ((a1 <? b1) || ((a1 =? b1) && (a2 <? b2)))))%Z.

(** kNeighborLatticeCoordinatesDeltas and neighbor (neighbor.hpp:9-28); edge indices are below 14. *)
Definition deltas : list lc :=
  [(1, 0, 0); (1, 0, 1); (0, 0, 1); (1, 1, 0); (1, 1, 1); (0, 1, 1); (0, 1, 0);
   (-1, 0, 0); (-1, 0, -1); (0, 0, -1); (-1, -1, 0); (-1, -1, -1); (0, -1, -1); (0, -1, 0)]%Z.
(** neighbor (neighbor.hpp:26-28). *)
Definition neighbor (x : lc) (e : nat) : lc := lc_add x (nth e deltas (0, 0, 0)%Z).
(** kOppositeEdge (edge.hpp:27-29). *)
Definition opposite (e : nat) : nat := nth e [7; 8; 9; 10; 11; 12; 13; 0; 1; 2; 3; 4; 5; 6] 0.

(** Node (node.hpp). A bitset is a predicate on edge indices, so bit_count of the bits below an index
    (node.hpp:32-37, 67-69) counts a filtered range. [vis] is the packed vector, empty for a null pointer. *)
Record node := Node { n_value : option num; n_near : nat -> bool; n_all : nat -> bool; n_vis : list nat }.
(** Within node.hpp:32-37, 67-69. *)
Definition new_node : node := Node None (fun _ => false) (fun _ => false) [].
(** Within node.hpp:32-37, 67-69. *)
Definition rank (bits : nat -> bool) (e : nat) : nat := length (filter bits (seq 0 e)).
(** insert_vertex (node.hpp:27-43); inserting past the end is undefined. *)
Definition insert_vertex (n : node) (vi e : nat) : outcome node :=
  let near := upd (n_near n) e true in
  let k := rank near e in
  if k <=? length (n_vis n)
  then Ok (Node (n_value n) near (n_all n) (firstn k (n_vis n) ++ vi :: skipn k (n_vis n)))
  else UB.
(** set_intersection (node.hpp:49-53), is_free (node.hpp:45), set_value (node.hpp:55-58), value (node.hpp:60). *)
Definition set_intersection (n : node) (e : nat) : node :=
  Node (n_value n) (n_near n) (upd (n_all n) e true) (n_vis n).
(** Within node.hpp:49-53, node.hpp:45, node.hpp:55-58, node.hpp:60. *)
Definition is_free (n : node) : bool := negb (existsb (n_all n) (seq 0 14)).
(** set_value (node.hpp:55-58). *)
Definition set_value (n : node) (v : num) : node := Node (Some v) (n_near n) (n_all n) (n_vis n).
(** Within node.hpp:60. *)
Definition value (n : node) : outcome num := match n_value n with Some v => Ok v | None => Throw ExBadOptional end.
(** vertex (node.hpp:64-70); without vertices the pointer vis_ is null, and following it is undefined. *)
Definition vertex (n : node) (e : nat) : outcome nat :=
  match n_vis n with
  | [] => UB
  | vis => match nth_error vis (rank (n_near n) e) with Some v => Ok v | None => Throw ExOutOfRange end
  end.
(** sign (sign.hpp): true for kNeg; NaN is not negative. *)
Definition neg (v : num) : bool := match v with Some x => if Rlt_dec x 0 then true else false | None => false end.

(** Lattice: node_list_, nodes_to_evaluate_, vertices_ (node_lc, ei, t). *)
Record lattice := Lattice { l_nodes : lc -> option node; l_pending : list lc; l_vertices : list (lc * nat * num) }.
(** Within lattice.hpp:386-418. *)
Definition cleared : lattice := Lattice (fun _ => None) [] [].
(** Helper without code of its own. *)
Definition upd_lc {A : Type} (f : lc -> A) (x : lc) (a : A) : lc -> A := fun y => if lc_eqb y x then a else f y.
(** Within lattice.hpp:301-307. *)
Definition at_ (l : lattice) (x : lc) : outcome node :=
  match l_nodes l x with Some n => Ok n | None => Throw ExOutOfRange end.
(** Helper without code of its own. *)
Definition set_node (l : lattice) (x : lc) (o : option node) : lattice :=
  Lattice (upd_lc (l_nodes l) x o) (l_pending l) (l_vertices l).

(** add_node_unchecked (lattice.hpp:352-363) for a node inside the box: emplace keeps an existing node. *)
Definition emplace_node (l : lattice) (x : lc) : lattice :=
  Lattice (match l_nodes l x with Some _ => l_nodes l | None => upd_lc (l_nodes l) x (Some new_node) end)
          (l_pending l ++ [x]) (l_vertices l).

(** The field function: values minus the isovalue, or an exception. *)
Definition field_fn := list lc -> outcome (list num).

(** evaluate_field (lattice.hpp:421-445): the second component is an exception of the field function, thrown
    out of the lattice, which keeps its state. *)
Fixpoint set_values (l : lattice) (xs : list lc) (vs : list num) : outcome lattice :=
  match xs, vs with
  | [], _ => Ok l
  | x :: xs', v :: vs' => let* n := at_ l x in set_values (set_node l x (Some (set_value n v))) xs' vs'
  | _ :: _, [] => UB
  end.
(** evaluate_field (lattice.hpp:421-445). *)
Definition evaluate_field (f : field_fn) (l : lattice) : outcome (lattice * option exn) :=
  match l_pending l with
  | [] => Ok (l, None)
  | _ =>
      match f (l_pending l) with
      | Ok vs =>
          let* l' := set_values l (l_pending l) vs in Ok (Lattice (l_nodes l') [] (l_vertices l'), None)
      | Throw e => Ok (l, Some e)
      | UB => UB
      end
  end.

(** generate_vertices (lattice.hpp:447-510). The parallel loop (lattice.hpp:458-492) only reads. *)
Record crossing := Crossing { c_lc0 : lc; c_lc1 : lc; c_ei : nat; c_t : num }.
(** Within lattice.hpp:447-510, lattice.hpp:458-492. *)
Definition ndiv (a b : num) : num :=
  match a, b with Some x, Some y => if Req_EM_T y 0 then None else Some (x / y)%R | _, _ => None end.
(** Within lattice.hpp:447-510, lattice.hpp:458-492. *)
Fixpoint crossings_at (l : lattice) (x0 : lc) (v0 : num) (es : list nat) : outcome (list crossing) :=
  match es with
  | [] => Ok []
  | e :: es' =>
      let x1 := neighbor x0 e in
      if lc_less x1 x0 then
        match l_nodes l x1 with
        | None => crossings_at l x0 v0 es'
        | Some n1 =>
            let* v1 := value n1 in
            let* cs := crossings_at l x0 v0 es' in
            Ok (if Bool.eqb (neg v0) (neg v1) then cs else Crossing x0 x1 e (ndiv v0 (nsub v0 v1)) :: cs)
        end
      else crossings_at l x0 v0 es'
  end.
(** Within lattice.hpp:447-510, lattice.hpp:458-492. *)
Fixpoint all_crossings (l : lattice) (xs : list lc) : outcome (list crossing) :=
  match xs with
  | [] => Ok []
  | x :: xs' =>
      let* n := at_ l x in
      let* v := value n in
      let* cs := crossings_at l x v (seq 0 14) in
      let* cs' := all_crossings l xs' in
      Ok (cs ++ cs')
  end.
(** lattice.hpp:494-509. *)
Definition below_half (t : num) : bool := match t with Some x => if Rlt_dec x (1 / 2) then true else false | None => false end.
(** Within lattice.hpp:494-509. *)
Definition add_crossing (l : lattice) (c : crossing) : outcome lattice :=
  let vi := length (l_vertices l) in
  let opp := opposite (c_ei c) in
  let* n0 := at_ l (c_lc0 c) in
  let* n1 := at_ l (c_lc1 c) in
  if below_half (c_t c) then
    let* n0' := insert_vertex n0 vi (c_ei c) in
    let l := set_node l (c_lc0 c) (Some (set_intersection n0' (c_ei c))) in
    let l := set_node l (c_lc1 c) (Some (set_intersection n1 opp)) in
    Ok (Lattice (l_nodes l) (l_pending l) (l_vertices l ++ [(c_lc0 c, c_ei c, c_t c)]))
  else
    let* n1' := insert_vertex n1 vi opp in
    let l := set_node l (c_lc0 c) (Some (set_intersection n0 (c_ei c))) in
    let l := set_node l (c_lc1 c) (Some (set_intersection n1' opp)) in
    Ok (Lattice (l_nodes l) (l_pending l) (l_vertices l ++ [(c_lc1 c, opp, nsub (Some 1%R) (c_t c))])).
(** Within lattice.hpp:494-509. *)
Fixpoint add_crossings (l : lattice) (cs : list crossing) : outcome lattice :=
  match cs with
  | [] => Ok l
  | c :: cs' => let* l' := add_crossing l c in add_crossings l' cs'
  end.
(** generate_vertices (lattice.hpp:447-510). *)
Definition generate_vertices (l : lattice) (xs : list lc) : outcome lattice :=
  let* cs := all_crossings l xs in add_crossings l cs.

(** remove_free_nodes (lattice.hpp:608-615): dereferencing end() is undefined. *)
Fixpoint remove_free_nodes (l : lattice) (xs : list lc) : outcome lattice :=
  match xs with
  | [] => Ok l
  | x :: xs' =>
      match l_nodes l x with
      | None => UB
      | Some n => remove_free_nodes (if is_free n then set_node l x None else l) xs'
      end
  end.

(** add_all_nodes (lattice.hpp:37-66). [layers] are the nodes inside the box for each third coordinate;
    value_at_arbitrary_point_ is left out. *)
Fixpoint add_layers (f : field_fn) (l : lattice) (nodes : list lc) (layers : list (list lc))
  : outcome (lattice * option exn) :=
  match layers with
  | [] => Ok (l, None)
  | new_nodes :: layers' =>
      let l := fold_left emplace_node new_nodes l in
      let* r := evaluate_field f l in
      match r with
      | (l, Some e) => Ok (l, Some e)
      | (l, None) =>
          let* l := generate_vertices l new_nodes in
          let* l := remove_free_nodes l nodes in
          match layers' with
          | [] => let* l := remove_free_nodes l new_nodes in Ok (l, None)
          | _ => add_layers f l new_nodes layers'
          end
      end
  end.
(** add_all_nodes (lattice.hpp:37-66). *)
Definition add_all_nodes (f : field_fn) (l : lattice) (layers : list (list lc)) := add_layers f l [] layers.

(** complete_surface (lattice.hpp:386-418). [eligible] is the test of add_node (lattice.hpp:342-363): inside the
    second extended box. None: [fuel] rounds were not enough. *)
Definition is_surface_node (l : lattice) (x : lc) : outcome bool :=
  let* n := at_ l x in
  let* v := value n in
  (fix go es := match es with
                | [] => Ok false
                | e :: es' =>
                    match l_nodes l (neighbor x e) with
                    | None => go es'
                    | Some n1 => let* v1 := value n1 in if Bool.eqb (neg v1) (neg v) then go es' else Ok true
                    end
                end) (seq 0 14).
(** Within lattice.hpp:386-418, lattice.hpp:342-363. *)
Fixpoint surface_nodes (l : lattice) (xs : list lc) : outcome (list lc) :=
  match xs with
  | [] => Ok []
  | x :: xs' =>
      let* b := is_surface_node l x in
      let* r := surface_nodes l xs' in
      Ok (if b then x :: r else r)
  end.
(** Within lattice.hpp:386-418, lattice.hpp:342-363. *)
Fixpoint add_nodes (eligible : lc -> bool) (l : lattice) (xs : list lc) : lattice * list lc :=
  match xs with
  | [] => (l, [])
  | x :: xs' =>
      match l_nodes l x with
      | Some _ => add_nodes eligible l xs'
      | None =>
          if eligible x
          then let (l', added) := add_nodes eligible (emplace_node l x) xs' in (l', x :: added)
          else add_nodes eligible l xs'
      end
  end.
(** add_nodes_from_seed_points (lattice.hpp:68-248) before complete_surface: rounds of add_node, each followed by
    evaluate_field. Which nodes a round adds depends on the values there; here the rounds are arbitrary.
    Exceptions of the choice itself are not modelled. *)
Fixpoint track (eligible : lc -> bool) (f : field_fn) (l : lattice) (rounds : list (list lc)) : outcome (lattice * option exn) :=
  match rounds with
  | [] => Ok (l, None)
  | xs :: rounds' =>
      let (l, _) := add_nodes eligible l xs in
      let* r := evaluate_field f l in
      match r with
      | (l, Some e) => Ok (l, Some e)
      | (l, None) => track eligible f l rounds'
      end
  end.
(** Within lattice.hpp:68-248. *)
Definition around (x : lc) : list lc := map (neighbor x) (seq 0 14).
(** Within lattice.hpp:68-248. *)
Fixpoint fill (fuel : nat) (eligible : lc -> bool) (f : field_fn) (l : lattice) (frontier : list lc)
  : outcome (option (lattice * option exn)) :=
  match frontier with
  | [] => Ok (Some (l, None))
  | _ =>
      match fuel with
      | 0 => Ok None
      | S fuel' =>
          let (l, added) := add_nodes eligible l (flat_map around frontier) in
          let* r := evaluate_field f l in
          match r with
          | (l, Some e) => Ok (Some (l, Some e))
          | (l, None) => let* frontier := surface_nodes l added in fill fuel' eligible f l frontier
          end
      end
  end.
(** [keys] is the iteration order of node_list_. *)
Definition complete_surface (fuel : nat) (eligible : lc -> bool) (f : field_fn) (l : lattice) (keys : list lc)
  : outcome (option (lattice * option exn)) :=
  let* frontier := surface_nodes l keys in fill fuel eligible f l frontier.

(** ** Tetrahedra (tetrahedron.hpp) *)

(** kEdgeIndices (tetrahedron.hpp:19-25), kOuterEdgeIndices (tetrahedron.hpp:35-41). *)
Definition edge_indices : list (nat * nat * nat) :=
  [(4, 5, 2); (4, 2, 1); (4, 1, 0); (4, 0, 3); (4, 3, 6); (4, 6, 5)].
(** Within tetrahedron.hpp:19-25, tetrahedron.hpp:35-41. *)
Definition outer_edge_indices : list (nat * nat * nat) :=
  [(7, 13, 3); (10, 0, 6); (13, 9, 5); (12, 6, 2); (9, 7, 1); (8, 2, 0)].

(** vertex_on_edge (tetrahedron.hpp:137-149). *)
Definition vertex_on_edge (n : node) (e : nat) (opp_node : node) : outcome (option nat) :=
  if n_near n e then let* v := vertex n e in Ok (Some v)
  else if n_near opp_node (opposite e) then let* v := vertex opp_node (opposite e) in Ok (Some v)
  else Ok None.
(** Helper without code of its own. *)
Definition get {A : Type} (o : option A) : outcome A := match o with Some a => Ok a | None => Throw ExBadOptional end.

(** The table of tetrahedron.hpp:75-131: corners as indices of v0..v5; true is kNeg. *)
Definition face_table (s s0 s1 s2 : bool) : list (nat * nat * nat) :=
  match s, s0, s1, s2 with
  | false, false, false, false => []
  | true, true, true, true => []
  | true, false, false, false => [(0, 1, 2)]
  | false, true, true, true => [(0, 2, 1)]
  | false, true, false, false => [(0, 5, 3)]
  | true, false, true, true => [(0, 3, 5)]
  | false, false, true, false => [(1, 3, 4)]
  | true, true, false, true => [(1, 4, 3)]
  | false, false, false, true => [(2, 4, 5)]
  | true, true, true, false => [(2, 5, 4)]
  | true, true, false, false => [(5, 3, 1); (5, 1, 2)]
  | false, false, true, true => [(5, 1, 3); (5, 2, 1)]
  | true, false, true, false => [(0, 3, 4); (0, 4, 2)]
  | false, true, false, true => [(0, 4, 3); (0, 2, 4)]
  | true, false, false, true => [(5, 0, 1); (5, 1, 4)]
  | false, true, true, false => [(5, 1, 0); (5, 4, 1)]
  end.
(** Within tetrahedron.hpp:75-131. *)
Fixpoint pick_faces (v : nat -> option nat) (fs : list (nat * nat * nat)) : outcome (list face) :=
  match fs with
  | [] => Ok []
  | (a, b, c) :: fs' =>
      let* i := get (v a) in
      let* j := get (v b) in
      let* k := get (v c) in
      let* r := pick_faces v fs' in
      Ok ((i, j, k) :: r)
  end.
(** get_faces (tetrahedron.hpp:48-132). *)
Definition get_faces (l : lattice) (x : lc) (index : nat) : outcome (list face) :=
  let '(e0, e1, e2) := nth index edge_indices (0, 0, 0) in
  let '(o0, o1, o2) := nth index outer_edge_indices (0, 0, 0) in
  let* n := at_ l x in
  let* n0 := at_ l (neighbor x e0) in
  let* n1 := at_ l (neighbor x e1) in
  let* n2 := at_ l (neighbor x e2) in
  let* v0 := vertex_on_edge n e0 n0 in
  let* v1 := vertex_on_edge n e1 n1 in
  let* v2 := vertex_on_edge n e2 n2 in
  let* v3 := vertex_on_edge n0 o0 n1 in
  let* v4 := vertex_on_edge n1 o1 n2 in
  let* v5 := vertex_on_edge n2 o2 n0 in
  let* s := value n in
  let* s0 := value n0 in
  let* s1 := value n1 in
  let* s2 := value n2 in
  pick_faces (fun i => nth i [v0; v1; v2; v3; v4; v5] None) (face_table (neg s) (neg s0) (neg s1) (neg s2)).

(** TetrahedronIterator (tetrahedron.hpp:158-207): tetrahedron_exists. *)
Definition exists_at (l : lattice) (x : lc) : bool := match l_nodes l x with Some _ => true | None => false end.
(** tetrahedron_exists (tetrahedron.hpp:198-202). *)
Definition tetrahedron_exists (l : lattice) (x : lc) (index : nat) : bool :=
  let '(e0, e1, e2) := nth index edge_indices (0, 0, 0) in
  exists_at l (neighbor x e0) && exists_at l (neighbor x e1) && exists_at l (neighbor x e2).

(** get_mesh (lattice.hpp:259-276), faces only; [keys] is the iteration order of node_list_. *)
Fixpoint faces_in (l : lattice) (x : lc) (is : list nat) : outcome (list face) :=
  match is with
  | [] => Ok []
  | i :: is' =>
      if tetrahedron_exists l x i then
        let* fs := get_faces l x i in
        let* r := faces_in l x is' in
        Ok (fs ++ r)
      else faces_in l x is'
  end.
(** get_mesh (lattice.hpp:259-276). *)
Fixpoint get_mesh (l : lattice) (keys : list lc) : outcome (list face) :=
  match keys with
  | [] => Ok []
  | x :: keys' =>
      let* fs := faces_in l x (seq 0 6) in
      let* r := get_mesh l keys' in
      Ok (fs ++ r)
  end.

(** position_clamped (lattice.hpp:332-339): where between the two nodes the vertex is put. *)
Definition min_offset : R := (1 / 10000)%R.
(** Within lattice.hpp:332-339. *)
Definition clamped (t : R) : R :=
  if Rlt_dec t min_offset then min_offset else if Rlt_dec (1 - min_offset) t then (1 - min_offset)%R else t.

(** Isosurface::generate (isosurface.hpp:37-43) with generate_common (isosurface.hpp:73-127): clustering, snapping,
    clipping and the test for an entire box are the function [post]. The lattice belongs to the isosurface
    object and is cleared at the end only; an exception of any step leaves it as it is. *)
Definition generate {M : Type} (f : field_fn) (layers : list (list lc)) (order : lattice -> list lc)
    (post : list (lc * nat * num) -> list face -> outcome M) (l : lattice) : outcome (lattice * (M + exn)) :=
  match add_all_nodes f l layers with
  | UB => UB
  | Throw e => Ok (l, inr e)
  | Ok (l, Some e) => Ok (l, inr e)
  | Ok (l, None) =>
      match get_mesh l (order l) with
      | UB => UB
      | Throw e => Ok (l, inr e)
      | Ok fs =>
          match post (l_vertices l) fs with
          | UB => UB
          | Throw e => Ok (l, inr e)
          | Ok m => Ok (cleared, inl m)
          end
      end
  end.
