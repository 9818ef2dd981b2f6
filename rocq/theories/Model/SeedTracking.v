From Coq Require Import List Arith ZArith Reals Bool.
From Verif Require Import Model.Outcome Model.Clip Model.PointTriangle Model.Solver Model.Lattice.
Import ListNotations.

(** Lattice::add_nodes_from_seed_points (lattice.hpp:68-248). Values are real numbers or NaN (None). A seed point enters as the lattice coordinates
    its clamped position is rounded to (lattice.hpp:79-81, modelled in PrimitiveLattice.v); value_at_arbitrary_point_ is in ArbitrarySign.v, the gradient in SeedGradient.v. *)

(** Helper without code of its own. *)
Definition mem (x : lc) (l : list lc) : bool := existsb (lc_eqb x) l.
(** make_lattice_coordinates_pair (lattice_coordinates.hpp:37-40). *)
Definition pair_of (a b : lc) : lc * lc := if lc_less a b then (a, b) else (b, a).
(** Helper without code of its own: membership in visited_pairs (lattice.hpp:190, 197-200). *)
Definition mem_pair (p : lc * lc) (l : list (lc * lc)) : bool := existsb (fun q => lc_eqb (fst p) (fst q) && lc_eqb (snd p) (snd q)) l.
(** std::sort with LatticeCoordinatesLess (lattice.hpp:91-92, 218-219); equal coordinates cannot be told apart. *)
Fixpoint insert_lc (x : lc) (l : list lc) : list lc := match l with [] => [x] | y :: l' => if lc_less y x then y :: insert_lc x l' else x :: l end.
(** Within lattice.hpp:91-92, 218-219. *)
Definition sort_lc (l : list lc) : list lc := fold_right insert_lc [] l.
(** std::unique (lattice.hpp:93-95): an element equal to the last one kept is dropped. *)
Fixpoint unique_from (x : lc) (l : list lc) : list lc := match l with [] => [] | y :: l' => if lc_eqb x y then unique_from x l' else y :: unique_from y l' end.
(** Within lattice.hpp:93-95. *)
Definition unique (l : list lc) : list lc := match l with [] => [] | x :: l' => x :: unique_from x l' end.

(** |a| < |b| (lattice.hpp:125). *)
Definition abs_less (a b : num) : bool := match a, b with Some x, Some y => if Rlt_dec (Rabs x) (Rabs y) then true else false | _, _ => false end.

(** Seed (lattice.hpp:318-322); a NaN corrector is None. *)
Record seed := Seed { s_lc : lc; s_corrector : option pt; s_k : nat }.

Section Tracking.
(** second_extended_bbox().contains(position(lc)); the positions; the negated normalized gradient, None with NaN (lattice.hpp:155, 534-552). *)
Variable eligible : lc -> bool.
Variable pos : lc -> pt.
Variable descent : lattice -> lc -> option pt.
Variable f : field_fn.

(** knn_nodes (lattice.hpp:577-605): the pair is visited and next_frontier. *)
Definition discover (s : list lc * list lc) (y : lc) : list lc * list lc :=
  if mem y (fst s) then s else if eligible y then (y :: fst s, snd s ++ [y]) else s.
(** Within lattice.hpp:577-605: one round of the outer loop, on visited and frontier. *)
Definition expand (s : list lc * list lc) : list lc * list lc := fold_left discover (flat_map around (snd s)) (fst s, []).
(** knn_nodes (lattice.hpp:577-605). *)
Definition knn_nodes (x : lc) (k : nat) : list lc := snd (Nat.iter k expand ([x], [x])).
(** is_boundary_node (lattice.hpp:554-562). *)
Definition is_boundary_node (x : lc) : bool := existsb (fun y => negb (eligible y)) (around x).
(** add_node (lattice.hpp:343-363) for several nodes. *)
Definition add_all (l : lattice) (xs : list lc) : lattice := fst (add_nodes eligible l xs).

(** The loop over knn_nodes(lc, k) (lattice.hpp:109-132): the pairs found and, unless it was left by break, nlcs and reached_minimum. *)
Fixpoint scan (l : lattice) (x : lc) (n : node) (k : nat) (ys : list lc) (ps : list (lc * lc)) (nlcs : list lc) (reached : bool)
  : outcome (list (lc * lc) * option (list lc * bool)) :=
  match ys with
  | [] => Ok (ps, Some (nlcs, reached))
  | y :: ys' =>
      let boundary := is_boundary_node y in
      let* nn := at_ l y in
      let* vy := value nn in
      let* v := value n in
      let crossing := (k =? 1) && negb (Bool.eqb (neg vy) (neg v)) in
      let ps := if crossing then ps ++ [pair_of x y] else ps in
      if crossing && negb boundary then Ok (ps, None)
      else if abs_less vy v then scan l x n k ys' ps (if boundary then nlcs else nlcs ++ [y]) false
      else scan l x n k ys' ps nlcs reached
  end.

(** gradient (lattice.hpp:534-552) reads seven nodes. *)
Fixpoint read_values (l : lattice) (xs : list lc) : outcome unit :=
  match xs with [] => Ok tt | x :: xs' => let* n := at_ l x in let* _ := value n in read_values l xs' end.
(** Within lattice.hpp:534-552. *)
Definition gradient_nodes (x : lc) : list lc := x :: map (neighbor x) [1; 3; 5; 8; 10; 12].
(** corrector + v - v.dot(neg_grad) * neg_grad (lattice.hpp:167-168, 180). *)
Definition corrected (c g : option pt) (v : pt) : option pt :=
  match c, g with Some c, Some g => Some (add3 c (sub3 v (scale3 (dot3 v g) g))) | _, _ => None end.
(** The comparison of the norms (lattice.hpp:169); a comparison with NaN is false. *)
Definition shorter (a b : option pt) : bool :=
  match a, b with Some a, Some b => if Rlt_dec (sqrt (dot3 a a)) (sqrt (dot3 b b)) then true else false | _, _ => false end.
(** std::min_element (lattice.hpp:157-170). *)
Definition nearest (c g : option pt) (x y0 : lc) (ys : list lc) : lc :=
  let vec y := sub3 (pos y) (pos x) in
  fold_left (fun best y => if shorter (corrected c g (vec y)) (corrected c g (vec best)) then y else best) ys y0.

(** One seed of a round (lattice.hpp:102-182): the lattice, pairs and new_seeds. *)
Definition visit (st : lattice * list (lc * lc) * list seed) (s : seed) : outcome (lattice * list (lc * lc) * list seed) :=
  let '(l, pairs, new) := st in
  let x := s_lc s in
  let k := s_k s in
  let* n := at_ l x in
  let* r := scan l x n k (knn_nodes x k) [] [] true in
  let pairs := pairs ++ fst r in
  match snd r with
  | None => Ok (l, pairs, new)
  | Some ([], reached) =>
      if (10 <=? k) || reached then Ok (l, pairs, new)
      else match knn_nodes x (k + 1) with
           | [] => Ok (l, pairs, new)
           | ys => Ok (add_all l ys, pairs, new ++ [Seed x (s_corrector s) (k + 1)])
           end
  | Some (y0 :: ys, _) =>
      let* _ := read_values l (gradient_nodes x) in
      let g := descent l x in
      let y := nearest (s_corrector s) g x y0 ys in
      let l := add_all l (knn_nodes y 1) in
      let* _ := at_ l y in
      Ok (l, pairs, new ++ [Seed y (corrected (s_corrector s) g (sub3 (pos y) (pos x))) 1])
  end.
(** Within lattice.hpp:102-182. *)
Fixpoint visits (st : lattice * list (lc * lc) * list seed) (ss : list seed) {struct ss} : outcome (lattice * list (lc * lc) * list seed) :=
  match ss with [] => Ok st | s :: ss' => let* st := visit st s in visits st ss' end.
(** The search (lattice.hpp:97-188). None: [fuel] rounds were not enough; the last component is an exception of the field function. *)
Fixpoint search (fuel : nat) (l : lattice) (pairs : list (lc * lc)) (ss : list seed) {struct fuel} : outcome (option (lattice * list (lc * lc) * option exn)) :=
  match ss with
  | [] => Ok (Some (l, pairs, None))
  | _ =>
      match fuel with
      | 0 => Ok None
      | S fuel' =>
          let* st := visits (l, pairs, []) ss in
          let '(l, pairs, new) := st in
          let* r := evaluate_field f l in
          match r with
          | (l, Some e) => Ok (Some (l, pairs, Some e))
          | (l, None) => search fuel' l pairs new
          end
      end
  end.

(** The loop over the common neighbors (lattice.hpp:224-230). *)
Fixpoint add_common (l : lattice) (a b : lc) (ys : list lc) (new : list (lc * lc)) : lattice * list (lc * lc) :=
  match ys with
  | [] => (l, new)
  | y :: ys' =>
      let l := add_all l [y] in
      add_common l a b ys' (match l_nodes l y with Some _ => new ++ [pair_of a y; pair_of b y] | None => new end)
  end.
(** One pair of a round (lattice.hpp:196-231): the lattice, visited_pairs and new_pairs. *)
Definition follow (st : lattice * list (lc * lc) * list (lc * lc)) (p : lc * lc) : outcome (lattice * list (lc * lc) * list (lc * lc)) :=
  let '(l, visited, new) := st in
  if mem_pair p visited then Ok st
  else
    let (a, b) := p in
    let* n0 := at_ l a in
    let* n1 := at_ l b in
    let* v0 := value n0 in
    let* v1 := value n1 in
    if Bool.eqb (neg v0) (neg v1) then Ok (l, p :: visited, new)
    else
      let common := filter (fun y => mem y (sort_lc (knn_nodes b 1))) (sort_lc (knn_nodes a 1)) in
      let (l, new) := add_common l a b common new in
      Ok (l, p :: visited, new).
(** Within lattice.hpp:196-231. *)
Fixpoint follows (st : lattice * list (lc * lc) * list (lc * lc)) (ps : list (lc * lc)) {struct ps} : outcome (lattice * list (lc * lc) * list (lc * lc)) :=
  match ps with [] => Ok st | p :: ps' => let* st := follow st p in follows st ps' end.
(** The tracking (lattice.hpp:190-237). *)
Fixpoint spread (fuel : nat) (l : lattice) (visited pairs : list (lc * lc)) {struct fuel} : outcome (option (lattice * option exn)) :=
  match pairs with
  | [] => Ok (Some (l, None))
  | _ =>
      match fuel with
      | 0 => Ok None
      | S fuel' =>
          let* st := follows (l, visited, []) pairs in
          let '(l, visited, new) := st in
          let* r := evaluate_field f l in
          match r with
          | (l, Some e) => Ok (Some (l, Some e))
          | (l, None) => spread fuel' l visited new
          end
      end
  end.

(** The nodes of the seed points (lattice.hpp:78-87); the loop body adds a node and its neighbors. *)
Definition plant (l : lattice) (xs : list lc) : lattice := fold_left (fun l x => add_all (add_all l [x]) (knn_nodes x 1)) xs l.
(** The sampling (lattice.hpp:68-237): everything before complete_surface. The first row of no seed points is undefined (lattice.hpp:73). *)
Definition sample_seeds (fuel : nat) (l : lattice) (xs : list lc) : outcome (option (lattice * option exn)) :=
  match xs with
  | [] => UB
  | _ =>
      let* r := evaluate_field f (plant l xs) in
      match r with
      | (l, Some e) => Ok (Some (l, Some e))
      | (l, None) =>
          let* r := search fuel l [] (map (fun x => Seed x (Some (0, 0, 0)%R) 1) (unique (sort_lc xs))) in
          match r with
          | None => Ok None
          | Some (l, _, Some e) => Ok (Some (l, Some e))
          | Some (l, pairs, None) => spread fuel l [] pairs
          end
      end
  end.
(** add_nodes_from_seed_points (lattice.hpp:68-248). [order] is the iteration order of node_list_. *)
Definition add_nodes_from_seed_points (fuel : nat) (order : lattice -> list lc) (l : lattice) (xs : list lc) : outcome (option (lattice * option exn)) :=
  let* r := sample_seeds fuel l xs in
  match r with
  | None => Ok None
  | Some (l, Some e) => Ok (Some (l, Some e))
  | Some (l, None) =>
      let* r := complete_surface fuel eligible f l (order l) in
      match r with
      | None => Ok None
      | Some (l, Some e) => Ok (Some (l, Some e))
      | Some (l, None) =>
          let nodes := order l in
          let* l := generate_vertices l nodes in
          let* l := remove_free_nodes l nodes in
          Ok (Some (l, None))
      end
  end.
(** The guard of generate_from_seed_points (isosurface.hpp:45-57) and the sampling. *)
Definition seeded (fuel : nat) (order : lattice -> list lc) (xs : list lc) : outcome (option (lattice * option exn)) :=
  match xs with [] => Throw ExRuntimeError | _ => add_nodes_from_seed_points fuel order cleared xs end.
End Tracking.
