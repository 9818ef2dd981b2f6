From Coq Require Import List Arith Bool.
From Verif Require Import Model.Outcome.
Import ListNotations.

(** DomainDivider (include/polatory/preconditioner/domain_divider.hpp) and Domain (domain.hpp). Indices are
    natural numbers. Coordinates are not modelled: the orders produced by std::sort (domain_divider.hpp:176-190, 295-308), the
    center of a cluster (domain_divider.hpp:288-293) and the top of the queue (domain_divider.hpp:147-153) are arbitrary functions. *)

Record mixed := Mixed { x_index : nat; x_inner : bool; x_grad : bool }.
(** Within domain_divider.hpp:176-190, 295-308, domain_divider.hpp:288-293, domain_divider.hpp:147-153. *)
Record domain := Domain { d_points : list (nat * bool); d_grads : list (nat * bool) }.

Section Divider.
Variable dim : nat.
(** domain_divider.hpp:137. *)
Definition mult (p : mixed) : nat := if x_grad p then dim else 1.

(** prefix_sum_mult (domain_divider.hpp:192-195) and the index of std::upper_bound minus one (domain_divider.hpp:207-216). *)
Fixpoint prefix (acc : nat) (ps : list mixed) : list nat :=
  acc :: match ps with [] => [] | p :: ps' => prefix (acc + mult p) ps' end.
(** Helper without code of its own. *)
Fixpoint upper_bound (l : list nat) (x : nat) : nat :=
  match l with [] => 0 | y :: l' => if y <=? x then S (upper_bound l' x) else 0 end.
(** Within domain_divider.hpp:192-195, domain_divider.hpp:207-216. *)
Definition cut (ps : list mixed) (x : nat) : nat := upper_bound (prefix 0 ps) x - 1.

(** round_half_to_even (domain_divider.hpp:311-313) of n / 2, which is exact. *)
Definition half_even (n : nat) : nat :=
  let k := n / 2 in if Nat.even n then k else if Nat.even k then k else S k.

(** Within domain_divider.hpp:311-313. *)
Definition max_leaf : nat := 1024.
(** [sub] is n_subdomain_points_mult as a function of n_points_mult (domain_divider.hpp:197-200), computed in floating point. *)
Variable sub : nat -> nat.
Variable sort : list mixed -> list mixed.

(** num_points() + kDim * num_grad_points(). *)
Definition size (d : domain) : nat := length (d_points d) + dim * length (d_grads d).

(** domain_divider.hpp:166-172. *)
Definition mix (d : domain) : list mixed :=
  map (fun p => Mixed (fst p) (snd p) false) (d_points d) ++ map (fun p => Mixed (fst p) (snd p) true) (d_grads d).
(** domain_divider.hpp:221-232 and 234-245: the rows of a subdomain, divided into points and gradient points. *)
Definition unmix (ps : list mixed) : domain :=
  Domain (map (fun p => (x_index p, x_inner p)) (filter (fun p => negb (x_grad p)) ps))
         (map (fun p => (x_index p, x_inner p)) (filter x_grad ps)).
(** Within domain_divider.hpp:221-232. *)
Definition keep_inner (b : bool) (p : mixed) : mixed := Mixed (x_index p) (x_inner p && b) (x_grad p).
(** [i] is the row of the first point; rows below [mid] are inner on the left. *)
Fixpoint mark (left : bool) (mid i : nat) (ps : list mixed) : list mixed :=
  match ps with
  | [] => []
  | p :: ps' => keep_inner (if left then i <? mid else mid <=? i) p :: mark left mid (S i) ps'
  end.
(** divide_domain (domain_divider.hpp:161-249). *)
Definition divide_domain (d : domain) : domain * domain :=
  let ps := sort (mix d) in
  let n := size d in
  let l := cut ps (n - sub n) in
  let r := cut ps (sub n) in
  let mid := cut ps (half_even ((n - sub n) + sub n)) in
  (unmix (mark true mid 0 (firstn r ps)), unmix (mark false mid l (skipn l ps))).

(** divide_domains (domain_divider.hpp:251-269): [done] are the domains before the iterator. *)
Fixpoint divide (fuel : nat) (done todo : list domain) : option (list domain) :=
  match todo with
  | [] => Some done
  | d :: todo' =>
      match fuel with
      | 0 => None
      | S fuel' =>
          if size d <=? max_leaf then divide fuel' (done ++ [d]) todo'
          else let lr := divide_domain d in divide fuel' done (todo' ++ [fst lr; snd lr])
      end
  end.

(** merge_poly_points (domain.hpp:30-51): zip_sort by index, then every polynomial point takes over the flag of its
    row and the row is erased. *)
Fixpoint insert_row (p : nat * bool) (l : list (nat * bool)) : list (nat * bool) :=
  match l with [] => [p] | q :: l' => if fst p <=? fst q then p :: l else q :: insert_row p l' end.
(** Helper without code of its own. *)
Definition sort_rows (l : list (nat * bool)) : list (nat * bool) := fold_right insert_row [] l.
(** Within domain.hpp:30-51. *)
Fixpoint take_row (i : nat) (l : list (nat * bool)) : bool * list (nat * bool) :=
  match l with
  | [] => (false, [])
  | q :: l' => if fst q <? i then let r := take_row i l' in (fst r, q :: snd r)
               else if Nat.eqb (fst q) i then (snd q, l') else (false, l)
  end.
(** Within domain.hpp:30-51. *)
Fixpoint merge_rows (poly : list nat) (l : list (nat * bool)) : list (nat * bool) * list (nat * bool) :=
  match poly with
  | [] => ([], l)
  | i :: poly' => let t := take_row i l in let r := merge_rows poly' (snd t) in ((i, fst t) :: fst r, snd r)
  end.
(** merge_poly_points (domain.hpp:30-51). *)
Definition merge_poly_points (poly : list nat) (d : domain) : domain :=
  let r := merge_rows poly (sort_rows (d_points d)) in Domain (fst r ++ snd r) (d_grads d).

(** Constructor (domain_divider.hpp:31-52, 266-268). *)
Definition root (pts grads : list nat) : domain :=
  Domain (map (fun i => (i, true)) pts) (map (fun i => (i, true)) grads).
(** Within domain_divider.hpp:31-52, 266-268. *)
Definition domains (fuel : nat) (pts grads poly : list nat) : option (list domain) :=
  option_map (map (merge_poly_points poly)) (divide fuel [] [root pts grads]).

(** choose_coarse_points (domain_divider.hpp:54-125). A cluster is its level, its center and its points in sorted order. *)
Record cluster := Cluster { c_level : nat; c_center : mixed; c_points : list mixed }.
(** initialize_cluster (domain_divider.hpp:278-309): *std::min_element of no points is undefined behaviour. [nearest] is the row of
    the center. *)
Variable arrange : list mixed -> list mixed.
Variable nearest : list mixed -> nat.
(** Within domain_divider.hpp:278-309. *)
Definition initialize (level : nat) (ps : list mixed) : outcome cluster :=
  match nth_error ps (nearest ps) with
  | Some c => Ok (Cluster level c (arrange ps))
  | None => UB
  end.
(** std::min_element with the comparison of domain_divider.hpp:88-93 over the rows [is]. *)
Definition gap (pre : list nat) (total i : nat) : nat :=
  let a := 2 * nth i pre 0 in (a - total) + (total - a).
(** Within domain_divider.hpp:88-93. *)
Definition before (pre : list nat) (total i j : nat) : bool :=
  let dl := gap pre total i in
  let dr := gap pre total j in
  (dl <? dr) || (Nat.eqb dl dr && Nat.even i).
(** Within domain_divider.hpp:88-93. *)
Definition middle (ps : list mixed) : nat :=
  let pre := prefix 0 ps in
  let total := last pre 0 in
  fold_left (fun best i => if before pre total i best then i else best) (seq 1 (length ps - 1)) 0.

(** domain_divider.hpp:99-114. The level of the new clusters is read through a reference to the popped element; [strict] makes
    that undefined behaviour, otherwise the level comes from [level_read popped rest]. *)
Variable pick : list cluster -> nat.
Variable strict : bool.
Variable level_read : cluster -> list cluster -> nat.
(** Helper without code of its own. *)
Definition without {A : Type} (i : nat) (l : list A) : list A := firstn i l ++ skipn (S i) l.
(** Within domain_divider.hpp:99-114. *)
Definition push (size level : nat) (ps : list mixed) (q : list cluster) : outcome (nat * list cluster) :=
  match ps with
  | [] => Ok (size, q)
  | _ => let* c := initialize level ps in Ok (size + mult (c_center c), c :: q)
  end.
(** Within domain_divider.hpp:99-114. *)
Fixpoint coarse_loop (fuel wanted size : nat) (q : list cluster) : option (outcome (list cluster)) :=
  if wanted <=? size then Some (Ok q) else
  match fuel with
  | 0 => None
  | S fuel' =>
      match nth_error q (pick q) with
      | None => Some UB
      | Some c =>
          let mid := middle (c_points c) in
          let rest := without (pick q) q in
          if strict then Some UB else
          let level := S (level_read c rest) in
          match (let* s := push (size - mult (c_center c)) level (firstn mid (c_points c)) rest in
                 push (fst s) level (skipn mid (c_points c)) (snd s)) with
          | Ok s => coarse_loop fuel' wanted (fst s) (snd s)
          | Throw e => Some (Throw e)
          | UB => Some UB
          end
      end
  end.
(** domain_divider.hpp:117-122: the queue is emptied in some order. *)
Variable drain : list cluster -> list cluster.
(** choose_coarse_points (domain_divider.hpp:54-125). *)
Definition choose_coarse_points (fuel : nat) (pts grads poly : list nat) (wanted : nat) : option (outcome (list nat * list nat)) :=
  let ps := map (fun i => Mixed i true false) (filter (fun i => negb (existsb (Nat.eqb i) poly)) pts) ++
            map (fun i => Mixed i true true) grads in
  match initialize 0 ps with
  | Ok c =>
      match coarse_loop fuel wanted (mult (c_center c)) [c] with
      | Some (Ok q) =>
          let cs := map c_center (drain q) in
          Some (Ok (poly ++ map x_index (filter (fun p => negb (x_grad p)) cs), map x_index (filter x_grad cs)))
      | Some (Throw e) => Some (Throw e)
      | Some UB => Some UB
      | None => None
      end
  | Throw e => Some (Throw e)
  | UB => Some UB
  end.
End Divider.

(** FineGrid::set_solution_to (fine_grid.hpp:97-110) for all grids of
    a level: the writes into weights_full. [lambda] is the solution vector of the grid. *)
Section Write.
Variable A : Type.
Variable dim : nat.
(** Within fine_grid.hpp:97-110. *)
Definition point_writes (d : domain) (lambda : nat -> A) : list (nat * A) :=
  flat_map (fun k => match nth_error (d_points d) k with
                     | Some (i, true) => [(i, lambda k)]
                     | _ => [] end) (seq 0 (length (d_points d))).
(** Within fine_grid.hpp:97-110. *)
Definition grad_writes (mu_full : nat) (d : domain) (lambda : nat -> A) : list (nat * A) :=
  flat_map (fun k => match nth_error (d_grads d) k with
                     | Some (i, true) => map (fun j => (mu_full + dim * i + j, lambda (length (d_points d) + dim * k + j))) (seq 0 dim)
                     | _ => [] end) (seq 0 (length (d_grads d))).
(** Within fine_grid.hpp:97-110. *)
Definition writes (mu_full : nat) (d : domain) (lambda : nat -> A) : list (nat * A) :=
  point_writes d lambda ++ grad_writes mu_full d lambda.
(** The writes of all grids of a level (ras_preconditioner.hpp:287-293); threads may do them in any order. *)
Definition level_writes (mu_full : nat) (ds : list domain) (lam : nat -> nat -> A) : list (nat * A) :=
  flat_map (fun p => writes mu_full (fst p) (lam (snd p))) (combine ds (seq 0 (length ds))).
(** Helper without code of its own. *)
Definition store (w : nat -> A) (p : nat * A) : nat -> A := fun i => if Nat.eqb i (fst p) then snd p else w i.
(** Helper without code of its own. *)
Definition store_all (ws : list (nat * A)) (w : nat -> A) : nat -> A := fold_left store ws w.
End Write.
