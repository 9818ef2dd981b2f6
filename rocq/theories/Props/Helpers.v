From Coq Require Import List Arith NArith ZArith Bool Reals Permutation Sorted.
From Verif Require Import Proofs.Helpers.
From Verif Require Import Model.Outcome Model.DomainDivider Model.Helpers Spec.Helpers.
From Verif Require Model.Lattice.
Import ListNotations.

(** C79: in an unsigned integer of [w] bits, bit_count is the number of set bits, bit_peek the lowest (or -1), and popping until -1 gives each of
    them once, lowest first. *)
Theorem C79_bits : forall w x, (x < 2 ^ N.of_nat w)%N ->
  bit_count x = length (set_bits w x) /\
  bit_peek x = match set_bits w x with [] => (-1)%Z | i :: _ => Z.of_nat i end /\
  forall fuel, w <= fuel -> pops fuel w x = map Z.of_nat (set_bits w x).
Proof. intros w x H. split; [exact (count_set_bits w x H)|]. split; [exact (peek_set_bits w x H)|]. intros fuel L. exact (pops_set_bits fuel w x H L). Qed.
Print Assumptions C79_bits.
Example C79_bits_ex : pops 16 16 37 = [0; 2; 5]%Z /\ bit_count 37 = 3 /\ bit_peek 37 = 0%Z /\ bit_peek 32768 = 15%Z /\ pops 64 64 (2 ^ 63 + 8) = [3; 63]%Z.
Proof. repeat split; reflexivity. Qed.

(** C79: a node with its two 16-bit sets behaves, on the 14 edges, as the node with predicates the proofs about the lattice use. *)
Theorem C79_node : forall b n, same_node b n ->
  is_free b = Lattice.is_free n /\
  forall e, e < 14 ->
  has_vertex b e = Lattice.n_near n e /\ vertex b e = Lattice.vertex n e /\ same_node (set_intersection b e) (Lattice.set_intersection n e) /\
  forall v, same_outcome same_node (insert_vertex b v e) (Lattice.insert_vertex n v e).
Proof.
  intros b n S0. split; [exact (node_free b n S0)|]. intros e L. split; [rewrite (has_vertex_bit b e L); apply S0; exact L|].
  split; [exact (node_vertex b n e S0 L)|]. split; [exact (node_set b n e S0 L)|]. intros v. exact (node_insert b n v e S0 L).
Qed.
Print Assumptions C79_node.
Example C79_node_ex : same_node new_bnode Lattice.new_node /\ is_free (set_intersection new_bnode 13) = false.
Proof. split; [exact node_new|reflexivity]. Qed.

(** C79: vertices inserted on distinct edges, in any order, are found on those edges and on no others, with one index stored for each. *)
Theorem C79_map : forall l, NoDup (map fst l) -> (forall e v, In (e, v) l -> e < 14) ->
  exists n, inserted new_bnode l = Ok n /\ (forall e v, In (e, v) l -> vertex n e = Ok v) /\
  (forall e, e < 14 -> (has_vertex n e = true <-> In e (map fst l))) /\ length (b_vis n) = bit_count (b_near n).
Proof. exact node_map. Qed.
Print Assumptions C79_map.
Example C79_map_ex : exists n, inserted new_bnode [(9, 70); (2, 71); (13, 72); (0, 73)] = Ok n /\ b_vis n = [73; 71; 70; 72] /\ vertex n 9 = Ok 70 /\ has_vertex n 3 = false.
Proof. eexists. split; [reflexivity|]. repeat split. Qed.

(** C79: a second vertex on the same edge moves those of the edges after it. *)
Theorem C79_twice_refuted : exists n, inserted new_bnode [(0, 70); (1, 71); (0, 72)] = Ok n /\ vertex n 1 = Ok 70 /\ length (b_vis n) = 3 /\ bit_count (b_near n) = 2.
Proof. eexists. split; [reflexivity|]. repeat split. Qed.
Print Assumptions C79_twice_refuted.

(** C79: zip_sort sorts the pairs: they stay together, and what the second range has beyond the first is left as it was. *)
Theorem C79_zip : forall (A B : Type) (less : A * B -> A * B -> bool) sort xs ys,
  std_sort less sort -> length xs <= length ys -> strict_weak_on less (combine xs ys) ->
  exists xs' ys', zip_sort sort xs ys = Ok (xs', ys') /\ length xs' = length xs /\ length ys' = length ys /\
  Permutation (combine xs' ys') (combine xs ys) /\ StronglySorted (fun a b => less b a = false) (combine xs' ys') /\ skipn (length xs) ys' = skipn (length xs) ys.
Proof. exact zip_sort_spec. Qed.
Print Assumptions C79_zip.
Example C79_zip_ex : zip_sort (fun _ => Ok [(1, true); (4, false)]) [4; 1] [false; true; true] = Ok ([1; 4], [true; false; true]) /\
  zip_sort (fun l => Ok l) [4; 1] [false] = UB.
Proof. split; reflexivity. Qed.

(** C79: the comparisons by residual are fit for sorting when no residual is NaN. *)
Theorem C79_numbers : forall l, (forall a, In a l -> snd a <> None) -> strict_weak_on by_second l /\ strict_weak_on by_second_descending l.
Proof. exact numbers_sortable. Qed.
Print Assumptions C79_numbers.
Example C79_numbers_ex : strict_weak_on by_second [(0, Some 2%R); (1, Some 1%R); (2, Some 1%R)].
Proof. apply numbers_sortable. intros a [<-|[<-|[<-|[]]]]; discriminate. Qed.

(** C79: with one NaN among two different residuals they are not, and the sort is undefined. *)
Theorem C79_nan_refuted : forall l i j k x y, In (i, Some x) l -> In (j, None) l -> In (k, Some y) l -> (x < y)%R ->
  ~ strict_weak_on by_second l /\ ~ strict_weak_on by_second_descending l.
Proof. exact nan_unsortable. Qed.
Print Assumptions C79_nan_refuted.

(** C79: rows of a domain have distinct indices, so that every std::sort gives the one order the model of the preconditioner uses. *)
Theorem C79_rows : forall sort xs ys, std_sort by_first sort -> length xs = length ys -> NoDup xs ->
  exists xs' ys', zip_sort sort xs ys = Ok (xs', ys') /\ combine xs' ys' = sort_rows (combine xs ys).
Proof. exact zip_sort_rows. Qed.
Print Assumptions C79_rows.
Example C79_rows_ex : std_sort by_first (fun l => Ok (sort_rows l)) /\ sort_rows [(3, true); (1, false); (2, true)] = [(1, false); (2, true); (3, true)].
Proof. split; [|reflexivity]. intros l _. exists (sort_rows l). split; [reflexivity|]. split; [apply sort_rows_perm|apply sort_rows_sorted]. Qed.
