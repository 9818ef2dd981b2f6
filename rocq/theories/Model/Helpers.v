From Coq Require Import List Arith NArith ZArith Bool.
From Verif Require Import Model.Outcome.
Import ListNotations.

(** ** Bit sets: an unsigned integer of [w] bits is a number less than [2 ^ w]. *)

(** std::popcount and std::countr_zero of a number that is not zero, as bit_count and bit_peek use them (bit.hpp:8-19). *)
Fixpoint count_ones (p : positive) : nat := match p with xH => 1 | xO q => count_ones q | xI q => S (count_ones q) end.
(** Within bit.hpp:12-19. *)
Fixpoint trailing_zeros (p : positive) : nat := match p with xH => 0 | xO q => S (trailing_zeros q) | xI _ => 0 end.
(** bit_count (bit.hpp:7-10). *)
Definition bit_count (x : N) : nat := match x with N0 => 0 | Npos p => count_ones p end.
(** bit_peek (bit.hpp:12-19). *)
Definition bit_peek (x : N) : Z := match x with N0 => (-1)%Z | Npos p => Z.of_nat (trailing_zeros p) end.
(** bit_pop (bit.hpp:21-32): the index and the set afterwards; [T{1} << bit_index] has the type T or int and is reduced to [w] bits by the
    assignment. *)
Definition bit_pop (w : nat) (x : N) : Z * N :=
  match x with
  | N0 => ((-1)%Z, x)
  | Npos _ => let i := bit_peek x in (i, (N.lxor x (N.shiftl 1 (Z.to_N i)) mod 2 ^ N.of_nat w)%N)
  end.
(** A loop that pops until the set is empty, at most [fuel] times; the tests pop so (test/isosurface/test_bit.cpp:23-45). *)
Fixpoint pops (fuel w : nat) (x : N) : list Z :=
  match fuel with
  | O => []
  | S fuel' => let r := bit_pop w x in if (fst r =? -1)%Z then [] else fst r :: pops fuel' w (snd r)
  end.

(** ** Node with its 16 bits (node.hpp:15-83); the position and the value are left out. [b_vis] is empty for a null pointer. *)
Record bnode := BNode { b_near : N; b_all : N; b_vis : list nat }.
(** Helper without code of its own: conversion to EdgeBitset. *)
Definition bits16 (x : N) : N := (x mod 2 ^ 16)%N.
(** Within node.hpp:20. *)
Definition new_bnode : bnode := BNode 0 0 [].
(** EdgeBitset edge_bit = 1 << edge_idx; edge_count_mask = edge_bit - 1 (node.hpp:34-35). *)
Definition edge_bit (e : nat) : N := bits16 (N.shiftl 1 (N.of_nat e)).
(** Within node.hpp:34-35: the subtraction is done in int and is not negative for an edge. *)
Definition edge_count_mask (e : nat) : N := bits16 (edge_bit e - 1).
(** has_vertex (node.hpp:22-25). *)
Definition has_vertex (n : bnode) (e : nat) : bool := negb (N.land (b_near n) (edge_bit e) =? 0)%N.
(** insert_vertex (node.hpp:27-43); inserting past the end is undefined. *)
Definition insert_vertex (n : bnode) (vi e : nat) : outcome bnode :=
  let near := bits16 (N.lor (b_near n) (edge_bit e)) in
  let k := bit_count (bits16 (N.land near (edge_count_mask e))) in
  if k <=? length (b_vis n) then Ok (BNode near (b_all n) (firstn k (b_vis n) ++ vi :: skipn k (b_vis n))) else UB.
(** is_free (node.hpp:45). *)
Definition is_free (n : bnode) : bool := (b_all n =? 0)%N.
(** set_intersection (node.hpp:49-53). *)
Definition set_intersection (n : bnode) (e : nat) : bnode := BNode (b_near n) (bits16 (N.lor (b_all n) (edge_bit e))) (b_vis n).
(** vertex (node.hpp:64-70); following a null pointer is undefined. *)
Definition vertex (n : bnode) (e : nat) : outcome nat :=
  match b_vis n with
  | [] => UB
  | vis => match nth_error vis (bit_count (bits16 (N.land (b_near n) (edge_count_mask e)))) with Some v => Ok v | None => Throw ExOutOfRange end
  end.

(** ** zip_sort (zip_sort.hpp:11-31). [sort] is std::sort with the comparison; the second range must be at least as long as the first, or it is
    read past its end. *)
Definition zip_sort {A B : Type} (sort : list (A * B) -> outcome (list (A * B))) (xs : list A) (ys : list B) : outcome (list A * list B) :=
  if length xs <=? length ys then
    let* z := sort (combine xs ys) in
    Ok (map fst z, map snd z ++ skipn (length xs) ys)
  else UB.
