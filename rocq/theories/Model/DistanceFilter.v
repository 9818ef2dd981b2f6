From Coq Require Import List Arith Bool.
From Verif Require Import Model.Outcome.
Import ListNotations.

(** DistanceFilter (include/polatory/point_cloud/distance_filter.hpp). *)
Section DistanceFilter.

(** Points, distances; the test `distance >= kMinDistance` (distance_filter.hpp:32); KdTree::radius_search on the tree
    of the given points (kdtree.cpp:47-64), which returns indices in an unspecified order. *)
Context {Pt D : Type}.
Variable valid_distance : D -> bool.
Variable radius_search : list Pt -> Pt -> D -> list nat.

(** Members (distance_filter.hpp:104-107); the tree is a function of the points. *)
Record state := mk_state { points : list Pt; filtered : bool; filtered_indices_ : list nat }.

(** Constructor (distance_filter.hpp:25). *)
Definition init (ps : list Pt) : state := mk_state ps false [].

(** Helper without code of its own. *)
Definition memb (i : nat) (l : list nat) : bool := existsb (Nat.eqb i) l.

(** The first loop (distance_filter.hpp:41-54); [removed] is indices_to_remove. A row that does not exist is
    undefined. *)
Fixpoint mark (ps : list Pt) (d : D) (indices : list nat) (removed : list nat) : outcome (list nat) :=
  match indices with
  | [] => Ok removed
  | i :: rest =>
      if memb i removed then mark ps d rest removed
      else
        let* p := of_option (nth_error ps i) in
        mark ps d rest (filter (fun j => negb (Nat.eqb j i)) (radius_search ps p d) ++ removed)
  end.

(** filter(distance, indices) (distance_filter.hpp:31-65): what the caller sees and the object afterwards. *)
Definition filter_indices (s : state) (d : D) (indices : list nat) : outcome (outcome unit * state) :=
  if negb (valid_distance d) then Ok (Throw ExInvalidArgument, s)
  else
    let* removed := mark (points s) d indices [] in
    Ok (Ok tt, mk_state (points s) true (filter (fun i => negb (memb i removed)) indices)).

(** filter(distance) (distance_filter.hpp:27-29) with trivial_indices (distance_filter.hpp:98-102). *)
Definition filter_all (s : state) (d : D) : outcome (outcome unit * state) :=
  filter_indices s d (seq 0 (length (points s))).

(** filtered_indices (distance_filter.hpp:85-89) and operator() on one table (distance_filter.hpp:67-78): m(filtered_indices_, kAll). *)
Definition filtered_indices (s : state) : outcome (list nat) :=
  if filtered s then Ok (filtered_indices_ s) else Throw ExRuntimeError.

(** Within distance_filter.hpp:85-89, distance_filter.hpp:67-78. *)
Fixpoint rows {A : Type} (m : list A) (is : list nat) : outcome (list A) :=
  match is with
  | [] => Ok []
  | i :: is' =>
      let* r := of_option (nth_error m i) in
      let* rs := rows m is' in
      Ok (r :: rs)
  end.
(** Within distance_filter.hpp:85-89, distance_filter.hpp:67-78. *)
Definition apply {A : Type} (s : state) (m : list A) : outcome (list A) :=
  if filtered s then
    if negb (Nat.eqb (length m) (length (points s))) then Throw ExInvalidArgument
    else rows m (filtered_indices_ s)
  else Throw ExRuntimeError.

End DistanceFilter.

Arguments state : clear implicits.
