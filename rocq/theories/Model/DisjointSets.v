From Coq Require Import List Arith.
From Verif Require Import Model.Outcome.
Import ListNotations.

(** DisjointSets (src/isosurface/disjoint_sets.hpp). Indices are natural numbers; .at() throws outside. *)

Definition pat (p : list nat) (i : nat) : outcome nat :=
  match nth_error p i with Some x => Ok x | None => Throw ExOutOfRange end.
(** Within disjoint_sets.hpp:32-39. *)
Definition pset (p : list nat) (i x : nat) : outcome (list nat) :=
  match nth_error p i with
  | Some _ => Ok (firstn i p ++ x :: skipn (S i) p)
  | None => Throw ExOutOfRange
  end.

(** Constructor (disjoint_sets.hpp:13-15). *)
Definition ds_init (n : nat) : list nat := seq 0 n.

(** find (disjoint_sets.hpp:36-42) for at most [fuel] turns of the loop: the representative and the new parents;
    None when the turns are used up. *)
Fixpoint find (fuel : nat) (p : list nat) (i : nat) : outcome (option (nat * list nat)) :=
  match fuel with
  | 0 => Ok None
  | S fuel' =>
      let* j := pat p i in
      if Nat.eqb j i then Ok (Some (i, p))
      else
        let* k := pat p j in
        let* p' := pset p i k in
        let* i' := pat p' i in
        find fuel' p' i'
  end.

(** unite (disjoint_sets.hpp:32): the right-hand side of the assignment is evaluated first. *)
Definition unite (fuel : nat) (p : list nat) (i j : nat) : outcome (option (list nat)) :=
  let* r := find fuel p j in
  match r with
  | None => Ok None
  | Some (rj, p1) =>
      let* r := find fuel p1 i in
      match r with
      | None => Ok None
      | Some (ri, p2) => let* p3 := pset p2 ri rj in Ok (Some p3)
      end
  end.

(** groups (disjoint_sets.hpp:18-29): [res] lists the groups with their roots in order of creation, members in
    reverse. *)
Fixpoint add_member (res : list (nat * list nat)) (root i : nat) : list (nat * list nat) :=
  match res with
  | [] => [(root, [i])]
  | (r, ms) :: res' => if Nat.eqb r root then (r, i :: ms) :: res' else (r, ms) :: add_member res' root i
  end.
(** Within disjoint_sets.hpp:18-29. *)
Fixpoint groups_from (fuel : nat) (p : list nat) (res : list (nat * list nat)) (is : list nat)
  : outcome (option (list (list nat) * list nat)) :=
  match is with
  | [] => Ok (Some (map (fun g => rev (snd g)) res, p))
  | i :: is' =>
      let* r := find fuel p i in
      match r with
      | None => Ok None
      | Some (root, p') => groups_from fuel p' (add_member res root i) is'
      end
  end.
(** groups (disjoint_sets.hpp:18-29). *)
Definition groups (fuel : nat) (p : list nat) : outcome (option (list (list nat) * list nat)) :=
  groups_from fuel p [] (seq 0 (length p)).

(** A history of calls, then groups(). *)
Fixpoint unite_all (fuel : nat) (p : list nat) (es : list (nat * nat)) : outcome (option (list nat)) :=
  match es with
  | [] => Ok (Some p)
  | (i, j) :: es' =>
      let* r := unite fuel p i j in
      match r with None => Ok None | Some p' => unite_all fuel p' es' end
  end.
