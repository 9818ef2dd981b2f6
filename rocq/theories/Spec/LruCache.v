From Coq Require Import List Arith Bool.
From Verif Require Import Model.LruCache.
Import ListNotations.

(** Specification of an LRU cache, independent of lists of nodes and iterators. *)
Section LruSpec.

Variables (K V : Type).
Variable keqb : K -> K -> bool.

(** An abstract cache: entries from most to least recently used. *)
Definition acache := list (K * V).

Definition mem (m : acache) (k : K) : bool := existsb (fun e => keqb k (fst e)) m.

Fixpoint get (m : acache) (k : K) : option V :=
  match m with
  | [] => None
  | (k', v) :: m' => if keqb k k' then Some v else get m' k
  end.

Definition without (m : acache) (k : K) : acache := filter (fun e => negb (keqb k (fst e))) m.

(** Insert unless present, keeping at most [cap] entries. *)
Definition a_emplace (cap : nat) (m : acache) (k : K) (v : V) : acache :=
  if mem m k then m else firstn cap ((k, v) :: m).

(** Make [k] the most recently used key. *)
Definition a_touch (m : acache) (k : K) : option acache :=
  match get m k with
  | Some v => Some ((k, v) :: without m k)
  | None => None
  end.

(** The distinct keys of a history (given newest first), newest first. *)
Fixpoint distinct (h : list K) : list K :=
  match h with
  | [] => []
  | k :: h' => k :: filter (fun k' => negb (keqb k k')) (distinct h')
  end.

(** The abstract value of a cache object. *)
Definition entry (n : node K V) : K * V := (nkey n, nval n).
Definition contents (c : lru K V) : acache := map entry (nodes c).

(** The abstract effect of each call; None marks a call outside its contract. *)
Definition a_step (cap : nat) (m : acache) (o : op K V) : option (acache) :=
  match o with
  | OpTryEmplace k v => Some (a_emplace cap m k v)
  | OpTouchKey k => a_touch m k
  | OpClear => Some []
  end.

Fixpoint a_run (cap : nat) (m : acache) (os : list (op K V)) : option (acache) :=
  match os with
  | [] => Some m
  | o :: os' => match a_step cap m o with Some m' => a_run cap m' os' | None => None end
  end.


End LruSpec.

Arguments mem {K V}.
Arguments get {K V}.
Arguments without {K V}.
Arguments a_emplace {K V}.
Arguments a_touch {K V}.
Arguments distinct {K}.
Arguments entry {K V}.
Arguments contents {K V}.
Arguments a_step {K V}.
Arguments a_run {K V}.
