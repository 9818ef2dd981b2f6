From Coq Require Import List Arith Bool.
From Verif Require Import Model.Outcome.
Import ListNotations.

(** LruCache<Key, T> (src/fmm/lru_cache.hpp:9-77).

    A list node is identified by a number (its address); an iterator is a node or end().
    [nodes] is list_ from front to back, [index] is map_ (key -> iterator; at most one entry per key,
    which [map_insert] maintains as std::unordered_map::try_emplace does), [fresh] is the next unused
    node address (not in the code; it makes a newly allocated node different from live ones). *)
Section Lru.

Variables (K V : Type).
Variable keqb : K -> K -> bool.

(** Within src/fmm/lru_cache.hpp:9-77. *)
Record node := mk_node { addr : nat; nkey : K; nval : V }.

(** Helper without code of its own. *)
Inductive iterator := ItEnd | ItNode (a : nat).

(** Within src/fmm/lru_cache.hpp:9-77. *)
Record lru := mk_lru {
  capacity : nat;
  nodes : list node;
  index : list (K * nat);
  fresh : nat
}.

(** Constructor (lru_cache.hpp:17). *)
Definition empty (cap : nat) : lru := mk_lru cap [] [] 0.

(** map_.find (lru_cache.hpp:33). *)
Fixpoint map_find (m : list (K * nat)) (k : K) : option nat :=
  match m with
  | [] => None
  | (k', a) :: m' => if keqb k k' then Some a else map_find m' k
  end.

(** map_.try_emplace (lru_cache.hpp:63): no effect when the key exists. *)
Definition map_insert (m : list (K * nat)) (k : K) (a : nat) : list (K * nat) :=
  match map_find m k with
  | Some _ => m
  | None => (k, a) :: m
  end.

(** map_.erase(key) (lru_cache.hpp:66). *)
Definition map_erase (m : list (K * nat)) (k : K) : list (K * nat) :=
  filter (fun e => negb (keqb k (fst e))) m.

(** begin() (lru_cache.hpp:19): equals end() on an empty list. *)
Definition begin_ (c : lru) : iterator :=
  match nodes c with
  | [] => ItEnd
  | n :: _ => ItNode (addr n)
  end.

(** find (lru_cache.hpp:32-39). *)
Definition find (c : lru) (k : K) : iterator :=
  match map_find (index c) k with
  | None => ItEnd
  | Some a => ItNode a
  end.

(** size (lru_cache.hpp:50). *)
Definition size (c : lru) : nat := length (nodes c).

(** clear (lru_cache.hpp:23-26). *)
Definition clear (c : lru) : lru := mk_lru (capacity c) [] [] (fresh c).

(** Helper without code of its own. *)
Definition lookup_node (l : list node) (a : nat) : option node :=
  List.find (fun n => Nat.eqb a (addr n)) l.

(** Dereferencing an iterator: undefined for end() and for an erased node. *)
Definition deref (c : lru) (it : iterator) : outcome (K * V) :=
  match it with
  | ItEnd => UB
  | ItNode a =>
      match lookup_node (nodes c) a with
      | Some n => Ok (nkey n, nval n)
      | None => UB
      end
  end.

(** touch (lru_cache.hpp:52): list_.splice(begin, list_, it) moves the node to the front; splicing
    end() or a dangling iterator is undefined. *)
Definition touch (c : lru) (it : iterator) : outcome lru :=
  match it with
  | ItEnd => UB
  | ItNode a =>
      match lookup_node (nodes c) a with
      | Some n =>
          Ok (mk_lru (capacity c) (n :: filter (fun m => negb (Nat.eqb a (addr m))) (nodes c))
                     (index c) (fresh c))
      | None => UB
      end
  end.

(** list_.pop_back (lru_cache.hpp:67). *)
Definition pop_back (l : list node) : list node := removelast l.

(** try_emplace (lru_cache.hpp:54-71). Note that an existing entry is returned without being moved
    to the front, that the new node is linked before the capacity is checked, and that the returned
    iterator is begin() evaluated after the eviction. *)
Definition try_emplace (c : lru) (k : K) (v : V) : (iterator * bool) * lru :=
  match find c k with
  | ItNode a => ((ItNode a, false), c)
  | ItEnd =>
      let l1 := mk_node (fresh c) k v :: nodes c in
      let m1 := map_insert (index c) k (fresh c) in
      let c1 := mk_lru (capacity c) l1 m1 (S (fresh c)) in
      let c2 :=
        if Nat.ltb (capacity c) (length l1) then
          match rev l1 with
          | [] => c1
          | b :: _ => mk_lru (capacity c) (pop_back l1) (map_erase m1 (nkey b)) (S (fresh c))
          end
        else c1 in
      ((begin_ c2, true), c2)
  end.

(** How the evaluators use the cache: try_emplace followed by touch of the returned iterator, after
    which it->second is used (src/fmm/fmm_evaluator.hpp:249-254). *)
Definition use (c : lru) (k : K) (v : V) : outcome ((K * V) * lru) :=
  let '((it, _), c1) := try_emplace c k v in
  let* c2 := touch c1 it in
  let* kv := deref c2 it in
  Ok (kv, c2).

(** Histories of API calls. *)
Inductive op :=
| OpTryEmplace (k : K) (v : V)
| OpTouchKey (k : K)        (* touch(find(k)); only issued when the key is present *)
| OpClear.

(** Helper without code of its own. *)
Definition step (c : lru) (o : op) : outcome lru :=
  match o with
  | OpTryEmplace k v => Ok (snd (try_emplace c k v))
  | OpTouchKey k => touch c (find c k)
  | OpClear => Ok (clear c)
  end.

(** Within src/fmm/lru_cache.hpp:9-77. *)
Fixpoint run (c : lru) (os : list op) : outcome lru :=
  match os with
  | [] => Ok c
  | o :: os' => let* c' := step c o in run c' os'
  end.

(** Helper without code of its own. *)
Fixpoint run_uses (c : lru) (us : list (K * V)) : outcome lru :=
  match us with
  | [] => Ok c
  | (k, v) :: us' => let* r := use c k v in run_uses (snd r) us'
  end.

End Lru.

Arguments mk_node {K V}.
Arguments addr {K V}.
Arguments nkey {K V}.
Arguments nval {K V}.
Arguments mk_lru {K V}.
Arguments capacity {K V}.
Arguments nodes {K V}.
Arguments index {K V}.
Arguments fresh {K V}.
Arguments empty {K V}.
Arguments map_find {K}.
Arguments map_insert {K}.
Arguments map_erase {K}.
Arguments begin_ {K V}.
Arguments find {K V}.
Arguments size {K V}.
Arguments clear {K V}.
Arguments lookup_node {K V}.
Arguments deref {K V}.
Arguments touch {K V}.
Arguments pop_back {K V}.
Arguments try_emplace {K V}.
Arguments use {K V}.
Arguments OpTryEmplace {K V}.
Arguments OpTouchKey {K V}.
Arguments OpClear {K V}.
Arguments step {K V}.
Arguments run {K V}.
Arguments run_uses {K V}.
