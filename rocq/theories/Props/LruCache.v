From Coq Require Import List Arith Bool Lia.
From Verif Require Import Model.Outcome Model.LruCache Spec.LruCache Proofs.LruCache.
Import ListNotations.

(** C28: any history of calls starting from an empty cache behaves like the abstract bounded
    association list: same entries in the same recency order, and undefined behaviour exactly when
    the history touches an absent key. *)
Theorem C28_refines_abstract_cache :
  forall (K V : Type) (keqb : K -> K -> bool), (forall a b, keqb a b = true <-> a = b) ->
  forall cap (os : list (op K V)),
  match a_run keqb cap [] os with
  | Some m => exists c, run keqb (empty cap) os = Ok c /\ contents c = m
  | None => run keqb (empty cap) os = UB
  end.
Proof. exact run_from_empty. Qed.
Print Assumptions C28_refines_abstract_cache.

Example C28_refines_abstract_cache_ex :
  a_run Nat.eqb 2 []
    [OpTryEmplace 1 10; OpTryEmplace 2 20; OpTouchKey 1; OpTryEmplace 3 30] = Some [(3, 30); (1, 10)]
  /\ a_run Nat.eqb 2 [] [OpTryEmplace 1 10; OpTouchKey 2] = None.
Proof. split; reflexivity. Qed.

(** C28: never more than the capacity. *)
Theorem C28_size_bounded :
  forall (K V : Type) (keqb : K -> K -> bool), (forall a b, keqb a b = true <-> a = b) ->
  forall cap os c, run keqb (@empty K V cap) os = Ok c -> size c <= cap.
Proof. exact size_bound. Qed.
Print Assumptions C28_size_bounded.

Example C28_size_bounded_ex :
  exists c, run Nat.eqb (@empty nat nat 2)
              [OpTryEmplace 1 10; OpTryEmplace 2 20; OpTryEmplace 3 30] = Ok c /\ size c = 2.
Proof. eexists; split; reflexivity. Qed.

(** C28: find is exact in every reachable state: an iterator to the entry of that key, or end() when
    no entry has that key; the index never holds a dangling iterator. *)
Theorem C28_find_correct :
  forall (K V : Type) (keqb : K -> K -> bool), (forall a b, keqb a b = true <-> a = b) ->
  forall cap os c k, run keqb (@empty K V cap) os = Ok c ->
  match find keqb c k with
  | ItEnd => forall n, In n (nodes c) -> nkey n <> k
  | ItNode a => exists v, deref c (ItNode a) = Ok (k, v)
  end.
Proof. exact find_correct. Qed.
Print Assumptions C28_find_correct.

Example C28_find_correct_ex :
  exists c, run Nat.eqb (@empty nat nat 1) [OpTryEmplace 1 10; OpTryEmplace 2 20] = Ok c /\
            find Nat.eqb c 1 = ItEnd /\ deref c (find Nat.eqb c 2) = Ok (2, 20).
Proof. eexists; repeat split; reflexivity. Qed.

(** C28: the evaluators' usage pattern (try_emplace, touch, dereference) is always defined when the
    capacity is positive, yields the entry of the requested key, and the cache holds exactly the
    [cap] most recently used distinct keys, most recent first. *)
Theorem C28_use_keeps_most_recent_keys :
  forall (K V : Type) (keqb : K -> K -> bool), (forall a b, keqb a b = true <-> a = b) ->
  forall cap (us : list (K * V)), 0 < cap ->
  exists c, run_uses keqb (empty cap) us = Ok c /\
            map nkey (nodes c) = firstn cap (distinct keqb (rev (map fst us))).
Proof. exact uses_keys. Qed.
Print Assumptions C28_use_keeps_most_recent_keys.

Example C28_use_keeps_most_recent_keys_ex :
  firstn 2 (distinct Nat.eqb (rev [1; 2; 1; 3])) = [3; 1].
Proof. reflexivity. Qed.

(** C28: after any such history, one more use returns an entry with the requested key which holds the
    cached value if there was one and the new value otherwise. *)
Theorem C28_use_returns_requested_entry :
  forall (K V : Type) (keqb : K -> K -> bool), (forall a b, keqb a b = true <-> a = b) ->
  forall cap (us : list (K * V)) c k v, 0 < cap ->
  run_uses keqb (empty cap) us = Ok c ->
  exists c' v', use keqb c k v = Ok ((k, v'), c') /\
    ((exists n, In n (nodes c) /\ nkey n = k /\ nval n = v') \/
     ((forall n, In n (nodes c) -> nkey n <> k) /\ v' = v)).
Proof. exact use_returns. Qed.
Print Assumptions C28_use_returns_requested_entry.

Example C28_use_returns_requested_entry_ex :
  exists c c', run_uses Nat.eqb (empty 2) [(1, 10); (2, 20)] = Ok c /\
               use Nat.eqb c 1 99 = Ok ((1, 10), c').
Proof. do 2 eexists; split; reflexivity. Qed.

(** C28: with capacity 0 the iterator returned by try_emplace is end(), so the usage pattern is
    undefined behaviour. *)
Theorem C28_zero_capacity_refuted :
  exists (k v : nat), use Nat.eqb (empty 0) k v = UB.
Proof. exact zero_capacity_ub. Qed.
Print Assumptions C28_zero_capacity_refuted.
