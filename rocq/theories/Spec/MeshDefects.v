From Coq Require Import List Arith Permutation.
Import ListNotations.

(** Unordered pairs, each written with the smaller component first. *)
Definition unordered (e : nat * nat) : nat * nat := (Nat.min (fst e) (snd e), Nat.max (fst e) (snd e)).
Definition same_edges (es fs : list (nat * nat)) : Prop :=
  Permutation (map unordered es) (map unordered fs).

(** Consecutive pairs of a sequence. *)
Definition steps (us : list nat) : list (nat * nat) := combine us (tl us).

(** The edges are those of one open chain, or of one closed chain of at least three vertices. *)
Definition fan (es : list (nat * nat)) : Prop :=
  exists us, NoDup us /\
    (same_edges es (steps us) \/
     (3 <= length us /\ same_edges es ((last us 0, hd 0 us) :: steps us))).

(** The edges opposite to the corners of [v], one for each corner. *)
Definition opposite_edges (v : nat) (fs : list (nat * nat * nat)) : list (nat * nat) :=
  flat_map (fun f => let '(a, b, c) := f in
    (if Nat.eqb a v then [(b, c)] else []) ++ (if Nat.eqb b v then [(c, a)] else []) ++
    (if Nat.eqb c v then [(a, b)] else [])) fs.
