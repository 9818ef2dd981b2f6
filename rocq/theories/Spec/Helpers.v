From Coq Require Import List Arith NArith ZArith Bool Reals Permutation Sorted.
From Verif Require Import Model.Outcome Model.Helpers.
From Verif Require Model.Lattice.
Import ListNotations.

(** The set bits, lowest first. *)
Definition set_bits (w : nat) (x : N) : list nat := filter (fun i => N.testbit x (N.of_nat i)) (seq 0 w).

(** A node with bits and one with predicates on the 14 edges are the same. *)
Definition same_node (b : bnode) (n : Lattice.node) : Prop :=
  (b_near b < 2 ^ 16)%N /\ (b_all b < 2 ^ 14)%N /\ b_vis b = Lattice.n_vis n /\
  forall e, e < 14 -> N.testbit (b_near b) (N.of_nat e) = Lattice.n_near n e /\ N.testbit (b_all b) (N.of_nat e) = Lattice.n_all n e.
Definition same_outcome {A B : Type} (R : A -> B -> Prop) (x : outcome A) (y : outcome B) : Prop :=
  match x, y with Ok a, Ok b => R a b | Throw e, Throw f => e = f | UB, UB => True | _, _ => False end.
(** Vertices inserted one after the other. *)
Fixpoint inserted (n : bnode) (l : list (nat * nat)) : outcome bnode :=
  match l with [] => Ok n | (e, v) :: l' => let* n' := insert_vertex n v e in inserted n' l' end.

Section Sorting.
Context {A : Type}.
(** What std::sort asks of a comparison, on the elements of a list. *)
Record strict_weak_on (less : A -> A -> bool) (l : list A) : Prop := {
  sw_irreflexive : forall a, In a l -> less a a = false;
  sw_transitive : forall a b c, In a l -> In b l -> In c l -> less a b = true -> less b c = true -> less a c = true;
  sw_equivalent : forall a b c, In a l -> In b l -> In c l -> less a b = false -> less b a = false -> less b c = false -> less c b = false ->
    less a c = false /\ less c a = false
}.
(** What it promises then; otherwise it may do anything. *)
Definition std_sort (less : A -> A -> bool) (sort : list A -> outcome (list A)) : Prop :=
  forall l, strict_weak_on less l -> exists l', sort l = Ok l' /\ Permutation l' l /\ StronglySorted (fun a b => less b a = false) l'.
End Sorting.

(** Doubles with NaN as None; NaN is less than nothing. The comparisons of the callers: by the second component, ascending (incremental_fitter.hpp:115)
    or descending (inequality_fitter.hpp:134), or by the first (domain.hpp:32). *)
Definition less_num (a b : option R) : bool :=
  match a, b with Some x, Some y => if Rlt_dec x y then true else false | _, _ => false end.
Definition by_second (a b : nat * option R) : bool := less_num (snd a) (snd b).
Definition by_second_descending (a b : nat * option R) : bool := less_num (snd b) (snd a).
Definition by_first {B : Type} (a b : nat * B) : bool := Nat.ltb (fst a) (fst b).
