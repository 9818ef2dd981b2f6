From Coq Require Import List Arith ZArith Reals.
From Verif Require Import Model.Solver Model.Lattice Model.SeedTracking Spec.Lattice.
Import ListNotations.

Section Spec.
(** The nodes inside the box, and the field. *)
Variable eligible : lc -> bool.
Variable field : lc -> num.

(** [k] steps from node to node that stay in the box. *)
Inductive reach (x : lc) : nat -> lc -> Prop :=
| reach_here : reach x 0 x
| reach_step : forall k y z, reach x k y -> adjacent y z -> eligible z = true -> reach x (S k) z.
Definition at_distance (x : lc) (k : nat) (y : lc) : Prop := reach x k y /\ forall j, j < k -> ~ reach x j y.
(** A node in the box with all its neighbours. *)
Definition interior (x : lc) : Prop := eligible x = true /\ forall y, adjacent x y -> eligible y = true.
(** Interior nodes at which the field gets ever nearer to zero. *)
Inductive descends (x : lc) : lc -> Prop :=
| descends_here : descends x x
| descends_next : forall y z, descends x y -> interior z -> abs_less (field z) (field y) = true -> descends x z.
(** An edge at the node crosses the surface. *)
Definition at_surface (x : lc) : Prop := exists y, adjacent x y /\ eligible y = true /\ neg (field x) <> neg (field y).
(** No interior node up to distance [k] is nearer to zero, and [k] is ten, or no node at all at distance [k] is, or there is none farther away. *)
Definition stuck (x : lc) : Prop := exists k, 1 <= k <= 10 /\
  (forall j y, 1 <= j <= k -> at_distance x j y -> interior y -> abs_less (field y) (field x) = false) /\
  (k = 10 \/ (forall y, at_distance x k y -> abs_less (field y) (field x) = false) \/ forall y, ~ at_distance x (S k) y).
(** The crossing edge from [c] to [d] is on the same piece of the surface as that from [a] to [b]: through triangles in the box. *)
Inductive linked (a b : lc) : lc -> lc -> Prop :=
| linked_here : linked a b a b
| linked_back : forall c d, linked a b c d -> linked a b d c
| linked_turn : forall c d e, linked a b c d -> adjacent c e -> adjacent d e -> eligible e = true -> neg (field c) <> neg (field e) -> linked a b c e.
End Spec.
(** The iteration order of a node list that lies in the box. *)
Definition orders (eligible : lc -> bool) (order : lattice -> list lc) : Prop :=
  forall l N, (forall x, l_nodes l x <> None <-> In x N) -> (forall x, In x N -> eligible x = true) -> enumerates (order l) l.
