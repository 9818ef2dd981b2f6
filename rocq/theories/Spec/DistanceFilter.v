From Coq Require Import List Arith Bool.
Import ListNotations.

(** [near] is the closeness relation at the chosen distance, [search] finds the near points. *)
Definition search_ok {Pt D : Type} (near : D -> Pt -> Pt -> Prop)
  (search : list Pt -> Pt -> D -> list nat) : Prop :=
  forall ps p d j, In j (search ps p d) <-> exists q, nth_error ps j = Some q /\ near d p q.

Definition near_at {Pt : Type} (near : Pt -> Pt -> Prop) (ps : list Pt) (i j : nat) : Prop :=
  exists p q, nth_error ps i = Some p /\ nth_error ps j = Some q /\ near p q.

(** [kept] is what a greedy thinning of [order] keeps: a sublist, two different kept indices are not
    near each other, and every dropped index is near a kept one that comes earlier in [order]. *)
Inductive sublist {A : Type} : list A -> list A -> Prop :=
| sub_nil : sublist [] []
| sub_keep : forall x k l, sublist k l -> sublist (x :: k) (x :: l)
| sub_drop : forall x k l, sublist k l -> sublist k (x :: l).

Definition earlier {A : Type} (l : list A) (x y : A) : Prop :=
  exists a b, l = a ++ y :: b /\ In x a.

Record thinning (near : nat -> nat -> Prop) (order kept : list nat) : Prop := {
  thin_sublist : sublist kept order;
  thin_separated : forall i j, In i kept -> In j kept -> i <> j -> ~ near i j;
  thin_covered : forall j, In j order -> ~ In j kept ->
                   exists i, In i kept /\ earlier order i j /\ near i j
}.

(** Strictly increasing. *)
Inductive increasing : list nat -> Prop :=
| inc_nil : increasing []
| inc_cons : forall x l, (forall y, In y l -> x < y) -> increasing l -> increasing (x :: l).
