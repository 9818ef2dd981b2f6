From Coq Require Import List Reals.
From Verif Require Import Model.Bbox.
Import ListNotations.

(** Order on extended reals. *)
Definition ele (a b : er) : Prop :=
  match a, b with
  | MInf, _ | _, PInf => True
  | Fin x, Fin y => (x <= y)%R
  | _, _ => False
  end.
Definition ple (p q : point) : Prop := Forall2 ele p q.

(** Well-formed boxes and points of dimension [dim]. *)
Definition wf (dim : nat) (b : bbox) : Prop := length (bmin b) = dim /\ length (bmax b) = dim.

(** [b] lies within [c], coordinate by coordinate. *)
Definition within (b c : bbox) : Prop := ple (bmin c) (bmin b) /\ ple (bmax b) (bmax c).

(** [p] lies in [b]. *)
Definition inside (p : point) (b : bbox) : Prop := ple (bmin b) p /\ ple p (bmax b).

(** [b] is the least box of dimension [dim] with property [P]. *)
Definition least_box (dim : nat) (P : bbox -> Prop) (b : bbox) : Prop :=
  wf dim b /\ P b /\ forall c, wf dim c -> P c -> within b c.
