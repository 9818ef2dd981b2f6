From Coq Require Import List ZArith Reals.
From Verif Require Import Model.SpatialGrid.
Import ListNotations.
Local Open Scope R_scope.

(** Boxes of finite reals: closed, given by two corners. *)
Definition box := ((R * R * R) * (R * R * R))%type.

Definition proper (b : box) : Prop :=
  let '((x0, y0, z0), (x1, y1, z1)) := b in x0 <= x1 /\ y0 <= y1 /\ z0 <= z1.
Definition contains (b : box) (p : R * R * R) : Prop :=
  let '((x0, y0, z0), (x1, y1, z1)) := b in let '(x, y, z) := p in
  x0 <= x <= x1 /\ y0 <= y <= y1 /\ z0 <= z <= z1.
Definition overlap (a b : box) : Prop := exists p, contains a p /\ contains b p.

(** What is stored after a history of insertions and removals: for each item its box. *)
Inductive edit := Put (item : nat) (b : box) | Del (item : nat).
Definition stored := nat -> option box.
Definition apply_edit (s : stored) (e : edit) : stored :=
  match e with
  | Put i b => fun j => if Nat.eqb j i then Some b else s j
  | Del i => fun j => if Nat.eqb j i then None else s j
  end.
(** An item is only put while it is not stored, and only deleted while it is. *)
Fixpoint disciplined (s : stored) (es : list edit) : Prop :=
  match es with
  | [] => True
  | Put i b :: es' => s i = None /\ disciplined (apply_edit s (Put i b)) es'
  | Del i :: es' => s i <> None /\ disciplined (apply_edit s (Del i)) es'
  end.
Definition store (es : list edit) : stored := fold_left apply_edit es (fun _ => None).

(** ** Cells *)
Section Cells.
Variables (rnd : R -> R) (resolution : R).

(** The cell coordinate of a coordinate. *)
Definition coord (x : R) : Z := Int_part (rnd (x / resolution)).
(** The cells touched by a box. *)
Definition in_cells (b : box) (c : Z * Z * Z) : Prop :=
  let '((x0, y0, z0), (x1, y1, z1)) := b in let '(i, j, k) := c in
  (coord x0 <= i <= coord x1 /\ coord y0 <= j <= coord y1 /\ coord z0 <= k <= coord z1)%Z.
Definition cells_meet (a b : box) : Prop := exists c, in_cells a c /\ in_cells b c.

(** The cell index is an int, and not the largest one. *)
Definition representable (x : R) : Prop := IZR (- 2 ^ 31) <= rnd (x / resolution) < IZR (2 ^ 31 - 1).
Definition representable_point (p : R * R * R) : Prop :=
  let '(x, y, z) := p in representable x /\ representable y /\ representable z.

Definition op_representable (o : op) : Prop :=
  match o with
  | OInsert _ lo hi | ORemove _ lo hi | OQuery lo hi _ => representable_point lo /\ representable_point hi
  | OReserve _ => True
  end.
Definition fg_representable (o : fg_op) : Prop :=
  match o with
  | FInsert _ lo hi | FQuery lo hi _ => representable_point lo /\ representable_point hi
  | _ => True
  end.
End Cells.

(** What the callback answered to the calls [out] (latest first): true, except for the last call of a
    stopped search. *)
Fixpoint answers (fn : list nat -> nat -> bool) (out : list nat) : Prop :=
  match out with [] => True | i :: out' => fn out' i = true /\ answers fn out' end.
Definition answered (fn : list nat -> nat -> bool) (out : list nat) (stop : bool) : Prop :=
  match stop, out with
  | false, _ => answers fn out
  | true, i :: out' => fn out' i = false /\ answers fn out'
  | true, [] => False
  end.

(** Edits made by a history of calls. *)
Definition edits_of (o : op) : list edit :=
  match o with OInsert i lo hi => [Put i (lo, hi)] | ORemove i _ _ => [Del i] | _ => [] end.
Definition fg_edits (o : fg_op) : list edit :=
  match o with FInsert i lo hi => [Put i (lo, hi)] | FRemove i => [Del i] | _ => [] end.
(** Items are inserted while not stored, and removed with the box they were inserted with. *)
Fixpoint same_boxes (s : stored) (os : list op) : Prop :=
  match os with
  | [] => True
  | o :: os' =>
      match o with
      | OInsert i lo hi => s i = None
      | ORemove i lo hi => s i = Some (lo, hi)
      | _ => True
      end /\ same_boxes (fold_left apply_edit (edits_of o) s) os'
  end.
