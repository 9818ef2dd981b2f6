From Coq Require Import List ZArith Reals Bool.
From Verif Require Import Model.Outcome.
Import ListNotations.

(** * SpatialGrid (src/isosurface/spatial_grid.hpp) and FaceGrid (src/isosurface/face_grid.hpp)

    Coordinates are finite reals; [rnd] is the rounding of the division. Item indices are natural
    numbers. Queries made from inside the callback of another query are not modelled. *)

Definition point := (R * R * R)%type.
(** Helper without code of its own. *)
Definition cell := (Z * Z * Z)%type.

(** Helper without code of its own. *)
Definition cell_eqb (a b : cell) : bool :=
  let '(a0, a1, a2) := a in let '(b0, b1, b2) := b in
  (Z.eqb a0 b0 && Z.eqb a1 b1 && Z.eqb a2 b2)%bool.

(** Helper without code of its own. *)
Definition int_min : Z := (- 2 ^ 31)%Z.
(** Helper without code of its own. *)
Definition int_max : Z := (2 ^ 31 - 1)%Z.

Section Grid.

Variables (rnd : R -> R) (resolution : R).

(** cell_of (spatial_grid.hpp:116), one coordinate: converting a double outside the range of int is undefined. *)
Definition cell_coord (x : R) : outcome Z :=
  let c := Int_part (rnd (x / resolution)) in
  if (int_min <=? c)%Z && (c <=? int_max)%Z then Ok c else UB.
(** Within spatial_grid.hpp:116. *)
Definition cell_of (p : point) : outcome cell :=
  let '(x, y, z) := p in
  let* i := cell_coord x in let* j := cell_coord y in let* k := cell_coord z in Ok (i, j, k).

(** for (auto i = lo; i <= hi; i++): the increment past the largest int is undefined. *)
Definition count (lo hi : Z) : outcome (list Z) :=
  if (lo <=? hi)%Z then
    if (hi =? int_max)%Z then UB
    else Ok (map (fun d => (lo + Z.of_nat d)%Z) (seq 0 (Z.to_nat (hi - lo + 1))))
  else Ok [].

(** The three nested loops shared by insert, remove and for_each (spatial_grid.hpp:47-51, 72-76, 95-99). An inner
    range is only computed when the outer one is not empty. *)
Definition cells (lo hi : point) : outcome (list cell) :=
  let* clo := cell_of lo in
  let* chi := cell_of hi in
  let '(l0, l1, l2) := clo in let '(h0, h1, h2) := chi in
  let* is := count l0 h0 in
  match is with
  | [] => Ok []
  | _ =>
      let* js := count l1 h1 in
      match js with
      | [] => Ok []
      | _ =>
          let* ks := count l2 h2 in
          Ok (flat_map (fun i => flat_map (fun j => map (fun k => (i, j, k)) ks) js) is)
      end
  end.

(** grid_ (an absent cell is an empty list), visited_, guard_. *)
Record grid := Grid { g_cells : cell -> list nat; g_visited : list Z; g_guard : Z }.

(** Constructor (spatial_grid.hpp:33). *)
Definition grid_new (capacity : nat) : grid := Grid (fun _ => []) (repeat 0%Z capacity) 0.

(** reserve (spatial_grid.hpp:109-113). *)
Definition reserve (g : grid) (capacity : nat) : grid :=
  Grid (g_cells g) (g_visited g ++ repeat 0%Z (capacity - length (g_visited g))) (g_guard g).

(** insert (spatial_grid.hpp:70-81). *)
Definition push (item : nat) (m : cell -> list nat) (c : cell) : cell -> list nat :=
  fun c' => if cell_eqb c' c then m c' ++ [item] else m c'.
(** insert (spatial_grid.hpp:70-81). *)
Definition insert (g : grid) (item : nat) (lo hi : point) : outcome grid :=
  let g := reserve g (S item) in
  let* cs := cells lo hi in
  Ok (Grid (fold_left (push item) cs (g_cells g)) (g_visited g) (g_guard g)).

(** remove (spatial_grid.hpp:94-107). *)
Definition erase (item : nat) (m : cell -> list nat) (c : cell) : cell -> list nat :=
  fun c' => if cell_eqb c' c then filter (fun x => negb (Nat.eqb x item)) (m c') else m c'.
(** remove (spatial_grid.hpp:94-107). *)
Definition remove (g : grid) (item : nat) (lo hi : point) : outcome grid :=
  let* cs := cells lo hi in
  Ok (Grid (fold_left (erase item) cs (g_cells g)) (g_visited g) (g_guard g)).

(** for_each (spatial_grid.hpp:39-68). [fn out item] is what the callback returns for [item] after it was called
    for the items [out], latest first. The result is the list of all calls, latest first, and whether
    the callback stopped the search. *)
Definition set_visited (v : list Z) (i : nat) (x : Z) : list Z := firstn i v ++ x :: skipn (S i) v.
(** Within spatial_grid.hpp:39-68. *)
Fixpoint visit_items (fn : list nat -> nat -> bool) (guard : Z) (items : list nat) (v : list Z) (out : list nat)
  : outcome (list Z * list nat * bool) :=
  match items with
  | [] => Ok (v, out, false)
  | item :: items' =>
      match nth_error v item with
      | None => Throw ExOutOfRange
      | Some s =>
          if Z.eqb s guard then visit_items fn guard items' v out
          else
            let v' := set_visited v item guard in
            if fn out item then visit_items fn guard items' v' (item :: out)
            else Ok (v', item :: out, true)
      end
  end.
(** Within spatial_grid.hpp:39-68. *)
Fixpoint visit_cells (fn : list nat -> nat -> bool) (guard : Z) (m : cell -> list nat) (cs : list cell)
                     (v : list Z) (out : list nat) : outcome (list Z * list nat * bool) :=
  match cs with
  | [] => Ok (v, out, false)
  | c :: cs' =>
      let* r := visit_items fn guard (m c) v out in
      let '(v', out', stop) := r in
      if stop then Ok (v', out', true) else visit_cells fn guard m cs' v' out'
  end.
(** for_each (spatial_grid.hpp:38-68). *)
Definition for_each (g : grid) (lo hi : point) (fn : list nat -> nat -> bool)
  : outcome (grid * list nat * bool) :=
  let (v, guard) :=
    if Z.eqb (g_guard g) int_max then (repeat 0%Z (length (g_visited g)), 0%Z)
    else (g_visited g, g_guard g) in
  let guard := (guard + 1)%Z in
  let* cs := cells lo hi in
  let* r := visit_cells fn guard (g_cells g) cs v [] in
  let '(v', out, stop) := r in
  Ok (Grid (g_cells g) v' guard, out, stop).

(** A history of calls; a query is recorded by its calls of the callback. *)
Inductive op :=
| OInsert (item : nat) (lo hi : point)
| ORemove (item : nat) (lo hi : point)
| OReserve (capacity : nat)
| OQuery (lo hi : point) (fn : list nat -> nat -> bool).
(** Helper without code of its own. *)
Definition step (g : grid) (o : op) : outcome grid :=
  match o with
  | OInsert item lo hi => insert g item lo hi
  | ORemove item lo hi => remove g item lo hi
  | OReserve n => Ok (reserve g n)
  | OQuery lo hi fn => let* r := for_each g lo hi fn in Ok (fst (fst r))
  end.
(** Helper without code of its own. *)
Fixpoint run (g : grid) (os : list op) : outcome grid :=
  match os with
  | [] => Ok g
  | o :: os' => let* g' := step g o in run g' os'
  end.

(** ** FaceGrid *)

(** grid_, box_; a default-constructed box is None (its coordinates are uninitialised). *)
Record face_grid := FaceGrid { fg_grid : grid; fg_box : list (option (point * point)) }.

(** Constructor (line 17 of face_grid.hpp). *)
Definition fg_new (capacity : nat) : face_grid := FaceGrid (grid_new capacity) (repeat None capacity).
(** reserve (face_grid.hpp:59-64). *)
Definition fg_reserve (f : face_grid) (capacity : nat) : face_grid :=
  FaceGrid (reserve (fg_grid f) capacity) (fg_box f ++ repeat None (capacity - length (fg_box f))).
(** insert (face_grid.hpp:42-46). *)
Definition fg_insert (f : face_grid) (fi : nat) (lo hi : point) : outcome face_grid :=
  let f := fg_reserve f (S fi) in
  let* g := insert (fg_grid f) fi lo hi in
  match nth_error (fg_box f) fi with
  | None => Throw ExOutOfRange
  | Some _ => Ok (FaceGrid g (firstn fi (fg_box f) ++ Some (lo, hi) :: skipn (S fi) (fg_box f)))
  end.
(** remove (face_grid.hpp:54-57). *)
Definition fg_remove (f : face_grid) (fi : nat) : outcome face_grid :=
  match nth_error (fg_box f) fi with
  | None => Throw ExOutOfRange
  | Some None => UB
  | Some (Some (lo, hi)) => let* g := remove (fg_grid f) fi lo hi in Ok (FaceGrid g (fg_box f))
  end.
(** for_each (face_grid.hpp:37-40), any_of (face_grid.hpp:20-31). *)
Definition fg_for_each (f : face_grid) (lo hi : point) (fn : list nat -> nat -> bool)
  : outcome (face_grid * list nat * bool) :=
  let* r := for_each (fg_grid f) lo hi fn in
  let '(g, out, stop) := r in Ok (FaceGrid g (fg_box f), out, stop).
(** any_of (face_grid.hpp:20-31). *)
Definition any_of (f : face_grid) (lo hi : point) (hits : nat -> bool) : outcome (face_grid * bool) :=
  let* r := fg_for_each f lo hi (fun _ fi => negb (hits fi)) in
  let '(f', out, stop) := r in Ok (f', stop).

(** Helper without code of its own. *)
Inductive fg_op :=
| FInsert (fi : nat) (lo hi : point)
| FRemove (fi : nat)
| FReserve (capacity : nat)
| FQuery (lo hi : point) (fn : list nat -> nat -> bool).
(** Helper without code of its own. *)
Definition fg_step (f : face_grid) (o : fg_op) : outcome face_grid :=
  match o with
  | FInsert fi lo hi => fg_insert f fi lo hi
  | FRemove fi => fg_remove f fi
  | FReserve n => Ok (fg_reserve f n)
  | FQuery lo hi fn => let* r := fg_for_each f lo hi fn in Ok (fst (fst r))
  end.
(** Helper without code of its own. *)
Fixpoint fg_run (f : face_grid) (os : list fg_op) : outcome face_grid :=
  match os with
  | [] => Ok f
  | o :: os' => let* f' := fg_step f o in fg_run f' os'
  end.

End Grid.
