From Coq Require Import Reals List ZArith Bool.
From Verif Require Import Model.Outcome Model.Clip Model.PointTriangle Model.Predicates Model.Solver Model.Lattice Model.PrimitiveLattice.
Import ListNotations.
Local Open Scope R_scope.

(** The sign of the field at a point of the box, by which Isosurface tells an empty mesh from the entire space (lattice.hpp:278-316, isosurface.hpp:118-122). Real
    numbers, with None for NaN. *)

(** InterpolatedValue (lattice.hpp:283-316): tet_, weights_, and values_ with populated_. *)
Record interpolated := Interpolated { i_tet : list lc; i_weights : list R; i_values : list (option num) }.
(** The constructor (lattice.hpp:285-289); [r] is the result of sorting, as in tetrahedron. *)
Definition new_interpolated (lo hi : pt) (basis : triangle) (r : nat * nat * nat) (p : pt) : outcome interpolated :=
  let pos := position lo hi basis in
  let* t := tetrahedron lo hi basis r p in
  let '(a, b, c, d) := t in
  let '(wa, wb, wc, wd) := barycentric p (pos a) (pos b) (pos c) (pos d) in
  Ok (Interpolated [a; b; c; d] [wa; wb; wc; wd] [None; None; None; None]).
(** tell (lattice.hpp:291-299): the loop, left at the first row that is equal. *)
Fixpoint tell_values (tet : list lc) (vs : list (option num)) (x : lc) (v : num) : list (option num) :=
  match tet, vs with t :: tet', o :: vs' => if lc_eqb t x then Some v :: vs' else o :: tell_values tet' vs' x v | _, _ => vs end.
(** tell (lattice.hpp:291-299). *)
Definition tell (i : interpolated) (x : lc) (v : num) : interpolated := Interpolated (i_tet i) (i_weights i) (tell_values (i_tet i) (i_values i) x v).
(** The calls of tell by evaluate_field (lattice.hpp:434-441) for all nodes [xs] that were ever evaluated. *)
Definition tell_all (field : lc -> num) (i : interpolated) (xs : list lc) : interpolated := fold_left (fun i x => tell i x (field x)) xs i.
(** weights_.dot(values_) (lattice.hpp:306): NaN if one of the values is. *)
Fixpoint dot_values (ws : list R) (vs : list (option num)) : num :=
  match ws, vs with
  | w :: ws', Some (Some v) :: vs' => match dot_values ws' vs' with Some s => Some (w * v + s) | None => None end
  | _ :: _, _ => None
  | [], _ => Some 0
  end.
(** value (lattice.hpp:301-307). *)
Definition interpolated_value (i : interpolated) : outcome num :=
  if existsb (fun o => match o with None => true | Some _ => false end) (i_values i) then Throw ExRuntimeError else Ok (dot_values (i_weights i) (i_values i)).
(** value_sign (lattice.hpp:309, sign.hpp): true for negative. *)
Definition value_sign (i : interpolated) : outcome bool := let* v := interpolated_value i in Ok (neg v).
(** Whether the result is the entire space (isosurface.hpp:118-122). *)
Definition entire (mesh_empty : bool) (i : interpolated) : outcome bool := if mesh_empty then value_sign i else Ok false.
