From Coq Require Import Reals List.
From Verif Require Import Model.Outcome Model.Clip Model.Predicates Model.Variogram Model.Solver Model.Lattice Model.PrimitiveLattice.
Import ListNotations.
Local Open Scope R_scope.

(** Two coordinates lie in the middle between two integers, one of them negative and the other not. *)
Definition mixed_halves (u : pt) : Prop :=
  exists e e', (e < 3)%nat /\ (e' < 3)%nat /\ frac (coord u e) = 1 / 2 /\ frac (coord u e') = 1 / 2 /\ 0 <= coord u e /\ coord u e' < 0.
(** The mean of four values with weights; NaN if one of them is NaN. *)
Definition mean_of (w : R * R * R * R) (a b c d v : num) : Prop :=
  let '(wa, wb, wc, wd) := w in
  match a, b, c, d with
  | Some a, Some b, Some c, Some d => v = Some (wa * a + wb * b + wc * c + wd * d)
  | _, _, _, _ => v = None
  end.
(** A field function that has the value [v] at some nodes and throws when asked for any other. *)
Definition only (xs : list lc) (v : num) (ys : list lc) : outcome (list num) :=
  if forallb (fun y => existsb (lc_eqb y) xs) ys then Ok (map (fun _ => v) ys) else Throw ExOutOfRange.
