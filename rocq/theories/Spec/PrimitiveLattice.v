From Coq Require Import Reals ZArith List Permutation.
From Verif Require Import Model.Clip Model.PointTriangle Model.Predicates Model.Variogram Model.Lattice Model.PrimitiveLattice.
Import ListNotations.
Local Open Scope R_scope.

Definition box (lo hi x : pt) : Prop := px lo <= px x <= px hi /\ py lo <= py x <= py hi /\ pz lo <= pz x <= pz hi.
(** A result of sorting the axes by the fractional parts of the coordinates [u]. *)
Definition sorts_axes (u : pt) (r : nat * nat * nat) : Prop :=
  let '(i, j, k) := r in
  Permutation [i; j; k] [0; 1; 2]%nat /\ frac (coord u i) <= frac (coord u j) <= frac (coord u k).
(** All of the sampled box has lattice coordinates that fit into int. *)
Definition fits_int (lo hi : pt) (basis : triangle) : Prop :=
  forall q e, box (ext_lo lo basis 2) (ext_hi hi basis 2) q -> -2147483647 <= coord (unrounded lo hi basis q) e <= 2147483646.
(** The point with barycentric coordinates [w]. *)
Definition mix (w : R * R * R * R) (a b c d : pt) : pt :=
  let '(wa, wb, wc, wd) := w in add3 (add3 (add3 (scale3 wa a) (scale3 wb b)) (scale3 wc c)) (scale3 wd d).
Definition weights (w : R * R * R * R) : Prop :=
  let '(wa, wb, wc, wd) := w in 0 <= wa /\ 0 <= wb /\ 0 <= wc /\ 0 <= wd /\ wa + wb + wc + wd = 1.
