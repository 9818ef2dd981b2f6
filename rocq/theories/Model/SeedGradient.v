From Coq Require Import Reals List ZArith.
From Verif Require Import Model.Clip Model.PointTriangle Model.Solver Model.Lattice Model.SeedTracking.
Import ListNotations.
Local Open Scope R_scope.

(** The gradient that leads the search from seed points (lattice.hpp:534-552), with real numbers. [solve] stands for the LDLT decomposition of Eigen. *)

(** A row of the matrix a (lattice.hpp:546). *)
Definition grow (p : pt) (i : nat) : R := match i with 0%nat => px p | 1%nat => py p | 2%nat => pz p | _ => 1 end.
(** Helper without code of its own. *)
Definition sum_over (l : list (pt * R)) (g : pt -> R -> R) : R := fold_right (fun q s => g (fst q) (snd q) + s) 0 l.
(** a.transpose() * a (lattice.hpp:549). *)
Definition normal_matrix (l : list (pt * R)) (i j : nat) : R := sum_over l (fun p _ => grow p i * grow p j).
(** a.transpose() * b (lattice.hpp:549). *)
Definition normal_rhs (l : list (pt * R)) (i : nat) : R := sum_over l (fun p b => grow p i * b).
(** The positions and absolute values of the seven nodes (lattice.hpp:535-548). *)
Definition samples (pos : lc -> pt) (val : lc -> R) (x : lc) : list (pt * R) := map (fun y => (pos y, Rabs (val y))) (gradient_nodes x).
(** gradient (lattice.hpp:534-552). *)
Definition gradient (solve : (nat -> nat -> R) -> (nat -> R) -> nat -> R) (pos : lc -> pt) (val : lc -> R) (x : lc) : pt :=
  let l := samples pos val x in
  let s := solve (normal_matrix l) (normal_rhs l) in (s 0%nat, s 1%nat, s 2%nat).
