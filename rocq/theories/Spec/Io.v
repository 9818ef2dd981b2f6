From Coq Require Import List NArith ZArith.
From Verif Require Import Model.Outcome Model.Io.
Import ListNotations.
Local Open Scope N_scope.

(** When an object is a legal C++ object of its type whose sizes fit in memory. *)
Section Saveable.

Variable d : nat.
Variable max_elems : N.
Variable det_pos : list N -> bool.

(** Every element fits in [k] bytes. *)
Definition fits (k : nat) (xs : list N) : Prop := Forall (fun x => x < 256 ^ N.of_nat k) xs.
Definition size_ok (n : nat) : Prop := N.of_nat n <= max_elems /\ N.of_nat n < 2 ^ 63.

Definition known (n : list N) : Prop := In n cov_names \/ In n poly_names.

Definition saveable_rbf (r : rbf) : Prop :=
  known (name r) /\ length (params r) = 2%nat /\ fits 8 (params r) /\
  length (aniso r) = (d * d)%nat /\ fits 8 (aniso r) /\ det_pos (aniso r) = true /\
  size_ok 3.

Definition saveable_model (m : model) : Prop :=
  size_ok (length (rbfs m)) /\ Forall saveable_rbf (rbfs m) /\
  (- 2 ^ 31 <= poly_degree m < 2 ^ 31)%Z /\ nugget m < 2 ^ 64.

Definition saveable_dynmat (cols : nat) (t : dynmat) : Prop :=
  length (coeffs t) = (nrows t * cols)%nat /\ fits 8 (coeffs t) /\ size_ok (nrows t) /\
  size_ok (nrows t * cols).

Definition saveable_bbox (b : bbox) : Prop :=
  length (bmin b) = d /\ fits 8 (bmin b) /\ length (bmax b) = d /\ fits 8 (bmax b).

Definition saveable_interpolant (t : interpolant) : Prop :=
  saveable_model (model_ t) /\ saveable_dynmat d (centers t) /\
  saveable_dynmat d (grad_centers t) /\ saveable_bbox (ibbox t) /\ saveable_dynmat 1 (weights t).

Definition saveable_vec (xs : list N) : Prop := size_ok (length xs) /\ fits 8 xs.

Definition saveable_variogram (v : variogram) : Prop :=
  saveable_vec (bin_distance v) /\ saveable_vec (bin_gamma v) /\ saveable_vec (bin_num_pairs v) /\
  length (direction v) = d /\ fits 8 (direction v).

Definition saveable_variogram_set (vs : list variogram) : Prop :=
  size_ok (length vs) /\ Forall saveable_variogram vs.

End Saveable.

(** Reading what was written, followed by any other bytes, gives back the object and leaves exactly
    the other bytes in a good stream. *)
Definition round_trip {A : Type} (wr : A -> list N) (rd : reader A) (old x : A) : Prop :=
  forall tail, rd old (mk_stream (wr x ++ tail) false) = Ok (x, mk_stream tail false).

(** The file with its last [k] bytes cut off. *)
Definition cut (k : nat) (file : list N) : list N := firstn (length file - k) file.
