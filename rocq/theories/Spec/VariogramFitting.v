From Coq Require Import Reals List Arith.
From Verif Require Import Model.LinAlg Model.Rbfs Model.VariogramFitting Spec.Rbfs.
Import ListNotations.
Local Open Scope R_scope.

(** A rotation: its rows are orthonormal and the determinant is one. *)
Definition rotation (n : nat) (a : nat -> nat -> R) : Prop :=
  (forall i j, (i < n)%nat -> (j < n)%nat -> dot n (a i) (a j) = identity i j) /\ det n a = 1.
(** A model to be fitted: covariance functions with parameters within the bounds and no range of zero. *)
Definition proper (f : function) : Prop := covariance (f_kind f) /\ 0 <= f_p0 f /\ 0 < f_p1 f.
Definition proper_model (m : rbf_model) : Prop := 0 <= m_nugget m /\ Forall proper (m_rbfs m).
Definition plain (f : function) : Prop := ~ spheroidal (f_kind f).
Fixpoint total (g : function -> R) (fs : list function) : R := match fs with [] => 0 | f :: fs' => g f + total g fs' end.
Definition total_sill (m : rbf_model) : R := m_nugget m + total f_p0 (m_rbfs m).
(** The square of the weight: what the squared difference is multiplied by. *)
Definition squared_weight (w : weights) (d g : R) (np : nat) : R :=
  Rpower d (exp_distance w) * Rpower g (exp_model_gamma w) * Rpower (INR np) (exp_num_pairs w).
(** A bin of distinct points. *)
Definition good_bin (b : R * R * nat) : Prop := let '(d, _, np) := b in 0 < d /\ (0 < np)%nat.
(** The anisotropies of the functions: fitted ones, or those of the template. *)
Definition anisotropies (m : rbf_model) (fit : bool) (rot : nat -> nat -> R) (scale : nat -> nat -> R) : list (nat -> nat -> R) :=
  if fit then map (fun i => scaled rot (scale i)) (seq 0 (length (m_rbfs m))) else map f_aniso (m_rbfs m).
