From Coq Require Import Reals List Arith.
From Verif Require Import Model.LinAlg Model.Rbfs Model.Operator Model.Fmm Model.FastOperator.
From Verif Require Import Spec.Rbfs Spec.Fmm Spec.PositiveDefinite Spec.Hermite.
Import ListNotations.
Local Open Scope R_scope.

(** The functions of the terms of a model. *)
Definition function_of (t : term) : function := Function (tk t) (t0 t) (t1 t) (ta t).
(** Points nearer than this are found by the search; sorting and shuffling of the fast evaluators rearrange. *)
Definition sound_search (d : nat) (near : list vec -> vec -> R -> list nat) : Prop :=
  forall pts x radius, found_near d (length pts) (fun j => nth j pts (fun _ => 0)) x radius (near pts x radius).
Definition sound_rest (rest : function -> kernel_kind -> bool -> fenv vec) : Prop := forall f kk b, env_ok vec (rest f kk b).

(** The values of a kernel between some targets and some sources are numbers. *)
Definition defined_between (d : nat) (t : term) (kk : kernel_kind) (src trg : list vec) : Prop :=
  forall x y i j, In x trg -> In y src ->
  exists r, kernel_entry d (tk t) (t0 t) (t1 t) (ta t) kk i j (difference (mat_vec d (ta t) x) (mat_vec d (ta t) y)) = Num r.
Definition kernels_defined (d : nat) (n : data) (t : term) : Prop :=
  defined_between d t KGradient (gradient_rows n) (point_rows n) /\ defined_between d t KGradientT (point_rows n) (gradient_rows n) /\
  defined_between d t KHessian (gradient_rows n) (gradient_rows n).
(** Few enough points to be summed directly. *)
Definition few (n : data) : Prop := (values n < 2 ^ 10)%nat /\ (gradients n < 2 ^ 10)%nat.
