From Coq Require Import Reals List Arith.
From Verif Require Import Model.LinAlg Model.RasPreconditioner Spec.Grid.
Import ListNotations.
Local Open Scope R_scope.

(** Levels are nested sets of distinct rows, the finest has all rows. *)
Definition nested (n n_levels : nat) (lev : nat -> list nat) : Prop :=
  (forall k, (k < n_levels)%nat -> NoDup (lev k) /\ (forall i, In i (lev k) -> (i < n)%nat)) /\
  (forall k, (S k < n_levels)%nat -> incl (lev k) (lev (S k))) /\
  (forall i, (i < n)%nat -> In i (lev (n_levels - 1)%nat)).
(** A correction is zero outside its level. *)
Definition local_solve (n n_levels : nat) (lev : nat -> list nat) (solve : nat -> (nat -> R) -> nat -> R) : Prop :=
  forall k r i, (k < n_levels)%nat -> (i < n)%nat -> ~ In i (lev k) -> solve k r i = 0.
(** The system without nugget. *)
Definition applied (n l : nat) (kern p_full : nat -> nat -> R) (w : nat -> R) (i : nat) : R :=
  mat_vec n kern w i + mat_vec l p_full (fun k => w (n + k)%nat) i.
Definition linear (f : (nat -> R) -> nat -> R) : Prop :=
  forall a b x y z, (forall j, z j = a * x j + b * y j) -> forall i, f z i = a * f x i + b * f y i.
(** Orthonormal columns. *)
Definition orthonormal (n l : nat) (q : nat -> nat -> R) : Prop := forall j k, (j < l)%nat -> (k < l)%nat ->
  dot n (fun r => q r j) (fun r => q r k) = if Nat.eqb j k then 1 else 0.
(** Every column of [m] is a combination of the columns of [q]. *)
Definition spanned (n l : nat) (m q : nat -> nat -> R) : Prop := exists c : nat -> nat -> R, forall r j, (r < n)%nat -> (j < l)%nat ->
  m r j = rsum l (fun k => q r k * c k j).
(** Linearly independent columns. *)
Definition independent (n l : nat) (m : nat -> nat -> R) : Prop := forall c, (forall r, (r < n)%nat -> rsum l (fun k => m r k * c k) = 0) ->
  forall k, (k < l)%nat -> c k = 0.
(** The tracked residuals of the rows are those of the current weights; [sound] is this for a solve and the rows it reads. *)
Definition true_on (n l : nat) (kern p_full : nat -> nat -> R) (v : nat -> R) (rows : list nat) (st : (nat -> R) * (nat -> R)) : Prop :=
  forall i, In i rows -> snd st i = v i - applied n l kern p_full (fst st) i.
Definition sound (n l n_levels : nat) (lev : nat -> list nat) (kern p_full : nat -> nat -> R) (v : nat -> R)
    (e : nat * ((nat -> R) * (nat -> R))) : Prop :=
  (fst e < n_levels)%nat /\ true_on n l kern p_full v (lev (fst e)) (snd e).
