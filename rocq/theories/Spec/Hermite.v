From Coq Require Import Reals List Arith.
From Verif Require Import Model.LinAlg Model.Rbfs Model.Operator Spec.Rbfs Spec.PositiveDefinite.
Import ListNotations.
Local Open Scope R_scope.

(** Points with values and points with gradients. *)
Definition data := nodes (nat -> R).
Definition values (n : data) : nat := mu (nat -> R) n.
Definition gradients (n : data) : nat := sigma (nat -> R) n.
Definition rows (d : nat) (n : data) : nat := size (nat -> R) d n.
(** The weight of component [e] at the gradient point [j]. *)
Definition grad_weight (d : nat) (n : data) (c : nat -> R) (j e : nat) : R := c (values n + d * j + e)%nat.

(** Weights that vanish on every polynomial of degree less than [m], for [m] up to 3: on 1, on the coordinates, whose partial
    derivatives are 0 and 1, and on products of two coordinates. *)
Definition hermite_moments (d : nat) (n : data) (m : nat) (c : nat -> R) : Prop :=
  let x := pt (nat -> R) n in let y := gpt (nat -> R) n in let g := grad_weight d n c in
  ((1 <= m)%nat -> rsum (values n) c = 0) /\
  ((2 <= m)%nat -> forall e, (e < d)%nat -> rsum (values n) (fun i => c i * x i e) + rsum (gradients n) (fun j => g j e) = 0) /\
  ((3 <= m)%nat -> forall e f, (e < d)%nat -> (f < d)%nat ->
    rsum (values n) (fun i => c i * (x i e * x i f)) + rsum (gradients n) (fun j => g j e * y j f + g j f * y j e) = 0).

(** Terms with second derivatives: all but the exponential, cubic and spherical, and the biharmonic ones with a smoothing constant. *)
Definition smooth_term (t : term) : Prop := match tk t with Exp | Cub | Sph => False | Bh2 | Bh3 => t1 t <> 0 | _ => True end.
(** The Hessians between the gradient points are numbers. *)
Definition hessians_defined (d : nat) (n : data) (t : term) : Prop :=
  forall i j, (i < gradients n)%nat -> (j < gradients n)%nat ->
  exists h, evaluate_hessian d (tk t) (t0 t) (t1 t) (ta t) (difference (gpt (nat -> R) n i) (gpt (nat -> R) n j)) = Num h.
Definition usable (d m : nat) (n : data) (t : term) : Prop := good_term d m t /\ smooth_term t /\ hessians_defined d n t.
(** No two gradient points are the same, and no two value points without a nugget; a term is positive. A value and a gradient
    may be given at the same point. *)
Definition separated (d : nat) (n : data) (terms : list term) (nugget : R) : Prop :=
  distinct (gradients n) d (gpt (nat -> R) n) /\ (0 < nugget \/ (nugget = 0 /\ distinct (values n) d (pt (nat -> R) n))) /\
  exists t, In t terms /\ 0 < t0 t.
