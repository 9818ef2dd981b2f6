From Coq Require Import Reals List Arith.
From Verif Require Import Model.LinAlg Model.Rbfs Model.Operator Spec.Rbfs.
Import ListNotations.
Local Open Scope R_scope.

(** The quadratic form of a matrix and the squared length of a vector. *)
Definition quad (n : nat) (a : nat -> nat -> R) (c : nat -> R) : R := rsum n (fun i => rsum n (fun j => c i * c j * a i j)).
Definition length2 (n : nat) (c : nat -> R) : R := rsum n (fun i => c i * c i).

(** Points: [x i] is the point [i], with [d] coordinates. *)
Definition distance2 (d : nat) (p q : nat -> R) : R := rsum d (fun e => (p e - q e) * (p e - q e)).
Definition distinct (n d : nat) (x : nat -> nat -> R) : Prop :=
  forall i j, (i < n)%nat -> (j < n)%nat -> i <> j -> exists e, (e < d)%nat /\ x i e <> x j e.

(** Weights with vanishing moments of every degree less than [m], for [m] up to 3. *)
Definition moments (n d : nat) (x : nat -> nat -> R) (m : nat) (c : nat -> R) : Prop :=
  ((1 <= m)%nat -> rsum n c = 0) /\
  ((2 <= m)%nat -> forall e, (e < d)%nat -> rsum n (fun i => c i * x i e) = 0) /\
  ((3 <= m)%nat -> forall e f, (e < d)%nat -> (f < d)%nat -> rsum n (fun i => c i * (x i e * x i f)) = 0).

(** The form is positive on those weights, and bounded below by a positive multiple of their squared length. *)
Definition definite (n : nat) (weights : (nat -> R) -> Prop) (a : nat -> nat -> R) : Prop :=
  exists low, 0 < low /\ forall c, weights c -> low * length2 n c <= quad n a c.
(** Its square matrix takes every value exactly once. *)
Definition solved_once (n : nat) (a : nat -> nat -> R) : Prop :=
  forall b, (exists w, forall r, (r < n)%nat -> mat_vec n a w r = b r) /\
  forall w v, (forall r, (r < n)%nat -> mat_vec n a w r = b r) -> (forall r, (r < n)%nat -> mat_vec n a v r = b r) ->
  forall r, (r < n)%nat -> w r = v r.

(** The order of the functions treated: moments up to the order less one must vanish. *)
Definition definite_order (k : kind) : option nat :=
  match k with
  | Exp | Gau | Gc3 | Gc5 | Gc7 | Gc9 => Some 0
  | Bh3 => Some 1 | Bh2 | Th3 => Some 2 | Th2 => Some 3
  | Cub | Sph | Sp _ _ => None
  end%nat.

(** The two functions with a bounded support. *)
Definition compact_kind (k : kind) : bool := match k with Cub | Sph => true | _ => false end.
(** In at most three dimensions the cubic and the spherical function need no moments to vanish. *)
Definition definite_in (d : nat) (k : kind) : option nat :=
  match k with Cub | Sph => if Nat.leb d 3 then Some 0%nat else None | _ => definite_order k end.

(** A term of a model: a function with its parameters and its anisotropy matrix; as the operator takes it. *)
Record term := Term { tk : kind; t0 : R; t1 : R; ta : nat -> nat -> R }.
Definition term_rbf (d : nat) (t : term) : rbf (nat -> R) :=
  Rbf (nat -> R) (evaluate d (tk t) (t0 t) (t1 t) (ta t)) (fun v e => component (evaluate_gradient d (tk t) (t0 t) (t1 t) (ta t) v) e)
    (fun v c e => entry (evaluate_hessian d (tk t) (t0 t) (t1 t) (ta t) v) c e).
(** It is of order at most [m], its sill or slope is not negative, its range is positive, its matrix has no kernel. *)
Definition good_term (d m : nat) (t : term) : Prop :=
  exists k, definite_in d (tk t) = Some k /\ (k <= m)%nat /\ 0 <= t0 t /\ (k = 0%nat -> 0 < t1 t) /\
  forall v, (forall e, (e < d)%nat -> mat_vec d (ta t) v e = 0) -> forall e, (e < d)%nat -> v e = 0.
(** A model with these terms is more than zero: there is a nugget, or the points are distinct and a term is positive. *)
Definition has_weight (n d : nat) (x : nat -> nat -> R) (terms : list term) (nugget : R) : Prop :=
  0 < nugget \/ (nugget = 0 /\ distinct n d x /\ exists t, In t terms /\ 0 < t0 t).
(** Points only, no gradients. *)
Definition points (n : nat) (x : nat -> nat -> R) : nodes (nat -> R) := Nodes (nat -> R) n 0 x (fun _ _ => 0).
(** The polynomials are determined by their values at the points, and weights orthogonal to them have vanishing moments. *)
Definition unisolvent (n l : nat) (p : nat -> nat -> R) : Prop :=
  forall a, (forall i, (i < n)%nat -> mat_vec l p a i = 0) -> forall k, (k < l)%nat -> a k = 0.
Definition covers (n d : nat) (x : nat -> nat -> R) (l : nat) (p : nat -> nat -> R) (m : nat) : Prop :=
  forall c, (forall k, (k < l)%nat -> rsum n (fun i => p i k * c i) = 0) -> moments n d x m c.
