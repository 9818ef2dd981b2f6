From Coq Require Import Reals List Arith.
From Verif Require Import Model.LinAlg Model.MonomialBasis Model.Rbfs Model.Operator Spec.Rbfs Spec.Operator Spec.PositiveDefinite Spec.Hermite.
Import ListNotations.
Local Open Scope R_scope.

(** A model: its functions, its nugget and the degree of its polynomial, if it has one. *)
Section Fitted.
Variables (d : nat) (degree : option nat) (rbfs : list (rbf (nat -> R))) (nugget : R).
Definition space_size : nat := match degree with None => 0 | Some g => length (columns d g) end.
(** The monomials at the rows of some data. *)
Definition space (s : data) (i k : nat) : R :=
  match degree with None => 0 | Some g => MonomialBasis.evaluate d g (values s) (pt (nat -> R) s) (gpt (nat -> R) s) i k end.
(** The weights [w] solve the system for the right hand side [rhs], followed by zeros. *)
Definition fitted (ss : list (list nat * (nat -> nat))) (s : data) (rhs w : nat -> R) : Prop :=
  schedules_ok (nat -> R) rbfs (rows d s) ss /\
  forall r, (r < rows d s + space_size)%nat -> direct_operator (nat -> R) difference d rbfs nugget space_size ss s (space s) w r =
    if (r <? rows d s)%nat then rhs r else 0.
(** [f] is what the evaluator returns at the rows of [t], for some schedules. *)
Definition surface (s : data) (w : nat -> R) (t : data) (f : nat -> R) : Prop :=
  exists ss, schedules_ok (nat -> R) rbfs (rows d t) ss /\
  forall r, (r < rows d t)%nat -> f r = direct_evaluator (nat -> R) difference d rbfs space_size ss s t (space t) w r.
(** The system has exactly one solution; C64, C65 and C67 say when. *)
Definition determined (s : data) : Prop :=
  solved_once (rows d s + space_size) (system (nat -> R) difference d rbfs nugget s (space s)).
End Fitted.

(** The degrees there are polynomials for, and the order of a function that such a polynomial makes definite. *)
Definition degree_ok (d : nat) (degree : option nat) : Prop := match degree with None => True | Some g => (1 <= d <= 3 /\ g <= 2)%nat end.
Definition order (degree : option nat) : nat := match degree with None => 0 | Some g => S g end.

(** The same data elsewhere. *)
Definition moved (v : nat -> R) (s : data) : data :=
  Nodes (nat -> R) (values s) (gradients s) (fun i e => pt (nat -> R) s i e + v e) (fun i e => gpt (nat -> R) s i e + v e).
(** In another order: the row [r] was the row [reordered_row r]. *)
Definition permutes (n : nat) (f : nat -> nat) : Prop :=
  (forall i, (i < n)%nat -> (f i < n)%nat) /\ forall i j, (i < n)%nat -> (j < n)%nat -> f i = f j -> i = j.
Definition reordered (f g : nat -> nat) (s : data) : data :=
  Nodes (nat -> R) (values s) (gradients s) (fun i => pt (nat -> R) s (f i)) (fun j => gpt (nat -> R) s (g j)).
Definition reordered_row (d : nat) (f g : nat -> nat) (s : data) (r : nat) : nat :=
  if (r <? values s)%nat then f r
  else if (r <? rows d s)%nat then (values s + d * g ((r - values s) / d) + (r - values s) mod d)%nat else r.
(** With one more value, after the others. *)
Definition one_value (y : nat -> R) : data := Nodes (nat -> R) 1 0 (fun _ => y) (fun _ _ => 0).
Definition with_value (y : nat -> R) (s : data) : data :=
  Nodes (nat -> R) (S (values s)) (gradients s) (fun i => if Nat.eqb i (values s) then y else pt (nat -> R) s i) (gpt (nat -> R) s).
Definition with_row (m : nat) (rhs : nat -> R) (z : R) (r : nat) : R :=
  if Nat.eqb r m then z else if (r <? m)%nat then rhs r else rhs (pred r).
(** A function times [c]. *)
Definition scaled (c : R) (f f' : rbf (nat -> R)) : Prop :=
  (forall v, ev (nat -> R) f' v = c * ev (nat -> R) f v) /\ (forall v e, gr (nat -> R) f' v e = c * gr (nat -> R) f v e) /\
  (forall v a e, he (nat -> R) f' v a e = c * he (nat -> R) f v a e).
(** Points moved by a matrix and a vector, and a term that sees their differences as before. *)
Definition affine (d : nat) (b : nat -> nat -> R) (v x : nat -> R) (e : nat) : R := mat_vec d b x e + v e.
Definition same_term (d : nat) (b : nat -> nat -> R) (t t' : term) : Prop :=
  tk t' = tk t /\ t0 t' = t0 t /\ t1 t' = t1 t /\ forall x e, (e < d)%nat -> mat_vec d (ta t') (mat_vec d b x) e = mat_vec d (ta t) x e.

(** The energy of weights at points: the quadratic form of the functions, without the nugget. *)
Definition energy (d n : nat) (rbfs : list (rbf (nat -> R))) (x : nat -> nat -> R) (w : nat -> R) : R :=
  quad n (kernel (nat -> R) difference d rbfs (points n x) (points n x)) w.
(** Weights orthogonal to the polynomials: those of a function of the model. *)
Definition orthogonal (d n : nat) (degree : option nat) (x : nat -> nat -> R) (w : nat -> R) : Prop :=
  forall k, (k < space_size d degree)%nat -> rsum n (fun i => space d degree (points n x) i k * w i) = 0.

(** One gradient. The term can be differentiated where [y] sees the values from, and twice where it sees the gradients from. *)
Definition one_gradient (y : nat -> R) : data := Nodes (nat -> R) 0 1 (fun _ _ => 0) (fun _ => y).
Definition regular_at (d : nat) (s : data) (y : nat -> R) (t : term) : Prop :=
  exact_kind (tk t) /\ range_ok (tk t) (t1 t) /\
  (forall i, (i < values s)%nat -> let v := difference y (pt (nat -> R) s i) in
     grad_regular (tk t) (t1 t) (dot d (mat_vec d (ta t) v) (mat_vec d (ta t) v)) /\ exists g, evaluate_gradient d (tk t) (t0 t) (t1 t) (ta t) v = Num g) /\
  (forall j, (j < gradients s)%nat -> let v := difference y (gpt (nat -> R) s j) in
     hess_regular (tk t) (t1 t) (dot d (mat_vec d (ta t) v) (mat_vec d (ta t) v)) /\ exists h, evaluate_hessian d (tk t) (t0 t) (t1 t) (ta t) v = Num h).
