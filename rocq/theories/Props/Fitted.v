From Coq Require Import Reals List Arith Lia Lra.
From Verif Require Import Proofs.Fitted Proofs.FittedMoves Proofs.FittedGradient.
From Verif Require Import Model.LinAlg Model.MonomialBasis Model.Rbfs Model.Operator Spec.MonomialBasis Spec.Rbfs Spec.Operator Spec.PositiveDefinite Spec.Hermite Spec.Fitted.
Import ListNotations.
Local Open Scope R_scope.

(** C68: a system with one solution can be fitted to every right hand side, and its weights do not depend on the schedules. *)
Theorem C68_exists : forall d degree rbfs nugget ss s rhs, determined d degree rbfs nugget s -> schedules_ok (nat -> R) rbfs (rows d s) ss ->
  exists w, fitted d degree rbfs nugget ss s rhs w.
Proof. exact fit_exists. Qed.
Print Assumptions C68_exists.
Theorem C68_unique : forall d degree rbfs nugget ss ss' s rhs w w', determined d degree rbfs nugget s ->
  fitted d degree rbfs nugget ss s rhs w -> fitted d degree rbfs nugget ss' s rhs w' -> forall r, (r < rows d s + space_size d degree)%nat -> w r = w' r.
Proof. exact fit_unique. Qed.
Print Assumptions C68_unique.

(** C68: the systems of C64, C65 and C67 have one solution: values only, and values with gradients. *)
Theorem C68_values : forall d degree terms nugget n x, degree_ok d degree -> Forall (good_term d (order degree)) terms -> has_weight n d x terms nugget ->
  unisolvent n (space_size d degree) (space d degree (points n x)) -> determined d degree (map (term_rbf d) terms) nugget (points n x).
Proof. exact determined_points. Qed.
Print Assumptions C68_values.
Theorem C68_gradients : forall d degree terms nugget s, degree_ok d degree -> Forall (usable d (order degree) s) terms -> separated d s terms nugget ->
  unisolvent (rows d s) (space_size d degree) (space d degree s) -> determined d degree (map (term_rbf d) terms) nugget s.
Proof. exact determined_data. Qed.
Print Assumptions C68_gradients.

(** C68: the surface meets the gradients exactly, and the values up to the nugget times the weight. *)
Theorem C68_exact : forall d degree rbfs nugget ss s rhs w f, fitted d degree rbfs nugget ss s rhs w -> surface d degree rbfs s w s f ->
  forall r, (r < rows d s)%nat -> f r + (if (r <? values s)%nat then nugget * w r else 0) = rhs r.
Proof. exact fit_exact. Qed.
Print Assumptions C68_exact.

(** C68: data taken from a polynomial of the degree give back that polynomial, whatever the nugget. *)
Theorem C68_polynomial : forall d degree rbfs nugget ss s w t f a, determined d degree rbfs nugget s ->
  fitted d degree rbfs nugget ss s (mat_vec (space_size d degree) (space d degree s) a) w -> surface d degree rbfs s w t f ->
  forall r, (r < rows d t)%nat -> f r = mat_vec (space_size d degree) (space d degree t) a r.
Proof. exact fit_polynomial. Qed.
Print Assumptions C68_polynomial.

(** C68: the surface is linear in the data. *)
Theorem C68_linear : forall d degree rbfs nugget ss1 ss2 ss3 s rhs1 rhs2 a b w1 w2 w3 t f1 f2 f3, determined d degree rbfs nugget s ->
  fitted d degree rbfs nugget ss1 s rhs1 w1 -> fitted d degree rbfs nugget ss2 s rhs2 w2 ->
  fitted d degree rbfs nugget ss3 s (fun r => a * rhs1 r + b * rhs2 r) w3 ->
  surface d degree rbfs s w1 t f1 -> surface d degree rbfs s w2 t f2 -> surface d degree rbfs s w3 t f3 ->
  forall r, (r < rows d t)%nat -> f3 r = a * f1 r + b * f2 r.
Proof. exact fit_linear. Qed.
Print Assumptions C68_linear.

(** C68: a further value that the surface already takes changes nothing, whatever the nugget. *)
Theorem C68_more : forall d degree rbfs nugget ss ss' y s rhs w z w' t f f', determined d degree rbfs nugget (with_value y s) ->
  fitted d degree rbfs nugget ss s rhs w -> surface d degree rbfs s w (one_value y) z ->
  fitted d degree rbfs nugget ss' (with_value y s) (with_row (values s) rhs (z 0%nat)) w' ->
  surface d degree rbfs s w t f -> surface d degree rbfs (with_value y s) w' t f' -> forall r, (r < rows d t)%nat -> f' r = f r.
Proof. exact fit_more. Qed.
Print Assumptions C68_more.

(** C68: the order of the values and of the gradients does not matter. *)
Theorem C68_order : forall d degree rbfs nugget ss ss' f g s rhs w w' t h h', permutes (values s) f -> permutes (gradients s) g ->
  determined d degree rbfs nugget s ->
  fitted d degree rbfs nugget ss s rhs w -> fitted d degree rbfs nugget ss' (reordered f g s) (fun r => rhs (reordered_row d f g s r)) w' ->
  surface d degree rbfs s w t h -> surface d degree rbfs (reordered f g s) w' t h' -> forall r, (r < rows d t)%nat -> h' r = h r.
Proof. exact fit_order. Qed.
Print Assumptions C68_order.

(** C68: where the origin is does not matter. *)
Theorem C68_moved : forall d degree rbfs nugget ss ss' v s t rhs w w' f f', determined d degree rbfs nugget s ->
  fitted d degree rbfs nugget ss s rhs w -> fitted d degree rbfs nugget ss' (moved v s) rhs w' ->
  surface d degree rbfs s w t f -> surface d degree rbfs (moved v s) w' (moved v t) f' -> forall r, (r < rows d t)%nat -> f' r = f r.
Proof. exact fit_moved. Qed.
Print Assumptions C68_moved.

(** C68: for values, neither do the axes and the units, if the matrices of the terms change along. *)
Theorem C68_affine : forall d degree terms terms' nugget ss ss' b b' v n n' x y rhs w w' f f',
  (forall p e, (e < d)%nat -> mat_vec d b' (mat_vec d b p) e = p e) -> Forall2 (same_term d b) terms terms' ->
  determined d degree (map (term_rbf d) terms) nugget (points n x) ->
  fitted d degree (map (term_rbf d) terms) nugget ss (points n x) rhs w ->
  fitted d degree (map (term_rbf d) terms') nugget ss' (points n (fun i => affine d b v (x i))) rhs w' ->
  surface d degree (map (term_rbf d) terms) (points n x) w (points n' y) f ->
  surface d degree (map (term_rbf d) terms') (points n (fun i => affine d b v (x i))) w' (points n' (fun i => affine d b v (y i))) f' ->
  forall r, (r < n')%nat -> f' r = f r.
Proof. exact fit_affine. Qed.
Print Assumptions C68_affine.

(** C68: nor does a factor on all functions and the nugget; multiplying the first parameter of every term does that. *)
Theorem C68_scaled : forall d degree rbfs rbfs' nugget c ss ss' s t rhs w w' f f', c <> 0 -> Forall2 (scaled c) rbfs rbfs' ->
  determined d degree rbfs nugget s ->
  fitted d degree rbfs nugget ss s rhs w -> fitted d degree rbfs' (c * nugget) ss' s rhs w' ->
  surface d degree rbfs s w t f -> surface d degree rbfs' s w' t f' -> forall r, (r < rows d t)%nat -> f' r = f r.
Proof. exact fit_scaled. Qed.
Print Assumptions C68_scaled.
Theorem C68_scaled_terms : forall d c terms,
  Forall2 (scaled c) (map (term_rbf d) terms) (map (term_rbf d) (map (fun t => Term (tk t) (c * t0 t) (t1 t) (ta t)) terms)).
Proof. exact terms_scaled. Qed.
Print Assumptions C68_scaled_terms.

(** C68: the gradients returned are those of the surface. *)
Theorem C68_gradient : forall d degree terms s w y F g, degree_ok d degree -> Forall (regular_at d s y) terms ->
  (forall x, surface d degree (map (term_rbf d) terms) s w (one_value x) (fun _ => F x)) ->
  surface d degree (map (term_rbf d) terms) s w (one_gradient y) g ->
  forall e, (e < d)%nat -> partial F e y (g e).
Proof. exact surface_gradient. Qed.
Print Assumptions C68_gradient.

(** C68: without a nugget the surface has the least energy of all that meet the data, with any further centers. *)
Theorem C68_least : forall d degree terms nugget ss n n' x rhs w w' f f', degree_ok d degree -> Forall (good_term d (order degree)) terms ->
  fitted d degree (map (term_rbf d) terms) nugget ss (points n x) rhs w -> (n <= n')%nat -> orthogonal d n' degree x w' ->
  surface d degree (map (term_rbf d) terms) (points n x) w (points n x) f ->
  surface d degree (map (term_rbf d) terms) (points n' x) w' (points n x) f' ->
  nugget = 0 -> (forall i, (i < n)%nat -> f' i = rhs i) -> energy d n (map (term_rbf d) terms) x w <= energy d n' (map (term_rbf d) terms) x w'.
Proof. exact fit_least. Qed.
Print Assumptions C68_least.

(** C68: with a nugget it has the least sum of energy and squared misfit over nugget. *)
Theorem C68_smooths : forall d degree terms nugget ss n n' x rhs w w' f f', degree_ok d degree -> Forall (good_term d (order degree)) terms ->
  fitted d degree (map (term_rbf d) terms) nugget ss (points n x) rhs w -> (n <= n')%nat -> orthogonal d n' degree x w' ->
  surface d degree (map (term_rbf d) terms) (points n x) w (points n x) f ->
  surface d degree (map (term_rbf d) terms) (points n' x) w' (points n x) f' ->
  0 < nugget -> energy d n (map (term_rbf d) terms) x w + rsum n (fun i => (rhs i - f i) ^ 2 / nugget) <=
  energy d n' (map (term_rbf d) terms) x w' + rsum n (fun i => (rhs i - f' i) ^ 2 / nugget).
Proof. exact fit_smooths. Qed.
Print Assumptions C68_smooths.

(** On a line the biharmonic function interpolates linearly: the values 0 at 0 and 2 at 2 give 1 at 1. *)
Definition line_terms : list term := [Term Bh3 1 0 identity_matrix].
Definition line_schedule : list (list nat * (nat -> nat)) := [([0%nat], fun _ => 0%nat)].
Definition line_points : data := points 2 (fun i _ => 2 * INR i).
Definition line_weights (i : nat) : R := nth i [-1 / 2; 1 / 2; 1] 0.
Lemma line_value : forall x y, evaluate 1 Bh3 1 0 identity_matrix (difference (fun _ => x) (fun _ => y)) = - Rabs (x - y).
Proof.
  intros x y. unfold evaluate, value_at. cbn [value]. unfold odd_value. cbv zeta.
  replace (odd_sign 1) with (-1) by reflexivity. replace (dot 1 _ _ + 0 * 0) with (Rsqr (x - y)).
  - rewrite sqrt_Rsqr_abs, pow_1. ring.
  - unfold dot, mat_vec, difference, identity_matrix, Rsqr. cbn [rsum Nat.eqb]. ring.
Qed.
Example C68_line : determined 1 (Some 0%nat) (map (term_rbf 1) line_terms) 0 line_points /\
  fitted 1 (Some 0%nat) (map (term_rbf 1) line_terms) 0 line_schedule line_points (fun i => 2 * INR i) line_weights /\
  surface 1 (Some 0%nat) (map (term_rbf 1) line_terms) line_points line_weights (one_value (fun _ => 1)) (fun _ => 1).
Proof.
  assert (SO : forall m, schedules_ok (nat -> R) (map (term_rbf 1) line_terms) m line_schedule).
  { intros m. split; auto. constructor; [|constructor]. split; cbn; [constructor; [tauto|constructor]|auto]. }
  split; [|split].
  - apply C68_values; cbn [degree_ok order]; try lia.
    + constructor; [|constructor]. exists 1%nat. cbn. repeat split; try lia; try lra. intros v H e E. assert (e = 0)%nat as -> by lia.
      specialize (H 0%nat ltac:(lia)). unfold mat_vec, identity_matrix in H. cbn in H. lra.
    + right. split; auto. split; [|exists (Term Bh3 1 0 identity_matrix); split; [left; auto|cbn; lra]].
      intros i j I J N. exists 0%nat. split; [lia|]. intros X. apply N, INR_eq. lra.
    + intros a H k K. cbn in K. assert (k = 0)%nat as -> by lia. specialize (H 0%nat ltac:(lia)). unfold mat_vec, space, MonomialBasis.evaluate in H. cbn in H. lra.
  - split; [apply SO|]. intros r H. unfold rows, size in H. cbn in H.
    unfold direct_operator, sweep, parallel, mat_vec, row, value_row, size, space, MonomialBasis.evaluate, line_weights, line_points, points.
    cbn [mu sigma pt gpt Nat.mul Nat.add space_size columns length].
    destruct r as [|[|[|r]]]; [| | |lia]; cbn [map line_terms line_schedule combine fold_left fst snd Nat.ltb Nat.leb rsum term_rbf ev tk t0 t1 ta Nat.eqb nth Nat.sub Nat.add Nat.mul INR columns values rows size mu sigma];
      rewrite ?line_value, ?Rabs_right by lra; try lra.
    all: rewrite ?(Rabs_left (2 * 0 - 2 * 1)) by lra; lra.
  - exists line_schedule. split; [apply SO|]. intros r H. unfold rows, size in H. cbn in H. assert (r = 0)%nat as -> by lia.
    unfold direct_evaluator, sweep, parallel, mat_vec, row, value_row, size, space, MonomialBasis.evaluate, line_weights, line_points, points.
    cbn [mu sigma pt gpt one_value map line_terms line_schedule combine fold_left fst snd Nat.ltb Nat.leb rsum term_rbf ev tk t0 t1 ta Nat.eqb nth Nat.sub Nat.add Nat.mul INR columns values rows size space_size length].
    rewrite !line_value, (Rabs_right (1 - 2 * 0)), (Rabs_left (1 - 2 * 1)) by lra. lra.
Qed.
