From Coq Require Import Reals List Arith ZArith Lia Lra.
From Verif Require Import Proofs.LinAlg Proofs.PositiveDefinite Proofs.PositiveKinds Proofs.PositiveSystem Proofs.HermiteSystem.
From Verif Require Import Model.LinAlg Model.MonomialBasis Model.Rbfs Model.Operator Spec.Rbfs Spec.Operator Spec.PositiveDefinite Spec.Hermite.
Import ListNotations.
Local Open Scope R_scope.

(** C65: with gradient data too, the matrix of values, gradients and Hessians is positive definite on the weights that vanish on
    the polynomials below the order, as soon as the value points differ from each other (or there is a nugget) and the
    gradient points differ from each other. *)
Theorem C65_matrix : forall d n terms m nugget, Forall (usable d m n) terms -> separated d n terms nugget ->
  definite (rows d n) (hermite_moments d n m) (mat_a (nat -> R) difference (fun _ => 0) d (map (term_rbf d) terms) nugget n).
Proof. exact hermite_matrix. Qed.
Print Assumptions C65_matrix.
(** C65: so the operator takes every list of values and gradients exactly once, with the monomials of a degree that fits... *)
Theorem C65_solved : forall d degree n terms nugget ss, (1 <= d <= 3)%nat -> (degree <= 2)%nat ->
  Forall (usable d (S degree) n) terms -> separated d n terms nugget ->
  let l := length (columns d degree) in let p := MonomialBasis.evaluate d degree (values n) (pt (nat -> R) n) (gpt (nat -> R) n) in
  unisolvent (rows d n) l p -> schedules_ok (nat -> R) (map (term_rbf d) terms) (rows d n) ss ->
  let A := direct_operator (nat -> R) difference d (map (term_rbf d) terms) nugget l ss n p in
  forall b, (exists w, forall r, (r < rows d n + l)%nat -> A w r = b r) /\
  forall w v, (forall r, (r < rows d n + l)%nat -> A w r = b r) -> (forall r, (r < rows d n + l)%nat -> A v r = b r) -> forall r, (r < rows d n + l)%nat -> w r = v r.
Proof. exact hermite_solved. Qed.
Print Assumptions C65_solved.
(** ... or without a polynomial. *)
Theorem C65_solved_plain : forall d n terms nugget p ss, Forall (usable d 0 n) terms -> separated d n terms nugget ->
  schedules_ok (nat -> R) (map (term_rbf d) terms) (rows d n) ss ->
  let A := direct_operator (nat -> R) difference d (map (term_rbf d) terms) nugget 0 ss n p in
  forall b, (exists w, forall r, (r < rows d n)%nat -> A w r = b r) /\
  forall w v, (forall r, (r < rows d n)%nat -> A w r = b r) -> (forall r, (r < rows d n)%nat -> A v r = b r) -> forall r, (r < rows d n)%nat -> w r = v r.
Proof. exact hermite_plain. Qed.
Print Assumptions C65_solved_plain.
(** C65: the Hessians of the terms in use can fail to be numbers only for the functions with a logarithm. *)
Theorem C65_defined : forall d n t, In (tk t) [Bh3; Th3; Gau; Gc3; Gc5; Gc7; Gc9] -> hessians_defined d n t.
Proof. exact hessians_numbers. Qed.
Print Assumptions C65_defined.
(** C65: whatever the terms, the system is solved once only if the data are unisolvent and the gradient points are distinct. *)
Theorem C65_needs_unisolvent : forall d n terms nugget l p,
  solved_once (rows d n + l) (system (nat -> R) difference d (map (term_rbf d) terms) nugget n p) -> unisolvent (rows d n) l p.
Proof. exact hermite_needs_unisolvent. Qed.
Print Assumptions C65_needs_unisolvent.
Theorem C65_needs_distinct : forall d n terms nugget l p, (1 <= d)%nat ->
  (forall i j e k, (i < gradients n)%nat -> (j < gradients n)%nat -> (e < d)%nat -> (k < l)%nat -> (forall f, (f < d)%nat -> gpt (nat -> R) n i f = gpt (nat -> R) n j f) ->
    p (values n + d * i + e)%nat k = p (values n + d * j + e)%nat k) ->
  solved_once (rows d n + l) (system (nat -> R) difference d (map (term_rbf d) terms) nugget n p) -> distinct (gradients n) d (gpt (nat -> R) n).
Proof. exact hermite_needs_distinct. Qed.
Print Assumptions C65_needs_distinct.
(** C65: the smoothing constant of a biharmonic function is needed: without it, a value and a gradient at one place are enough
    to make the system singular, whatever the slope and the nugget, although every entry is a number and the data are
    unisolvent. *)
Theorem C65_biharmonic_refuted : forall d slope nugget, (1 <= d <= 3)%nat ->
  let t := Term Bh3 slope 0 (fun i j => if Nat.eqb i j then 1 else 0) in
  let l := length (columns d 0) in let p := MonomialBasis.evaluate d 0 1 (fun _ _ => 0) (fun _ _ => 0) in
  hessians_defined d one_place t /\ unisolvent (rows d one_place) l p /\
  ~ solved_once (rows d one_place + l) (system (nat -> R) difference d (map (term_rbf d) [t]) nugget one_place p).
Proof. exact biharmonic_singular. Qed.
Print Assumptions C65_biharmonic_refuted.

(** A value and a gradient at one place of the plane, a triharmonic term and polynomials of degree 1: all is determined. *)
Definition th3 : term := Term Th3 1 0 (fun i j => if Nat.eqb i j then 1 else 0).
Example C65_one_place : usable 2 2 one_place th3 /\ separated 2 one_place [th3] 0 /\
  unisolvent (rows 2 one_place) (length (columns 2 1)) (MonomialBasis.evaluate 2 1 1 (fun _ _ => 0) (fun _ _ => 0)) /\
  schedules_ok (nat -> R) (map (term_rbf 2) [th3]) (rows 2 one_place) [([0]%nat, fun _ => 0%nat)].
Proof.
  split; [split; [|split]|split; [|split]].
  - exists 2%nat. cbn. split; [reflexivity|]. split; [lia|]. split; [lra|]. split; [discriminate|]. intros v H e E.
    destruct e as [|[|e]]; [specialize (H 0%nat E)|specialize (H 1%nat E)|lia]; unfold mat_vec in H; cbn in H; lra.
  - exact I.
  - apply hessians_numbers. cbn. auto.
  - split; [|split].
    + intros i j I J N. unfold gradients in *. cbn in I, J. lia.
    + right. split; auto. intros i j I J N. unfold values in *. cbn in I, J. lia.
    + exists th3. split; [left; auto|cbn; lra].
  - intros a H k K. cbn in K. pose proof (H 0%nat ltac:(cbn; lia)) as H0. pose proof (H 1%nat ltac:(cbn; lia)) as H1. pose proof (H 2%nat ltac:(cbn; lia)) as H2.
    unfold mat_vec, MonomialBasis.evaluate in H0, H1, H2. cbn in H0, H1, H2. destruct k as [|[|[|k]]]; lra || lia.
  - split; [reflexivity|]. constructor; [|constructor]. split; [repeat constructor; cbn; intuition|]. intros r _. left. reflexivity.
Qed.
(** Two values and a gradient at one of them for a Gaussian term, without a polynomial. *)
Definition gau : term := Term Gau 2 5 (fun i j => if Nat.eqb i j then 1 else 0).
Definition two_one : data := Nodes (nat -> R) 2 1 (fun i _ => INR i) (fun _ _ => 0).
Example C65_two_one : usable 3 0 two_one gau /\ separated 3 two_one [gau] 0 /\ rows 3 two_one = 5%nat.
Proof.
  split; [split; [|split]|split; [|reflexivity]].
  - exists 0%nat. cbn. split; [reflexivity|]. split; [lia|]. split; [lra|]. split; [intros; lra|]. intros v H e E.
    destruct e as [|[|[|e]]]; [specialize (H 0%nat E)|specialize (H 1%nat E)|specialize (H 2%nat E)|lia]; unfold mat_vec in H; cbn in H; lra.
  - exact I.
  - apply hessians_numbers. cbn. auto.
  - split; [|split].
    + intros i j I J N. unfold gradients in *. cbn in I, J. lia.
    + right. split; auto. intros i j I J N. unfold values in *. cbn in I, J. exists 0%nat. split; [lia|]. cbn. apply not_INR. auto.
    + exists gau. split; [left; auto|cbn; lra].
Qed.
