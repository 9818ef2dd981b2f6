From Coq Require Import List Arith Bool Reals Permutation Lia Lra.
From Verif Require Import Model.Outcome Model.IncrementalFitter.
From Verif Require Import Spec.DistanceFilter Spec.IncrementalFitter Proofs.IncrementalFitter.
From Verif Require Model.DistanceFilter.
Import ListNotations.

(** ** Examples: points and values are natural numbers, one dimension, no polynomial. The solver returns
    the values as weights; the evaluator returns the weight of the first center everywhere. Points are
    near each other only when they coincide. *)
Fixpoint ex_insert (x : nat * nat) (rs : list (nat * nat)) : list (nat * nat) :=
  match rs with
  | [] => [x]
  | y :: rs' => if Nat.leb (snd x) (snd y) then x :: rs else y :: ex_insert x rs'
  end.
Definition ex_sort (rs : list (nat * nat)) : list (nat * nat) := fold_right ex_insert [] rs.
Definition ex_near (d : R) (p q : nat) : Prop := p = q.
Definition ex_search (ps : list nat) (p : nat) (d : R) : list nat :=
  filter (fun j => match nth_error ps j with Some q => Nat.eqb p q | None => false end)
         (seq 0 (length ps)).
Lemma ex_insert_perm : forall x rs, Permutation (ex_insert x rs) (x :: rs).
Proof.
  induction rs as [|y rs IH]; cbn; auto. destruct (Nat.leb (snd x) (snd y)); auto.
  rewrite IH. apply perm_swap.
Qed.
Lemma ex_sort_perm : forall rs, Permutation (ex_sort rs) rs.
Proof. induction rs; cbn; auto. rewrite ex_insert_perm. auto. Qed.

Definition ex_env (pts values : list nat) (tol : nat) : env nat nat :=
  mk_env 1 0 false pts [] values tol 1 1%R 0 Nat.ltb (fun a b => (a - b) + (b - a)) Nat.max ex_sort
    ex_search
    (fun _ c g v _ => if Nat.eqb (length v) (length c + 1 * length g + 0) then Ok v else Throw ExRuntimeError)
    (fun _ c _ w cc cg => repeat (hd 0 w) (length cc + 1 * length cg)).

Lemma ex_env_ok : forall pts values tol, length values = length pts ->
  env_ok ex_near (ex_env pts values tol).
Proof.
  intros pts values tol L. constructor; cbn [values_full dim ltb maxd sort solve evaluate radius_search l ex_env].
  - unfold mu_full, sigma_full. cbn. lia.
  - intros a b t H. apply Nat.ltb_lt in H. rewrite !Nat.ltb_lt. lia.
  - apply ex_sort_perm.
  - intros r c g v w0 w H.
    destruct (Nat.eqb_spec (length v) (length c + 1 * length g + 0)); [|discriminate]. injection H as <-. auto.
  - intros. apply repeat_length.
  - intros ps p d j. unfold ex_search. rewrite filter_In, in_seq. unfold ex_near. split.
    + intros [_ H]. destruct (nth_error ps j) as [q|]; [|discriminate]. apply Nat.eqb_eq in H. eauto.
    + intros (q & Q & <-). rewrite Q, Nat.eqb_refl. split; auto.
      assert (j < length ps); [|lia]. apply nth_error_Some. congruence.
  - unfold ex_near. auto.
Qed.

(** C11: whatever the solver and evaluator answer, when fit() returns after any number of rounds the
    centers are distinct input rows, there is one weight per center, gradient component and basis
    function, and every other input row is reproduced within its tolerance by the returned weights
    (or every input row is a center). *)
Theorem C11_returned_fit :
  forall (Pt D : Type) near (E : env Pt D), env_ok near E ->
  forall n c g w, run E n (init E) = Ok (Finished c g w) -> fitted E c g w.
Proof. exact @incremental_fitted. Qed.
Print Assumptions C11_returned_fit.

Example C11_returned_fit_ex :
  env_ok ex_near (ex_env [0; 1; 2] [5; 5; 9] 6) /\
  run (ex_env [0; 1; 2] [5; 5; 9] 6) 2 (init (ex_env [0; 1; 2] [5; 5; 9] 6))
  = Ok (Finished [2] [] [9]).
Proof.
  split; [apply ex_env_ok; reflexivity|].
  unfold init. cbn [degree_one width_norm ex_env andb].
  assert (valid_distance (Rmax 1 kMinDistance) = true) as V by (apply valid_ge; apply Rmax_r).
  set (d := Rmax 1 kMinDistance) in *. clearbody d.
  cbn [run]. unfold step at 1. cbn -[Rmax valid_distance kMinDistance Rmult Rdiv].
  unfold new_rows, DistanceFilter.filter_indices. rewrite V.
  cbn -[Rmax valid_distance kMinDistance Rmult Rdiv]. reflexivity.
Qed.

(** C11: fit() itself never does anything undefined; it can only fail when the solver does. *)
Theorem C11_no_undefined_behaviour :
  forall (Pt D : Type) near (E : env Pt D), env_ok near E ->
  forall n, (forall r c g v w0, solve E r c g v w0 <> UB) -> run E n (init E) <> UB.
Proof. exact @incremental_no_ub. Qed.
Print Assumptions C11_no_undefined_behaviour.

(** C11: the weights carried into the next round: each old center, gradient component and basis function
    keeps its weight at its new position, all new ones start at zero. *)
Theorem C11_weights_carried_over :
  forall (Pt D : Type) (E : env Pt D) w lm ls mu sigma w', carry E w lm ls mu sigma = Ok w' ->
  lm <= mu -> ls <= sigma ->
  (forall i, i < lm -> nth_error w' i = nth_error w i) /\
  (forall i, lm <= i < mu -> nth_error w' i = Some (zero E)) /\
  (forall i, i < dim E * ls -> nth_error w' (mu + i) = nth_error w (lm + i)) /\
  (forall i, dim E * ls <= i < dim E * sigma -> nth_error w' (mu + i) = Some (zero E)) /\
  (forall i, nth_error w' (mu + dim E * sigma + i) = nth_error w (lm + dim E * ls + i)).
Proof. exact @carry_spec. Qed.
Print Assumptions C11_weights_carried_over.

(** C12: on points that are pairwise not near at the minimum filter distance, the loop ends after at most
    (number of inputs + 1) rounds plus the number of halvings that take the extent of the data to the
    minimum distance. *)
Theorem C12_terminates_on_separated_points :
  forall (Pt D : Type) near (E : env Pt D), env_ok near E ->
  separated near kMinDistance (points_full E) ->
  separated near kMinDistance (grad_points_full E) ->
  forall k, (width_norm E <= 2 ^ k * kMinDistance)%R ->
  settled (run E (k + (mu_full E + sigma_full E + 1)) (init E)).
Proof. exact @incremental_terminates. Qed.
Print Assumptions C12_terminates_on_separated_points.

Example C12_terminates_ex :
  separated ex_near kMinDistance (points_full (ex_env [0; 1; 2] [5; 5; 9] 6)) /\
  Rle (width_norm (ex_env [0; 1; 2] [5; 5; 9] 6)) (2 ^ 63 * kMinDistance).
Proof.
  split.
  - intros i j NE (p & q & P & Q & N). unfold ex_near in N. subst q. cbn [points_full ex_env] in *.
    destruct i as [|[|[|[|i]]]]; destruct j as [|[|[|[|j]]]]; cbn in P, Q; try discriminate; congruence.
  - cbn [width_norm ex_env]. unfold kMinDistance. rewrite Rinv_r; [lra|]. apply pow_nonzero. lra.
Qed.

(** C12, the exception: two coincident points with values 0 and 10 keep the loop running for ever. *)
Lemma ex_stuck : forall n r w d, (kMinDistance <= d)%R -> length w = 1 ->
  exists s, run (ex_env [0; 0] [0; 10] 3) n (mk_state r [1] [] w d) = Ok (Next s).
Proof.
  induction n as [|n IH]; intros r w d H L; [eexists; reflexivity|].
  cbn [run]. unfold step. cbn -[Rmax valid_distance kMinDistance Rmult Rdiv run].
  unfold new_rows, DistanceFilter.filter_indices. rewrite (valid_ge d H).
  cbn -[Rmax valid_distance kMinDistance Rmult Rdiv run]. apply IH; [apply Rmax_r|reflexivity].
Qed.

Theorem C12_coincident_points_refuted :
  exists E : env nat nat, env_ok ex_near E /\
  forall n, exists s, run E n (init E) = Ok (Next s).
Proof.
  exists (ex_env [0; 0] [0; 10] 3). split; [apply ex_env_ok; reflexivity|].
  intros [|n]; [eexists; reflexivity|].
  unfold init. cbn [degree_one width_norm ex_env andb].
  assert (kMinDistance <= Rmax 1 kMinDistance)%R as V by apply Rmax_r.
  set (d := Rmax 1 kMinDistance) in *. clearbody d.
  cbn [run]. unfold step. cbn -[Rmax valid_distance kMinDistance Rmult Rdiv run].
  unfold new_rows, DistanceFilter.filter_indices. rewrite (valid_ge d V).
  cbn -[Rmax valid_distance kMinDistance Rmult Rdiv run].
  apply ex_stuck; [apply Rmax_r|reflexivity].
Qed.
Print Assumptions C12_coincident_points_refuted.
