From Coq Require Import Reals ZArith List Arith Lia Lra Permutation.
From Verif Require Import Proofs.LinAlg Proofs.Operator Proofs.FastOperator Proofs.FastEvaluator.
From Verif Require Import Model.MonomialBasis Model.Grid Model.GridProblem Model.RasPreconditioner Model.Gmres Model.SolverRun Model.Outcome Model.LinAlg Model.Rbfs Model.Solver Model.Operator Model.Fmm Model.FastOperator Model.FastEvaluator.
From Verif Require Import Spec.Grid Spec.RasPreconditioner Spec.Gmres Spec.GridProblem Spec.SolverRun Spec.Rbfs Spec.Operator Spec.Fmm Spec.PositiveDefinite Spec.Hermite Spec.FastOperator Spec.FastEvaluator.
From Verif Require Import Props.SolverRun Props.GridProblem Props.FastOperator.
Import ListNotations.
Local Open Scope R_scope.

(** C76: whatever an Evaluator or a SymmetricEvaluator was used for before, if its sources have been set, its weights have been set since, and
    the product of the numbers of sources and of targets is less than 2^20 (the number of points less than 2^10), then evaluate() succeeds and
    gives what the direct evaluator gives. *)
Theorem C76_exact : forall d accuracy grad_accuracy rest near fresh l p own, sound_rest rest -> sound_search d near ->
  forall terms us s ys n t w, Forall (fun t => range_ok (tk t) (t1 t)) terms -> Forall (use_of own) us ->
  evaluator_used d accuracy grad_accuracy l p (new_evaluator d rest near fresh l own (map function_of terms)) us = Ok (s, ys) ->
  given_by us = Given (Some n) t (Some w) -> few_between own n t -> Forall (kernels_between d n t) terms ->
  exists s' y, run_evaluator d l p s = Ok (s', inl y) /\ evaluates d l p terms n t w y.
Proof. exact evaluator_exact. Qed.
Print Assumptions C76_exact.
(** C76: weights of the right number are taken at any time after the sources. *)
Theorem C76_weights : forall d accuracy grad_accuracy rest near fresh l p own, sound_rest rest -> sound_search d near ->
  forall terms us s ys n w, Forall (fun t => range_ok (tk t) (t1 t)) terms -> Forall (use_of own) us ->
  evaluator_used d accuracy grad_accuracy l p (new_evaluator d rest near fresh l own (map function_of terms)) us = Ok (s, ys) ->
  g_source (given_by us) = Some n -> length w = (rows d n + l)%nat -> exists s', put_weights d l s w = Ok s'.
Proof. exact evaluator_loads. Qed.
Print Assumptions C76_weights.
(** C76: an interpolant can be evaluated any number of times, and every answer is exact. *)
Theorem C76_queries : forall d accuracy grad_accuracy rest near fresh l p, sound_rest rest -> sound_search d near ->
  forall terms n w qs, Forall (fun t => range_ok (tk t) (t1 t)) terms -> length w = (rows d n + l)%nat ->
  Forall (fun t => few_between false n t /\ Forall (kernels_between d n t) terms) qs ->
  exists s ys, evaluator_used d accuracy grad_accuracy l p (new_evaluator d rest near fresh l false (map function_of terms)) (interpolant_uses n w qs) = Ok (s, ys) /\
  Forall2 (fun t r => exists y, r = inl y /\ evaluates d l p terms n t w y) qs ys.
Proof. exact interpolant_queries. Qed.
Print Assumptions C76_queries.
(** C76: the kernels are numbers for values at any points. *)
Theorem C76_defined : forall d m s t tm, gradients t = 0%nat -> gradients s = 0%nat \/ usable d m s tm -> kernels_between d s t tm.
Proof. exact between_defined. Qed.
Print Assumptions C76_defined.
(** C76: the value and the gradient at a point do not depend on what else is asked for. *)
Theorem C76_points : forall d degree terms n t t' w y y', let l := basis_size d degree in let p := basis d degree in
  evaluates d l p terms n t w y -> evaluates d l p terms n t' w y' ->
  (forall i j, (i < values t)%nat -> (j < values t')%nat -> pt (nat -> R) t i = pt (nat -> R) t' j -> nth i y 0 = nth j y' 0) /\
  (forall i j e, (i < gradients t)%nat -> (j < gradients t')%nat -> (e < d)%nat -> gpt (nat -> R) t i = gpt (nat -> R) t' j ->
    nth (values t + d * i + e) y 0 = nth (values t' + d * j + e) y' 0).
Proof. exact evaluates_points. Qed.
Print Assumptions C76_points.
(** C76: at the sources it is the operator without the nugget. *)
Theorem C76_operator : forall d l p terms nugget n w y, evaluates d l p terms n n w y ->
  forall ss r, schedules_ok (nat -> R) (map (term_rbf d) terms) (rows d n) ss -> (r < rows d n)%nat ->
  direct_operator (nat -> R) difference d (map (term_rbf d) terms) nugget l ss n (p n) (fun i => nth i w 0) r =
  nth r y 0 + (if (r <? values n)%nat then nugget * nth r w 0 else 0).
Proof. exact evaluates_operator. Qed.
Print Assumptions C76_operator.
(** C76: the solver fits small data, and the interpolant with these weights, evaluated at its own centers, is within the
    tolerances of the data, up to the nugget. *)
Theorem C76_fitted : forall d degree n terms nugget pidx gidx coeffs ldlt lu, good_problem d degree n terms nugget -> all_indices n pidx gidx ->
  good_basis d degree n pidx gidx coeffs -> good_solvers d degree n terms nugget pidx gidx coeffs ldlt lu -> (1 <= rows d n <= 2 ^ 11)%nat -> few n ->
  let rbfs := map (term_rbf d) terms in let m := rows d n in let l := basis_size d degree in let p := basis d degree n in
  forall accuracy grad_accuracy accuracy' grad_accuracy' rest near fresh, sound_rest rest -> sound_search d near -> forall us ws s,
  used d nugget accuracy grad_accuracy l (basis d degree) (new_operator d rest near fresh (map function_of terms)) (us ++ SetNodes n :: map Call ws) = Ok s ->
  let A := Model.FastOperator.applied d nugget l (basis d degree) s in
  forall lev kern es, schedules_ok (nat -> R) rbfs m es ->
  let solve := fun _ => coarse_correction d difference rbfs nugget degree coeffs ldlt lu n pidx gidx in
  let M := precondition m l lev kern p solve (n_levels m) in
  forall initial v tol gtol max_iter nan_norm arrange fast, good_rest m arrange fast -> 0 <= tol -> 0 <= gtol -> (1 <= max_iter)%nat ->
  let x := start_weights m l p initial in good_start (m + l) (Gmres.is_zero (m + l) x) x ->
  exists w, run_solver d difference rbfs nugget l n p A M initial v tol gtol max_iter es nan_norm arrange fast = Ok (as_list (m + l) w) /\
  exists s' y, evaluator_used d accuracy' grad_accuracy' l (basis d degree) (new_evaluator d rest near fresh l false (map function_of terms))
    (interpolant_uses n (map w (seq 0 (m + l))) [n]) = Ok (s', [inl y]) /\ length y = m /\
  fits m (values n) (fun i => nth i y 0 + (if (i <? values n)%nat then nugget * w i else 0)) v tol gtol.
Proof.
  intros d degree n terms nugget pidx gidx coeffs ldlt lu GP AI GB GO SZ FEW rbfs m l p accuracy grad_accuracy accuracy' grad_accuracy' rest near fresh SR SS us ws s US A lev kern es EC solve M
    initial v tol gtol max_iter nan_norm arrange fast GR T1 T2 MI x GS.
  destruct (C74_solver d degree n terms nugget pidx gidx coeffs ldlt lu GP AI GB GO SZ FEW accuracy grad_accuracy rest near fresh SR SS us ws s US lev kern es EC
    initial v tol gtol max_iter nan_norm arrange fast GR T1 T2 MI GS) as (w & RUN & FIT & _).
  exists w. split; [exact RUN|]. destruct (C74_defined d _ n terms nugget (proj2 (proj2 GP))) as [KD RO].
  assert (FB : few_between false n n).
  { unfold few_between. destruct FEW as [F1 F2]. change (2 ^ 20)%nat with (2 ^ (10 + 10))%nat. rewrite Nat.pow_add_r. apply Nat.mul_lt_mono_nonneg; auto with arith;
      apply Nat.max_lub_lt; assumption. }
  destruct (interpolant_queries d accuracy' grad_accuracy' rest near fresh l (basis d degree) SR SS terms n (map w (seq 0 (m + l))) [n] RO) as (s' & ys & E & Y).
  { rewrite map_length, seq_length. reflexivity. }
  { constructor; [split; [exact FB|exact KD]|constructor]. }
  inversion Y as [|? r ? ys' (y & -> & EV) Y']; subst. inversion Y'; subst. exists s', y. split; [exact E|]. split; [exact (proj1 EV)|].
  destruct (few_operator d nugget accuracy grad_accuracy rest near fresh SR SS degree (order degree) terms us n ws s FEW (proj2 (proj2 GP)) US) as (ss & SO & EX).
  assert (SAME : forall i, (i < m)%nat -> A w i = nth i y 0 + (if (i <? values n)%nat then nugget * w i else 0)).
  { intros i I0. unfold A, l. rewrite (EX w i) by (apply Nat.lt_lt_add_r; exact I0). fold l.
    assert (B : (i < m + l)%nat) by (apply Nat.lt_lt_add_r; exact I0).
    pose proof (evaluates_operator d l (basis d degree) terms nugget n _ y EV ss i SO I0) as OP.
    rewrite (nth_seq_map w (m + l) i B) in OP. rewrite <- OP. change (rows d n) with (size (nat -> R) d n) in m.
    rewrite !direct_entries by auto. unfold mat_vec. apply rsum_ext. intros k K. f_equal. symmetry. apply nth_seq_map. exact K. }
  destruct FIT as [F1 F2]. split; intros i I0.
  - rewrite <- SAME; [apply F1; exact I0|]. unfold m, rows, size. unfold values in I0. lia.
  - rewrite <- SAME by lia. apply F2; exact I0.
Qed.
Print Assumptions C76_fitted.

(** C76: setting the sources again, even to the same points, loses the weights: an Evaluator whose weights were set before its
    sources gives something else. *)
Definition everything : list vec -> vec -> R -> list nat := fun pts _ _ => seq 0 (length pts).
Definition unit_cubic : term := Term Cub 1 1 (fun i j => if Nat.eqb i j then 1 else 0).
Definition single : data := Nodes (nat -> R) 1 0 (fun _ _ => 0) (fun _ _ => 0).
Theorem C76_order_refuted : exists rest near fresh s y, sound_rest rest /\ sound_search 1 near /\
  evaluator_used 1 None None 0 (fun _ _ _ => 0) (new_evaluator 1 rest near fresh 0 false (map function_of [unit_cubic]))
    [UseSource single; UseWeights [3]; UseSource single; UseTarget single; UseRun] = Ok (s, [inl y]) /\
  ~ evaluates 1 0 (fun _ _ _ => 0) [unit_cubic] single single [3] y.
Proof.
  exists reversing, everything, (fun _ => [0]).
  assert (SR : sound_rest reversing). { intros f kk b. split; cbn; auto; intros; apply Permutation_sym; apply Permutation_rev. }
  assert (SS : sound_search 1 everything).
  { intros pts x radius. unfold everything. split; [apply seq_NoDup|]. split; [intros j J; apply in_seq in J; exact (proj2 J)|]. intros j J _. apply in_seq. split; [apply Nat.le_0_l|exact J]. }
  eexists _, _. split; [exact SR|]. split; [exact SS|]. split.
  { cbn -[kernel_number transformed]. reflexivity. }
  intros [_ E]. specialize (E one_thread 0%nat).
  assert (SC : schedules_ok (nat -> R) (map (term_rbf 1) [unit_cubic]) (rows 1 single) one_thread).
  { split; [reflexivity|]. constructor; [|constructor]. split; [constructor; [intros []|constructor]|]. intros r _. left. reflexivity. }
  specialize (E SC ltac:(cbn; lia)). rewrite evaluator_entries in E by (exact SC || (cbn; lia)).
  assert (K : Spec.Operator.kernel (nat -> R) difference 1 (map (term_rbf 1) [unit_cubic]) single single 0 0 = 1).
  { unfold Spec.Operator.kernel. cbn [map lsum Nat.ltb Nat.leb mu single pt term_rbf ev unit_cubic tk t0 t1 ta]. unfold Rbfs.evaluate, value_at. cbn [Rbfs.value].
    replace (dot 1 _ _) with 0 by (unfold dot, mat_vec, difference; cbn; ring). unfold cub_value. rewrite sqrt_0. unfold lt_dec_b. destruct (Rlt_dec 0 1); [|lra]. field. }
  change (size (nat -> R) 1 single) with 1%nat in E. unfold mat_vec in E. cbn [rsum] in E. rewrite K in E. cbn [nth] in E. lra.
Qed.
Print Assumptions C76_order_refuted.

(** A spheroidal function with two centers, evaluated at two other points and then at the first center, where it is 3. *)
Example C76_spheroid : exists s ys, 
  evaluator_used 1 (Some 1) None 0 (fun _ _ _ => 0) (new_evaluator 1 reversing (scan 1) (fun _ => [0]) 0 false (map function_of [unit_spheroid]))
    (interpolant_uses (pair_of 0 1) [3; 0] [pair_of 5 7; single]) = Ok (s, ys) /\
  exists y y', ys = [inl y; inl y'] /\ length y = 2%nat /\ y' = [3].
Proof.
  destruct C74_spheroid as (SR & SS & _).
  assert (RO : Forall (fun t => range_ok (tk t) (t1 t)) [unit_spheroid]) by (constructor; [cbn; lra|constructor]).
  assert (KB : forall t, gradients t = 0%nat -> Forall (kernels_between 1 (pair_of 0 1) t) [unit_spheroid]).
  { intros t Z. constructor; [|constructor]. apply (C76_defined 1 0); [exact Z|left; reflexivity]. }
  assert (P : (4 < 2 ^ 20)%nat) by (change 4%nat with (2 ^ 2)%nat; apply Nat.pow_lt_mono_r; lia).
  destruct (C76_queries 1 (Some 1) None reversing (scan 1) (fun _ => [0]) 0%nat (fun _ _ _ => 0) SR SS [unit_spheroid] (pair_of 0 1) [3; 0] [pair_of 5 7; single] RO eq_refl) as (s & ys & E & Y).
  { constructor; [split; [exact P|apply KB; reflexivity]|]. constructor; [split; [exact (Nat.lt_trans 2 4 _ ltac:(lia) P)|apply KB; reflexivity]|constructor]. }
  exists s, ys. split; [exact E|]. inversion Y as [|? r1 ? ys1 (y & -> & EV) Y1]; subst. inversion Y1 as [|? r2 ? ys2 (y' & -> & EV') Y2]; subst. inversion Y2; subst.
  exists y, y'. split; [reflexivity|]. split; [exact (proj1 EV)|]. destruct EV' as [L N]. change (rows 1 single) with 1%nat in L.
  destruct y' as [|a [|b y']]; try discriminate L. f_equal.
  assert (SC : schedules_ok (nat -> R) (map (term_rbf 1) [unit_spheroid]) (rows 1 single) one_thread).
  { split; [reflexivity|]. constructor; [|constructor]. split; [constructor; [intros []|constructor]|]. intros r _. left. reflexivity. }
  specialize (N one_thread 0%nat SC ltac:(cbn; lia)). rewrite evaluator_entries in N by (exact SC || (cbn; lia)).
  change (size (nat -> R) 1 (pair_of 0 1)) with 2%nat in N. unfold mat_vec in N. cbn [rsum nth] in N.
  assert (K : Spec.Operator.kernel (nat -> R) difference 1 (map (term_rbf 1) [unit_spheroid]) (pair_of 0 1) single 0 0 = 1).
  { unfold Spec.Operator.kernel. cbn [map lsum Nat.ltb Nat.leb mu single pair_of pt term_rbf ev unit_spheroid tk t0 t1 ta Nat.eqb]. unfold Rbfs.evaluate, value_at. cbn [Rbfs.value]. unfold sp_value.
    replace (dot 1 _ _) with 0 by (unfold dot, mat_vec, difference; cbn; ring). rewrite sqrt_0. unfold lt_dec_b. destruct (Rlt_dec (0 / 1) (kRho0 sp3)) as [H|H].
    - unfold lin_value. rewrite sqrt_0. replace (0 / 1) with 0 by field. ring.
    - exfalso. apply H. cbn [sp3 kRho0]. lra. }
  rewrite K in N. rewrite N. ring.
Qed.
