From Coq Require Import Reals ZArith List Arith Lia Lra Permutation.
From Verif Require Import Proofs.LinAlg Proofs.Operator Proofs.FastOperator.
From Verif Require Import Model.MonomialBasis Model.Grid Model.GridProblem Model.RasPreconditioner Model.Gmres Model.SolverRun Model.Outcome Model.LinAlg Model.Rbfs Model.Solver Model.Operator Model.Fmm Model.FastOperator.
From Verif Require Import Spec.Grid Spec.RasPreconditioner Spec.Gmres Spec.GridProblem Spec.SolverRun Spec.Rbfs Spec.Operator Spec.Fmm Spec.PositiveDefinite Spec.Hermite Spec.FastOperator.
From Verif Require Import Props.SolverRun Props.GridProblem.
Import ListNotations.
Local Open Scope R_scope.

(** C74: whatever an operator was used for before, once it is set to fewer than 2^10 points it succeeds on every call with the
    right number of weights... *)
Theorem C74_calls : forall d nugget accuracy grad_accuracy rest near fresh l p, sound_rest rest -> sound_search d near ->
  forall terms us n ws s, Forall (fun t => range_ok (tk t) (t1 t)) terms -> few n -> Forall (kernels_defined d n) terms ->
  used d nugget accuracy grad_accuracy l p (new_operator d rest near fresh (map function_of terms)) us = Ok s ->
  Forall (fun w => length w = (rows d n + l)%nat) ws -> exists s', used d nugget accuracy grad_accuracy l p s (SetNodes n :: map Call ws) = Ok s'.
Proof. exact few_calls. Qed.
Print Assumptions C74_calls.
(** ... and gives exactly what the direct operator gives, for any accuracy. *)
Theorem C74_exact : forall d nugget accuracy grad_accuracy rest near fresh l p, sound_rest rest -> sound_search d near ->
  forall terms us n ws s, Forall (fun t => range_ok (tk t) (t1 t)) terms -> few n -> Forall (kernels_defined d n) terms ->
  used d nugget accuracy grad_accuracy l p (new_operator d rest near fresh (map function_of terms)) (us ++ SetNodes n :: map Call ws) = Ok s ->
  forall w, length w = (rows d n + l)%nat -> exists s' y, call d nugget l p s w = Ok (s', inl y) /\ length y = (rows d n + l)%nat /\
  forall ss r, schedules_ok (nat -> R) (map (term_rbf d) terms) (rows d n) ss -> (r < rows d n + l)%nat ->
  nth r y 0 = direct_operator (nat -> R) difference d (map (term_rbf d) terms) nugget l ss n (p n) (fun i => nth i w 0) r.
Proof. exact few_exact. Qed.
Print Assumptions C74_exact.
(** C74: for the problems of C64 and C65 the kernels are numbers where they are needed and the ranges are positive. *)
Theorem C74_defined : forall d m n terms nugget, posed d m n terms nugget ->
  Forall (kernels_defined d n) terms /\ Forall (fun t => range_ok (tk t) (t1 t)) terms.
Proof. intros d m n terms nugget P. split; [exact (posed_defined d m n terms nugget P)|exact (posed_range d m n terms nugget P)]. Qed.
Print Assumptions C74_defined.
(** C74: so it is the operator that C72 asks for... *)
Theorem C74_operator : forall d nugget accuracy grad_accuracy rest near fresh, sound_rest rest -> sound_search d near ->
  forall degree m terms us n ws s, let l := basis_size d degree in let p := basis d degree in few n -> posed d m n terms nugget ->
  used d nugget accuracy grad_accuracy l p (new_operator d rest near fresh (map function_of terms)) (us ++ SetNodes n :: map Call ws) = Ok s ->
  exact_operator d degree n terms nugget (Model.FastOperator.applied d nugget l p s).
Proof. exact few_operator. Qed.
Print Assumptions C74_operator.
(** ... and the solver with the fast operator fits small data. *)
Theorem C74_solver : forall d degree n terms nugget pidx gidx coeffs ldlt lu, good_problem d degree n terms nugget -> all_indices n pidx gidx ->
  good_basis d degree n pidx gidx coeffs -> good_solvers d degree n terms nugget pidx gidx coeffs ldlt lu -> (1 <= rows d n <= 2 ^ 11)%nat -> few n ->
  let rbfs := map (term_rbf d) terms in let m := rows d n in let l := basis_size d degree in let p := basis d degree n in
  forall accuracy grad_accuracy rest near fresh, sound_rest rest -> sound_search d near -> forall us ws s,
  used d nugget accuracy grad_accuracy l (basis d degree) (new_operator d rest near fresh (map function_of terms)) (us ++ SetNodes n :: map Call ws) = Ok s ->
  let A := Model.FastOperator.applied d nugget l (basis d degree) s in
  forall lev kern es, schedules_ok (nat -> R) rbfs m es ->
  let solve := fun _ => coarse_correction d difference rbfs nugget degree coeffs ldlt lu n pidx gidx in
  let M := precondition m l lev kern p solve (n_levels m) in
  forall initial v tol gtol max_iter nan_norm arrange fast, good_rest m arrange fast -> 0 <= tol -> 0 <= gtol -> (1 <= max_iter)%nat ->
  let x := start_weights m l p initial in good_start (m + l) (Gmres.is_zero (m + l) x) x ->
  exists w, run_solver d difference rbfs nugget l n p A M initial v tol gtol max_iter es nan_norm arrange fast = Ok (as_list (m + l) w) /\
  fits m (values n) (A w) v tol gtol /\ orthogonal m l p w.
Proof.
  intros d degree n terms nugget pidx gidx coeffs ldlt lu GP AI GB GO SZ FEW rbfs m l p accuracy grad_accuracy rest near fresh SR SS us ws s US A lev kern es EC solve M
    initial v tol gtol max_iter nan_norm arrange fast GR T1 T2 MI x GS.
  assert (SM : small_data d n) by (destruct FEW; split; [exact SZ|split; apply Nat.lt_le_incl; assumption]).
  pose proof (few_operator d nugget accuracy grad_accuracy rest near fresh SR SS degree (order degree) terms us n ws s FEW (proj2 (proj2 GP)) US) as EX.
  destruct (C72_small d degree n terms nugget pidx gidx coeffs ldlt lu GP AI GB GO SM A EX lev kern es EC initial v tol gtol max_iter nan_norm arrange fast GR T1 T2 MI GS)
    as (w & RUN & FIT & ORT & _). exists w. auto.
Qed.
Print Assumptions C74_solver.

(** Sorting that reverses, a search that finds everything within the radius, and a spheroidal function at two points a unit apart,
    after the operator was used for other points. *)
Definition reversing : function -> kernel_kind -> bool -> fenv vec := fun _ _ _ =>
  mk_fenv vec 1 1 (fun _ _ _ _ => 0) (fun _ => 2%nat) (fun _ => @rev _) (fun _ => @rev _) (fun _ _ _ _ _ => 0) (fun _ _ _ _ => 0) (fun n => seq 0 n) (fun _ => [0]) (fun _ => 0).
Definition scan (d : nat) : list vec -> vec -> R -> list nat := fun pts x radius =>
  filter (fun j => if Rlt_dec (sqrt (dot d (difference x (nth j pts (fun _ => 0))) (difference x (nth j pts (fun _ => 0))))) radius then true else false) (seq 0 (length pts)).
Definition unit_spheroid : term := Term (Sp sp3 Full) 1 1 (fun i j => if Nat.eqb i j then 1 else 0).
Definition pair_of (x y : R) : data := Nodes (nat -> R) 2 0 (fun i _ => if Nat.eqb i 0 then x else y) (fun _ _ => 0).
Example C74_spheroid : sound_rest reversing /\ sound_search 1 (scan 1) /\ few (pair_of 0 1) /\ kernels_defined 1 (pair_of 0 1) unit_spheroid /\
  exists s s' y, used 1 0 (Some 1) None 0 (fun _ _ _ => 0) (new_operator 1 reversing (scan 1) (fun _ => [0]) (map function_of [unit_spheroid]))
    [SetNodes (pair_of 5 7); Call [1; 2]; SetNodes (pair_of 0 1); Call [4; 5]] = Ok s /\
  call 1 0 0 (fun _ _ _ => 0) s [3; 0] = Ok (s', inl y) /\ length y = 2%nat /\ nth 0 y 0 = 3.
Proof.
  assert (SR : sound_rest reversing). { intros f kk b. split; cbn; auto; intros; apply Permutation_sym; apply Permutation_rev. }
  assert (SS : sound_search 1 (scan 1)).
  { intros pts x radius. unfold scan. split; [apply NoDup_filter, seq_NoDup|]. split.
    - intros j J. apply filter_In in J. destruct J as [J _]. apply in_seq in J. exact (proj2 J).
    - intros j J D. apply filter_In. split; [apply in_seq; split; [apply Nat.le_0_l|exact J]|]. destruct (Rlt_dec _ radius); [reflexivity|contradiction]. }
  assert (FEW : forall x y, few (pair_of x y)).
  { intros x y. assert (P : (2 < 2 ^ 10)%nat) by (apply Nat.ltb_lt; reflexivity).
    split; [exact P|exact (Nat.lt_trans 0 2 _ Nat.lt_0_2 P)]. }
  assert (KD : forall x y, kernels_defined 1 (pair_of x y) unit_spheroid).
  { intros x y. repeat split; intros a b i j A B; solve [destruct A|destruct B]. }
  assert (RO : Forall (fun t => range_ok (tk t) (t1 t)) [unit_spheroid]) by (constructor; [cbn; lra|constructor]).
  split; [exact SR|]. split; [exact SS|]. split; [apply FEW|]. split; [apply KD|].
  pose proof (C74_calls 1 0 (Some 1) None reversing (scan 1) (fun _ => [0]) 0 (fun _ _ _ => 0) SR SS [unit_spheroid]) as CALLS.
  destruct (CALLS [] (pair_of 5 7) [[1; 2]] _ RO (FEW _ _) (Forall_cons _ (KD _ _) (Forall_nil _)) eq_refl) as (s1 & U1); [repeat constructor|].
  destruct (CALLS [SetNodes (pair_of 5 7); Call [1; 2]] (pair_of 0 1) [[4; 5]] s1 RO (FEW _ _) (Forall_cons _ (KD _ _) (Forall_nil _)) U1) as (s & U2); [repeat constructor|].
  assert (U : used 1 0 (Some 1) None 0 (fun _ _ _ => 0) (new_operator 1 reversing (scan 1) (fun _ => [0]) (map function_of [unit_spheroid]))
    ([SetNodes (pair_of 5 7); Call [1; 2]] ++ SetNodes (pair_of 0 1) :: map Call [[4; 5]]) = Ok s) by (rewrite used_app; exact (eq_trans (f_equal (fun o => bind o _) U1) U2)).
  destruct (C74_exact 1 0 (Some 1) None reversing (scan 1) (fun _ => [0]) 0%nat (fun _ _ _ => 0) SR SS [unit_spheroid] _ _ _ s RO (FEW _ _) (Forall_cons _ (KD _ _) (Forall_nil _)) U [3; 0] eq_refl)
    as (s' & y & EC & LY & NY).
  exists s, s', y. split; [exact U|]. split; [exact EC|]. split; [exact LY|].
  assert (SC : schedules_ok (nat -> R) (map (term_rbf 1) [unit_spheroid]) (rows 1 (pair_of 0 1)) one_thread).
  { split; [reflexivity|]. constructor; [|constructor]. split; [constructor; [intros []|constructor]|]. intros r _. left. reflexivity. }
  rewrite (NY one_thread 0%nat SC) by (cbn; lia). rewrite direct_entries by (exact SC || (cbn; lia)).
  change (size (nat -> R) 1 (pair_of 0 1) + 0)%nat with 2%nat. unfold mat_vec. cbn [rsum nth].
  assert (K : system (nat -> R) difference 1 (map (term_rbf 1) [unit_spheroid]) 0 (pair_of 0 1) (fun _ _ => 0) 0 0 = 1).
  { unfold system, Spec.Operator.kernel, nugget_at. change (size (nat -> R) 1 (pair_of 0 1)) with 2%nat. cbn [Nat.ltb Nat.leb map lsum Nat.eqb mu pair_of pt term_rbf ev unit_spheroid tk t0 t1 ta].
    unfold Rbfs.evaluate, value_at. cbn [Rbfs.value]. unfold sp_value.
    assert (Z : dot 1 (mat_vec 1 (fun i j => if Nat.eqb i j then 1 else 0) (difference (fun _ => 0) (fun _ => 0)))
      (mat_vec 1 (fun i j => if Nat.eqb i j then 1 else 0) (difference (fun _ => 0) (fun _ => 0))) = 0).
    { unfold dot, mat_vec, difference. cbn. ring. }
    rewrite Z, sqrt_0. unfold lt_dec_b. destruct (Rlt_dec (0 / 1) (kRho0 sp3)) as [L|L].
    - unfold lin_value. rewrite sqrt_0. replace (0 / 1) with 0 by field. ring.
    - exfalso. apply L. cbn [sp3 kRho0]. lra. }
  rewrite K. ring.
Qed.
