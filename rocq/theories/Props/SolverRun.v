From Coq Require Import Reals ZArith List Arith Lia Lra Permutation.
From Verif Require Import Proofs.LinAlg Proofs.Pivots Proofs.Operator Proofs.OneLevel Proofs.SolverRun.
From Verif Require Import Model.Outcome Model.LinAlg Model.MonomialBasis Model.Rbfs Model.Solver Model.Operator Model.Grid Model.GridProblem Model.RasPreconditioner Model.Gmres Model.SolverRun.
From Verif Require Import Spec.Rbfs Spec.Operator Spec.PositiveDefinite Spec.Hermite Spec.Grid Spec.RasPreconditioner Spec.Gmres Spec.GridProblem Spec.SolverRun.
From Verif Require Import Props.GridProblem.
Import ListNotations.
Local Open Scope R_scope.

(** C72: the number of levels counts the powers of ten above 2048 rows... *)
Theorem C72_levels : forall rows k, (1 <= rows)%nat ->
  (n_levels rows = S (S k) <-> 2048 * 10 ^ k < INR rows <= 2048 * 10 ^ S k) /\ (n_levels rows = 1%nat <-> INR rows <= 2048).
Proof. exact levels_exact. Qed.
Print Assumptions C72_levels.
(** ... the coarsest level is asked to have 2048 points, each has fewer than all, and the next finer one less than about ten times as many. *)
Theorem C72_sizes : forall rows k, (1 <= rows)%nat -> n_levels rows = S (S k) ->
  let count := n_coarse_points rows (S (S k)) in
  count 1%nat = 2048%Z /\ forall level, (1 <= level <= S k)%nat ->
  (2048 <= count level < Z.of_nat rows)%Z /\ (count level <= count (S level) < 10 * (count level + 1))%Z.
Proof. exact coarse_sizes. Qed.
Print Assumptions C72_sizes.
(** C72: initial weights are made orthogonal to the polynomials. *)
Theorem C72_start : forall n l p initial, independent n l p -> orthogonal n l p (start_weights n l p initial).
Proof. exact start_orthogonal. Qed.
Print Assumptions C72_start.

(** C72: for small data and at least one iteration, solve returns weights that fit the data and are orthogonal to the
    polynomials; it never throws. They are the start, or fit exactly. *)
Theorem C72_small : forall d degree n terms nugget pidx gidx coeffs ldlt lu, good_problem d degree n terms nugget -> all_indices n pidx gidx ->
  good_basis d degree n pidx gidx coeffs -> good_solvers d degree n terms nugget pidx gidx coeffs ldlt lu -> small_data d n ->
  let rbfs := map (term_rbf d) terms in let m := rows d n in let l := basis_size d degree in let p := basis d degree n in
  forall A, exact_operator d degree n terms nugget A -> forall lev kern es, schedules_ok (nat -> R) rbfs m es ->
  let solve := fun _ => coarse_correction d difference rbfs nugget degree coeffs ldlt lu n pidx gidx in
  let M := precondition m l lev kern p solve (n_levels m) in
  forall initial v tol gtol max_iter nan_norm arrange fast, good_rest m arrange fast -> 0 <= tol -> 0 <= gtol -> (1 <= max_iter)%nat ->
  let x := start_weights m l p initial in good_start (m + l) (is_zero (m + l) x) x ->
  exists w, run_solver d difference rbfs nugget l n p A M initial v tol gtol max_iter es nan_norm arrange fast = Ok (as_list (m + l) w) /\
  fits m (values n) (A w) v tol gtol /\ orthogonal m l p w /\ ((forall i, (i < m + l)%nat -> w i = x i) \/ (forall i, (i < m)%nat -> A w i = v i)).
Proof.
  intros d degree n terms nugget pidx gidx coeffs ldlt lu GP AI GB GO (SZ & SV & SG) rbfs m l p A (ss & SC & AG) lev kern es EC solve M
    initial v tol gtol max_iter nan_norm arrange fast [ARR FAST] T1 T2 MI x GS.
  exact (run_small d degree n terms nugget pidx gidx coeffs ldlt lu GP AI GB GO ss es SC EC A AG lev kern SZ
    initial v tol gtol max_iter nan_norm arrange fast ARR FAST T1 T2 MI SV SG GS).
Qed.
Print Assumptions C72_small.
(** C72: initial weights of at most 10^-12 that are not zero are taken for zero by setup but kept by solution_vector: the first
    iteration then misses the values by what these weights contribute, and solve may throw. *)
Theorem C72_tiny_start : forall d degree n terms nugget pidx gidx coeffs ldlt lu, good_problem d degree n terms nugget -> all_indices n pidx gidx ->
  good_basis d degree n pidx gidx coeffs -> good_solvers d degree n terms nugget pidx gidx coeffs ldlt lu -> small_data d n ->
  let rbfs := map (term_rbf d) terms in let m := rows d n in let l := basis_size d degree in let p := basis d degree n in
  forall A, exact_operator d degree n terms nugget A -> forall lev kern es, schedules_ok (nat -> R) rbfs m es ->
  let solve := fun _ => coarse_correction d difference rbfs nugget degree coeffs ldlt lu n pidx gidx in
  let M := precondition m l lev kern p solve (n_levels m) in
  forall initial v tol gtol nan_norm arrange fast, good_rest m arrange fast -> 0 <= tol -> 0 <= gtol ->
  let x := start_weights m l p initial in is_zero (m + l) x = true -> ~ fits m (values n) (A x) v tol gtol -> (exists i, (i < m)%nat /\ v i <> 0) ->
  (exists i, (i < values n)%nat /\ tol < Rabs (A x i)) ->
  run_solver d difference rbfs nugget l n p A M initial v tol gtol 1 es nan_norm arrange fast = Throw ExRuntimeError.
Proof.
  intros d degree n terms nugget pidx gidx coeffs ldlt lu GP AI GB GO (SZ & SV & SG) rbfs m l p A (ss & SC & AG) lev kern es EC solve M
    initial v tol gtol nan_norm arrange fast [ARR FAST] T1 T2 x Z NF NV TA.
  exact (tiny_start d degree n terms nugget pidx gidx coeffs ldlt lu GP AI GB GO ss es SC EC A AG lev kern SZ
    initial v tol gtol 1 nan_norm arrange fast ARR FAST T1 T2 (le_n 1) SV SG Z NF NV TA eq_refl).
Qed.
Print Assumptions C72_tiny_start.

(** The two points of C71, with values 5: the start 0 gives an exact fit, the start with a constant of 10^-13 an exception, with tolerance 0. *)
Definition one_thread : list schedule := [([0%nat], fun _ => 0%nat)].
Definition two_points_operator : (nat -> R) -> nat -> R :=
  direct_operator (nat -> R) difference 1 (map (term_rbf 1) [distance_term]) 0 1 one_thread line_points (basis 1 (Some 0%nat) line_points).
Definition two_points_run (initial : option (nat -> R)) : outcome (list num) :=
  run_solver 1 difference (map (term_rbf 1) [distance_term]) 0 1 line_points (basis 1 (Some 0%nat) line_points) two_points_operator
    (precondition 2 1 (fun _ => []) (fun _ _ => 0) (basis 1 (Some 0%nat) line_points)
      (fun _ => coarse_correction 1 difference (map (term_rbf 1) [distance_term]) 0 (Some 0%nat) (fun _ _ => 1) (fun n a => eliminate n (lower a)) divide line_points [1; 0]%nat []) (n_levels 2))
    initial (fun _ => 5) 0 0 1 one_thread (fun _ => None) (fun _ is => is) (fun _ => [None; None]).
Definition tiny : nat -> R := fun i => if Nat.eqb i 2 then / 10 ^ 13 else 0.
Lemma two_points_small : small_data 1 line_points /\ exact_operator 1 (Some 0%nat) line_points [distance_term] 0 two_points_operator /\
  good_rest 2 (fun _ is => is) (fun _ => [None; None]).
Proof.
  split; [|split].
  - unfold small_data. change (rows 1 line_points) with 2%nat. change (values line_points) with 2%nat. change (gradients line_points) with 0%nat.
    pose proof (Nat.pow_nonzero 2 10 ltac:(lia)). change (2 ^ 11)%nat with (2 * 2 ^ 10)%nat. change (2 ^ 10)%nat with (2 * 2 ^ 9)%nat in *. lia.
  - exists one_thread. split; [apply C71_two_points|]. intros. reflexivity.
  - split; auto.
Qed.
Example C72_two_points : (exists w, two_points_run None = Ok (as_list 3 w) /\ two_points_operator w 0 = 5 /\ two_points_operator w 1 = 5) /\
  two_points_run (Some tiny) = Throw ExRuntimeError.
Proof.
  destruct C71_two_points as (GP & AI & GB & GO & SC & _). destruct two_points_small as (SM & EX & GR). split.
  - destruct (C72_small _ _ _ _ _ _ _ _ _ _ GP AI GB GO SM _ EX (fun _ => []) (fun _ _ => 0) _ SC None (fun _ => 5) 0 0 1%nat (fun _ => None) _ _ GR
      (Rle_refl 0) (Rle_refl 0) (le_n 1)) as (w & RUN & [F _] & _).
    { intros _ i _. reflexivity. }
    exists w. split; [exact RUN|]. change (values line_points) with 2%nat in F.
    assert (G : forall i, (i < 2)%nat -> two_points_operator w i = 5); [|split; apply G; lia].
    intros i I. specialize (F i I). pose proof (Rabs_pos (two_points_operator w i - 5)).
    destruct (Req_dec (two_points_operator w i - 5) 0) as [Z|NZ]; [lra|]. apply Rabs_pos_lt in NZ. lra.
  - assert (T : 0 < / 10 ^ 13) by (apply Rinv_0_lt_compat, pow_lt; lra).
    assert (X : forall i, start_weights 2 1 (basis 1 (Some 0%nat) line_points) (Some tiny) i = tiny i).
    { intros i. unfold start_weights. change (Nat.eqb 1 0) with false. cbv beta iota zeta. destruct (Nat.ltb_spec i 2) as [L|L]; auto.
      unfold mat_vec. rewrite rsum_0; [ring|]. intros k K. rewrite rsum_0; [ring|]. intros j J. unfold tiny. destruct (Nat.eqb_spec j 2); [lia|ring]. }
    assert (AX : forall i, (i < 2)%nat -> two_points_operator (start_weights 2 1 (basis 1 (Some 0%nat) line_points) (Some tiny)) i = / 10 ^ 13).
    { intros i I. unfold two_points_operator. rewrite (direct_entries (nat -> R) difference 1 _ 0 1 one_thread line_points _ _ i SC) by (change (size (nat -> R) 1 line_points) with 2%nat; lia).
      change (size (nat -> R) 1 line_points + 1)%nat with 3%nat. unfold mat_vec. rewrite (rsum_single 3 2%nat); [|lia|].
      - rewrite X. unfold tiny at 1. cbn [Nat.eqb]. unfold system. change (size (nat -> R) 1 line_points) with 2%nat.
        rewrite (proj2 (Nat.ltb_lt i 2)) by lia. change (2 <? 2)%nat with false. cbv iota. change (2 - 2)%nat with 0%nat.
        assert (P : basis 1 (Some 0%nat) line_points i 0%nat = 1); [|rewrite P; ring]. destruct i as [|[|i]]; [| |lia]; cbn; ring.
      - intros j J NE. rewrite X. unfold tiny. destruct (Nat.eqb_spec j 2); [lia|ring]. }
    refine (C72_tiny_start _ _ _ _ _ _ _ _ _ _ GP AI GB GO SM _ EX (fun _ => []) (fun _ _ => 0) _ SC (Some tiny) (fun _ => 5) 0 0 (fun _ => None) _ _ GR
      (Rle_refl 0) (Rle_refl 0) _ _ _ _).
    + unfold is_zero. apply forallb_forall. intros i I. change (rows 1 line_points) with 2%nat. change (basis_size 1 (Some 0%nat)) with 1%nat. rewrite X.
      assert (LE : Rabs (tiny i) <= / 10 ^ 12); [|destruct (Rle_dec (Rabs (tiny i)) (/ 10 ^ 12)); auto; contradiction].
      unfold tiny. destruct (Nat.eqb i 2); [|rewrite Rabs_R0; left; apply Rinv_0_lt_compat, pow_lt; lra].
      rewrite Rabs_right by lra. apply Rinv_le_contravar; [apply pow_lt; lra|]. apply Rle_pow; [lra|lia].
    + intros [F _]. specialize (F 0%nat ltac:(cbn; lia)). change (rows 1 line_points) with 2%nat in F. change (basis_size 1 (Some 0%nat)) with 1%nat in F.
      rewrite AX in F by lia. assert (S0 : / 10 ^ 13 < 1) by (rewrite <- Rinv_1; apply Rinv_lt_contravar; [rewrite Rmult_1_l; apply pow_lt; lra|apply Rlt_pow_R1; [lra|lia]]).
      rewrite Rabs_left in F by lra. lra.
    + exists 0%nat. split; [cbn; lia|lra].
    + exists 0%nat. split; [cbn; lia|]. change (rows 1 line_points) with 2%nat. change (basis_size 1 (Some 0%nat)) with 1%nat. rewrite AX by lia. rewrite Rabs_right; lra.
Qed.
