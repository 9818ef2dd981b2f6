From Coq Require Import Reals ZArith List Arith Lia Lra Bool Permutation.
From Verif Require Import Proofs.LinAlg Proofs.PositiveSystem Proofs.HermiteSystem Proofs.Operator Proofs.Grid Proofs.Pivots Proofs.GridProblem
  Proofs.Orthonormalize Proofs.RasPreconditioner Proofs.Gmres Proofs.GmresState Proofs.GmresMain Proofs.OneLevel Proofs.Solver.
From Verif Require Import Model.Outcome Model.LinAlg Model.MonomialBasis Model.Rbfs Model.Solver Model.Operator Model.Grid Model.GridProblem Model.RasPreconditioner Model.Gmres Model.SolverRun.
From Verif Require Import Spec.Solver Spec.Rbfs Spec.Operator Spec.PositiveDefinite Spec.Hermite Spec.Grid Spec.RasPreconditioner Spec.Gmres Spec.GridProblem.
Import ListNotations.
Local Open Scope R_scope.

(** ** Weights that reproduce the values pass the test *)
Lemma norm_passes : forall E (d : list num) t, 0 <= t -> (forall x : num, In x d -> exists y, x = Some y /\ Rabs y <= t) -> gtb (Solver.norm E d) t = false.
Proof.
  intros E d t T H. assert (exists xs, all_numbers d = Some xs /\ forall y, In y xs -> Rabs y <= t) as (xs & AN & B).
  { induction d as [|a d IH]; [exists []; split; auto; intros y []|]. destruct IH as (xs & AN & B); [intros; apply H; right; auto|].
    destruct (H a (or_introl eq_refl)) as (y & -> & Y). exists (y :: xs). cbn. rewrite AN. split; auto. intros z [<-|Z]; auto. }
  unfold Solver.norm. rewrite AN. cbn. destruct (Rlt_dec t _) as [L|]; auto. exfalso. apply (Rlt_not_le _ _ L). clear - B T.
  induction xs as [|x xs IH]; cbn; [auto|]. apply Rmax_lub; [apply B; left; auto|apply IH; intros; apply B; right; auto].
Qed.
Lemma error_passes : forall E a b r t, absolute_error E a b = Ok r -> 0 <= t ->
  (forall i x y, nth_error a i = Some x -> nth_error b i = Some y -> Spec.Solver.close x y t) -> gtb r t = false.
Proof.
  intros E a b r t H T C. unfold absolute_error in H. destruct (vsub a b) as [d| |] eqn:V; cbn in H; try discriminate. injection H as <-.
  destruct (vsub_spec _ _ _ V) as (L1 & L2 & N). apply norm_passes; auto. intros z Z. apply In_nth_error in Z. destruct Z as (j & Z).
  assert (j < length d)%nat as LJ by (apply nth_error_Some; rewrite Z; discriminate).
  destruct (nth_error a j) as [u|] eqn:U; [|apply nth_error_None in U; lia].
  destruct (nth_error b j) as [v|] eqn:W; [|apply nth_error_None in W; lia].
  rewrite (N j u v U W) in Z. injection Z as <-. destruct (C j u v U W) as (x & y & -> & -> & B). exists (x - y). auto.
Qed.
Lemma converged_passes : forall E, senv_ok E -> forall w, length w = (Solver.mu E + Solver.dim E * Solver.sigma E + Solver.l E)%nat ->
  0 <= tolerance E -> 0 <= grad_tolerance E -> small E -> reproduces E w (tolerance E) (grad_tolerance E) -> converged E w = Ok true.
Proof.
  intros E OK w LW T1 T2 [S1 S2] [R1 R2]. destruct (converged_defined E OK w LW) as [b CB]. rewrite CB. revert CB.
  assert (direct_mu E = Solver.mu E) as DM by (unfold direct_mu; lia).
  assert (direct_sigma E = Solver.sigma E) as DS by (unfold direct_sigma; lia).
  unfold converged, direct_values, direct_grad_values.
  destruct (elems (firstn (Solver.mu E) (Solver.values E)) (direct_indices E)) as [dv| |] eqn:DV; cbn [bind]; try discriminate.
  destruct (elems (Solver.values E) (components E (Solver.mu E) (direct_grad_indices E))) as [dg| |] eqn:DG; cbn [bind]; try discriminate.
  destruct (direct_fit E w (direct_indices E)) as [ft| |] eqn:F; cbn [bind]; try discriminate.
  destruct (absolute_error E ft dv) as [r| |] eqn:RR; cbn [bind]; try discriminate.
  destruct (absolute_error E (direct_grad_fit E w (direct_grad_indices E)) dg) as [g| |] eqn:G; cbn [bind]; try discriminate.
  destruct (elems_spec _ _ _ DV) as [LD ND]. destruct (elems_spec _ _ _ DG) as [LG NDG].
  destruct (direct_fit_spec E _ _ _ F (indices_lt E OK)) as [LF NF].
  assert (P : passes E r g = true).
  { unfold passes. apply negb_true_iff, orb_false_iff. split.
    - apply (error_passes E ft dv); auto. intros k x y X Y.
      assert (k < length ft)%nat as LK by (apply nth_error_Some; congruence).
      destruct (nth_error (direct_indices E) k) as [i|] eqn:I; [|apply nth_error_None in I; lia].
      assert (i < Solver.mu E)%nat as B by (apply (indices_lt E OK); eapply nth_error_In; eauto).
      rewrite (NF k i I) in X. injection X as <-. rewrite (ND k i I), firstn_nth in Y by auto.
      destruct (R1 i B) as (v & V & C). congruence.
    - apply (error_passes E _ dg _ _ G); auto. intros k x y X Y.
      assert (k < length dg)%nat as LK by (apply nth_error_Some; congruence).
      set (js := direct_grad_indices E) in *.
      assert (K : exists t i c, (k = Solver.dim E * t + c)%nat /\ nth_error js t = Some i /\ (c < Solver.dim E)%nat).
      { rewrite LG in LK. unfold components in LK. rewrite (blocks_length (fun i k => (Solver.mu E + Solver.dim E * i + k)%nat)) in LK.
        assert (Solver.dim E <> 0)%nat as D0 by (intros D0; rewrite D0 in LK; lia). exists (k / Solver.dim E)%nat.
        assert (k / Solver.dim E < length js)%nat as Q by (apply Nat.div_lt_upper_bound; auto).
        destruct (nth_error js (k / Solver.dim E)) as [i|] eqn:I; [|apply nth_error_None in I; lia].
        exists i, (k mod Solver.dim E)%nat. split; [apply Nat.div_mod; auto|]. split; auto. apply Nat.mod_upper_bound; auto. }
      destruct K as (t & i & c & -> & I & C).
      assert (i < Solver.sigma E)%nat as B by (apply (grad_indices_lt E OK); eapply nth_error_In; eauto).
      pose proof (blocks_nth (fun i k => (Solver.mu E + Solver.dim E * i + k)%nat) (Solver.dim E) _ t i c I C) as B1.
      pose proof (blocks_nth (fun i k => direct_grad E w i k) (Solver.dim E) _ t i c I C) as B2.
      unfold direct_grad_fit in X. rewrite B2 in X. injection X as <-. rewrite (NDG _ _ B1) in Y.
      destruct (R2 i c B C) as (v & V & CL). congruence. }
  rewrite P, DM, DS, !Nat.eqb_refl. cbn. auto.
Qed.

(** ** Lists and vectors *)
Lemma as_list_length : forall m x, length (as_list m x) = m.
Proof. intros. unfold as_list. rewrite map_length, seq_length. auto. Qed.
Lemma as_list_nth : forall m x i, (i < m)%nat -> nth_error (as_list m x) i = Some (Some (x i)).
Proof.
  intros m x i I. unfold as_list. apply (map_nth_error (fun i => Some (x i))). rewrite (nth_error_nth' _ 0%nat) by (rewrite seq_length; auto). rewrite seq_nth; auto.
Qed.
Lemma as_list_in : forall m x y, In y (as_list m x) -> y <> None.
Proof. intros m x y H. unfold as_list in H. apply in_map_iff in H. destruct H as (i & <- & _). discriminate. Qed.
Lemma as_list_numbers : forall m x, all_numbers (as_list m x) = Some (map x (seq 0 m)).
Proof.
  intros m x. unfold as_list. induction (seq 0 m) as [|i is IH]; cbn; auto. rewrite IH. auto.
Qed.
Lemma as_vector_list : forall m x, exists y, as_vector (as_list m x) = Some y /\ forall i, (i < m)%nat -> y i = x i.
Proof.
  intros m x. unfold as_vector. rewrite as_list_numbers. cbn. eexists. split; [reflexivity|]. intros i I. cbn.
  rewrite (nth_indep _ 0 (x 0%nat)) by (rewrite map_length, seq_length; auto). rewrite map_nth, seq_nth; auto.
Qed.

(** ** One level *)
Lemma ceiling_bounds : forall x, x <= IZR (ceiling x) < x + 1.
Proof. intros x. unfold ceiling. rewrite opp_IZR. destruct (base_Int_part (- x)). lra. Qed.
Lemma ln10_pos : 0 < ln 10.
Proof. rewrite <- ln_1. apply ln_increasing; lra. Qed.
Lemma ln_div : forall x y, 0 < x -> 0 < y -> ln (x / y) = ln x - ln y.
Proof. intros x y X Y. unfold Rdiv. rewrite ln_mult by (auto; apply Rinv_0_lt_compat; auto). rewrite ln_Rinv by auto. ring. Qed.
Lemma ln_le_iff : forall x y, 0 < x -> 0 < y -> (ln x <= ln y <-> x <= y).
Proof.
  intros x y X Y. split; intros H.
  - destruct (Rle_or_lt x y) as [|L]; auto. pose proof (ln_increasing y x Y L). lra.
  - destruct H as [H| ->]; [|lra]. left. apply ln_increasing; auto.
Qed.
(** The number of levels counts the factors of ten above 2048. *)
Lemma ceiling_le : forall x k, (ceiling x <= k)%Z <-> x <= IZR k.
Proof.
  intros x k. pose proof (ceiling_bounds x) as [B1 B2]. split; intros H.
  - apply IZR_le in H. lra.
  - apply Z.lt_succ_r. apply lt_IZR. rewrite succ_IZR. lra.
Qed.
Lemma levels_le : forall rows k, (1 <= rows)%nat -> ((n_levels rows <= S k)%nat <-> INR rows <= 2048 * 10 ^ k).
Proof.
  intros rows k R1. assert (P : 0 < INR rows) by (apply lt_0_INR; lia). pose proof ln10_pos as L.
  assert (T : 0 < 2048 * 10 ^ k) by (apply Rmult_lt_0_compat; [lra|apply pow_lt; lra]).
  rewrite <- (ln_le_iff _ _ P T). rewrite ln_mult by (try lra; apply pow_lt; lra). rewrite ln_pow by lra.
  transitivity (ceiling (ln (INR rows / 2048) / ln 10) <= Z.of_nat k)%Z.
  - unfold n_levels. split; intros H; lia.
  - rewrite ceiling_le, <- INR_IZR_INZ, ln_div by lra. split; intros H.
    + apply (Rmult_le_compat_r (ln 10)) in H; [|lra]. unfold Rdiv in H. rewrite Rmult_assoc, Rinv_l in H by lra. lra.
    + apply (Rmult_le_reg_r (ln 10)); [lra|]. unfold Rdiv. rewrite Rmult_assoc, Rinv_l by lra. lra.
Qed.
Lemma levels_pos : forall rows, (1 <= n_levels rows)%nat.
Proof. intros. unfold n_levels. lia. Qed.
Lemma levels_exact : forall rows k, (1 <= rows)%nat ->
  (n_levels rows = S (S k) <-> 2048 * 10 ^ k < INR rows <= 2048 * 10 ^ S k) /\ (n_levels rows = 1%nat <-> INR rows <= 2048).
Proof.
  intros rows k R1. pose proof (levels_le rows k R1) as A. pose proof (levels_le rows (S k) R1) as B. pose proof (levels_le rows 0 R1) as C.
  pose proof (levels_pos rows). cbn [pow] in C. rewrite Rmult_1_r in C. split; split.
  - intros E. split; [apply Rnot_le_lt; rewrite <- A; lia|apply B; lia].
  - intros [H1 H2]. apply B in H2. apply Rlt_not_le in H1. rewrite <- A in H1. lia.
  - intros E. apply C. lia.
  - intros E. apply C in E. lia.
Qed.
(** The sizes asked for. *)
Lemma level_sizes : forall rows k, (1 <= rows)%nat -> n_levels rows = S (S k) ->
  let size := level_size rows (S (S k)) in
  size 1%nat = 2048 /\ size (S (S k)) = INR rows /\ exists q, 1 < q <= 10 /\ forall level, size (S level) = q * size level.
Proof.
  intros rows k R1 E size. apply (levels_exact rows k) in E; auto. destruct E as [E1 E2].
  assert (P : 0 < INR rows) by (apply lt_0_INR; lia). pose proof ln10_pos as L.
  assert (K : 0 < INR (S k)) by (apply lt_0_INR; lia).
  assert (N1 : INR (S (S k)) - 1 = INR (S k)) by (rewrite (S_INR (S k)); lra).
  assert (LL : ln 2048 < ln (INR rows) <= ln 2048 + INR (S k) * ln 10).
  { assert (1 <= 10 ^ k) by (apply pow_R1_Rle; lra). split; [apply ln_increasing; lra|].
    rewrite <- ln_pow, <- ln_mult by (try lra; apply pow_lt; lra). apply ln_le_iff; auto. apply Rmult_lt_0_compat; [lra|apply pow_lt; lra]. }
  unfold size, level_size, Rpower. split; [|split].
  - rewrite N1. change (INR 1) with 1. match goal with |- exp ?e = _ => replace e with (ln 2048) by (field; split; lra) end. apply exp_ln. lra.
  - rewrite N1. match goal with |- exp ?e = _ => replace e with (ln (INR rows)) by (field; split; lra) end. apply exp_ln. auto.
  - exists (exp ((ln (INR rows) - ln 2048) / INR (S k))). split; [split|].
    + rewrite <- exp_0. apply exp_increasing. apply Rmult_lt_0_compat; [lra|apply Rinv_0_lt_compat; auto].
    + rewrite <- (exp_ln 10) by lra. assert (X : (ln (INR rows) - ln 2048) / INR (S k) <= ln 10).
      { apply (Rmult_le_reg_r (INR (S k))); auto. unfold Rdiv. rewrite Rmult_assoc, Rinv_l by lra. lra. }
      destruct X as [X| ->]; [left; apply exp_increasing; auto|right; auto].
    + intros level. rewrite <- exp_plus. f_equal. rewrite N1, (S_INR level). field. split; lra.
Qed.
Lemma coarse_sizes : forall rows k, (1 <= rows)%nat -> n_levels rows = S (S k) ->
  let count := n_coarse_points rows (S (S k)) in
  count 1%nat = 2048%Z /\ forall level, (1 <= level <= S k)%nat ->
  (2048 <= count level < Z.of_nat rows)%Z /\ (count level <= count (S level) < 10 * (count level + 1))%Z.
Proof.
  intros rows k R1 E count. destruct (level_sizes rows k R1 E) as (S1 & SN & q & [Q1 Q2] & STEP). set (size := level_size rows (S (S k))) in *.
  assert (FL : forall x, IZR (Int_part x) <= x < IZR (Int_part x) + 1) by (intros x; destruct (base_Int_part x); lra).
  assert (INT : forall z x, IZR z <= x -> (z <= Int_part x)%Z).
  { intros z x H. destruct (FL x). apply Z.lt_succ_r, lt_IZR. rewrite succ_IZR. lra. }
  assert (LOW : forall level, (1 <= level)%nat -> 2048 <= size level).
  { intros level H. induction level as [|level IH]; [lia|]. destruct level as [|level]; [lra|]. rewrite STEP. pose proof (IH ltac:(lia)). nra. }
  assert (HIGH : forall j level, (level + j = S (S k))%nat -> (1 <= level)%nat -> size level <= INR rows).
  { induction j as [|j IH]; intros level H H1; [replace level with (S (S k)) by lia; lra|]. pose proof (IH (S level) ltac:(lia) ltac:(lia)) as X.
    rewrite STEP in X. pose proof (LOW level H1). nra. }
  split.
  - unfold count, n_coarse_points. fold size. rewrite S1. apply Z.le_antisymm; [|apply INT; lra]. apply Z.lt_succ_r, lt_IZR. rewrite succ_IZR. destruct (FL 2048). lra.
  - intros level LV. pose proof (LOW level ltac:(lia)) as X. pose proof (HIGH (S k - level)%nat (S level) ltac:(lia) ltac:(lia)) as Y. rewrite STEP in Y.
    unfold count, n_coarse_points. fold size. destruct (FL (size level)) as [F1 F2]. destruct (FL (size (S level))) as [F3 F4]. pose proof (STEP level) as ST.
    split; [split|split].
    + apply INT. lra.
    + apply lt_IZR. rewrite <- INR_IZR_INZ. nra.
    + apply INT. rewrite ST. nra.
    + apply lt_IZR. rewrite mult_IZR, plus_IZR. nra.
Qed.

(** ** The start *)
Lemma start_orthogonal : forall n l p initial, independent n l p -> orthogonal n l p (start_weights n l p initial).
Proof.
  intros n l p [w|] IND k K; unfold start_weights; [|apply rsum_0; intros; ring].
  destruct (Nat.eqb_spec l 0) as [->|L]; [lia|]. cbv zeta. set (q := orthonormalize n l p). set (d := fun k => rsum n (fun i => q i k * w i)).
  destruct (orthonormalize_spec n l p IND) as [ON [c SP]]. fold q in ON, SP.
  assert (Z : forall t, (t < l)%nat -> rsum n (fun i => q i t * (w i - mat_vec l q d i)) = 0).
  { intros t T. rewrite (rsum_ext n _ (fun i => q i t * w i - rsum l (fun s => q i t * q i s * d s))).
    2:{ intros i I. unfold mat_vec. rewrite (rsum_ext l (fun s => q i t * q i s * d s) (fun s => q i t * (q i s * d s))) by (intros; ring). rewrite rsum_scal. ring. }
    rewrite (rsum_ext n _ (fun i => q i t * w i + (-1) * rsum l (fun s => q i t * q i s * d s))) by (intros; ring).
    rewrite rsum_plus, rsum_scal, rsum_swap. rewrite (rsum_ext l _ (fun s => if Nat.eqb t s then d t else 0)).
    2:{ intros s S0. rewrite rsum_scal_r. pose proof (ON t s T S0) as O. unfold dot in O. rewrite O. destruct (Nat.eqb_spec t s) as [->|]; ring. }
    rewrite (rsum_single l t); auto.
    - rewrite Nat.eqb_refl. unfold d. ring.
    - intros i _ NE. destruct (Nat.eqb_spec t i); [congruence|auto]. }
  rewrite (rsum_ext n _ (fun i => rsum l (fun t => c t k * (q i t * (w i - mat_vec l q d i))))).
  - rewrite rsum_swap. apply rsum_0. intros t T. rewrite rsum_scal, Z; auto. ring.
  - intros i I. rewrite (proj2 (Nat.ltb_lt i n)) by auto. rewrite SP by auto. rewrite <- rsum_scal_r. apply rsum_ext. intros; ring.
Qed.

(** ** The run for small data *)
Section Run.
Variables (d : nat) (degree : option nat) (n : data) (terms : list term) (nugget : R) (pidx gidx : list nat) (coeffs : nat -> nat -> R).
Variables ldlt lu : nat -> (nat -> nat -> R) -> (nat -> R) -> nat -> R.
Notation rbfs := (map (term_rbf d) terms).
Notation m := (rows d n).
Notation l := (basis_size d degree).
Notation p := (basis d degree n).
Hypothesis GP : good_problem d degree n terms nugget.
Hypothesis AI : all_indices n pidx gidx.
Hypothesis GB : good_basis d degree n pidx gidx coeffs.
Hypothesis GO : good_solvers d degree n terms nugget pidx gidx coeffs ldlt lu.
Variables ss es : list schedule.
Hypothesis SC : schedules_ok (nat -> R) rbfs m ss.
Hypothesis EC : schedules_ok (nat -> R) rbfs m es.
Notation direct := (direct_operator (nat -> R) difference d rbfs nugget l ss n p).
Variable A : (nat -> R) -> nat -> R.
Hypothesis AG : forall w i, (i < m + l)%nat -> A w i = direct w i.
Variables (lev : nat -> list nat) (kern : nat -> nat -> R).
Hypothesis SIZE : (1 <= m <= 2 ^ 11)%nat.
Notation M := (precondition m l lev kern p (fun _ => coarse_correction d difference rbfs nugget degree coeffs ldlt lu n pidx gidx) (n_levels m)).

Lemma one : n_levels m = 1%nat.
Proof.
  apply (levels_exact m 0); [lia|]. replace 2048 with (INR (2 ^ 11)). { apply le_INR. lia. }
  rewrite pow_INR. cbn [INR pow]. ring.
Qed.
Lemma basis_independent : independent m l p.
Proof.
  destruct GP as (D & DG & PO). destruct GB as [LM INV]. intros c E k K.
  destruct (square_once d degree n pidx gidx coeffs INV (fun _ => 0)) as [_ U]. apply (U c (fun _ => 0)); auto.
  - intros r R0. unfold top_rows. apply E. destruct GO as (RL & RP & RU). destruct (all_ok d degree n terms nugget pidx gidx coeffs ldlt lu D LM INV RL RP RU AI) as (OK & _). apply row_range; auto; lia.
  - intros r R0. apply rsum_0. intros. ring.
Qed.

(** What the operator does to a vector, and what the evaluator says of it. *)
Lemma operator_linear_map : linear_map (m + l) A.
Proof.
  intros b c x y z Z i I. rewrite !AG by auto. apply (operator_linear d degree n terms nugget ss SC); auto.
Qed.
Lemma tail_row : forall w k, (k < l)%nat -> A w (m + k)%nat = rsum m (fun i => p i k * w i).
Proof.
  intros w k K. rewrite AG by lia. unfold direct_operator. change (size (nat -> R) d n) with m. rewrite (proj2 (Nat.ltb_ge (m + k) _)) by lia.
  replace (m + k - m)%nat with k by lia. auto.
Qed.
Lemma operator_tail : forall w, orthogonal m l p w -> zero_tail m l (A w).
Proof.
  intros w O k K. rewrite tail_row by auto. apply O; auto.
Qed.
Lemma tail_orthogonal : forall w, zero_tail m l (A w) -> orthogonal m l p w.
Proof.
  intros w Z k K. rewrite <- tail_row by auto. apply Z; auto.
Qed.
Lemma preconditioned : forall v, zero_tail m l v -> forall i, (i < m + l)%nat -> A (M v) i = v i.
Proof.
  intros v Z i I. rewrite AG by auto. rewrite one. destruct GP as (D & DG & PO). destruct GB as [LM INV]. destruct GO as (RL & RP & RU).
  destruct (one_level d degree n terms nugget pidx gidx coeffs ldlt lu D DG PO LM INV RL RP RU AI ss SC lev kern v) as [O1 O2].
  destruct (Nat.lt_ge_cases i m) as [L|L]; [apply O1; auto|]. replace i with (m + (i - m))%nat by lia. rewrite O2, Z by lia. auto.
Qed.

Variable initial : option (nat -> R).
Variable v : nat -> R.
Variables tol gtol : R.
Variable max_iter : nat.
Variable nan_norm : list num -> num.
Variable arrange : (nat -> bool) -> list nat -> list nat.
Variable fast : list num -> list num.
Hypothesis ARR : forall q is, Permutation (arrange q is) is.
Hypothesis FAST : forall w, length (fast w) = m.
Hypothesis T1 : 0 <= tol.
Hypothesis T2 : 0 <= gtol.
Hypothesis MI : (1 <= max_iter)%nat.
Hypothesis SV : (values n <= 2 ^ 10)%nat.
Hypothesis SG : (gradients n <= 2 ^ 10)%nat.
Notation x := (start_weights m l p initial).
Notation E := (run_env d difference rbfs nugget l n p A M initial v tol gtol max_iter es nan_norm arrange fast).
Notation state := (krylov d l n p A M initial v max_iter).
Notation rhs := (right_hand_side d n v).
Notation iterate := (iterate d l n p A M initial v max_iter).

Lemma env_ok : senv_ok E.
Proof.
  constructor.
  - cbn [Solver.values Solver.mu Solver.dim Solver.sigma run_env]. apply as_list_length.
  - exact ARR.
  - intros k. change (length (iterate k) = (m + l)%nat). unfold SolverRun.iterate. destruct (ok (state k)); [apply as_list_length|apply repeat_length].
  - exact FAST.
Qed.
Lemma env_small : small E.
Proof. split; cbn [Solver.mu Solver.sigma target_size run_env]; auto. Qed.
Lemma evaluated_row : forall w r, (r < m)%nat -> exists y, evaluated d difference rbfs l n p es (as_list (m + l) w) r = Some y /\
  A w r = y + (if (r <? values n)%nat then nugget * w r else 0).
Proof.
  intros w r R0. destruct (as_vector_list (m + l) w) as (y & AV & Y). unfold evaluated. rewrite AV. cbn [option_map]. eexists. split; [reflexivity|].
  rewrite AG by lia. rewrite (evaluator_operator (nat -> R) difference d rbfs nugget l ss es n p w r SC EC R0). fold (values n).
  f_equal. rewrite !evaluator_entries by auto. f_equal.
  - apply rsum_ext. intros j J. rewrite Y; auto. change (size (nat -> R) d n) with m in J. lia.
  - apply rsum_ext. intros k K. rewrite Y; auto. change (size (nat -> R) d n) with m. lia.
Qed.
Lemma predicted_row : forall w i, (i < values n)%nat -> predicted E (as_list (m + l) w) i = Some (A w i).
Proof.
  intros w i I. assert (I' : (i < m)%nat) by (unfold rows, size; fold (values n); lia). unfold predicted. rewrite as_list_nth by lia.
  cbn [Solver.direct run_env Solver.nugget]. destruct (evaluated_row w i I') as (y & -> & AE). rewrite AE, (proj2 (Nat.ltb_lt _ _)) by auto. f_equal. ring.
Qed.
Lemma gradient_row : forall w i e, (i < gradients n)%nat -> (e < d)%nat ->
  (values n + d * i + e < m)%nat /\ direct_grad E (as_list (m + l) w) i e = Some (A w (values n + d * i + e)%nat).
Proof.
  intros w i e I E0. assert (I' : (values n + d * i + e < m)%nat).
  { unfold rows, size. fold (values n) (gradients n). assert (d * S i <= d * gradients n)%nat by (apply Nat.mul_le_mono_l; lia). lia. }
  split; auto. cbn [direct_grad run_env]. change (Operator.mu (nat -> R) n) with (values n). destruct (evaluated_row w _ I') as (y & -> & AE).
  rewrite AE, (proj2 (Nat.ltb_ge _ _)) by lia. f_equal. ring.
Qed.
Definition within (w : nat -> R) : Prop := (forall i, (i < values n)%nat -> Rabs (A w i - v i) <= tol) /\
  (forall i, (values n <= i < m)%nat -> Rabs (A w i - v i) <= gtol).
Lemma reproduces_within : forall w, reproduces E (as_list (m + l) w) tol gtol <-> within w.
Proof.
  intros w. assert (VL : forall i, (i < m)%nat -> nth_error (Solver.values E) i = Some (Some (v i))) by (intros i I; apply as_list_nth; auto).
  assert (VM : (values n <= m)%nat) by (unfold rows, size; fold (values n); lia). split.
  - intros [H1 H2]. split.
    + intros i I. destruct (H1 i I) as (y & Y & (a & b & EA & EB & C)). rewrite VL in Y by lia. rewrite predicted_row in EA by auto. congruence.
    + intros i [I1 I2]. destruct GP as (D & _). pose proof (divmod (nat -> R) d n i (conj I1 I2)) as (Q1 & Q2 & Q3).
      set (q := ((i - Operator.mu (nat -> R) n) / d)%nat) in *. set (e := ((i - Operator.mu (nat -> R) n) mod d)%nat) in *.
      destruct (H2 q e Q1 Q2) as (y & Y & (a & b & EA & EB & C)). destruct (gradient_row w q e Q1 Q2) as [IM G]. rewrite G in EA.
      assert (EQ : i = (values n + d * q + e)%nat) by (exact Q3). change (nth_error (Solver.values E) (values n + d * q + e) = Some y) in Y. rewrite VL in Y by auto.
      rewrite <- EQ in *. congruence.
  - intros [H1 H2]. split.
    + intros i I. exists (Some (v i)). split; [apply VL; change (i < values n)%nat in I; lia|]. exists (A w i), (v i). rewrite predicted_row by auto. auto.
    + intros i e I E0. destruct (gradient_row w i e I E0) as [IM G]. exists (Some (v (values n + d * i + e)%nat)). split; [apply VL; auto|].
      exists (A w (values n + d * i + e)%nat), (v (values n + d * i + e)%nat). split; auto. split; auto. apply H2. lia.
Qed.
Lemma converged_iff : forall w, exists b, converged E (as_list (m + l) w) = Ok b /\ (b = true <-> within w).
Proof.
  intros w. assert (LW : length (as_list (m + l) w) = (Solver.mu E + Solver.dim E * Solver.sigma E + Solver.l E)%nat) by apply as_list_length.
  destruct (converged_defined E env_ok _ LW) as [b CB]. exists b. split; auto. split.
  - intros ->. apply reproduces_within. apply (converged_direct E env_ok); auto using env_small.
    + intros i y Y. apply nth_error_In in Y. apply as_list_in in Y. auto.
    + intros i I. rewrite predicted_row by auto. discriminate.
    + intros i e I E0. destruct (gradient_row w i e I E0) as [_ ->]. discriminate.
  - intros W. apply reproduces_within in W. pose proof (converged_passes E env_ok _ LW T1 T2 env_small W) as C. congruence.
Qed.
Lemma rhs_tail : zero_tail m l rhs.
Proof. intros k K. unfold right_hand_side. change (m_rows d n) with m. rewrite (proj2 (Nat.ltb_ge _ _)) by lia. auto. Qed.
Lemma rhs_row : forall i, (i < m)%nat -> rhs i = v i.
Proof. intros i I. unfold right_hand_side. change (m_rows d n) with m. rewrite (proj2 (Nat.ltb_lt _ _)) by auto. auto. Qed.
Lemma exact_within : forall w, (forall i, (i < m)%nat -> A w i = v i) -> within w.
Proof. intros w H. split; intros i I; rewrite H by (unfold rows, size in *; fold (values n) in *; lia); rewrite Rminus_eq_0, Rabs_R0; auto. Qed.

Lemma run_small : good_start (m + l) (is_zero (m + l) x) x -> exists w, run_solver d difference rbfs nugget l n p A M initial v tol gtol max_iter es nan_norm arrange fast = Ok (as_list (m + l) w) /\
  within w /\ orthogonal m l p w /\ ((forall i, (i < m + l)%nat -> w i = x i) \/ (forall i, (i < m)%nat -> A w i = v i)).
Proof.
  intros GS. assert (OX : orthogonal m l p x) by (apply start_orthogonal, basis_independent).
  pose proof (operator_tail x OX) as ZX.
  set (r0 := residual0 (m + l) A (fun y => y) x rhs).
  assert (R0 : forall i, (i < m + l)%nat -> r0 i = rhs i - A x i).
  { intros i I. unfold r0, residual0. destruct (is_zero (m + l) x) eqn:Z; auto. rewrite (linear_zero (m + l) A operator_linear_map x (GS eq_refl) i I). ring. }
  destruct (Req_EM_T (RasPreconditioner.norm (m + l) r0) 0) as [ZERO|NZ].
  - (* the start is the solution *)
    assert (EX : forall i, (i < m)%nat -> A x i = v i).
    { intros i I. pose proof (norm_zero _ _ ZERO i ltac:(lia)) as H. rewrite R0, rhs_row in H by lia. lra. }
    exists x. split; [|split; [apply exact_within; auto|split; auto]].
    unfold run_solver, Solver.solve. destruct (relative_residual E) as [rr|]; [destruct (Req_EM_T rr 0); [reflexivity|]|].
    all: assert (LP : forall j, loop E 0 j = Ok (as_list (m + l) x)); [|apply LP].
    all: intros j; destruct (converged_iff x) as (b & CB & BW); pose proof (proj2 BW (exact_within x EX)) as ->.
    all: destruct j; cbn [loop]; change (Solver.solution E 0) with (as_list (m + l) x); rewrite CB; reflexivity.
  - assert (EXACT : forall s, let u := fun i => r0 i / s in forall i, (i < m + l)%nat -> A (M u) i = u i).
    { intros s u i I. apply preconditioned; auto. intros k K. unfold u. rewrite R0 by lia. rewrite rhs_tail, ZX by auto. unfold Rdiv. ring. }
    pose proof (one_step_residual (m + l) max_iter A M x rhs MI NZ EXACT) as AR.
    pose proof (one_step_solves (m + l) max_iter A M x rhs operator_linear_map GS MI NZ EXACT) as SO.
    set (st := gmres (m + l) max_iter A (fun y => y) M x rhs 1) in *. set (w := fgmres_solution x st) in *.
    assert (OKS : ok st = true) by (unfold absolute_residual in AR; destruct (ok st); auto; discriminate).
    assert (IT : iterate 1 = as_list (m + l) w).
    { unfold SolverRun.iterate. change (state 1) with st. rewrite OKS. reflexivity. }
    assert (WX : forall i, (i < m)%nat -> A w i = v i) by (intros i I; rewrite <- rhs_row by auto; apply SO; lia).
    unfold run_solver. rewrite (solve_not_exact E).
    2:{ unfold exact_start. cbn [relative_residual run_env]. unfold first_residual. destruct (Req_EM_T _ 0); [discriminate|]. intros H. injection H as H.
        change (g (state 0) 0%nat) with (RasPreconditioner.norm (m + l) r0) in H. apply NZ.
        apply (f_equal (fun z => z * RasPreconditioner.norm (m_rows d n + l) rhs)) in H. unfold Rdiv in H. rewrite Rmult_assoc, Rinv_l in H by auto.
        rewrite Rmult_1_r, Rmult_0_l in H. destruct (Req_EM_T (RasPreconditioner.norm (m + l) r0) 0); auto. exfalso. apply (Rabs_no_R0 _ NZ). auto. }
    change (Solver.max_iter E) with max_iter. destruct (converged_iff x) as (b & CB & BW).
    change (as_list (m + l) x) with (Solver.solution E 0) in CB. assert (exists k, max_iter = S k) as [k EK] by (exists (max_iter - 1)%nat; lia). destruct b.
    + exists x. split; [|split; [apply BW; auto|]; split; auto]. assert (LP : forall j, loop E 0 j = Ok (as_list (m + l) x)); [|apply LP].
      intros j. destruct j; cbn [loop]; rewrite CB; reflexivity.
    + exists w. split; [|split; [apply exact_within; auto|split; auto]].
      * assert (LP : forall j, loop E 1 j = Ok (as_list (m + l) w)).
        2:{ assert (L0 : forall j, loop E 0 (S j) = Ok (as_list (m + l) w)) by (intros j; cbn [loop]; rewrite CB; apply LP).
            specialize (L0 k). rewrite <- EK in L0. exact L0. }
        intros j. destruct j; cbn [loop]; change (Solver.solution E 1) with (iterate 1); rewrite IT;
          destruct (converged_iff w) as (b' & CB' & BW'); pose proof (proj2 BW' (exact_within w WX)) as ->; rewrite CB'; reflexivity.
      * apply tail_orthogonal. intros k' K. rewrite SO by lia. apply rhs_tail; auto.
Qed.

(** ** A start that is taken for zero but is not *)
Lemma tiny_start : is_zero (m + l) x = true -> ~ within x -> (exists i, (i < m)%nat /\ v i <> 0) -> (exists i, (i < values n)%nat /\ tol < Rabs (A x i)) ->
  max_iter = 1%nat -> run_solver d difference rbfs nugget l n p A M initial v tol gtol max_iter es nan_norm arrange fast = Throw ExRuntimeError.
Proof.
  intros TZ NW (i0 & I0 & V0) (i1 & I1 & B1) M1.
  assert (Z0 : is_zero (m + l) (fun _ => 0) = true).
  { unfold is_zero. apply forallb_forall. intros i _. destruct (Rle_dec _ _) as [|N]; auto. exfalso. apply N. rewrite Rabs_R0.
    left. apply Rinv_0_lt_compat, pow_lt. lra. }
  assert (R0 : forall y, is_zero (m + l) y = true -> residual0 (m + l) A (fun y => y) y rhs = rhs) by (intros y Y; unfold residual0; rewrite Y; auto).
  assert (SAME : forall k, state k = gmres (m + l) max_iter A (fun y => y) M (fun _ => 0) rhs k).
  { intros k. unfold krylov, gmres. change (x0 d l n p initial) with x. f_equal. unfold setup. change (m_rows d n) with m. rewrite !R0; auto. }
  assert (NZ : RasPreconditioner.norm (m + l) (residual0 (m + l) A (fun y => y) (fun _ => 0) rhs) <> 0).
  { rewrite R0 by auto. intros H. apply V0. rewrite <- rhs_row by auto. apply (norm_zero _ _ H). lia. }
  assert (EXACT : forall s, let u := fun i => residual0 (m + l) A (fun y => y) (fun _ => 0) rhs i / s in forall i, (i < m + l)%nat -> A (M u) i = u i).
  { intros s u i I. apply preconditioned; auto. intros k K. unfold u. rewrite R0 by auto. rewrite rhs_tail by auto. unfold Rdiv. ring. }
  assert (GZ : good_start (m + l) (is_zero (m + l) (fun _ => 0)) (fun _ => 0)) by (intros _ i _; auto).
  pose proof (one_step_residual (m + l) max_iter A M (fun _ => 0) rhs MI NZ EXACT) as AR.
  pose proof (one_step_solves (m + l) max_iter A M (fun _ => 0) rhs operator_linear_map GZ MI NZ EXACT) as SO.
  rewrite <- SAME in AR, SO. set (st := state 1) in *.
  assert (OKS : ok st = true) by (unfold absolute_residual in AR; destruct (ok st); auto; discriminate).
  set (w := fgmres_solution x st).
  assert (IT : iterate 1 = as_list (m + l) w) by (unfold SolverRun.iterate; fold st; rewrite OKS; reflexivity).
  assert (W : forall i, w i = x i + fgmres_solution (fun _ => 0) st i).
  { intros i. unfold w, fgmres_solution. rewrite !fold_add. ring. }
  assert (AW : forall i, (i < m)%nat -> A w i = A x i + v i).
  { intros i I. rewrite (operator_linear_map 1 1 x (fgmres_solution (fun _ => 0) st) w) by (try lia; intros; rewrite W; ring). rewrite SO by lia.
    rewrite rhs_row by auto. ring. }
  unfold run_solver. rewrite (solve_not_exact E).
  2:{ unfold exact_start. cbn [relative_residual run_env]. unfold first_residual. destruct (Req_EM_T _ 0) as [|NR]; [discriminate|]. intros H. injection H as H.
      apply NZ. change (Rabs (g (state 0) 0%nat) / RasPreconditioner.norm (m_rows d n + l) rhs = 0) in H. rewrite SAME in H. change (g (gmres (m + l) max_iter A (fun y => y) M (fun _ => 0) rhs 0) 0%nat)
        with (RasPreconditioner.norm (m + l) (residual0 (m + l) A (fun y => y) (fun _ => 0) rhs)) in H.
      apply (f_equal (fun z => z * RasPreconditioner.norm (m_rows d n + l) rhs)) in H. unfold Rdiv in H. rewrite Rmult_assoc, Rinv_l in H by auto.
      rewrite Rmult_1_r, Rmult_0_l in H. destruct (Req_EM_T (RasPreconditioner.norm (m + l) (residual0 (m + l) A (fun y => y) (fun _ => 0) rhs)) 0); auto.
      exfalso. apply (Rabs_no_R0 _ NZ). auto. }
  change (Solver.max_iter E) with max_iter.
  destruct (converged_iff x) as (b & CB & BW). destruct b; [exfalso; apply NW, BW; auto|].
  destruct (converged_iff w) as (c & CC & CW). destruct c.
  { exfalso. destruct (proj1 CW eq_refl) as [H _]. specialize (H i1 I1). rewrite AW in H by (unfold rows, size; fold (values n); lia).
    replace (A x i1 + v i1 - v i1) with (A x i1) in H by ring. lra. }
  change (as_list (m + l) x) with (Solver.solution E 0) in CB. rewrite <- IT in CC. change (iterate 1) with (Solver.solution E 1) in CC.
  assert (LP : loop E 0 1 = Throw ExRuntimeError) by (cbn [loop]; rewrite CB; cbn [bind]; rewrite CC; reflexivity).
  rewrite <- M1 in LP. exact LP.
Qed.
End Run.
