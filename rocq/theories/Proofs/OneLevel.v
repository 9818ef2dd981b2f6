From Coq Require Import Reals List Arith Lia Lra Bool Permutation.
From Verif Require Import Proofs.LinAlg Proofs.PositiveDefinite Proofs.PositiveSystem Proofs.HermiteSystem Proofs.Operator Proofs.Grid Proofs.Pivots Proofs.GridProblem
  Proofs.RasPreconditioner Proofs.Gmres Proofs.GmresState Proofs.GmresMain.
From Verif Require Import Model.LinAlg Model.MonomialBasis Model.Rbfs Model.Operator Model.Grid Model.GridProblem Model.RasPreconditioner Model.Gmres.
From Verif Require Import Spec.Rbfs Spec.Operator Spec.PositiveDefinite Spec.Hermite Spec.Grid Spec.RasPreconditioner Spec.Gmres Spec.GridProblem.
Import ListNotations.
Local Open Scope R_scope.

(** ** One step of FGMRES with an exact preconditioner *)
Section Step.
Variables (m max_iter : nat) (op right : (nat -> R) -> nat -> R) (x0 rhs : nat -> R).
Notation id := (fun x : nat -> R => x).
Notation r0 := (residual0 m op id x0 rhs).
Hypothesis LIN : linear_map m op.
Hypothesis GS : good_start m (is_zero m x0) x0.
Hypothesis MI : (1 <= max_iter)%nat.
Hypothesis NZ : norm m r0 <> 0.
Hypothesis EX : forall s, let v := fun i => r0 i / s in forall i, (i < m)%nat -> op (right v) i = v i.
Notation st := (gmres m max_iter op id right x0 rhs 1).

Lemma unit_start : let v := fun i => r0 i / norm m r0 in dot m v v = 1.
Proof.
  intros v. unfold dot, v. rewrite (rsum_ext m _ (fun i => r0 i * r0 i * (/ norm m r0 * / norm m r0))) by (intros; unfold Rdiv; ring).
  rewrite rsum_scal_r. fold (dot m r0 r0). rewrite <- norm_sq. field. auto.
Qed.
Lemma one_step_residual : absolute_residual st = Some 0.
Proof.
  change st with (gmres_step m max_iter op id right (setup m op id x0 rhs)). set (st0 := setup m op id x0 rhs). unfold gmres_step.
  change (iter st0) with 0%nat. destruct max_iter as [|k]; [lia|]. change (Nat.eqb 0 (S k)) with false. cbv beta iota zeta.
  set (v := vs st0 0%nat). assert (V : v = fun i => r0 i / norm m r0) by reflexivity.
  assert (A : forall i, (i < m)%nat -> op (right v) i = v i) by (intros i I; rewrite V; apply (EX (norm m r0)); auto).
  set (h := fun i => if (i <=? 0)%nat then dot m (vs st0 i) (op (right v)) else r st0 i 0%nat).
  assert (H0 : h 0%nat = 1).
  { unfold h. cbn [Nat.leb]. rewrite <- unit_start. cbv zeta. rewrite <- V. fold v. unfold dot. apply rsum_ext. intros i I. rewrite A; auto. }
  set (w := fold_left _ (seq 0 1) _).
  assert (W : norm m w = 0).
  { unfold norm, dot. rewrite rsum_0; [apply sqrt_0|]. intros i I. assert (w i = 0) as ->; [|ring]. unfold w. cbn [seq fold_left]. change (op (right v) i - h 0%nat * v i = 0). rewrite H0, A by auto. ring. }
  unfold extend. change (iter st0) with 0%nat. rewrite W. cbv zeta. unfold rotations. cbn [Nat.sub seq fold_left].
  rewrite (upd_same _ h 1%nat 0), (upd_other _ h 1%nat 0 0%nat) by lia. rewrite H0.
  replace (1 * 1 + 0 * 0) with 1 by ring. rewrite sqrt_1. unfold absolute_residual. cbn [ok g iter v_ok st0 setup].
  rewrite (proj2 (is0_false 1)) by lra. rewrite (proj2 (is0_false (norm m r0)) NZ). cbn [negb andb]. f_equal.
  rewrite upd_other, upd_same by lia. replace (- (0 / 1) * _) with 0 by (unfold Rdiv; ring). apply Rabs_R0.
Qed.
Lemma one_step_solves : forall i, (i < m)%nat -> op (fgmres_solution x0 st) i = rhs i.
Proof.
  assert (LI : linear_map m (fun x : nat -> R => x)) by (intros a b x y z H i I; auto).
  destruct (fgmres_main m max_iter op id right x0 rhs LIN LI GS 1 0 one_step_residual) as [E _].
  intros i I. pose proof (norm_zero m _ E i I) as X. cbv beta in X. lra.
Qed.
End Step.

(** ** One level *)
Section Level.
Variables (d : nat) (degree : option nat) (n : data) (terms : list term) (nugget : R) (pidx gidx : list nat) (coeffs : nat -> nat -> R).
Variables ldlt lu : nat -> (nat -> nat -> R) -> (nat -> R) -> nat -> R.
Notation rbfs := (map (term_rbf d) terms).
Notation g := (sub_nodes n pidx gidx).
Notation m := (rows d g).
Notation l := (basis_size d degree).
Notation a := (grid_matrix d difference rbfs nugget n pidx gidx).
Notation p := (basis d degree n).
Notation red := (reduced d difference rbfs nugget degree coeffs n pidx gidx).
Notation top := (top_rows d degree n pidx gidx).
Hypothesis D : (1 <= d <= 3)%nat.
Hypothesis DG : degree_ok degree.
Hypothesis PO : posed d (order degree) n terms nugget.
Hypothesis LM : (l <= m)%nat.
Hypothesis INV : left_inverse l coeffs top.
Hypothesis RL : (0 < l < m)%nat -> right_ldlt ldlt (m - l) red.
Hypothesis RP : l = 0%nat -> right_ldlt ldlt m a.
Hypothesis RU : right_lu lu l top.
Notation N := (rows d n).
Notation cc := (coarse_correction d difference rbfs nugget degree coeffs ldlt lu n pidx gidx).
Notation full := (mat_a (nat -> R) difference (fun _ => 0) d rbfs nugget n).

Lemma system_rows : forall ss w, schedules_ok (nat -> R) rbfs N ss -> let A := direct_operator (nat -> R) difference d rbfs nugget l ss n p in
  (forall i, (i < N)%nat -> A w i = mat_vec N full w i + mat_vec l p (fun k => w (N + k)%nat) i) /\
  (forall k, (k < l)%nat -> A w (N + k)%nat = rsum N (fun i => p i k * w i)).
Proof.
  intros ss w SC A. split.
  - intros i I. unfold A. rewrite direct_entries by (auto; unfold rows in *; lia). unfold mat_vec at 1. fold N. rewrite rsum_app. f_equal.
    + apply rsum_ext. intros j J. unfold system. fold N. rewrite !(proj2 (Nat.ltb_lt _ _)) by auto. rewrite mat_a_terms; auto. lia.
    + apply rsum_ext. intros k K. unfold system. fold N. rewrite (proj2 (Nat.ltb_lt i _)) by auto. rewrite (proj2 (Nat.ltb_ge (N + k) _)) by lia.
      replace (N + k - N)%nat with k by lia. auto.
  - intros k K. unfold A, direct_operator. change (size (nat -> R) d n) with N. rewrite (proj2 (Nat.ltb_ge (N + k) _)) by lia.
    replace (N + k - N)%nat with k by lia. auto.
Qed.
Lemma all_ok : all_indices n pidx gidx -> indices_ok n pidx gidx /\ rows_found l n pidx gidx /\ forall i, (i < N)%nat -> In i (Grid.rows d pidx gidx (values n)).
Proof.
  intros [PP ->]. split; [|split].
  - split; [|split; [|split]].
    + apply (Permutation_NoDup (Permutation_sym PP)), seq_NoDup.
    + apply seq_NoDup.
    + intros i I. apply (Permutation_in _ PP) in I. apply in_seq in I. lia.
    + intros i I. apply in_seq in I. lia.
  - left. rewrite (Permutation_length PP). apply seq_length.
  - intros i I. unfold Grid.rows. apply in_app_iff. destruct (Nat.lt_ge_cases i (values n)) as [L|L].
    + left. apply (Permutation_in _ (Permutation_sym PP)). apply in_seq. lia.
    + right. unfold rows, size in I. fold (values n) (gradients n) in I. pose proof (Nat.div_mod (i - values n) d ltac:(lia)) as E.
      pose proof (Nat.mod_upper_bound (i - values n) d ltac:(lia)) as U.
      apply in_flat_map. exists ((i - values n) / d)%nat. split; [apply in_seq; split; [lia|]; apply Nat.div_lt_upper_bound; lia|].
      apply in_map_iff. exists ((i - values n) mod d)%nat. split; [lia|]. apply in_seq. lia.
Qed.
Lemma one_level : all_indices n pidx gidx -> forall ss, schedules_ok (nat -> R) rbfs N ss ->
  let A := direct_operator (nat -> R) difference d rbfs nugget l ss n p in
  forall lev kern v, let w := precondition N l lev kern p (fun _ => cc) 1 v in
  (forall i, (i < N)%nat -> A w i = v i) /\ zero_tail N l (A w).
Proof.
  intros AI ss SC A lev kern v w. destruct (all_ok AI) as (OK & RF & IN). destruct (system_rows ss w SC) as [S1 S2].
  destruct (coarse_problem d degree n terms nugget pidx gidx coeffs ldlt lu D DG PO OK LM INV RF RL RP RU v) as (H1 & H2 & _).
  split.
  - intros i I. unfold A. rewrite S1 by auto. apply H1. apply IN. auto.
  - intros k K. unfold A. rewrite S2 by auto. apply (H2 k K).
Qed.
Lemma operator_linear : forall ss, schedules_ok (nat -> R) rbfs N ss -> linear_map (N + l) (direct_operator (nat -> R) difference d rbfs nugget l ss n p).
Proof.
  intros ss SC b c x y z Z i I. rewrite !direct_entries by (auto; unfold rows in *; lia). fold N. unfold mat_vec.
  rewrite <- !rsum_scal, <- rsum_plus. apply rsum_ext. intros j J. rewrite Z by auto. ring.
Qed.
Lemma one_step : all_indices n pidx gidx -> forall ss, schedules_ok (nat -> R) rbfs N ss ->
  let A := direct_operator (nat -> R) difference d rbfs nugget l ss n p in
  forall lev kern max_iter x0 rhs, let M := precondition N l lev kern p (fun _ => cc) 1 in
  (1 <= max_iter)%nat -> zero_tail N l rhs -> zero_tail N l (A x0) -> good_start (N + l) (is_zero (N + l) x0) x0 ->
  (exists i, (i < N + l)%nat /\ A x0 i <> rhs i) ->
  let st := gmres (N + l) max_iter A (fun x => x) M x0 rhs 1 in
  absolute_residual st = Some 0 /\ forall i, (i < N + l)%nat -> A (fgmres_solution x0 st) i = rhs i.
Proof.
  intros AI ss SC A lev kern max_iter x0 rhs M MI ZR ZA GS (i0 & I0 & NE) st.
  pose proof (operator_linear ss SC) as LIN. fold A in LIN.
  assert (R0 : forall i, (i < N + l)%nat -> residual0 (N + l) A (fun x => x) x0 rhs i = rhs i - A x0 i).
  { intros i I. unfold residual0. destruct (is_zero (N + l) x0) eqn:E; auto. rewrite (linear_zero (N + l) A LIN x0 (GS eq_refl) i I). ring. }
  assert (NZ : norm (N + l) (residual0 (N + l) A (fun x => x) x0 rhs) <> 0).
  { intros E. apply NE. pose proof (norm_zero _ _ E i0 I0) as X. rewrite R0 in X by auto. lra. }
  assert (EX : forall s, let v := fun i => residual0 (N + l) A (fun x => x) x0 rhs i / s in forall i, (i < N + l)%nat -> A (M v) i = v i).
  { intros s v i I. destruct (one_level AI ss SC lev kern v) as [O1 O2]. fold A in O1, O2. destruct (Nat.lt_ge_cases i N) as [L|L]; [apply O1; auto|].
    replace i with (N + (i - N))%nat by lia. unfold M. rewrite O2 by lia. unfold v. rewrite R0 by lia. rewrite ZR, ZA by lia. unfold Rdiv. ring. }
  split; [apply one_step_residual; auto|apply one_step_solves; auto].
Qed.
(** ** Several levels *)
Lemma more_levels : nugget = 0 -> indices_ok n pidx gidx -> rows_found l n pidx gidx ->
  forall n_levels lev solve, (1 < n_levels)%nat -> nested N n_levels lev -> lev 0%nat = Grid.rows d pidx gidx (values n) ->
  (forall k r i, (0 < k < n_levels)%nat -> (i < N)%nat -> ~ In i (lev k) -> solve k r i = 0) -> solve 0%nat = cc ->
  forall v, let w := precondition N l lev full p solve n_levels v in
  (forall i, In i (lev 0%nat) -> applied N l full p w i = v i) /\ orthogonal N l p w.
Proof.
  intros N0 OK RF n_levels lev solve NL NE L0 LO S0 v w.
  pose proof (coarse_problem d degree n terms nugget pidx gidx coeffs ldlt lu D DG PO OK LM INV RF RL RP RU) as H.
  assert (LS : local_solve N n_levels lev solve).
  { intros k r i K I NI. destruct k as [|k]; [|apply LO; auto; lia]. rewrite S0. apply H; auto. rewrite <- L0. auto. }
  split.
  - apply coarse_exact; auto. intros r i I. rewrite S0. unfold applied. apply (H r). rewrite <- L0. auto.
  - apply result_orthogonal; auto.
    + intros c E k K. destruct (square_once d degree n pidx gidx coeffs INV (fun _ => 0)) as [_ U]. apply (U c (fun _ => 0)); auto.
      * intros r R0. unfold top_rows. apply E. apply row_range; auto; try lia. change (g_size d pidx gidx) with m. lia.
      * intros r R0. apply rsum_0. intros. ring.
    + intros r. rewrite S0. apply H.
Qed.
End Level.
