From Coq Require Import Reals ZArith List Arith Bool Lia Lra.
From Verif Require Import Proofs.CompactKinds Proofs.LinAlg Proofs.Operator Proofs.IncrementalFitter Proofs.FittedMoves Proofs.DataFit Proofs.DataFitParts Proofs.InequalityFitter Proofs.BoundedFit.
From Verif Require Import Model.MonomialBasis Model.Grid Model.GridProblem Model.RasPreconditioner Model.Gmres Model.SolverRun Model.Outcome Model.LinAlg Model.Rbfs Model.Solver Model.Operator Model.Fmm Model.FastOperator Model.FastEvaluator Model.IncrementalFitter Model.InequalityFitter.
From Verif Require Import Spec.Grid Spec.RasPreconditioner Spec.Gmres Spec.GridProblem Spec.SolverRun Spec.Rbfs Spec.Operator Spec.Fmm Spec.PositiveDefinite Spec.Hermite Spec.FastOperator Spec.FastEvaluator Spec.IncrementalFitter Spec.InequalityFitter Spec.Fitted Spec.DataFit Spec.BoundedFit.
From Verif Require Import Props.SolverRun.
From Verif Require Model.DistanceFilter.
Import ListNotations.
Local Open Scope R_scope.

(** C78: when fitting with bounds ends with enough centers for the polynomial, the interpolant of the centers with the returned weights meets every
    value and every bound up to the tolerance; each center has a value, or takes its lower bound with a positive weight, or its upper bound with a
    negative one. *)
Theorem C78_meets : forall Pt d degree rbfs x tol (E : ienv Pt R), bounded_on d degree rbfs x tol E ->
  forall n c w, irun E n (iinit E) = Ok (IFinished c w) -> (space_size d degree <= length c)%nat ->
  distinct_rows c (n_points E) /\ length w = (length c + space_size d degree)%nat /\ Spec.Fitted.orthogonal d (length c) degree (picked x c) (weight w) /\
  exists f, surface d degree rbfs (points (length c) (picked x c)) (weight w) (points (n_points E) x) f /\ meets E tol f /\ pushes E tol c w f.
Proof. exact bounded_fit. Qed.
Print Assumptions C78_meets.
(** C78: it has the least energy, up to the tolerances times the weights, of all functions of the model, with any further centers, that meet the
    values and the bounds up to [t]. *)
Theorem C78_least : forall Pt d degree terms x tol (E : ienv Pt R), degree_ok d degree -> Forall (good_term d (order degree)) terms ->
  bounded_on d degree (map (term_rbf d) terms) x tol E ->
  forall n c w, irun E n (iinit E) = Ok (IFinished c w) -> (space_size d degree <= length c)%nat ->
  forall m w' f' t, (n_points E <= m)%nat -> Spec.Fitted.orthogonal d m degree x w' ->
  surface d degree (map (term_rbf d) terms) (points m x) w' (points (n_points E) x) f' ->
  meets E t f' -> energy d (length c) (map (term_rbf d) terms) (picked x c) (weight w) <=
    energy d m (map (term_rbf d) terms) x w' + 2 * (tol + t) * rsum (length c) (fun k => Rabs (weight w k)).
Proof. exact bounded_least. Qed.
Print Assumptions C78_least.
(** C78: without a tolerance no other function of the model, with any further centers, meets them with as little energy. *)
Theorem C78_only : forall Pt d degree terms x (E : ienv Pt R), degree_ok d degree -> Forall (good_term d (order degree)) terms ->
  bounded_on d degree (map (term_rbf d) terms) x 0 E ->
  forall n c w, irun E n (iinit E) = Ok (IFinished c w) -> (space_size d degree <= length c)%nat ->
  unisolvent (length c) (space_size d degree) (space d degree (points (length c) (picked x c))) ->
  forall m w' f', (n_points E <= m)%nat -> has_weight m d x terms 0 -> Spec.Fitted.orthogonal d m degree x w' ->
  surface d degree (map (term_rbf d) terms) (points m x) w' (points (n_points E) x) f' -> meets E 0 f' ->
  energy d m (map (term_rbf d) terms) x w' <= energy d (length c) (map (term_rbf d) terms) (picked x c) (weight w) ->
  forall t g g', surface d degree (map (term_rbf d) terms) (points (length c) (picked x c)) (weight w) t g ->
  surface d degree (map (term_rbf d) terms) (points m x) w' t g' -> forall r, (r < rows d t)%nat -> g' r = g r.
Proof. exact bounded_unique. Qed.
Print Assumptions C78_only.
(** C78: for small data the solver of the fitter does what is asked of it, by C72. *)
Theorem C78_solver : forall d degree x c terms pidx gidx coeffs ldlt lu, let s := points (length c) (picked x c) in good_problem d degree s terms 0 -> all_indices s pidx gidx ->
  good_basis d degree s pidx gidx coeffs -> good_solvers d degree s terms 0 pidx gidx coeffs ldlt lu -> small_data d s ->
  let rbfs := map (term_rbf d) terms in let m := rows d s in let l := basis_size d degree in let p := basis d degree s in
  forall A, exact_operator d degree s terms 0 A -> forall lev kern es, schedules_ok (nat -> R) rbfs m es ->
  let solve := fun _ => coarse_correction d difference rbfs 0 degree coeffs ldlt lu s pidx gidx in
  let M := precondition m l lev kern p solve (n_levels m) in
  forall initial v tol gtol max_iter nan_norm arrange fast, good_rest m arrange fast -> 0 <= tol -> 0 <= gtol -> (1 <= max_iter)%nat ->
  let y := start_weights m l p initial in good_start (m + l) (Gmres.is_zero (m + l) y) y ->
  exists w, run_solver d difference rbfs 0 l s p A M initial v tol gtol max_iter es nan_norm arrange fast = Ok (as_list (m + l) w) /\
  (exists ss, schedules_ok (nat -> R) rbfs (length c) ss /\ forall k, (k < length c)%nat ->
    Rabs (direct_operator (nat -> R) difference d rbfs 0 (space_size d degree) ss s (space d degree s) w k - v k) <= tol) /\
  Spec.Fitted.orthogonal d (length c) degree (picked x c) w.
Proof.
  intros d degree x c terms pidx gidx coeffs ldlt lu s GP AI GB GO SD rbfs m l p A EX lev kern es EC solve M
    initial v tol gtol max_iter nan_norm arrange fast GR T1 T2 MI y GS.
  destruct (C72_small d degree s terms 0 pidx gidx coeffs ldlt lu GP AI GB GO SD A EX lev kern es EC
    initial v tol gtol max_iter nan_norm arrange fast GR T1 T2 MI GS) as (w & Q & F & O & _).
  exists w. split; [exact Q|]. destruct (exact_fits d degree s terms 0 A w v tol gtol EX F) as (ss & SC & F' & _).
  split.
  - exists ss. unfold s in SC at 1. rewrite points_rows in SC. split; [exact SC|]. exact F'.
  - intros k K. specialize (O k). unfold l, p, rows, s in O. destruct degree as [g|]; [|cbn in K; lia].
    change (rows d (points (length c) (picked x c))) with (rows d s) in O. unfold m, s in O. rewrite points_rows in O. apply O. exact K.
Qed.
Print Assumptions C78_solver.
(** C78: and so does its evaluator, by C76. *)
Theorem C78_evaluator : forall d degree accuracy grad_accuracy rest near fresh, sound_rest rest -> sound_search d near ->
  forall terms us s ys m x c is w, Forall (fun t => range_ok (tk t) (t1 t)) terms -> Forall (use_of false) us -> few (points m x) ->
  distinct_rows c m -> distinct_rows is m -> Forall (kernels_between d (points (length c) (picked x c)) (points (length is) (picked x is))) terms ->
  evaluator_used d accuracy grad_accuracy (basis_size d degree) (basis d degree) (new_evaluator d rest near fresh (basis_size d degree) false (map function_of terms))
    (us ++ [UseSource (points (length c) (picked x c)); UseWeights w; UseTarget (points (length is) (picked x is))]) = Ok (s, ys) ->
  exists s' y, run_evaluator d (basis_size d degree) (basis d degree) s = Ok (s', inl y) /\ length y = length is /\
  surface d degree (map (term_rbf d) terms) (points (length c) (picked x c)) (weight w) (points (length is) (picked x is)) (weight y).
Proof.
  intros d degree accuracy grad_accuracy rest near fresh SR SS terms us s ys m x c is w RO UO FW DC DI KB H.
  destruct (fitter_evaluator d degree accuracy grad_accuracy rest near fresh SR SS terms us s ys (points m x) c [] is [] w RO UO FW DC) as (s' & y & Q & L & S0); auto;
    try (split; [constructor|intros i []]).
  exists s', y. split; [exact Q|]. split; [rewrite L; cbn [length]; lia|exact S0].
Qed.
Print Assumptions C78_evaluator.

(** ** Example: the points 0, 1, 2 of a line and a spherical function that vanishes from 1/2 on, so that every center is on its own. The value 5 at
    0, at least 3 at 1, at most 10 at 2: the bound at 1 becomes active. *)
Definition narrow : term := Term Sph 1 (1 / 2) identity_matrix.
Definition on_integers (i _ : nat) : R := INR i.
Definition alone (r : nat) (c : list nat) (cv w0 : list R) : outcome (list R) := if Nat.eqb (length cv) (length c) then Ok cv else Throw ExRuntimeError.
Definition at_centers (r : nat) (c : list nat) (w : list R) (is : list nat) : list R :=
  map (fun i => rsum (length c) (fun k => if Nat.eqb (nth k c 0%nat) i then weight w k else 0)) is.
Definition less_b (a b : R) : bool := if Rlt_dec a b then true else false.
Definition three_rows : ienv nat R :=
  mk_ienv (seq 0 3) 0 [Some 5; None; None] [None; Some 3; None] [None; None; Some 10] [0; 0; 0] 0 1
    (fun f b => less_b f (b - 0)) (fun f b => less_b (b + 0) f) (fun w => negb (less_b 0 w)) (fun w => negb (less_b w 0))
    (fun b f => Rmax (b - f) 0) (fun f b => Rmax (f - b) 0) Rmax (fun rs => rs) (fun _ _ _ => []) alone at_centers.
Lemma less_true : forall a b, a < b -> less_b a b = true.
Proof. intros a b L. unfold less_b. destruct (Rlt_dec a b); tauto. Qed.
Lemma less_false : forall a b, b <= a -> less_b a b = false.
Proof. intros a b L. unfold less_b. destruct (Rlt_dec a b); [lra|auto]. Qed.
Lemma narrow_value : forall i j, Rbfs.evaluate 1 Sph 1 (1 / 2) identity_matrix (difference (on_integers i) (on_integers j)) = if Nat.eqb j i then 1 else 0.
Proof.
  intros i j. unfold Rbfs.evaluate, value_at. cbn [value]. unfold sph_value. cbv zeta. replace (dot 1 _ _) with (Rsqr (INR i - INR j)).
  2:{ unfold dot, mat_vec, difference, identity_matrix, on_integers, Rsqr. cbn [rsum Nat.eqb]. ring. }
  rewrite sqrt_Rsqr_abs. destruct (Nat.eqb_spec j i) as [->|N].
  - unfold Rminus. rewrite Rplus_opp_r, Rabs_R0, lt_dec_b_true by lra. unfold Rdiv. rewrite !Rmult_0_l. lra.
  - rewrite lt_dec_b_false; [reflexivity|].
    assert (1 <= Rabs (INR i - INR j)); [|lra]. destruct (Nat.lt_total i j) as [L|[L|L]]; [|congruence|].
    + rewrite Rabs_minus_sym, <- minus_INR, Rabs_pos_eq by (try apply pos_INR; lia). change 1 with (INR 1). apply le_INR. lia.
    + rewrite <- minus_INR, Rabs_pos_eq by (try apply pos_INR; lia). change 1 with (INR 1). apply le_INR. lia.
Qed.
Lemma narrow_kernel : forall c is k j, (k < length is)%nat -> (j < length c)%nat ->
  kernel (nat -> R) difference 1 (map (term_rbf 1) [narrow]) (points (length c) (picked on_integers c)) (points (length is) (picked on_integers is)) k j =
  if Nat.eqb (nth j c 0%nat) (nth k is 0%nat) then 1 else 0.
Proof.
  intros c is k j K J. unfold kernel. cbn [points mu pt picked map term_rbf lsum ev narrow tk t0 t1 ta]. apply Nat.ltb_lt in K, J. rewrite K, J.
  unfold picked. rewrite narrow_value. ring.
Qed.
Lemma narrow_whole : forall c is w k, (k < length is)%nat ->
  whole 1 None (map (term_rbf 1) [narrow]) (points (length c) (picked on_integers c)) (points (length is) (picked on_integers is)) w k =
  rsum (length c) (fun j => if Nat.eqb (nth j c 0%nat) (nth k is 0%nat) then w j else 0).
Proof.
  intros c is w k K. unfold whole. rewrite points_rows. unfold mat_vec at 2. cbn [space_size rsum]. rewrite Rplus_0_r. unfold mat_vec. apply rsum_ext. intros j J.
  rewrite narrow_kernel by auto. destruct (Nat.eqb _ _); ring.
Qed.
Lemma three_rows_on : bounded_on 1 None (map (term_rbf 1) [narrow]) on_integers 0 three_rows.
Proof.
  constructor; cbn [three_rows n_poly below above nonpositive nonnegative isolve ievaluate].
  - constructor; try reflexivity; cbn [three_rows isolve ievaluate isort n_poly].
    + intros r c v w0 w H. unfold alone in H. destruct (Nat.eqb_spec (length v) (length c)) as [Q|]; [|discriminate]. injection H as <-. lia.
    + intros. apply map_length.
  - reflexivity.
  - intros f b. unfold less_b. destruct (Rlt_dec f (b - 0)); split; intros; auto; try lra; discriminate.
  - intros f b. unfold less_b. destruct (Rlt_dec (b + 0) f); split; intros; auto; try lra; discriminate.
  - intros w. unfold less_b. destruct (Rlt_dec 0 w); cbn [negb]; split; intros; auto; try lra; discriminate.
  - intros w. unfold less_b. destruct (Rlt_dec w 0); cbn [negb]; split; intros; auto; try lra; discriminate.
  - intros r c cv w0 w DR H. set (s := points (length c) (picked on_integers c)). unfold alone in H. destruct (Nat.eqb_spec (length cv) (length c)) as [Q|]; [|discriminate]. injection H as <-.
    split; [|intros k K; cbn in K; lia]. destruct (whole_surface 1 None (map (term_rbf 1) [narrow]) s s (weight cv)) as (ss & SC & F). exists ss.
    assert (SC' : schedules_ok (nat -> R) (map (term_rbf 1) [narrow]) (length c) ss) by (rewrite <- (points_rows 1 (length c) (picked on_integers c)); exact SC).
    split; [exact SC'|]. intros k K. assert (KS : (k < rows 1 s)%nat) by (unfold s; rewrite points_rows; exact K).
    rewrite (evaluator_operator (nat -> R) difference 1 (map (term_rbf 1) [narrow]) 0 _ ss ss s _ _ k SC SC) by exact KS.
    rewrite <- F by exact KS. unfold s. rewrite narrow_whole by exact K.
    replace (rsum _ _) with (weight cv k). { match goal with |- Rabs (_ + ?a - _) <= _ => replace a with 0 by (destruct (k <? _)%nat; ring) end. replace (_ - _) with 0 by ring. rewrite Rabs_R0. lra. }
    rewrite <- (rsum_one (length c) k (weight cv k) K). apply rsum_ext. intros j J. destruct (Nat.eqb_spec k j) as [->|N]; [rewrite Nat.eqb_refl; reflexivity|].
    destruct (Nat.eqb_spec (nth j c 0%nat) (nth k c 0%nat)) as [X|]; [|reflexivity]. exfalso. apply N. symmetry. apply (proj1 (NoDup_nth c 0%nat) (proj1 DR)); auto.
  - intros r c w is DR DI. destruct (whole_surface 1 None (map (term_rbf 1) [narrow]) (points (length c) (picked on_integers c)) (points (length is) (picked on_integers is)) (weight w)) as (ss & SC & F).
    exists ss. split; [exact SC|]. intros k K. rewrite <- F by exact K. rewrite points_rows in K. rewrite narrow_whole by exact K. unfold weight at 1, at_centers.
    rewrite (nth_indep _ 0 ((fun i => rsum (length c) (fun k => if Nat.eqb (nth k c 0%nat) i then weight w k else 0)) 0%nat)) by (rewrite map_length; exact K).
    rewrite (map_nth (fun i => rsum (length c) (fun k => if Nat.eqb (nth k c 0%nat) i then weight w k else 0))). reflexivity.
Qed.
Ltac a_round V :=
  unfold istep at 1; cbn -[Rmax valid_distance kMinDistance Rmult Rdiv Rplus Rminus IZR irun istep less_b weight];
  change (Pos.to_nat 1) with 1%nat; change (Pos.to_nat 2) with 2%nat;
  cbn -[Rmax valid_distance kMinDistance Rmult Rdiv Rplus Rminus IZR irun istep less_b weight];
  unfold survivors, DistanceFilter.filter_indices; rewrite ?V;
  cbn -[Rmax valid_distance kMinDistance Rmult Rdiv Rplus Rminus IZR irun istep less_b weight];
  change (Pos.to_nat 1) with 1%nat; change (Pos.to_nat 2) with 2%nat.
Example C78_meets_ex : bounded_on 1 None (map (term_rbf 1) [narrow]) on_integers 0 three_rows /\
  irun three_rows 2 (iinit three_rows) = Ok (IFinished [0%nat; 1%nat] [5; 3]) /\ degree_ok 1 None /\ Forall (good_term 1 (order None)) [narrow] /\
  has_weight 3 1 on_integers [narrow] 0.
Proof.
  split; [apply three_rows_on|]. split.
  - assert (valid_distance (Rmax 1 kMinDistance) = true) as V by (apply valid_ge, Rmax_r).
    unfold iinit. cbn [iwidth_norm three_rows initial_weights]. set (d := Rmax 1 kMinDistance) in *. clearbody d. cbn [irun].
    a_round V. rewrite (less_true (0 + 0)) by lra. cbn -[Rmax valid_distance kMinDistance Rmult Rdiv Rplus Rminus IZR irun istep less_b weight].
    rewrite (less_false (10 + 0)) by lra. cbn -[Rmax valid_distance kMinDistance Rmult Rdiv Rplus Rminus IZR irun istep less_b weight]. cbn [irun].
    assert (valid_distance (Rmax (1 / 2 * d) kMinDistance) = true) as V' by (apply valid_ge, Rmax_r).
    a_round V'. rewrite (less_true 0 3) by lra. cbn -[Rmax valid_distance kMinDistance Rmult Rdiv Rplus Rminus IZR irun istep less_b weight].
    rewrite less_false by lra. reflexivity.
  - split; [exact Logic.I|]. split.
    + constructor; [|constructor]. exists 0%nat. cbn. repeat split; try lia; try lra. intros v H e L. assert (e = 0)%nat as -> by lia.
      specialize (H 0%nat ltac:(lia)). unfold mat_vec, identity_matrix in H. cbn in H. lra.
    + right. split; [reflexivity|]. split; [|exists narrow; split; [left; reflexivity|cbn; lra]].
      intros i j I0 J N. exists 0%nat. split; [lia|]. intros X. apply N, INR_eq. exact X.
Qed.
