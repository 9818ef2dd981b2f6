From Coq Require Import Reals ZArith List Arith Bool Lia Lra Permutation Sorted.
From Verif Require Import Proofs.LinAlg Proofs.Operator Proofs.IncrementalFitter Proofs.DataFit Proofs.DataFitParts.
From Verif Require Import Model.MonomialBasis Model.Grid Model.GridProblem Model.RasPreconditioner Model.Gmres Model.SolverRun Model.Outcome Model.LinAlg Model.Rbfs Model.Solver Model.Operator Model.Fmm Model.FastOperator Model.FastEvaluator Model.IncrementalFitter.
From Verif Require Import Spec.Grid Spec.RasPreconditioner Spec.Gmres Spec.GridProblem Spec.SolverRun Spec.Rbfs Spec.Operator Spec.Fmm Spec.PositiveDefinite Spec.Hermite Spec.FastOperator Spec.FastEvaluator Spec.IncrementalFitter Spec.Fitted Spec.DataFit.
From Verif Require Import Props.SolverRun Props.IncrementalFitter.
From Verif Require Model.DistanceFilter.
Import ListNotations.
Local Open Scope R_scope.

(** C77: when incremental fitting ends with enough centers for the polynomial, the interpolant of the chosen centers with the returned weights,
    evaluated at all the data, is within the tolerances of every value and every gradient, up to the nugget at the centers. *)
Theorem C77_fitted : forall Pt near d degree rbfs nugget n v tol gtol (E : env Pt R), works_on Pt near d degree rbfs nugget n v tol gtol E ->
  forall k c g w, run E k (init E) = Ok (Finished c g w) -> enough d degree c g ->
  exists f, surface d degree rbfs (chosen n c g) (weight w) n f /\ reproduces d nugget n v tol gtol c g w f.
Proof. exact fit_reproduces. Qed.
Print Assumptions C77_fitted.
(** C77: there are always enough for a model without polynomial, and for one with a constant and no gradients. *)
Theorem C77_enough : forall Pt near d degree rbfs nugget n v tol gtol (E : env Pt R), works_on Pt near d degree rbfs nugget n v tol gtol E ->
  degree = None \/ (space_size d degree <= 1 /\ gradients n = 0)%nat -> forall k c g w, run E k (init E) = Ok (Finished c g w) -> enough d degree c g.
Proof. exact fit_plain. Qed.
Print Assumptions C77_enough.
(** C77: and for a linear polynomial, one point and gradients that are not all below their tolerance. *)
Theorem C77_special : forall Pt near d degree rbfs nugget n v tol gtol (E : env Pt R), works_on Pt near d degree rbfs nugget n v tol gtol E ->
  degree = Some 1%nat -> (2 <= space_size d degree)%nat -> values n = 1%nat ->
  forall j t, (j < gradients n)%nat -> (t < d)%nat -> gtol <= Rabs (v (values n + d * j + t)%nat) ->
  forall k c g w, run E k (init E) = Ok (Finished c g w) -> enough d degree c g.
Proof. exact fit_special. Qed.
Print Assumptions C77_special.
(** C77: if the solver succeeds whenever it has enough centers and the points are separated, fitting returns a result. *)
Theorem C77_returns : forall Pt near d degree rbfs nugget n v tol gtol (E : env Pt R), works_on Pt near d degree rbfs nugget n v tol gtol E ->
  always_solves Pt d degree n v E -> separated near kMinDistance (points_full E) -> separated near kMinDistance (grad_points_full E) ->
  forall k, width_norm E <= 2 ^ k * kMinDistance -> exists c g w, run E (k + (values n + gradients n + 1)) (init E) = Ok (Finished c g w).
Proof. exact fit_returns. Qed.
Print Assumptions C77_returns.

(** C77: otherwise the solver was never called: the interpolant is zero everywhere, and misses each of its centers by at least the tolerance. *)
Theorem C77_missed : forall Pt near d degree rbfs nugget n v tol gtol (E : env Pt R), works_on Pt near d degree rbfs nugget n v tol gtol E ->
  (1 <= d)%nat -> (degree = Some 1%nat -> gradients n = 0%nat) -> forall k c g w, run E k (init E) = Ok (Finished c g w) -> ~ enough d degree c g ->
  (forall f, surface d degree rbfs (chosen n c g) (weight w) n f -> forall r, (r < rows d n)%nat -> f r = 0) /\
  (forall i, In i c -> tol <= Rabs (v i)) /\ (forall j, In j g -> exists t, (t < d)%nat /\ gtol <= Rabs (v (values n + d * j + t)%nat)).
Proof. exact fit_missed. Qed.
Print Assumptions C77_missed.
(** C77: when all values are below the tolerance, as they are for points of a surface with their normals as gradients, and the model has a
    polynomial, the result is zero everywhere whatever the gradients are. *)
Theorem C77_lost : forall Pt near d degree rbfs nugget n v tol gtol (E : env Pt R), works_on Pt near d degree rbfs nugget n v tol gtol E ->
  (1 <= d)%nat -> (1 <= space_size d degree)%nat -> ~ (degree = Some 1%nat /\ values n = 1%nat) -> (forall i, (i < values n)%nat -> Rabs (v i) < tol) ->
  forall k c g w, run E k (init E) = Ok (Finished c g w) ->
  c = [] /\ forall f, surface d degree rbfs (chosen n c g) (weight w) n f -> forall r, (r < rows d n)%nat -> f r = 0.
Proof. exact fit_lost. Qed.
Print Assumptions C77_lost.

(** C77: for fewer than 1024 points and gradients the evaluator of the fitter is exact in every round, whatever it was used for before. *)
Theorem C77_evaluator : forall d degree accuracy grad_accuracy rest near fresh, sound_rest rest -> sound_search d near ->
  forall terms us s ys n c g cc cg w, Forall (fun t => range_ok (tk t) (t1 t)) terms -> Forall (use_of false) us -> few n ->
  distinct_rows c (values n) -> distinct_rows g (gradients n) -> distinct_rows cc (values n) -> distinct_rows cg (gradients n) ->
  Forall (kernels_between d (chosen n c g) (chosen n cc cg)) terms ->
  evaluator_used d accuracy grad_accuracy (basis_size d degree) (basis d degree) (new_evaluator d rest near fresh (basis_size d degree) false (map function_of terms))
    (us ++ [UseSource (chosen n c g); UseWeights w; UseTarget (chosen n cc cg)]) = Ok (s, ys) ->
  exists s' y, run_evaluator d (basis_size d degree) (basis d degree) s = Ok (s', inl y) /\ length y = (length cc + d * length cg)%nat /\
  surface d degree (map (term_rbf d) terms) (chosen n c g) (weight w) (chosen n cc cg) (weight y).
Proof. exact fitter_evaluator. Qed.
Print Assumptions C77_evaluator.
(** C77: and its solver succeeds and fits the chosen rows [s], by C72. *)
Theorem C77_solver : forall d degree s terms nugget pidx gidx coeffs ldlt lu, good_problem d degree s terms nugget -> all_indices s pidx gidx ->
  good_basis d degree s pidx gidx coeffs -> good_solvers d degree s terms nugget pidx gidx coeffs ldlt lu -> small_data d s ->
  let rbfs := map (term_rbf d) terms in let m := rows d s in let l := basis_size d degree in let p := basis d degree s in
  forall A, exact_operator d degree s terms nugget A -> forall lev kern es, schedules_ok (nat -> R) rbfs m es ->
  let solve := fun _ => coarse_correction d difference rbfs nugget degree coeffs ldlt lu s pidx gidx in
  let M := precondition m l lev kern p solve (n_levels m) in
  forall initial v tol gtol max_iter nan_norm arrange fast, good_rest m arrange fast -> 0 <= tol -> 0 <= gtol -> (1 <= max_iter)%nat ->
  let x := start_weights m l p initial in good_start (m + l) (Gmres.is_zero (m + l) x) x ->
  exists w, run_solver d difference rbfs nugget l s p A M initial v tol gtol max_iter es nan_norm arrange fast = Ok (as_list (m + l) w) /\
  exists ss, schedules_ok (nat -> R) rbfs m ss /\
  fits m (values s) (direct_operator (nat -> R) difference d rbfs nugget (space_size d degree) ss s (space d degree s) w) v tol gtol.
Proof.
  intros d degree s terms nugget pidx gidx coeffs ldlt lu GP AI GB GO SD rbfs m l p A EX lev kern es EC solve M
    initial v tol gtol max_iter nan_norm arrange fast GR T1 T2 MI x GS.
  destruct (C72_small d degree s terms nugget pidx gidx coeffs ldlt lu GP AI GB GO SD A EX lev kern es EC
    initial v tol gtol max_iter nan_norm arrange fast GR T1 T2 MI GS) as (w & Q & F & _).
  exists w. split; [exact Q|]. exact (exact_fits d degree s terms nugget A w v tol gtol EX F).
Qed.
Print Assumptions C77_solver.

(** ** Examples in one dimension: the points 0 and 1 with the values 5 and 0 and the function 1 - x^2. Without a polynomial one center is enough;
    with a line the only center is not fitted. A point at 0 with the value 0 and the gradient 1 with a constant is not fitted either. *)
Definition bump : rbf (nat -> R) := Rbf (nat -> R) (fun x => 1 - x 0%nat * x 0%nat) (fun x _ => - (2 * x 0%nat)) (fun _ _ _ => - 2).
Definition on_line (m s : nat) : data := Nodes (nat -> R) m s (fun i _ => INR i) (fun j _ => INR j).
Fixpoint insert_by (x : nat * R) (rs : list (nat * R)) : list (nat * R) :=
  match rs with [] => [x] | y :: rs' => if Rle_dec (snd x) (snd y) then x :: rs else y :: insert_by x rs' end.
Definition sort_by (rs : list (nat * R)) : list (nat * R) := fold_right insert_by [] rs.
Definition line_fitter (degree : option nat) (n : data) (v : nat -> R) (solve : nat -> list nat -> list nat -> list R -> list R -> outcome (list R)) : env nat R :=
  mk_env 1 (space_size 1 degree) (match degree with Some 1%nat => true | _ => false end) (seq 0 (values n)) (seq 0 (gradients n)) (map v (seq 0 (rows 1 n)))
    1 1 1 0 (fun a b => if Rlt_dec a b then true else false) (fun a b => Rabs (a - b)) Rmax sort_by ex_search solve
    (fun _ c g w cc cg => map (whole 1 degree [bump] (chosen n c g) (chosen n cc cg) (weight w)) (seq 0 (length cc + 1 * length cg))).

Lemma insert_by_perm : forall x rs, Permutation (insert_by x rs) (x :: rs).
Proof. induction rs as [|y rs IH]; cbn; auto. destruct (Rle_dec (snd x) (snd y)); auto. rewrite IH. apply perm_swap. Qed.
Lemma sort_by_perm : forall rs, Permutation (sort_by rs) rs.
Proof. induction rs; cbn; auto. rewrite insert_by_perm. auto. Qed.
Lemma sort_by_sorted : forall rs, StronglySorted (fun a b : nat * R => snd a <= snd b) (sort_by rs).
Proof.
  induction rs as [|x rs IH]; [constructor|]. cbn [sort_by fold_right]. fold (sort_by rs). induction IH as [|y ys S0 IH F]; cbn [insert_by].
  - repeat constructor.
  - destruct (Rle_dec (snd x) (snd y)).
    + constructor; [constructor; auto|]. constructor; auto. eapply Forall_impl; [|exact F]. intros a A. cbn in A. lra.
    + constructor; auto. apply Forall_forall. intros a A. apply (Permutation_in _ (insert_by_perm x ys)) in A. destruct A as [<-|A]; [lra|].
      rewrite Forall_forall in F. auto.
Qed.
Definition sound_solver (degree : option nat) (n : data) (solve : nat -> list nat -> list nat -> list R -> list R -> outcome (list R)) : Prop :=
  forall r c g cv w0 w, solve r c g cv w0 = Ok w -> length w = (length c + 1 * length g + space_size 1 degree)%nat /\
    let s := chosen n c g in exists ss, schedules_ok (nat -> R) [bump] (rows 1 s) ss /\
    fits (rows 1 s) (values s) (direct_operator (nat -> R) difference 1 [bump] 0 (space_size 1 degree) ss s (space 1 degree s) (weight w)) (weight cv) 1 1.
Lemma line_works : forall degree n v solve, sound_solver degree n solve -> works_on nat ex_near 1 degree [bump] 0 n v 1 1 (line_fitter degree n v solve).
Proof.
  intros degree n v sv SV. constructor; try reflexivity; cbn [line_fitter values_full dim ltb maxd sort solve evaluate radius_search l degree_one points_full grad_points_full zero absdiff].
  - constructor; cbn [line_fitter values_full dim ltb maxd sort solve evaluate radius_search l].
    + unfold mu_full, sigma_full. cbn [line_fitter points_full grad_points_full]. rewrite map_length, !seq_length. reflexivity.
    + intros a b t H. destruct (Rlt_dec (Rmax a b) t) as [L|]; [|discriminate]. apply Rmax_Rlt in L. destruct (Rlt_dec a t), (Rlt_dec b t); tauto.
    + apply sort_by_perm.
    + intros r c g cv w0 w H. apply (SV r c g cv w0 w H).
    + intros. rewrite map_length, seq_length. reflexivity.
    + exact (ok_search ex_near _ (ex_env_ok [] [] 0%nat eq_refl)).
    + exact (ok_near ex_near _ (ex_env_ok [] [] 0%nat eq_refl)).
  - destruct degree as [[|[|k]]|]; split; intros; congruence.
  - apply seq_length.
  - apply seq_length.
  - intros a b. destruct (Rlt_dec a b); [split; auto|split; [discriminate|tauto]].
  - apply sort_by_sorted.
  - intros r c g cv w0 w _ _ H. apply (SV r c g cv w0 w H).
  - intros r c g w cc cg _ _ _ _. destruct (whole_surface 1 degree [bump] (chosen n c g) (chosen n cc cg) (weight w)) as (ss & S0 & F).
    exists ss. split; [exact S0|]. intros i I0. rewrite <- F by exact I0. unfold weight at 1.
    unfold rows, size in I0. cbn [chosen mu sigma] in I0.
    rewrite (nth_indep _ 0 (whole 1 degree [bump] (chosen n c g) (chosen n cc cg) (weight w) 0%nat)) by (rewrite map_length, seq_length; lia).
    rewrite map_nth, seq_nth by lia. reflexivity.
Qed.

Definition five (i : nat) : R := match i with 0%nat => 5 | _ => 0 end.
Definition one_center (r : nat) (c g : list nat) (cv w0 : list R) : outcome (list R) :=
  match c, g, cv with [], [], [] => Ok [] | [0%nat], [], [x] => Ok [x] | _, _, _ => Throw ExRuntimeError end.
Definition no_solver (r : nat) (c g : list nat) (cv w0 : list R) : outcome (list R) := Throw ExRuntimeError.
Lemma no_solver_sound : forall degree n, sound_solver degree n no_solver.
Proof. intros degree n r c g cv w0 w H. discriminate H. Qed.
Lemma one_center_sound : sound_solver None (on_line 2 0) one_center.
Proof.
  intros r c g cv w0 w H. unfold one_center in H.
  assert (X : forall m, schedules_ok (nat -> R) [bump] m [([0%nat], fun _ => 0%nat)]).
  { intros m. split; [reflexivity|]. constructor; [|constructor]. split; [constructor; [intros []|constructor]|]. intros i _. left. reflexivity. }
  destruct c as [|[|?] [|? ?]], g as [|? ?], cv as [|x [|? ?]]; try discriminate H; injection H as <-; (split; [reflexivity|]);
    exists [([0%nat], fun _ => 0%nat)]; (split; [apply X|]); split; cbn; intros i I0; try lia.
  destruct i as [|i]; [|lia]. cbn. unfold difference. cbn. unfold value_row. cbn. match goal with |- Rabs ?a <= _ => replace a with 0 by ring end. rewrite Rabs_R0. lra.
Qed.
Ltac next_round V :=
  unfold step; cbn -[Rmax valid_distance kMinDistance Rmult Rdiv whole Rabs Rminus sort_by need_fitting new_rows step chosen];
  change (Pos.to_nat 1) with 1%nat; cbn [get nth_error of_option bind].
Ltac take_new V :=
  change (sort_by []) with (@nil (nat * R)); repeat match goal with |- context [need_fitting ?e ?t []] => change (need_fitting e t []) with 0%nat end; unfold new_rows, DistanceFilter.filter_indices; rewrite V;
  cbn -[Rmax valid_distance kMinDistance Rmult Rdiv whole Rabs Rminus sort_by need_fitting new_rows step chosen].
Lemma sort_five : sort_by [(0%nat, Rabs (0 - 5)); (1%nat, Rabs (0 - 0))] = [(1%nat, 0); (0%nat, 5)].
Proof.
  replace (0 - 5) with (- (5)) by ring. rewrite Rabs_Ropp, (Rabs_pos_eq 5), Rminus_0_r, Rabs_R0 by lra.
  cbn [sort_by fold_right insert_by snd]. destruct (Rle_dec 5 0); [lra|reflexivity].
Qed.
Lemma need_five : forall degree n v sv, need_fitting (line_fitter degree n v sv) 1 [(1%nat, 0); (0%nat, 5)] = 1%nat.
Proof. intros. cbn [need_fitting ltb line_fitter length]. destruct (Rlt_dec 0 1); [|lra]. destruct (Rlt_dec 5 1); [lra|reflexivity]. Qed.
Lemma need_none : forall degree n v sv i, need_fitting (line_fitter degree n v sv) 1 [(i, 0)] = 0%nat.
Proof. intros. cbn [need_fitting ltb line_fitter length]. destruct (Rlt_dec 0 1); [reflexivity|lra]. Qed.
Lemma need_one : forall degree n v sv i, need_fitting (line_fitter degree n v sv) 1 [(i, 1)] = 1%nat.
Proof. intros. cbn [need_fitting ltb line_fitter length]. destruct (Rlt_dec 1 1); [lra|reflexivity]. Qed.
Lemma zero_at_one : whole 1 None [bump] (chosen (on_line 2 0) [0%nat] []) (chosen (on_line 2 0) [1%nat] []) (weight [5]) 0 = 0.
Proof. unfold whole, mat_vec, rows, size, kernel. cbn. unfold difference. cbn. ring. Qed.
(** C77: fitted with one center. *)
Example C77_fitted_ex : works_on nat ex_near 1 None [bump] 0 (on_line 2 0) five 1 1 (line_fitter None (on_line 2 0) five one_center) /\
  run (line_fitter None (on_line 2 0) five one_center) 2 (init (line_fitter None (on_line 2 0) five one_center)) = Ok (Finished [0%nat] [] [5]).
Proof.
  split; [apply line_works, one_center_sound|]. unfold init. cbn [line_fitter degree_one width_norm andb].
  assert (valid_distance (Rmax 1 kMinDistance) = true) as V by (apply valid_ge; apply Rmax_r).
  set (d := Rmax 1 kMinDistance) in *. clearbody d. cbn [run]. next_round V. rewrite !zeros_whole by constructor.
  rewrite sort_five, need_five. take_new V. next_round V. change (chosen (on_line 2 0) [Pos.to_nat 1] []) with (chosen (on_line 2 0) [1%nat] []).
  rewrite zero_at_one, Rminus_0_r, Rabs_R0. cbn [sort_by fold_right insert_by]. rewrite need_none. reflexivity.
Qed.
(** C77: a single point is always solved. *)
Example C77_returns_ex : always_solves nat 1 None (on_line 1 0) five (line_fitter None (on_line 1 0) five one_center) /\
  separated ex_near kMinDistance (points_full (line_fitter None (on_line 1 0) five one_center)) /\
  width_norm (line_fitter None (on_line 1 0) five one_center) <= 2 ^ 63 * kMinDistance.
Proof.
  split; [|split].
  - intros r c g w0 [NC BC] [_ BG] _ _. change (gradients (on_line 1 0)) with 0%nat in BG. change (values (on_line 1 0)) with 1%nat in BC.
    destruct g as [|j g]; [|specialize (BG j (or_introl eq_refl)); lia].
    destruct c as [|i [|i' c]].
    + eexists. reflexivity.
    + specialize (BC i (or_introl eq_refl)). replace i with 0%nat by lia. eexists. reflexivity.
    + exfalso. pose proof (BC i (or_introl eq_refl)). pose proof (BC i' (or_intror (or_introl eq_refl))). inversion NC as [|? ? X _]. apply X. left. lia.
  - intros i j NE (p & q & P & Q & N). unfold ex_near in N. subst q. cbn [points_full line_fitter on_line values mu seq] in *.
    destruct i as [|[|i]]; destruct j as [|[|j]]; cbn in P, Q; try discriminate; congruence.
  - cbn [width_norm line_fitter]. unfold kMinDistance. rewrite Rinv_r; [lra|]. apply pow_nonzero. lra.
Qed.
(** C77: the same data and a line: the only center is not fitted, with any solver that is sound. *)
Theorem C77_missed_refuted : forall solve, sound_solver (Some 1%nat) (on_line 2 0) solve ->
  let E := line_fitter (Some 1%nat) (on_line 2 0) five solve in works_on nat ex_near 1 (Some 1%nat) [bump] 0 (on_line 2 0) five 1 1 E /\
  exists w, run E 2 (init E) = Ok (Finished [0%nat] [] w) /\
  forall f, surface 1 (Some 1%nat) [bump] (chosen (on_line 2 0) [0%nat] []) (weight w) (on_line 2 0) f -> f 0%nat = 0 /\ tolerance E = 1 /\ five 0 = 5.
Proof.
  intros sv SV E. pose proof (line_works (Some 1%nat) (on_line 2 0) five sv SV) as W. fold E in W. split; [exact W|].
  assert (H : run E 2 (init E) = Ok (Finished [0%nat] [] [0; 0; 0])).
  { unfold E. unfold init. cbn [line_fitter degree_one width_norm andb].
    assert (valid_distance (Rmax 1 kMinDistance) = true) as V by (apply valid_ge; apply Rmax_r).
    set (d := Rmax 1 kMinDistance) in *. clearbody d. cbn [run]. next_round V. rewrite !zeros_whole by repeat constructor.
    rewrite sort_five, need_five. take_new V. next_round V. rewrite !zeros_whole by repeat constructor.
    rewrite Rminus_0_r, Rabs_R0. cbn [sort_by fold_right insert_by]. rewrite need_none. reflexivity. }
  exists [0; 0; 0]. split; [exact H|]. intros f F. split; [|split; reflexivity].
  apply (zero_surface 1 (Some 1%nat) [bump] (chosen (on_line 2 0) [0%nat] []) [0; 0; 0] (on_line 2 0) f); [repeat constructor|exact F|cbn; lia].
Qed.
Print Assumptions C77_missed_refuted.
Definition rising (i : nat) : R := match i with 1%nat => 1 | _ => 0 end.
(** C77: a point with a gradient and a constant: the gradient is not fitted. *)
Theorem C77_lost_refuted : forall solve, sound_solver (Some 0%nat) (on_line 1 1) solve ->
  let E := line_fitter (Some 0%nat) (on_line 1 1) rising solve in works_on nat ex_near 1 (Some 0%nat) [bump] 0 (on_line 1 1) rising 1 1 E /\
  exists w, run E 2 (init E) = Ok (Finished [] [0%nat] w) /\
  forall f, surface 1 (Some 0%nat) [bump] (chosen (on_line 1 1) [] [0%nat]) (weight w) (on_line 1 1) f -> f 1%nat = 0 /\ rising 1 = 1 /\ enough 1 (Some 0%nat) [0%nat] [0%nat].
Proof.
  intros sv SV E. pose proof (line_works (Some 0%nat) (on_line 1 1) rising sv SV) as W. fold E in W. split; [exact W|].
  assert (H : run E 2 (init E) = Ok (Finished [] [0%nat] [0; 0])).
  { unfold E. unfold init. cbn [line_fitter degree_one width_norm andb].
    assert (valid_distance (Rmax 1 kMinDistance) = true) as V by (apply valid_ge; apply Rmax_r).
    set (d := Rmax 1 kMinDistance) in *. clearbody d. cbn [run]. next_round V. rewrite !zeros_whole by repeat constructor.
    replace (0 - 1) with (- (1)) by ring. rewrite Rabs_Ropp, (Rabs_pos_eq 1), Rminus_0_r, Rabs_R0 by lra. cbn [sort_by fold_right insert_by]. rewrite need_none, need_one.
    take_new V. next_round V. rewrite !zeros_whole by repeat constructor. rewrite Rminus_0_r, Rabs_R0. cbn [sort_by fold_right insert_by]. rewrite need_none. reflexivity. }
  exists [0; 0]. split; [exact H|]. intros f F. split; [|split; [reflexivity|left; cbn; lia]].
  apply (zero_surface 1 (Some 0%nat) [bump] (chosen (on_line 1 1) [] [0%nat]) [0; 0] (on_line 1 1) f); [repeat constructor|exact F|cbn; lia].
Qed.
Print Assumptions C77_lost_refuted.
