From Coq Require Import Reals List Arith Bool Lia Lra Permutation Sorted.
From Verif Require Import Proofs.LinAlg Proofs.Operator Proofs.IncrementalFitter.
From Verif Require Import Model.Outcome Model.LinAlg Model.MonomialBasis Model.Rbfs Model.Operator Model.IncrementalFitter.
From Verif Require Import Spec.Rbfs Spec.Operator Spec.PositiveDefinite Spec.Hermite Spec.SolverRun Spec.IncrementalFitter Spec.Fitted Spec.DataFit.
Import ListNotations.
Local Open Scope R_scope.

(** ** The last round *)
Section Last.
Context {Pt D : Type}.
Variable near : R -> Pt -> Pt -> Prop.
Variable E : env Pt D.
Hypothesis OK : env_ok near E.

Lemma step_finished : forall s c g w, step E s = Ok (Finished c g w) -> c = centers s /\ g = grad_centers s /\ solve_step E s = Ok w.
Proof.
  intros s c g w H. unfold step in H. destruct (solve_step E s) as [x|e|]; cbn [bind] in H; try discriminate.
  destruct (Nat.eqb _ _ && Nat.eqb _ _); [injection H; intros; subst; auto|].
  destruct (complement (centers s) (mu_full E)) as [cc|e|]; cbn [bind] in H; try discriminate.
  destruct (complement (grad_centers s) (sigma_full E)) as [cg|e|]; cbn [bind] in H; try discriminate.
  destruct (residuals_from _ _ _ _) as [res|e|]; cbn [bind] in H; try discriminate.
  destruct (grad_residuals_from _ _ _ _) as [gres|e|]; cbn [bind] in H; try discriminate.
  destruct (Nat.eqb _ _ && Nat.eqb _ _); [injection H; intros; subst; auto|].
  destruct (new_rows E (points_full E) _ _ _ _) as [a|e|]; cbn [bind] in H; try discriminate.
  destruct (new_rows E (grad_points_full E) _ _ _ _) as [b|e|]; cbn [bind] in H; try discriminate.
  destruct (carry _ _ _ _ _ _) as [y|e|]; cbn [bind] in H; discriminate.
Qed.

Lemma last_step : forall n s c g w, good E s -> run E n s = Ok (Finished c g w) ->
  exists s', good E s' /\ step E s' = Ok (Finished c g w).
Proof.
  induction n as [|n IH]; intros s c g w G H; [discriminate H|]. cbn [run] in H.
  destruct (step_spec near E OK s G) as [(e & Q & _)|[(Q & _)|[(x & Q & _)|(s' & Q & G' & _)]]]; rewrite Q in H; cbn [bind] in H; try discriminate H.
  - injection H as <- <- <-. eauto.
  - eapply IH; eauto.
Qed.

(** A run that has ended without the solver failing has finished. *)
Lemma run_ok : (forall s, good E s -> exists w, solve_step E s = Ok w) -> forall n s, good E s -> exists p, run E n s = Ok p.
Proof.
  intros S0. induction n as [|n IH]; intros s G; [eexists; reflexivity|]. cbn [run]. destruct (S0 s G) as (w & W).
  destruct (step_spec near E OK s G) as [(e & _ & x & (Q & _) & _)|[(_ & x & (Q & _) & _)|[(x & -> & _)|(s' & -> & G' & _)]]]; try congruence; cbn [bind].
  - eauto.
  - apply IH; auto.
Qed.
End Last.

Lemma gather_map : forall (v : nat -> R) m is, (forall i, In i is -> (i < m)%nat) -> gather (map v (seq 0 m)) is = Ok (map v is).
Proof.
  intros v m is. induction is as [|i is IH]; intros H; [reflexivity|]. cbn [gather map]. unfold get.
  assert (nth_error (map v (seq 0 m)) i = Some (v i)) as ->.
  { rewrite nth_error_map. assert (nth_error (seq 0 m) i = Some i) as ->; [|reflexivity].
    rewrite (nth_error_nth' _ 0%nat) by (rewrite seq_length; apply H; left; auto). rewrite seq_nth by (apply H; left; auto). reflexivity. }
  cbn [of_option bind]. rewrite IH by (intros; apply H; right; auto). reflexivity.
Qed.

Lemma nth_blocks : forall (A : Type) (h : nat -> nat -> A) (d : nat) g j t (x : A), (j < length g)%nat -> (t < d)%nat ->
  nth (d * j + t) (flat_map (fun i => map (h i) (seq 0 d)) g) x = h (nth j g 0%nat) t.
Proof.
  intros A h d g. induction g as [|a g IH]; intros j t x J T; [cbn in J; lia|]. cbn [flat_map].
  destruct j as [|j].
  - rewrite Nat.mul_0_r, app_nth1 by (rewrite map_length, seq_length; lia). cbn [nth Nat.add].
    rewrite (nth_indep _ x (h a 0%nat)) by (rewrite map_length, seq_length; lia). rewrite map_nth, seq_nth by lia. reflexivity.
  - rewrite app_nth2 by (rewrite map_length, seq_length; nia). rewrite map_length, seq_length.
    replace (d * S j + t - d)%nat with (d * j + t)%nat by nia. cbn [nth]. apply IH; cbn in J; lia.
Qed.
Lemma distinct_nth : forall c m k, distinct_rows c m -> (k < length c)%nat -> (nth k c 0 < m)%nat.
Proof. intros c m k [_ H] K. apply H. apply nth_In. auto. Qed.

Section DataFit.
Variables (Pt : Type) (near : R -> Pt -> Pt -> Prop).
Variables (d : nat) (degree : option nat) (rbfs : list (rbf (nat -> R))) (nugget : R).
Notation size_ := (space_size d degree).
Notation evaluated ss s t w r := (direct_evaluator (nat -> R) difference d rbfs size_ ss s t (space d degree t) w r).

(** What the weights give at a row of the data. *)
Definition whole (s n : data) (w : nat -> R) (r : nat) : R :=
  mat_vec (rows d s) (kernel (nat -> R) difference d rbfs s n) w r + mat_vec size_ (space d degree n) (fun k => w (rows d s + k)%nat) r.

Lemma whole_surface : forall s n w, surface d degree rbfs s w n (whole s n w).
Proof.
  intros s n w. exists (repeat ([0%nat], fun _ => 0%nat) (length rbfs)). 
  assert (X : schedules_ok (nat -> R) rbfs (rows d n) (repeat ([0%nat], fun _ => 0%nat) (length rbfs))).
  { split; [apply repeat_length|]. apply Forall_forall. intros y Y. apply repeat_spec in Y. subst y.
    split; [repeat constructor; intros []|]. intros r _. left. reflexivity. }
  split; [exact X|]. intros r L. symmetry. apply evaluator_entries; [exact X|exact L].
Qed.
Lemma surface_whole : forall s t w f r, surface d degree rbfs s w t f -> (r < rows d t)%nat -> f r = whole s t w r.
Proof. intros s t w f r (ss & S0 & F) L. rewrite F by exact L. apply evaluator_entries; [exact S0|exact L]. Qed.

(** Rows of chosen data. *)
Lemma whole_value : forall s n cc cg w k, (k < length cc)%nat -> (nth k cc 0 < values n)%nat -> whole s (chosen n cc cg) w k = whole s n w (nth k cc 0%nat).
Proof.
  intros s n cc cg w k K B. unfold whole. f_equal.
  - unfold mat_vec. apply (rsum_ext (rows d s)). intros c _. f_equal. unfold kernel. apply lsum_ext. intros h _. cbn [chosen mu pt].
    apply Nat.ltb_lt in K, B. unfold values in B. rewrite K, B. reflexivity.
  - unfold mat_vec. apply (rsum_ext size_). intros c _. f_equal. unfold space. destruct degree as [q|]; auto. unfold MonomialBasis.evaluate. cbv zeta.
    unfold values in *. cbn [chosen mu pt]. apply Nat.ltb_lt in K, B. rewrite K, B. reflexivity.
Qed.
Lemma whole_gradient : forall s n cc cg w j t, (j < length cg)%nat -> (t < d)%nat ->
  whole s (chosen n cc cg) w (length cc + d * j + t)%nat = whole s n w (values n + d * nth j cg 0 + t)%nat.
Proof.
  intros s n cc cg w j t J T. 
  assert (forall m i, (m + d * i + t - m) / d = i /\ (m + d * i + t - m) mod d = t)%nat as X.
  { intros m i. replace (m + d * i + t - m)%nat with (t + i * d)%nat by nia. rewrite Nat.div_add, Nat.mod_add by lia.
    rewrite Nat.div_small, Nat.mod_small by lia. auto. }
  assert (forall m i, (m + d * i + t <? m)%nat = false) as Y by (intros; apply Nat.ltb_ge; lia).
  unfold whole. f_equal.
  - unfold mat_vec. apply (rsum_ext (rows d s)). intros c _. f_equal. unfold kernel. apply lsum_ext. intros h _. unfold values. cbn [chosen mu pt gpt].
    rewrite !Y. destruct (X (length cc) j) as [-> ->]. destruct (X (mu (nat -> R) n) (nth j cg 0%nat)) as [-> ->]. reflexivity.
  - unfold mat_vec. apply (rsum_ext size_). intros c _. f_equal. unfold space. destruct degree as [q|]; auto. unfold MonomialBasis.evaluate. cbv zeta.
    unfold values in *. cbn [chosen mu pt gpt]. rewrite !Y. destruct (X (length cc) j) as [-> ->]. destruct (X (mu (nat -> R) n) (nth j cg 0%nat)) as [-> ->]. reflexivity.
Qed.

Section On.
Variables (n : data) (v : nat -> R) (tol gtol : R) (E : env Pt R).
Hypothesis W : works_on Pt near d degree rbfs nugget n v tol gtol E.

Lemma on_full : mu_full E = values n /\ sigma_full E = gradients n.
Proof. split; [apply (on_points _ _ _ _ _ _ _ _ _ _ _ W)|apply (on_gradients _ _ _ _ _ _ _ _ _ _ _ W)]. Qed.

Lemma on_center_values : forall s, good E s -> center_values E s = Ok (chosen_values d n v (centers s) (grad_centers s)).
Proof.
  intros s (GC & GG & _). destruct on_full as [FM FS]. rewrite FM in GC. rewrite FS in GG.
  unfold center_values. rewrite (on_values _ _ _ _ _ _ _ _ _ _ _ W).
  rewrite gather_map. 2:{ intros i I. apply (proj2 GC) in I. unfold rows, size. unfold values in I. lia. }
  cbn [bind]. rewrite gather_map.
  - cbn [bind]. unfold chosen_values. do 2 f_equal. unfold grad_positions. rewrite (on_dim _ _ _ _ _ _ _ _ _ _ _ W), FM.
    clear. induction (grad_centers s) as [|j g IH]; [reflexivity|]. cbn [flat_map]. rewrite map_app, IH, map_map. reflexivity.
  - intros i I. unfold grad_positions in I. apply in_flat_map in I. destruct I as (j & J & I). apply in_map_iff in I. destruct I as (t & <- & T).
    rewrite (on_dim _ _ _ _ _ _ _ _ _ _ _ W) in *. apply in_seq in T. apply (proj2 GG) in J. rewrite FM. unfold rows, size. unfold values, gradients in *. nia.
Qed.

Lemma chosen_value : forall c g k, (k < length c)%nat -> weight (chosen_values d n v c g) k = v (nth k c 0%nat).
Proof.
  intros c g k K. unfold weight, chosen_values. rewrite app_nth1 by (rewrite map_length; auto).
  rewrite (nth_indep _ 0 (v 0%nat)) by (rewrite map_length; auto). apply map_nth.
Qed.
Lemma chosen_gradient : forall c g j t, (j < length g)%nat -> (t < d)%nat ->
  weight (chosen_values d n v c g) (length c + d * j + t)%nat = v (values n + d * nth j g 0 + t)%nat.
Proof.
  intros c g j t J T. unfold weight, chosen_values. rewrite app_nth2 by (rewrite map_length; lia). rewrite map_length.
  replace (length c + d * j + t - length c)%nat with (d * j + t)%nat by lia. apply (nth_blocks R (fun j t => v (values n + d * j + t)%nat)); auto.
Qed.

Lemma solve_cond : forall s : state R, (Nat.leb (l E) (length (centers s)) || (degree_one E && Nat.eqb (length (centers s)) 1 && Nat.leb 1 (length (grad_centers s))) = true) <->
  ((size_ <= length (centers s))%nat \/ (degree = Some 1%nat /\ length (centers s) = 1%nat /\ (1 <= length (grad_centers s))%nat)).
Proof.
  intros s. rewrite orb_true_iff, !andb_true_iff, !Nat.leb_le, Nat.eqb_eq, (on_size _ _ _ _ _ _ _ _ _ _ _ W), (on_degree _ _ _ _ _ _ _ _ _ _ _ W). tauto.
Qed.

Lemma fit_reproduces : forall k c g w, run E k (init E) = Ok (Finished c g w) -> enough d degree c g ->
  exists f, surface d degree rbfs (chosen n c g) (weight w) n f /\ reproduces d nugget n v tol gtol c g w f.
Proof.
  intros k c g w H EN. pose proof (on_ok _ _ _ _ _ _ _ _ _ _ _ W) as OK. destruct on_full as [FM FS].
  destruct (last_step near E OK k (init E) c g w (init_good E) H) as (s & G & Q).
  pose proof (incremental_fitted near E OK k c g w H) as F.
  destruct (step_finished E s c g w Q) as (EC & EG & SS). exists (whole (chosen n c g) n (weight w)). split; [apply whole_surface|].
  destruct F as (DC & DG & LW & REST). rewrite FM in DC. rewrite FS in DG.
  assert (forall i, (i < values n)%nat -> ~ In i c -> Rabs (whole (chosen n c g) n (weight w) i - v i) < tol) as P1.
  { intros i I NI. destruct REST as [(A1 & _)|(round & cc & cg & OC & OG & WT & _)].
    { exfalso. apply NI. destruct DC as [ND B]. rewrite FM in A1. assert (incl (seq 0 (values n)) c) as X.
      { apply NoDup_length_incl; auto; [rewrite seq_length; lia|]. intros a A. apply in_seq. specialize (B a A). lia. }
      apply X. apply in_seq. lia. }
    rewrite FM in OC. rewrite FS in OG. 
    assert (DCC : distinct_rows cc (values n)) by (split; [apply OC|]; intros a A; apply OC in A; tauto).
    assert (DGG : distinct_rows cg (gradients n)) by (split; [apply OG|]; intros a A; apply OG in A; tauto).
    assert (In i cc) as IC by (apply OC; auto). apply In_nth_error in IC. destruct IC as (p & P). destruct (WT p i P) as (x & y & X & Y & LT).
    apply (on_less _ _ _ _ _ _ _ _ _ _ _ W) in LT. rewrite (on_difference _ _ _ _ _ _ _ _ _ _ _ W), (on_tolerance _ _ _ _ _ _ _ _ _ _ _ W) in LT.
    assert (p < length cc)%nat as PL by (apply nth_error_Some; congruence).
    pose proof (on_evaluate _ _ _ _ _ _ _ _ _ _ _ W round c g w cc cg DC DG DCC DGG) as S0.
    assert (y = whole (chosen n c g) n (weight w) i) as <-.
    { rewrite <- (nth_error_nth cc p 0%nat P) at 1. rewrite <- (whole_value (chosen n c g) n cc cg) by (auto; apply distinct_nth; auto).
      rewrite <- (surface_whole _ _ _ _ p S0) by (unfold rows, size; cbn [chosen mu sigma]; lia). symmetry. apply nth_error_nth. auto. }
    rewrite (on_values _ _ _ _ _ _ _ _ _ _ _ W) in X. rewrite nth_error_map in X. destruct (nth_error (seq 0 (rows d n)) i) as [z|] eqn:Z; [|discriminate X].
    cbn in X. injection X as <-. apply (nth_error_nth _ _ 0%nat) in Z. rewrite seq_nth in Z by (unfold rows, size; unfold values in I; lia). cbn in Z. subst z. exact LT. }
  assert (forall j t, (j < gradients n)%nat -> (t < d)%nat -> ~ In j g ->
            Rabs (whole (chosen n c g) n (weight w) (values n + d * j + t)%nat - v (values n + d * j + t)%nat) < gtol) as P2.
  { intros i t I T NI. destruct REST as [(_ & A1)|(round & cc & cg & OC & OG & _ & WT)].
    { exfalso. apply NI. destruct DG as [ND B]. rewrite FS in A1. assert (incl (seq 0 (gradients n)) g) as X.
      { apply NoDup_length_incl; auto; [rewrite seq_length; lia|]. intros a A. apply in_seq. specialize (B a A). lia. }
      apply X. apply in_seq. lia. }
    rewrite FM in OC. rewrite FS in OG.
    assert (DCC : distinct_rows cc (values n)) by (split; [apply OC|]; intros a A; apply OC in A; tauto).
    assert (DGG : distinct_rows cg (gradients n)) by (split; [apply OG|]; intros a A; apply OG in A; tauto).
    assert (In i cg) as IC by (apply OG; auto). apply In_nth_error in IC. destruct IC as (p & P).
    rewrite (on_dim _ _ _ _ _ _ _ _ _ _ _ W) in WT. destruct (WT p i t P T) as (x & y & X & Y & LT).
    apply (on_less _ _ _ _ _ _ _ _ _ _ _ W) in LT. rewrite (on_difference _ _ _ _ _ _ _ _ _ _ _ W), (on_grad_tolerance _ _ _ _ _ _ _ _ _ _ _ W) in LT.
    assert (p < length cg)%nat as PL by (apply nth_error_Some; congruence).
    pose proof (on_evaluate _ _ _ _ _ _ _ _ _ _ _ W round c g w cc cg DC DG DCC DGG) as S0.
    assert (y = whole (chosen n c g) n (weight w) (values n + d * i + t)%nat) as <-.
    { rewrite <- (nth_error_nth cg p 0%nat P) at 1. rewrite <- (whole_gradient (chosen n c g) n cc cg) by auto.
      rewrite <- (surface_whole _ _ _ _ _ S0) by (unfold rows, size; cbn [chosen mu sigma]; nia). symmetry. apply nth_error_nth. auto. }
    rewrite (on_values _ _ _ _ _ _ _ _ _ _ _ W) in X. rewrite FM, nth_error_map in X.
    destruct (nth_error (seq 0 (rows d n)) (values n + d * i + t)) as [z|] eqn:Z; [|discriminate X].
    cbn in X. injection X as <-. apply (nth_error_nth _ _ 0%nat) in Z. rewrite seq_nth in Z by (unfold rows, size; unfold values, gradients in *; nia). cbn [Nat.add] in Z. subst z. exact LT. }
  assert (enough d degree c g -> ~ (c = [] /\ g = []) -> exists ss, schedules_ok (nat -> R) rbfs (rows d (chosen n c g)) ss /\
    fits (rows d (chosen n c g)) (length c) (direct_operator (nat -> R) difference d rbfs nugget size_ ss (chosen n c g) (space d degree (chosen n c g)) (weight w))
      (weight (chosen_values d n v c g)) tol gtol) as P3.
  { intros _ NE. subst c g. unfold solve_step in SS. assert (C : Nat.leb (l E) (length (centers s)) || (degree_one E && Nat.eqb (length (centers s)) 1 && Nat.leb 1 (length (grad_centers s))) = true).
    { apply solve_cond. destruct EN as [EN|[EN|EN]]; tauto. }
    rewrite C, (on_center_values s G) in SS. cbn [bind] in SS.
    apply (on_solve _ _ _ _ _ _ _ _ _ _ _ W _ _ _ _ _ _ DC DG SS). }
  assert (forall r, (r < length c + d * length g)%nat -> ~ (c = [] /\ g = []) -> Rabs (whole (chosen n c g) (chosen n c g) (weight w) r +
    (if (r <? length c)%nat then nugget * weight w r else 0) - weight (chosen_values d n v c g) r) <= if (r <? length c)%nat then tol else gtol) as P4.
  { intros r L NE. destruct (P3 EN NE) as (ss & S0 & F1 & F2).
    assert (direct_operator (nat -> R) difference d rbfs nugget size_ ss (chosen n c g) (space d degree (chosen n c g)) (weight w) r =
            whole (chosen n c g) (chosen n c g) (weight w) r + (if (r <? length c)%nat then nugget * weight w r else 0)) as EQ.
    { rewrite (evaluator_operator (nat -> R) difference d rbfs nugget size_ ss ss (chosen n c g) (space d degree (chosen n c g)) (weight w) r S0 S0) by exact L.
      f_equal. apply evaluator_entries; [exact S0|exact L]. }
    rewrite <- EQ. destruct (Nat.ltb_spec r (length c)); [apply F1; auto|apply F2; split; [auto|exact L]]. }
  split; [exact P1|split].
  - intros p P i. assert (p < length c + d * length g)%nat as L by lia. specialize (P4 p L).
    rewrite (proj2 (Nat.ltb_lt _ _) P), (chosen_value c g p P), (whole_value _ n c g) in P4 by (auto; apply distinct_nth; auto). apply P4. intros [-> _]. cbn in P. lia.
  - intros j t J T r. split; [|apply P2; auto]. intros IG. apply (In_nth _ _ 0%nat) in IG. destruct IG as (p & P & <-).
    assert (length c + d * p + t < length c + d * length g)%nat as L by nia. specialize (P4 _ L).
    assert ((length c + d * p + t <? length c)%nat = false) as X by (apply Nat.ltb_ge; lia). rewrite X, (chosen_gradient c g p t P T), (whole_gradient _ n c g _ p t P T), Rplus_0_r in P4.
    apply P4. intros [_ ->]. cbn in P. lia.
Qed.

Lemma fit_returns : always_solves Pt d degree n v E -> separated near kMinDistance (points_full E) -> separated near kMinDistance (grad_points_full E) ->
  forall k, width_norm E <= 2 ^ k * kMinDistance -> exists c g w, run E (k + (values n + gradients n + 1)) (init E) = Ok (Finished c g w).
Proof.
  intros AS SP SG k K. pose proof (on_ok _ _ _ _ _ _ _ _ _ _ _ W) as OK. destruct on_full as [FM FS].
  pose proof (incremental_terminates near E OK SP SG k K) as T. rewrite FM, FS in T.
  destruct (run_ok near E OK) with (n := (k + (values n + gradients n + 1))%nat) (s := init E) as (p & P).
  - intros s G. unfold solve_step. destruct (Nat.leb _ _ || _) eqn:C; [|eauto]. apply solve_cond in C. rewrite (on_center_values s G). cbn [bind].
    destruct G as (DC & DG & LW & _). rewrite FM in DC. rewrite FS in DG. apply AS; auto.
    rewrite LW, (on_dim _ _ _ _ _ _ _ _ _ _ _ W), (on_size _ _ _ _ _ _ _ _ _ _ _ W). reflexivity.
  - apply init_good.
  - rewrite P in *. destruct p as [c g w|s]; [|destruct T]. eauto.
Qed.
(** ** Rounds without solving *)
Notation zeros := (Forall (fun x : R => x = 0)).
Lemma zeros_weight : forall x i, zeros x -> weight x i = 0.
Proof.
  intros x i Z. unfold weight. destruct (Nat.lt_ge_cases i (length x)) as [L|L]; [|apply nth_overflow; auto].
  rewrite Forall_forall in Z. apply Z. apply nth_In. auto.
Qed.
Lemma zeros_whole : forall s t x r, zeros x -> whole s t (weight x) r = 0.
Proof.
  intros s t x r Z. unfold whole, mat_vec. rewrite (rsum_0 (rows d s)), (rsum_0 size_).
  - ring.
  - intros k _. rewrite zeros_weight by auto. ring.
  - intros k _. rewrite zeros_weight by auto. ring.
Qed.
Lemma value_at : forall i, (i < rows d n)%nat -> nth_error (values_full E) i = Some (v i).
Proof.
  intros i I. rewrite (on_values _ _ _ _ _ _ _ _ _ _ _ W), nth_error_map.
  rewrite (nth_error_nth' _ 0%nat) by (rewrite seq_length; auto). rewrite seq_nth by auto. reflexivity.
Qed.
Lemma residuals_zero : forall fit cs pos rs, zeros fit -> (forall i, In i cs -> (i < rows d n)%nat) -> residuals_from E fit pos cs = Ok rs ->
  forall j x, In (j, x) rs -> x = Rabs (v j).
Proof.
  intros fit. induction cs as [|c cs IH]; intros pos rs Z B H j x I0; cbn [residuals_from] in H.
  - injection H as <-. destruct I0.
  - unfold get in H. rewrite value_at in H by (apply B; left; auto). cbn [of_option bind] in H.
    destruct (nth_error fit pos) as [f|] eqn:F; cbn [of_option bind] in H; [|discriminate].
    destruct (residuals_from E fit (S pos) cs) as [r| |] eqn:Q; cbn [bind] in H; try discriminate.
    injection H as <-. destruct I0 as [I0|I0]; [|eapply IH; eauto; intros; apply B; right; auto].
    injection I0 as <- <-. rewrite (on_difference _ _ _ _ _ _ _ _ _ _ _ W). apply nth_error_In in F. rewrite Forall_forall in Z. rewrite (Z f F).
    rewrite <- Rabs_Ropp. f_equal. ring.
Qed.
Lemma max_reached : forall fit k pos vpos m, zeros fit -> (vpos + S k <= rows d n)%nat -> max_component E fit pos vpos (S k) = Ok m ->
  exists t, (t < S k)%nat /\ m = Rabs (v (vpos + t)%nat).
Proof.
  intros fit. induction k as [|k IH]; intros pos vpos m Z B H.
  - cbn [max_component] in H. unfold get in H. destruct (nth_error fit pos) as [f|] eqn:F; cbn [of_option bind] in H; [|discriminate].
    rewrite value_at in H by lia. cbn [of_option bind] in H. injection H as <-. exists 0%nat. split; [lia|]. rewrite Nat.add_0_r.
    rewrite (on_difference _ _ _ _ _ _ _ _ _ _ _ W). apply nth_error_In in F. rewrite Forall_forall in Z. rewrite (Z f F). rewrite <- Rabs_Ropp. f_equal. ring.
  - change (max_component E fit pos vpos (S (S k))) with (let* f := get fit pos in let* x := get (values_full E) vpos in
      let* m := max_component E fit (S pos) (S vpos) (S k) in Ok (maxd E (absdiff E f x) m)) in H.
    unfold get in H. destruct (nth_error fit pos) as [f|] eqn:F; cbn [of_option bind] in H; [|discriminate].
    rewrite value_at in H by lia. cbn [of_option bind] in H.
    destruct (max_component E fit (S pos) (S vpos) (S k)) as [m'| |] eqn:Q; cbn [bind] in H; try discriminate.
    injection H as <-. assert (S vpos + S k <= rows d n)%nat as B' by lia. destruct (IH _ _ _ Z B' Q) as (t & T & ->).
    rewrite (on_max _ _ _ _ _ _ _ _ _ _ _ W), (on_difference _ _ _ _ _ _ _ _ _ _ _ W). apply nth_error_In in F. rewrite Forall_forall in Z. rewrite (Z f F).
    unfold Rmax. destruct (Rle_dec (Rabs (0 - v vpos)) (Rabs (v (S vpos + t)%nat))).
    + exists (S t). split; [lia|]. do 2 f_equal. lia.
    + exists 0%nat. split; [lia|]. rewrite Nat.add_0_r. rewrite <- Rabs_Ropp. f_equal. ring.
Qed.
Lemma max_reached_at : forall fit k pos vpos m, (1 <= k)%nat -> zeros fit -> (vpos + k <= rows d n)%nat -> max_component E fit pos vpos k = Ok m ->
  exists t, (t < k)%nat /\ m = Rabs (v (vpos + t)%nat).
Proof. intros fit [|k] pos vpos m K; [lia|]. apply max_reached. Qed.
Lemma grad_residuals_zero : forall fit cs pos rs, (1 <= d)%nat -> zeros fit -> (forall j, In j cs -> (j < gradients n)%nat) -> grad_residuals_from E fit pos cs = Ok rs ->
  forall j x, In (j, x) rs -> exists t, (t < d)%nat /\ x = Rabs (v (values n + d * j + t)%nat).
Proof.
  intros fit. induction cs as [|c cs IH]; intros pos rs D1 Z B H j x I0; cbn [grad_residuals_from] in H.
  - injection H as <-. destruct I0.
  - destruct (max_component E fit pos (mu_full E + dim E * c) (dim E)) as [m| |] eqn:MC; cbn [bind] in H; try discriminate.
    destruct (grad_residuals_from E fit (pos + dim E) cs) as [r| |] eqn:Q; cbn [bind] in H; try discriminate.
    injection H as <-. destruct I0 as [I0|I0]; [|eapply IH; eauto; intros; apply B; right; auto].
    injection I0 as <- <-. rewrite (on_dim _ _ _ _ _ _ _ _ _ _ _ W) in MC. rewrite (proj1 on_full) in MC. specialize (B c (or_introl eq_refl)).
    assert (values n + d * c + d <= rows d n)%nat as L by (unfold rows, size; unfold values, gradients in *; nia).
    exact (max_reached_at _ _ _ _ _ D1 Z L MC).
Qed.
Lemma need_sorted : forall T rs, StronglySorted (fun a b : nat * R => snd a <= snd b) rs -> forall i, In i (firstn (need_fitting E T rs) (map fst (rev rs))) ->
  exists x, In (i, x) rs /\ T <= x.
Proof.
  intros T. induction rs as [|[c x] rs IH]; intros S0 i I0; [destruct I0|]. inversion S0 as [|? ? S1 F]; subst. cbn [need_fitting] in I0.
  destruct (ltb E x T) eqn:L.
  - cbn [rev] in I0. rewrite map_app, firstn_app in I0. rewrite map_length, rev_length in I0. pose proof (need_fitting_le E T rs).
    replace (need_fitting E T rs - length rs)%nat with 0%nat in I0 by lia. rewrite firstn_O, app_nil_r in I0.
    destruct (IH S1 i I0) as (y & Y & B). exists y. split; [right|]; auto.
  - assert (In i (map fst ((c, x) :: rs))) as J.
    { apply in_rev. rewrite <- map_rev. apply (sublist_firstn _ _ _ I0). }
    apply in_map_iff in J. destruct J as ([j y] & <- & J). exists y. split; [exact J|].
    assert (T <= x). { destruct (Rle_or_lt T x) as [G|G]; auto. apply (on_less _ _ _ _ _ _ _ _ _ _ _ W) in G. congruence. }
    destruct J as [J|J]; [injection J as <- <-; auto|]. rewrite Forall_forall in F. specialize (F _ J). cbn in F. lra.
Qed.
Lemma new_large : forall pts cs rs m D0 new, new_rows E pts cs rs m D0 = Ok new -> forall i, In i new -> In i (firstn m (map fst (rev rs))).
Proof.
  intros pts cs rs m D0 new H i I0. unfold new_rows in H. destruct (DistanceFilter.filter_indices _ _ _ _ _) as [[[x|e|] f]|e|]; try discriminate.
  destruct (DistanceFilter.filtered_indices f); cbn [bind] in H; try discriminate. injection H as <-. apply filter_In in I0. tauto.
Qed.

(** Nothing has been solved yet, and every center is missed by zero. *)
Definition idle (c g : list nat) (x : list R) : Prop :=
  zeros x /\ (forall i, In i c -> tol <= Rabs (v i)) /\ (forall j, In j g -> exists t, (t < d)%nat /\ gtol <= Rabs (v (values n + d * j + t)%nat)).
Definition solving (s : state R) : bool :=
  Nat.leb (l E) (length (centers s)) || (degree_one E && Nat.eqb (length (centers s)) 1 && Nat.leb 1 (length (grad_centers s))).

Lemma idle_step : forall s s', (1 <= d)%nat -> good E s -> idle (centers s) (grad_centers s) (weights s) -> solving s = false -> step E s = Ok (Next s') ->
  idle (centers s') (grad_centers s') (weights s').
Proof.
  intros s s' D1 (GC & GG & GW & GF) (Z & ZC & ZG) NS H. pose proof (on_ok _ _ _ _ _ _ _ _ _ _ _ W) as OK.
  unfold step, solve_step in H. fold (solving s) in H. rewrite NS in H. cbn [bind] in H.
  destruct (Nat.eqb _ _ && Nat.eqb _ _); [discriminate H|].
  destruct (complement_spec _ _ GC) as (cc & Q1 & OC). destruct (complement_spec _ _ GG) as (cg & Q2 & OG). rewrite Q1, Q2 in H. cbn [bind] in H. clear Q1 Q2.
  destruct on_full as [FM FS]. rewrite FM in GC, OC. rewrite FS in GG, OG.
  assert (DCC : distinct_rows cc (values n)) by (split; [apply OC|]; intros a A; apply OC in A; tauto).
  assert (DGG : distinct_rows cg (gradients n)) by (split; [apply OG|]; intros a A; apply OG in A; tauto).
  set (fit := evaluate E _ _ _ _ _ _) in H.
  assert (zeros fit) as ZF.
  { pose proof (on_evaluate _ _ _ _ _ _ _ _ _ _ _ W (round s) _ _ (weights s) _ _ GC GG DCC DGG) as S0. fold fit in S0.
    pose proof (ok_evaluate near E OK (round s) (centers s) (grad_centers s) (weights s) cc cg) as LF. fold fit in LF. rewrite (on_dim _ _ _ _ _ _ _ _ _ _ _ W) in LF.
    apply Forall_forall. intros x X. apply (In_nth _ _ 0) in X. destruct X as (r & R0 & <-).
    change (nth r fit 0) with (weight fit r). rewrite (surface_whole _ _ _ _ r S0) by (unfold rows, size; cbn [chosen mu sigma]; lia). apply zeros_whole. exact Z. }
  destruct (residuals_from E fit 0 cc) as [res|e|] eqn:RES; cbn [bind] in H; try discriminate.
  destruct (grad_residuals_from E fit (length cc) cg) as [gres|e|] eqn:GRES; cbn [bind] in H; try discriminate.
  destruct (Nat.eqb _ _ && Nat.eqb _ _); [discriminate H|].
  destruct (new_rows E (points_full E) _ _ _ _) as [new|e|] eqn:NEW; cbn [bind] in H; try discriminate.
  destruct (new_rows E (grad_points_full E) _ _ _ _) as [gnew|e|] eqn:GNEW; cbn [bind] in H; try discriminate.
  destruct (carry _ _ _ _ _ _) as [w'|e|] eqn:CARRY; cbn [bind] in H; try discriminate. injection H as <-. cbn [centers grad_centers weights].
  split; [|split].
  - unfold carry in CARRY. destruct (Nat.eqb _ _); [|discriminate]. injection CARRY as <-. rewrite (on_zero _ _ _ _ _ _ _ _ _ _ _ W).
    assert (forall m, zeros (repeat 0 m)) as ZR by (intros m; apply Forall_forall; intros x X; apply repeat_spec in X; auto).
    assert (forall m x, zeros x -> zeros (firstn m x)) as ZN.
    { intros m x X. apply Forall_forall. intros y Y. rewrite Forall_forall in X. apply X. rewrite <- (firstn_skipn m x). apply in_app_iff. auto. }
    assert (forall m x, zeros x -> zeros (skipn m x)) as ZK.
    { intros m x X. apply Forall_forall. intros y Y. rewrite Forall_forall in X. apply X. rewrite <- (firstn_skipn m x). apply in_app_iff. auto. }
    repeat (apply Forall_app; split); auto.
  - intros i I0. apply in_app_iff in I0. destruct I0 as [I0|I0]; [auto|]. apply (new_large _ _ _ _ _ _ NEW) in I0.
    apply (need_sorted _ _ (on_sort _ _ _ _ _ _ _ _ _ _ _ W res)) in I0. destruct I0 as (x & X & T). rewrite (on_tolerance _ _ _ _ _ _ _ _ _ _ _ W) in T.
    apply (Permutation_in _ (ok_sort near E OK res)) in X.
    rewrite <- (residuals_zero fit cc 0 res ZF) with (j := i) (x := x); auto. intros a A. apply DCC in A. unfold rows, size. unfold values in A. lia.
  - intros i I0. apply in_app_iff in I0. destruct I0 as [I0|I0]; [auto|]. apply (new_large _ _ _ _ _ _ GNEW) in I0.
    apply (need_sorted _ _ (on_sort _ _ _ _ _ _ _ _ _ _ _ W gres)) in I0. destruct I0 as (x & X & T). rewrite (on_grad_tolerance _ _ _ _ _ _ _ _ _ _ _ W) in T.
    apply (Permutation_in _ (ok_sort near E OK gres)) in X.
    destruct (grad_residuals_zero fit cg (length cc) gres D1 ZF (proj2 DGG) GRES i x X) as (t & T0 & ->). eauto.
Qed.

Lemma run_grows : forall k s c g w, good E s -> run E k s = Ok (Finished c g w) -> (length (centers s) <= length c)%nat.
Proof.
  pose proof (on_ok _ _ _ _ _ _ _ _ _ _ _ W) as OK.
  induction k as [|k IH]; intros s c g w G H; [discriminate H|]. cbn [run] in H.
  destruct (step_spec near E OK s G) as [(e & Q & _)|[(Q & _)|[(x & Q & _)|(s' & Q & G' & _ & (nc & ng & EC & _) & _)]]]; rewrite Q in H; cbn [bind] in H; try discriminate H.
  - injection H as <- <- <-. lia.
  - apply IH in H; auto. rewrite EC, app_length in H. lia.
Qed.
Lemma idle_run : (1 <= d)%nat -> forall k s c g w, good E s -> idle (centers s) (grad_centers s) (weights s) -> run E k s = Ok (Finished c g w) ->
  (forall s', good E s' -> idle (centers s') (grad_centers s') (weights s') -> (length (centers s') <= length c)%nat -> solving s' = false) -> idle c g w.
Proof.
  intros D1. pose proof (on_ok _ _ _ _ _ _ _ _ _ _ _ W) as OK.
  induction k as [|k IH]; intros s c g w G I0 H NS; [discriminate H|]. assert (solving s = false) as S0 by (apply NS; auto; eapply run_grows; eauto).
  cbn [run] in H. destruct (step E s) as [p|e|] eqn:Q; cbn [bind] in H; try discriminate H. destruct p as [c' g' w'|s'].
  - injection H as <- <- <-. destruct (step_finished E s _ _ _ Q) as (-> & -> & SS). unfold solve_step in SS. fold (solving s) in SS. rewrite S0 in SS. injection SS as <-. exact I0.
  - apply (IH s' c g w); auto.
    + destruct (step_spec near E OK s G) as [(e & Q' & _)|[(Q' & _)|[(x & Q' & _)|(s2 & Q' & G' & _)]]]; rewrite Q in Q'; try discriminate Q'.
      injection Q' as <-. exact G'.
    + eapply idle_step; eauto.
Qed.
Lemma idle_init : ~ (degree = Some 1%nat /\ values n = 1%nat /\ (1 <= gradients n)%nat) -> idle (centers (init E)) (grad_centers (init E)) (weights (init E)).
Proof.
  intros N. destruct on_full as [FM FS]. unfold init. cbn [centers grad_centers weights].
  destruct (degree_one E && Nat.eqb (mu_full E) 1 && Nat.leb 1 (sigma_full E)) eqn:C.
  - exfalso. apply N. rewrite !andb_true_iff, Nat.eqb_eq, Nat.leb_le, (on_degree _ _ _ _ _ _ _ _ _ _ _ W), FM, FS in C. tauto.
  - split; [|split; intros ? []]. apply Forall_forall. intros x X. apply repeat_spec in X. rewrite (on_zero _ _ _ _ _ _ _ _ _ _ _ W) in X. auto.
Qed.
Lemma zero_surface : forall s x t f, zeros x -> surface d degree rbfs s (weight x) t f -> forall r, (r < rows d t)%nat -> f r = 0.
Proof. intros s x t f Z S0 r L. rewrite (surface_whole _ _ _ _ r S0 L). apply zeros_whole. auto. Qed.

Lemma fit_missed : (1 <= d)%nat -> (degree = Some 1%nat -> gradients n = 0%nat) -> forall k c g w, run E k (init E) = Ok (Finished c g w) -> ~ enough d degree c g ->
  (forall f, surface d degree rbfs (chosen n c g) (weight w) n f -> forall r, (r < rows d n)%nat -> f r = 0) /\
  (forall i, In i c -> tol <= Rabs (v i)) /\ (forall j, In j g -> exists t, (t < d)%nat /\ gtol <= Rabs (v (values n + d * j + t)%nat)).
Proof.
  intros D1 ND k c g w H NE. destruct (idle_run D1 k (init E) c g w (init_good E)) as (Z & ZC & ZG).
  - apply idle_init. intros (A & B & C). specialize (ND A). lia.
  - exact H.
  - intros s' G _ LE. destruct (solving s') eqn:Q; auto. exfalso. apply solve_cond in Q. destruct Q as [Q|(Q1 & _ & Q2)].
    + apply NE. left. lia.
    + specialize (ND Q1). destruct G as (_ & (_ & B) & _). rewrite (proj2 on_full) in B. destruct (grad_centers s') as [|j gs]; [cbn in Q2; lia|]. specialize (B j (or_introl eq_refl)). lia.
  - split; [|auto]. intros f. apply zero_surface. exact Z.
Qed.

Lemma fit_lost : (1 <= d)%nat -> (1 <= size_)%nat -> ~ (degree = Some 1%nat /\ values n = 1%nat) -> (forall i, (i < values n)%nat -> Rabs (v i) < tol) ->
  forall k c g w, run E k (init E) = Ok (Finished c g w) ->
  c = [] /\ forall f, surface d degree rbfs (chosen n c g) (weight w) n f -> forall r, (r < rows d n)%nat -> f r = 0.
Proof.
  intros D1 S1 N1 SM k c g w H.
  assert (forall c' g' w', distinct_rows c' (values n) -> idle c' g' w' -> c' = []) as X.
  { intros [|i c'] g' w' [_ B] (_ & ZC & _); auto. specialize (ZC i (or_introl eq_refl)). specialize (B i (or_introl eq_refl)). specialize (SM i B). lra. }
  destruct (idle_run D1 k (init E) c g w (init_good E)) as (Z & ZC & ZG).
  - apply idle_init. tauto.
  - exact H.
  - intros s' G I0 _. assert (centers s' = []) as E0. { apply (X _ (grad_centers s') (weights s')); auto. rewrite <- (proj1 on_full). apply G. }
    destruct (solving s') eqn:Q; auto. exfalso. apply solve_cond in Q. rewrite E0 in Q. cbn [length] in Q. lia.
  - split.
    + apply (X c g w); [|repeat split; auto]. destruct (incremental_fitted near E (on_ok _ _ _ _ _ _ _ _ _ _ _ W) k c g w H) as (DC & _). rewrite (proj1 on_full) in DC. exact DC.
    + intros f. apply zero_surface. exact Z.
Qed.

Lemma fit_plain : degree = None \/ (size_ <= 1 /\ gradients n = 0)%nat -> forall k c g w, run E k (init E) = Ok (Finished c g w) -> enough d degree c g.
Proof.
  intros [->|[S1 G0]] k c g w H; [left; cbn; lia|]. destruct (incremental_fitted near E (on_ok _ _ _ _ _ _ _ _ _ _ _ W) k c g w H) as (_ & (_ & DG) & _).
  rewrite (proj2 on_full), G0 in DG. destruct g as [|j g]; [|specialize (DG j (or_introl eq_refl)); lia].
  destruct c as [|i c]; [right; right; auto|left; cbn [length]; lia].
Qed.
(** ** One point and gradients *)
Lemma zeros_step : forall s s', zeros (weights s) -> solving s = false -> step E s = Ok (Next s') -> zeros (weights s').
Proof.
  intros s s' Z NS H. unfold step, solve_step in H. fold (solving s) in H. rewrite NS in H. cbn [bind] in H.
  destruct (Nat.eqb _ _ && Nat.eqb _ _); [discriminate H|].
  destruct (complement (centers s) (mu_full E)) as [cc|e|]; cbn [bind] in H; try discriminate.
  destruct (complement (grad_centers s) (sigma_full E)) as [cg|e|]; cbn [bind] in H; try discriminate.
  destruct (residuals_from _ _ _ _) as [res|e|]; cbn [bind] in H; try discriminate.
  destruct (grad_residuals_from _ _ _ _) as [gres|e|]; cbn [bind] in H; try discriminate.
  destruct (Nat.eqb _ _ && Nat.eqb _ _); [discriminate H|].
  destruct (new_rows E (points_full E) _ _ _ _) as [new|e|]; cbn [bind] in H; try discriminate.
  destruct (new_rows E (grad_points_full E) _ _ _ _) as [gnew|e|]; cbn [bind] in H; try discriminate.
  destruct (carry _ _ _ _ _ _) as [w'|e|] eqn:CARRY; cbn [bind] in H; try discriminate. injection H as <-. cbn [weights].
  unfold carry in CARRY. destruct (Nat.eqb _ _); [|discriminate]. injection CARRY as <-. rewrite (on_zero _ _ _ _ _ _ _ _ _ _ _ W).
  assert (forall m, zeros (repeat 0 m)) as ZR by (intros m; apply Forall_forall; intros x X; apply repeat_spec in X; auto).
  assert (forall m x, zeros x -> zeros (firstn m x)) as ZN.
  { intros m x X. apply Forall_forall. intros y Y. rewrite Forall_forall in X. apply X. rewrite <- (firstn_skipn m x). apply in_app_iff. auto. }
  assert (forall m x, zeros x -> zeros (skipn m x)) as ZK.
  { intros m x X. apply Forall_forall. intros y Y. rewrite Forall_forall in X. apply X. rewrite <- (firstn_skipn m x). apply in_app_iff. auto. }
  repeat (apply Forall_app; split); auto.
Qed.
Lemma run_zeros : (2 <= size_)%nat -> values n = 1%nat -> forall k s c w, good E s -> zeros (weights s) -> run E k s = Ok (Finished c [] w) -> zeros w.
Proof.
  intros S2 V1. pose proof (on_ok _ _ _ _ _ _ _ _ _ _ _ W) as OK.
  assert (forall k s c w, good E s -> run E k s = Ok (Finished c [] w) -> grad_centers s = []) as GR.
  { induction k as [|k IH]; intros s c w G H; [discriminate H|]. cbn [run] in H.
    destruct (step_spec near E OK s G) as [(e & Q & _)|[(Q & _)|[(x & Q & _)|(s' & Q & G' & _ & (nc & ng & _ & EG) & _)]]]; rewrite Q in H; cbn [bind] in H; try discriminate H.
    - injection H as _ H _. exact H.
    - apply IH in H; auto. rewrite EG in H. apply app_eq_nil in H. tauto. }
  induction k as [|k IH]; intros s c w G Z H; [discriminate H|]. assert (solving s = false) as S0.
  { destruct (solving s) eqn:Q; auto. exfalso. apply solve_cond in Q. rewrite (GR _ _ _ _ G H) in Q. cbn [length] in Q.
    destruct G as ((N & B) & _). rewrite (proj1 on_full), V1 in B. assert (length (centers s) <= 1)%nat; [|lia].
    rewrite <- (seq_length 1 0). apply NoDup_incl_length; auto. intros i I0. apply in_seq. specialize (B i I0). lia. }
  cbn [run] in H. destruct (step E s) as [p|e|] eqn:Q; cbn [bind] in H; try discriminate H. destruct p as [c' g' w'|s'].
  - injection H as <- -> <-. destruct (step_finished E s _ _ _ Q) as (_ & _ & SS). unfold solve_step in SS. fold (solving s) in SS. rewrite S0 in SS. injection SS as <-. exact Z.
  - apply (IH s' c w); auto.
    + destruct (step_spec near E OK s G) as [(e & Q' & _)|[(Q' & _)|[(x & Q' & _)|(s2 & Q' & G' & _)]]]; rewrite Q in Q'; try discriminate Q'.
      injection Q' as <-. exact G'.
    + eapply zeros_step; eauto.
Qed.
Lemma fit_special : degree = Some 1%nat -> (2 <= size_)%nat -> values n = 1%nat -> forall j t, (j < gradients n)%nat -> (t < d)%nat -> gtol <= Rabs (v (values n + d * j + t)%nat) ->
  forall k c g w, run E k (init E) = Ok (Finished c g w) -> enough d degree c g.
Proof.
  intros D1 S2 V1 j t J T B k c g w H. pose proof (on_ok _ _ _ _ _ _ _ _ _ _ _ W) as OK. destruct on_full as [FM FS].
  assert (IN : centers (init E) = [0%nat]).
  { unfold init. cbn [centers]. assert (degree_one E && Nat.eqb (mu_full E) 1 && Nat.leb 1 (sigma_full E) = true) as ->; [|reflexivity].
    rewrite !andb_true_iff, Nat.eqb_eq, Nat.leb_le, (on_degree _ _ _ _ _ _ _ _ _ _ _ W), FM, FS. repeat split; auto. lia. }
  pose proof (run_grows k (init E) c g w (init_good E) H) as L1. rewrite IN in L1. cbn [length] in L1.
  pose proof (incremental_fitted near E OK k c g w H) as (DC & DG & _ & REST). rewrite FM, V1 in DC. rewrite FS in DG.
  assert (length c <= 1)%nat as L2. { rewrite <- (seq_length 1 0). apply NoDup_incl_length; [apply DC|]. intros i I0. apply in_seq. apply DC in I0. lia. }
  right; left. split; [auto|]. split; [lia|]. destruct g as [|j0 g]; [exfalso|cbn [length]; lia].
  assert (Z : zeros w).
  { apply (run_zeros S2 V1 k (init E) c w (init_good E)); auto. unfold init. cbn [weights]. apply Forall_forall. intros x X. apply repeat_spec in X.
    rewrite (on_zero _ _ _ _ _ _ _ _ _ _ _ W) in X. auto. }
  destruct REST as [(_ & G0)|(round & cc & cg & OC & OG & _ & WT)]; [rewrite FS in G0; cbn in G0; lia|].
  rewrite FM, V1 in OC. rewrite FS in OG.
  assert (In j cg) as IC by (apply OG; auto). apply In_nth_error in IC. destruct IC as (p & P).
  rewrite (on_dim _ _ _ _ _ _ _ _ _ _ _ W) in WT. destruct (WT p j t P T) as (x & y & X & Y & LT).
  apply (on_less _ _ _ _ _ _ _ _ _ _ _ W) in LT. rewrite (on_difference _ _ _ _ _ _ _ _ _ _ _ W), (on_grad_tolerance _ _ _ _ _ _ _ _ _ _ _ W) in LT.
  assert (p < length cg)%nat as PL by (apply nth_error_Some; congruence).
  assert (DCC : distinct_rows cc (values n)) by (rewrite V1; split; [apply OC|]; intros a A; apply OC in A; tauto).
  assert (DGG : distinct_rows cg (gradients n)) by (split; [apply OG|]; intros a A; apply OG in A; tauto).
  assert (DC' : distinct_rows c (values n)) by (rewrite V1; exact DC).
  pose proof (on_evaluate _ _ _ _ _ _ _ _ _ _ _ W round c [] w cc cg DC' DG DCC DGG) as S0.
  assert (y = 0) as ->.
  { rewrite <- (zeros_whole (chosen n c []) (chosen n cc cg) w (length cc + d * p + t)%nat Z).
    rewrite <- (surface_whole _ _ _ _ _ S0) by (unfold rows, size; cbn [chosen mu sigma]; nia). symmetry. apply nth_error_nth. auto. }
  rewrite FM in X. rewrite value_at in X by (unfold rows, size; unfold values, gradients in *; nia). injection X as <-.
  replace (0 - v (values n + d * j + t)%nat) with (- v (values n + d * j + t)%nat) in LT by ring. rewrite Rabs_Ropp in LT. lra.
Qed.
End On.
End DataFit.
