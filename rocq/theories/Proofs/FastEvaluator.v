From Coq Require Import Reals List Arith NArith Lia Lra FunctionalExtensionality Bool.
From Verif Require Import Proofs.LinAlg Proofs.Operator Proofs.Rbfs Proofs.PositiveSystem Proofs.FastOperator.
From Verif Require Import Model.MonomialBasis Model.Grid Model.GridProblem Model.Outcome Model.LinAlg Model.Rbfs Model.Solver Model.Operator Model.Fmm Model.FastOperator Model.FastEvaluator.
From Verif Require Import Spec.Grid Spec.GridProblem Spec.SolverRun Spec.Rbfs Spec.Operator Spec.Fmm Spec.PositiveDefinite Spec.Hermite Spec.FastOperator Spec.FastEvaluator.
Import ListNotations.
Local Open Scope R_scope.

Section Evaluator.
Variable d : nat.
Variable accuracy grad_accuracy : option R.
Variable rest : function -> kernel_kind -> bool -> fenv vec.
Variable near : list vec -> vec -> R -> list nat.
Variable fresh : nat -> list R.
Variable l : nat.
Variable basis : nodes vec -> nat -> nat -> R.
Variable own : bool.
Hypothesis REST : sound_rest rest.
Hypothesis SEARCH : sound_search d near.

Definition sources (g : given) : nodes vec := match g_source g with Some n => n | None => no_nodes end.
Definition sourced (g : given) : bool := match g_source g with Some _ => true | None => false end.
Definition point_weights (g : given) : option (list R) := option_map (firstn (Operator.mu vec (sources g))) (g_weights g).
Definition gradient_weights (g : given) : option (list R) :=
  option_map (fun w => firstn (d * Operator.sigma vec (sources g)) (skipn (Operator.mu vec (sources g)) w)) (g_weights g).
Definition four_given (g : given) (f : function) (q : four) : Prop :=
  let P := point_rows (sources g) in let G := gradient_rows (sources g) in let P' := point_rows (g_target g) in let G' := gradient_rows (g_target g) in
  let b := sourced g in
  behaves d (oa q) own f KValue b P P' (point_weights g) /\ behaves d (of q) false f KGradient b G P' (gradient_weights g) /\
  behaves d (oft q) false f KGradientT b P G' (point_weights g) /\ behaves d (oh q) own f KHessian b G G' (gradient_weights g).
Definition evaluator_ok (fs : list function) (g : given) (s : evaluator_state) : Prop :=
  es_source s = sources g /\ es_target s = g_target g /\ Forall2 (four_given g) fs (es_fours s) /\ ps_nodes (es_poly s) = g_target g /\
  (forall w, g_weights g = Some w -> length w = (size vec d (sources g) + l)%nat /\ ps_weights (es_poly s) = skipn (size vec d (sources g)) w) /\
  (own = true -> g_target g = sources g).

Lemma evaluator_new : forall fs, Forall (fun f => range_ok (f_kind f) (f_p1 f)) fs ->
  evaluator_ok fs (Given None no_nodes None) (new_evaluator d rest near fresh l own fs).
Proof using REST SEARCH.
  intros fs RO. unfold evaluator_ok, new_evaluator. cbn [es_source es_target es_fours es_poly ps_nodes new_polynomial g_target g_weights sources g_source].
  split; [reflexivity|]. split; [reflexivity|]. split; [|split; [reflexivity|split; [discriminate|reflexivity]]].
  induction RO as [|f fs R0 RO IH]; cbn [map]; constructor; auto. unfold four_given. cbn [oa of oft oh sources sourced g_source g_target point_weights gradient_weights g_weights option_map].
  split; [|split; [|split]]; apply behaves_new; auto.
Qed.
Lemma evaluator_source : forall fs g s n, own = false -> evaluator_ok fs g s -> evaluator_ok fs (given_step g (UseSource n)) (set_source accuracy grad_accuracy s n).
Proof using Type.
  clear REST SEARCH.
  intros fs g s n OWN (_ & ET & F & EP & _ & _). unfold evaluator_ok, set_source. cbn [es_source es_target es_fours es_poly given_step sources g_source g_target g_weights].
  split; [reflexivity|]. split; [exact ET|]. split; [|split; [exact EP|split; [discriminate|intros E; rewrite OWN in E; discriminate]]].
  generalize (part_accuracy n (length (es_fours s)) accuracy) as acc. generalize (part_accuracy n (length (es_fours s)) grad_accuracy) as gacc. intros gacc acc.
  induction F as [|f q fs qs Q F IH]; cbn [map]; constructor; auto. destruct Q as (A & B & C & D). unfold four_given.
  cbn [oa of oft oh sources sourced g_source g_target point_weights gradient_weights g_weights option_map].
  unfold put_accuracy, put_source. split; [|split; [|split]]; apply behaves_accuracy.
  - apply (behaves_source d _ _ _ _ _ _ _ _ (point_rows n)) in A. rewrite OWN in A |- *. exact A.
  - exact (behaves_source d _ _ _ _ _ _ _ _ (gradient_rows n) B).
  - exact (behaves_source d _ _ _ _ _ _ _ _ (point_rows n) C).
  - apply (behaves_source d _ _ _ _ _ _ _ _ (gradient_rows n)) in D. rewrite OWN in D |- *. exact D.
Qed.
Lemma evaluator_target : forall fs g s n, own = false -> evaluator_ok fs g s -> evaluator_ok fs (given_step g (UseTarget n)) (set_target s n).
Proof using Type.
  clear REST SEARCH.
  intros fs g s n OWN (ES & _ & F & _ & EW & _). unfold evaluator_ok, set_target, polynomial_targets. cbn [es_source es_target es_fours es_poly given_step sources g_source g_target g_weights ps_nodes ps_weights].
  split; [exact ES|]. split; [reflexivity|]. split; [|split; [reflexivity|split; [exact EW|intros E; rewrite OWN in E; discriminate]]].
  induction F as [|f q fs qs Q F IH]; cbn [map]; constructor; auto. destruct Q as (A & B & C & D). unfold four_given.
  cbn [oa of oft oh g_target]. unfold put_target. split; [|split; [|split]].
  - apply (behaves_target d _ _ _ _ _ _ _ _ (point_rows n)) in A. rewrite OWN in A |- *. exact A.
  - exact (behaves_target d _ _ _ _ _ _ _ _ (point_rows n) B).
  - exact (behaves_target d _ _ _ _ _ _ _ _ (gradient_rows n) C).
  - apply (behaves_target d _ _ _ _ _ _ _ _ (gradient_rows n)) in D. rewrite OWN in D |- *. exact D.
Qed.
Lemma evaluator_both : forall fs g s n, own = true -> evaluator_ok fs g s -> evaluator_ok fs (given_step g (UseBoth n)) (set_both accuracy grad_accuracy s n).
Proof using Type.
  clear REST SEARCH.
  intros fs g s n OWN (_ & _ & F & _ & _ & _). unfold evaluator_ok, set_both, polynomial_targets. cbn [es_source es_target es_fours es_poly given_step sources g_source g_target g_weights ps_nodes].
  split; [reflexivity|]. split; [reflexivity|]. split; [|split; [reflexivity|split; [discriminate|reflexivity]]].
  generalize (part_accuracy n (length (es_fours s)) accuracy) as acc. generalize (part_accuracy n (length (es_fours s)) grad_accuracy) as gacc. intros gacc acc.
  induction F as [|f q fs qs Q F IH]; cbn [map]; constructor; auto. destruct Q as (A & B & C & D). unfold four_given.
  cbn [oa of oft oh sources sourced g_source g_target point_weights gradient_weights g_weights option_map].
  unfold put_accuracy, put_source, put_target. split; [|split; [|split]]; apply behaves_accuracy.
  - apply (behaves_source d _ _ _ _ _ _ _ _ (point_rows n)) in A. rewrite OWN in A |- *. exact A.
  - exact (behaves_target d _ _ _ _ _ _ _ _ (point_rows n) (behaves_source d _ _ _ _ _ _ _ _ (gradient_rows n) B)).
  - exact (behaves_target d _ _ _ _ _ _ _ _ (gradient_rows n) (behaves_source d _ _ _ _ _ _ _ _ (point_rows n) C)).
  - apply (behaves_source d _ _ _ _ _ _ _ _ (gradient_rows n)) in D. rewrite OWN in D |- *. exact D.
Qed.
Lemma four_loaded : forall g f q w, four_given g f q -> length w = (size vec d (sources g) + l)%nat ->
  exists q', load_four d (sources g) w q = Ok q' /\ four_given (given_step g (UseWeights w)) f q'.
Proof using Type.
  clear REST SEARCH.
  intros g f q w (A & B & C & D) L. unfold size in L. set (n := sources g) in *. set (m := Operator.mu vec n) in *. set (k := (d * Operator.sigma vec n)%nat) in *.
  assert (HP : length (firstn m w) = (1 * length (point_rows n))%nat) by (rewrite points_length', firstn_length, L; fold m; lia).
  assert (HG : length (firstn k (skipn m w)) = (d * length (gradient_rows n))%nat) by (rewrite gradients_length, firstn_length, skipn_length, L; fold k; lia).
  destruct (behaves_load d _ _ _ _ _ _ _ _ (firstn m w) A HP) as (a & Ea & Ba). destruct (behaves_load d _ _ _ _ _ _ _ _ (firstn k (skipn m w)) B HG) as (b & Eb & Bb).
  destruct (behaves_load d _ _ _ _ _ _ _ _ (firstn m w) C HP) as (c & Ec & Bc). destruct (behaves_load d _ _ _ _ _ _ _ _ (firstn k (skipn m w)) D HG) as (e & Ee & Be).
  unfold load_four. fold m k. rewrite Ea. cbn [bind]. rewrite Eb. cbn [bind]. rewrite Ec. cbn [bind]. rewrite Ee. cbn [bind]. eexists. split; [reflexivity|].
  unfold four_given. cbn [oa of oft oh]. split; [exact Ba|]. split; [exact Bb|]. split; [exact Bc|exact Be].
Qed.
Lemma evaluator_weights : forall fs g s w, evaluator_ok fs g s -> length w = (size vec d (sources g) + l)%nat ->
  exists s', put_weights d l s w = Ok s' /\ evaluator_ok fs (given_step g (UseWeights w)) s'.
Proof using Type.
  clear REST SEARCH.
  intros fs g s w (ES & ET & F & EP & EW & EO) L. unfold put_weights. rewrite ES, L, Nat.eqb_refl. cbn [negb].
  assert (Q : exists qs, map_out (load_four d (sources g) w) (es_fours s) = Ok qs /\ Forall2 (four_given (given_step g (UseWeights w))) fs qs).
  { clear - F L. induction F as [|f q fs qs Q F IH]; cbn [map_out]; [eexists; split; [reflexivity|constructor]|].
    destruct (four_loaded g f q w Q L) as (q' & E & Q'). destruct IH as (qs' & E' & F'). rewrite E. cbn [bind]. rewrite E'. cbn [bind]. eexists. split; [reflexivity|constructor; auto]. }
  destruct Q as (qs & E & Q). rewrite E. cbn [bind]. eexists. split; [reflexivity|]. unfold evaluator_ok, polynomial_weights.
  cbn [es_source es_target es_fours es_poly given_step g_target g_weights ps_nodes ps_weights]. split; [reflexivity|]. split; [exact ET|]. split; [exact Q|]. split; [exact EP|].
  split; [|exact EO]. intros w' E'. injection E' as <-. split; [exact L|reflexivity].
Qed.
Lemma weights_sized : forall s w s', put_weights d l s w = Ok s' -> length w = (size vec d (es_source s) + l)%nat.
Proof using Type. intros s w s' E. unfold put_weights in E. destruct (Nat.eqb_spec (length w) (size vec d (es_source s) + l)) as [L|L]; [exact L|discriminate]. Qed.

(** ** One evaluation *)
Lemma four_run_kept : forall g t f q y q' r, four_given g f q -> sum_four d t q y = Ok (q', r) -> four_given g f q'.
Proof using Type.
  clear REST SEARCH.
  intros g t f q y q' r (A & B & C & D) E. unfold sum_four in E.
  destruct (add_evaluated (oa q) 0 (Operator.mu vec t) y) as [[a [y1|x]]|x|] eqn:E1; cbn [bind] in E; try discriminate; pose proof (behaves_run d _ _ _ _ _ _ _ _ _ _ _ _ _ A E1) as A'.
  2: { injection E as <- _. exact (conj A' (conj B (conj C D))). }
  destruct (add_evaluated (of q) 0 (Operator.mu vec t) y1) as [[b [y2|x]]|x|] eqn:E2; cbn [bind] in E; try discriminate; pose proof (behaves_run d _ _ _ _ _ _ _ _ _ _ _ _ _ B E2) as B'.
  2: { injection E as <- _. exact (conj A' (conj B' (conj C D))). }
  destruct (add_evaluated (oft q) (Operator.mu vec t) (d * Operator.sigma vec t) y2) as [[c [y3|x]]|x|] eqn:E3; cbn [bind] in E; try discriminate; pose proof (behaves_run d _ _ _ _ _ _ _ _ _ _ _ _ _ C E3) as C'.
  2: { injection E as <- _. exact (conj A' (conj B' (conj C' D))). }
  destruct (add_evaluated (oh q) (Operator.mu vec t) (d * Operator.sigma vec t) y3) as [[h r']|x|] eqn:E4; cbn [bind fst snd] in E; try discriminate.
  pose proof (behaves_run d _ _ _ _ _ _ _ _ _ _ _ _ _ D E4) as D'. injection E as <- _. exact (conj A' (conj B' (conj C' D'))).
Qed.
Lemma fours_run_kept : forall g t fs qs y qs' r, Forall2 (four_given g) fs qs -> sum_fours d t qs y = Ok (qs', r) -> Forall2 (four_given g) fs qs'.
Proof using Type.
  clear REST SEARCH.
  intros g t fs qs y qs' r H. revert y qs' r. induction H as [|f q fs qs Q H IH]; intros y qs' r E; cbn [sum_fours] in E.
  - injection E as <- _. constructor.
  - destruct (sum_four d t q y) as [[q' [y'|e]]|e|] eqn:EQ; cbn [bind] in E; try discriminate.
    + destruct (sum_fours d t qs y') as [[qs'' r']|e|] eqn:EF; cbn [bind fst snd] in E; try discriminate. injection E as <- _. constructor; [eapply four_run_kept; eauto|eapply IH; eauto].
    + injection E as <- _. constructor; auto. eapply four_run_kept; eauto.
Qed.
Lemma run_kept : forall fs g s s' r, evaluator_ok fs g s -> run_evaluator d l basis s = Ok (s', r) -> evaluator_ok fs g s'.
Proof using Type.
  clear REST SEARCH.
  intros fs g s s' r (ES & ET & F & EP & EW & EO) E. unfold run_evaluator in E.
  destruct (sum_fours d (es_target s) (es_fours s) (repeat 0 (size vec d (es_target s)))) as [[qs r']|e|] eqn:EF; cbn [bind fst snd] in E; try discriminate.
  pose proof (fours_run_kept _ _ _ _ _ _ _ F EF) as F'.
  assert (OK : evaluator_ok fs g (EvaluatorState (es_source s) (es_target s) qs (es_poly s))) by (unfold evaluator_ok; cbn [es_source es_target es_fours es_poly]; auto 10).
  destruct r' as [y|e]; [|injection E as <- _; exact OK]. destruct (Nat.eqb l 0); [injection E as <- _; exact OK|].
  destruct (add_segment _ _ _ y) as [y'|e|]; cbn [bind] in E; try discriminate. injection E as <- _. exact OK.
Qed.

Section Run.
Variable g : given.
Variable w : list R.
Hypothesis SOURCED : sourced g = true.
Hypothesis WEIGHTS : g_weights g = Some w.
Let n := sources g.
Let t := g_target g.
Let m := Operator.mu vec t.
Let k := (d * Operator.sigma vec t)%nat.
Let wp := firstn (Operator.mu vec n) w.
Let wg := firstn (d * Operator.sigma vec n) (skipn (Operator.mu vec n) w).
Definition fine_between (f : function) : Prop :=
  fine_for d own f KValue (point_rows n) (point_rows t) /\ fine_for d false f KGradient (gradient_rows n) (point_rows t) /\
  fine_for d false f KGradientT (point_rows n) (gradient_rows t) /\ fine_for d own f KHessian (gradient_rows n) (gradient_rows t).
Definition summed (f : function) (r : nat) : R :=
  if (r <? m)%nat then exact_sum d f KValue (point_rows n) wp (pt vec t r) 0 + exact_sum d f KGradient (gradient_rows n) wg (pt vec t r) 0
  else exact_sum d f KGradientT (point_rows n) wp (gpt vec t ((r - m) / d)) ((r - m) mod d) + exact_sum d f KHessian (gradient_rows n) wg (gpt vec t ((r - m) / d)) ((r - m) mod d).
Lemma four_sums : forall f q y, four_given g f q -> fine_between f -> length y = (m + k)%nat ->
  exists q' y', sum_four d t q y = Ok (q', inl y') /\ length y' = length y /\ forall r, (r < length y)%nat -> nth r y' 0 = nth r y 0 + summed f r.
Proof using SOURCED WEIGHTS.
  clear REST SEARCH.
  intros f q y (A & B & C & D) (FA & FF & FT & FH) LY. unfold sum_four. fold m k. unfold point_weights, gradient_weights in *. rewrite WEIGHTS in *. cbn [option_map] in *. rewrite SOURCED in *.
  fold n in A, B, C, D. fold t in A, B, C, D. fold wp wg in A, B, C, D.
  destruct (behaves_add d _ _ _ _ _ _ _ 0 m y A FA) as (a' & va & y1 & E1 & B1 & T1 & L1 & N1); [rewrite points_length'; cbn [kernel_outputs]; unfold m; lia|lia|].
  destruct (behaves_add d _ _ _ _ _ _ _ 0 m y1 B FF) as (c' & vc & y2 & E2 & B2 & T2 & L2 & N2); [rewrite points_length'; cbn [kernel_outputs]; unfold m; lia|lia|].
  destruct (behaves_add d _ _ _ _ _ _ _ m k y2 C FT) as (e' & ve & y3 & E3 & B3 & T3 & L3 & N3); [rewrite gradients_length; reflexivity|lia|].
  destruct (behaves_add d _ _ _ _ _ _ _ m k y3 D FH) as (h' & vh & y4 & E4 & B4 & T4 & L4 & N4); [rewrite gradients_length; reflexivity|lia|].
  rewrite E1. cbn [bind]. rewrite E2. cbn [bind]. rewrite E3. cbn [bind]. rewrite E4. cbn [bind fst snd].
  eexists _, y4. split; [reflexivity|]. split; [lia|].
  intros r RL. rewrite N4, N3, N2, N1 by lia. cbn [Nat.leb andb]. rewrite Nat.add_0_l, Nat.sub_0_r. unfold summed. fold m.
  destruct (Nat.ltb_spec r m) as [LT|GE].
  - rewrite (proj2 (Nat.leb_gt m r) LT). cbn [andb]. destruct T1 as [_ T1]. destruct T2 as [_ T2]. cbn [kernel_outputs] in T1, T2.
    specialize (T1 r 0%nat). specialize (T2 r 0%nat). rewrite points_length' in T1, T2. rewrite points_nth in T1, T2 by exact LT.
    replace (1 * r + 0)%nat with r in T1, T2 by lia. rewrite T1, T2 by (auto; lia). ring.
  - rewrite (proj2 (Nat.leb_le m r) GE). cbn [andb]. destruct (Nat.ltb_spec r (m + k)) as [LT2|GE2]; [|lia].
    assert (D0 : d <> 0%nat) by (intros ->; unfold k in LT2; lia).
    pose proof (Nat.div_mod (r - m) d D0) as DM. pose proof (Nat.mod_upper_bound (r - m) d D0) as MB.
    assert (JB : ((r - m) / d < Operator.sigma vec t)%nat) by (apply Nat.div_lt_upper_bound; [exact D0|fold k; lia]).
    destruct T3 as [_ T3]. destruct T4 as [_ T4]. cbn [kernel_outputs] in T3, T4. specialize (T3 _ _ ltac:(rewrite gradients_length; exact JB) MB).
    specialize (T4 _ _ ltac:(rewrite gradients_length; exact JB) MB). rewrite gradients_nth in T3, T4 by exact JB. rewrite <- DM in T3, T4. rewrite T3, T4. ring.
Qed.
Lemma fours_sum : forall fs qs y, Forall2 (four_given g) fs qs -> Forall fine_between fs -> length y = (m + k)%nat ->
  exists qs' y', sum_fours d t qs y = Ok (qs', inl y') /\ length y' = length y /\
  forall r, (r < length y)%nat -> nth r y' 0 = nth r y 0 + lsum fs (fun f => summed f r).
Proof using SOURCED WEIGHTS.
  clear REST SEARCH.
  intros fs qs y H. revert y. induction H as [|f q fs qs Q H IH]; intros y F L.
  - exists [], y. split; [reflexivity|]. split; [reflexivity|]. intros r _. cbn. ring.
  - inversion F as [|? ? F1 F2]; subst. destruct (four_sums f q y Q F1 L) as (q' & y1 & E1 & L1 & N1). destruct (IH y1 F2) as (qs' & y2 & E2 & L2 & N2); [lia|].
    exists (q' :: qs'), y2. cbn [sum_fours]. rewrite E1. cbn [bind]. rewrite E2. cbn [bind fst snd]. split; [reflexivity|]. split; [lia|].
    intros r RL. rewrite N2, N1 by lia. cbn [lsum]. ring.
Qed.
Lemma run_sums : forall fs s, evaluator_ok fs g s -> Forall fine_between fs -> exists s' y, run_evaluator d l basis s = Ok (s', inl y) /\ length y = size vec d t /\
  forall r, (r < size vec d t)%nat -> nth r y 0 = lsum fs (fun f => summed f r) + mat_vec l (basis t) (fun j => nth (size vec d n + j) w 0) r.
Proof using SOURCED WEIGHTS.
  clear REST SEARCH.
  intros fs s (ES & ET & F & EP & EW & _) FI. unfold run_evaluator. rewrite ET. fold t.
  assert (L0 : length (repeat 0 (size vec d t)) = (m + k)%nat) by apply repeat_length.
  destruct (fours_sum fs (es_fours s) _ F FI L0) as (qs & y & E & LY & NY). rewrite E. cbn [bind fst snd].
  assert (LZ : length y = size vec d t) by (rewrite LY; apply repeat_length).
  assert (N0 : forall r, (r < size vec d t)%nat -> nth r y 0 = lsum fs (fun f => summed f r)).
  { intros r R0. rewrite NY by (rewrite repeat_length; exact R0). rewrite nth_repeat. ring. }
  destruct (Nat.eqb_spec l 0) as [Z|Z].
  - eexists _, y. split; [reflexivity|]. split; [exact LZ|]. intros r R0. rewrite N0 by exact R0. rewrite Z. unfold mat_vec. cbn [rsum]. ring.
  - destruct (segment_added 0 (size vec d t) (polynomial_evaluate d l basis (es_poly s)) y) as (y' & E' & L' & N').
    { unfold polynomial_evaluate. rewrite map_length, seq_length, EP. reflexivity. }
    { rewrite LZ. reflexivity. }
    rewrite E'. cbn [bind]. eexists _, y'. split; [reflexivity|]. split; [lia|]. intros r R0. rewrite N' by lia. cbn [Nat.leb andb]. rewrite Nat.add_0_l.
    rewrite (proj2 (Nat.ltb_lt r _) R0), Nat.sub_0_r, N0 by exact R0. f_equal. unfold polynomial_evaluate. rewrite EP. fold t.
    rewrite (nth_seq_map (mat_vec l (basis t) (fun j => nth j (ps_weights (es_poly s)) 0))) by exact R0. unfold mat_vec. apply rsum_ext. intros j J. f_equal.
    destruct (EW w WEIGHTS) as [LW PW]. rewrite PW. fold n.
    rewrite <- (firstn_skipn (size vec d n) w) at 2. rewrite app_nth2 by (rewrite firstn_length; lia). f_equal. rewrite firstn_length. fold n in LW. lia.
Qed.

(** The sums are those of the direct evaluator. *)
Lemma summed_row : forall tm r, length w = (size vec d n + l)%nat -> (r < size vec d t)%nat ->
  summed (function_of tm) r = row vec difference d (term_rbf d tm) n t (fun i => nth i w 0) r.
Proof using Type.
  clear REST SEARCH SOURCED WEIGHTS.
  intros tm r L R0. unfold size in L, R0. unfold summed, row. fold m. fold m k in R0.
  assert (WP : wp = map (fun i => nth i w 0) (seq 0 (Operator.mu vec n))) by (apply firstn_seq; lia).
  assert (WG : wg = map (fun i => nth (Operator.mu vec n + i) w 0) (seq 0 (d * Operator.sigma vec n))) by (apply firstn_skip_seq; lia).
  rewrite WP, WG. unfold exact_sum. rewrite !points_length', !gradients_length. cbn [kernel_inputs]. destruct (Nat.ltb_spec r m) as [LT|GE].
  - unfold value_row. f_equal; apply rsum_ext; intros j J.
    + cbn [rsum]. rewrite points_nth by exact J. rewrite number_value, nth_seq_map by lia. replace (1 * j + 0)%nat with j by lia. ring.
    + apply rsum_ext. intros c C. rewrite gradients_nth by exact J. rewrite number_gradient, nth_seq_map by (apply slot_bound; auto). f_equal. f_equal. lia.
  - assert (D0 : d <> 0%nat) by (intros D; unfold k in R0; rewrite D in R0; lia). pose proof (Nat.mod_upper_bound (r - m) d D0) as MB.
    unfold Operator.grad_row. f_equal; apply rsum_ext; intros j J.
    + cbn [rsum]. rewrite points_nth by exact J. rewrite number_transpose, nth_seq_map by lia. replace (1 * j + 0)%nat with j by lia. ring.
    + apply rsum_ext. intros c C. rewrite gradients_nth by exact J. rewrite number_hessian, nth_seq_map by (auto using slot_bound). f_equal. f_equal. lia.
Qed.
End Run.

(** ** Any use *)
Lemma used_keeps : forall fs us g s s' ys, Forall (use_of own) us -> evaluator_ok fs g s -> evaluator_used d accuracy grad_accuracy l basis s us = Ok (s', ys) ->
  evaluator_ok fs (fold_left given_step us g) s'.
Proof using Type.
  clear REST SEARCH.
  intros fs us. induction us as [|u us IH]; intros g s s' ys FU H E; [cbn in E; injection E as <- _; exact H|]. inversion FU as [|? ? U1 U2]; subst. cbn [fold_left].
  destruct u as [n|n|n|w|]; cbn [evaluator_used] in E.
  - eapply IH; [exact U2| |exact E]. apply evaluator_source; auto.
  - eapply IH; [exact U2| |exact E]. apply evaluator_target; auto.
  - eapply IH; [exact U2| |exact E]. apply evaluator_both; auto.
  - destruct (put_weights d l s w) as [s1|e|] eqn:EW; cbn [bind] in E; try discriminate. eapply IH; [exact U2| |exact E].
    assert (L : length w = (size vec d (sources g) + l)%nat) by (rewrite <- (proj1 H); eapply weights_sized; exact EW).
    destruct (evaluator_weights fs g s w H L) as (s2 & E2 & O2). rewrite EW in E2. injection E2 as <-. exact O2.
  - destruct (run_evaluator d l basis s) as [[s1 r]|e|] eqn:ER; cbn [bind fst snd] in E; try discriminate.
    destruct (evaluator_used d accuracy grad_accuracy l basis s1 us) as [[s2 ys2]|e|] eqn:EU; cbn [bind fst snd] in E; try discriminate. injection E as <- _.
    eapply IH; [exact U2| |exact EU]. eapply run_kept; eauto.
Qed.

Lemma fine_few : forall n t tm, few_between own n t -> (own = true -> t = n) -> kernels_between d n t tm ->
  fine_for d own (function_of tm) KValue (point_rows n) (point_rows t) /\ fine_for d false (function_of tm) KGradient (gradient_rows n) (point_rows t) /\
  fine_for d false (function_of tm) KGradientT (point_rows n) (gradient_rows t) /\ fine_for d own (function_of tm) KHessian (gradient_rows n) (gradient_rows t).
Proof using Type.
  clear REST SEARCH.
  intros n t tm F EO (D1 & D2 & D3).
  assert (D0 : defined_at d (function_of tm) KValue (point_rows n) (point_rows t)) by (intros x y i j _ _; eexists; reflexivity).
  assert (B : (own = true -> (Operator.mu vec n < 1024)%nat /\ (Operator.sigma vec n < 1024)%nat) /\
    forall a b, (a = Operator.mu vec n \/ a = Operator.sigma vec n) -> (b = Operator.mu vec t \/ b = Operator.sigma vec t) -> (N.of_nat a * N.of_nat b < 1048576)%N).
  { unfold few_between in F. destruct own.
    - rewrite (EO eq_refl) in *. destruct F as [F1 F2]. change (2 ^ 10)%nat with 1024%nat in F1, F2. unfold values, gradients in F1, F2. change (nat -> R) with vec in F1, F2.
      split; [intros _; split; assumption|]. intros a b A B. assert ((N.of_nat a < 1024)%N /\ (N.of_nat b < 1024)%N) as [A1 B1] by (split; [destruct A as [-> | ->]|destruct B as [-> | ->]]; lia). nia.
    - split; [discriminate|]. intros a b A B. unfold values, gradients in F. change (nat -> R) with vec in F.
      assert (A1 : (a <= Nat.max (Operator.mu vec n) (Operator.sigma vec n))%nat) by (destruct A as [-> | ->]; lia).
      assert (B1 : (b <= Nat.max (Operator.mu vec t) (Operator.sigma vec t))%nat) by (destruct B as [-> | ->]; lia).
      pose proof (Nat.mul_le_mono _ _ _ _ A1 B1) as AB. assert (P : (N.of_nat (2 ^ 20) = 1048576)%N) by (rewrite Nat2N.inj_pow; reflexivity). rewrite <- P, <- Nat2N.inj_mul. lia. }
  destruct B as [BO BN]. unfold fine_for, small_for. rewrite !points_length', !gradients_length.
  split; [|split; [|split]]; (split; [|assumption]); auto; destruct own; auto; destruct (BO eq_refl); lia.
Qed.
Theorem evaluator_exact : forall terms us s ys n t w, Forall (fun t => range_ok (tk t) (t1 t)) terms -> Forall (use_of own) us ->
  evaluator_used d accuracy grad_accuracy l basis (new_evaluator d rest near fresh l own (map function_of terms)) us = Ok (s, ys) ->
  given_by us = Given (Some n) t (Some w) -> few_between own n t -> Forall (kernels_between d n t) terms ->
  exists s' y, run_evaluator d l basis s = Ok (s', inl y) /\ evaluates d l basis terms n t w y.
Proof using REST SEARCH.
  intros terms us s ys n t w RO FU E G F KB.
  assert (RO' : Forall (fun f => range_ok (f_kind f) (f_p1 f)) (map function_of terms)) by (apply Forall_map; exact RO).
  pose proof (used_keeps _ us _ _ _ _ FU (evaluator_new _ RO') E) as H. unfold given_by in G. rewrite G in H.
  assert (EO : own = true -> t = n) by (apply H). assert (LW : length w = (size vec d n + l)%nat) by (apply H; reflexivity).
  assert (FI : Forall (fine_between (Given (Some n) t (Some w))) (map function_of terms)).
  { apply Forall_map. rewrite Forall_forall in *. intros tm T. exact (fine_few n t tm F EO (KB tm T)). }
  destruct (run_sums (Given (Some n) t (Some w)) w eq_refl eq_refl _ s H FI) as (s' & y & ER & LY & NY). exists s', y. split; [exact ER|]. split; [exact LY|].
  intros ss r SS R0. cbn [sources g_source g_target] in NY. rewrite (NY r R0). unfold direct_evaluator. rewrite sweep_spec by auto. change (nat -> R) with vec. rewrite Rplus_0_l. f_equal.
  rewrite !lsum_map. apply lsum_ext. intros tm T. exact (summed_row (Given (Some n) t (Some w)) w tm r LW R0).
Qed.
Theorem evaluator_loads : forall terms us s ys n w, Forall (fun t => range_ok (tk t) (t1 t)) terms -> Forall (use_of own) us ->
  evaluator_used d accuracy grad_accuracy l basis (new_evaluator d rest near fresh l own (map function_of terms)) us = Ok (s, ys) ->
  g_source (given_by us) = Some n -> length w = (size vec d n + l)%nat -> exists s', put_weights d l s w = Ok s'.
Proof using REST SEARCH.
  intros terms us s ys n w RO FU E G L.
  assert (RO' : Forall (fun f => range_ok (f_kind f) (f_p1 f)) (map function_of terms)) by (apply Forall_map; exact RO).
  pose proof (used_keeps _ us _ _ _ _ FU (evaluator_new _ RO') E) as H.
  destruct (evaluator_weights _ _ s w H) as (s' & E' & _); [|eauto]. unfold sources. unfold given_by in G. rewrite G. exact L.
Qed.
Lemma evaluator_used_app : forall us vs s, evaluator_used d accuracy grad_accuracy l basis s (us ++ vs) =
  let* r := evaluator_used d accuracy grad_accuracy l basis s us in let* r' := evaluator_used d accuracy grad_accuracy l basis (fst r) vs in Ok (fst r', snd r ++ snd r').
Proof using Type.
  intros us. induction us as [|u us IH]; intros vs s.
  - cbn [app evaluator_used bind fst snd]. destruct (evaluator_used _ _ _ _ _ s vs) as [[a b]|e|]; reflexivity.
  - destruct u as [n|n|n|w|]; cbn [app evaluator_used]; auto.
    + destruct (put_weights d l s w) as [s1|e|]; cbn [bind]; auto.
    + destruct (run_evaluator d l basis s) as [[s1 r]|e|]; cbn [bind fst snd]; auto. rewrite IH.
      destruct (evaluator_used _ _ _ _ _ s1 us) as [[s2 ys]|e|]; cbn [bind fst snd]; auto. destruct (evaluator_used _ _ _ _ _ s2 vs) as [[s3 zs]|e|]; reflexivity.
Qed.
End Evaluator.

Section Interpolant.
Variable d : nat.
Variable accuracy grad_accuracy : option R.
Variable rest : function -> kernel_kind -> bool -> fenv vec.
Variable near : list vec -> vec -> R -> list nat.
Variable fresh : nat -> list R.
Variable l : nat.
Variable basis : nodes vec -> nat -> nat -> R.
Hypothesis REST : sound_rest rest.
Hypothesis SEARCH : sound_search d near.

Lemma given_queries : forall qs us, Forall (use_of false) us -> Forall (use_of false) (us ++ flat_map evaluate_at qs) /\
  g_source (given_by (us ++ flat_map evaluate_at qs)) = g_source (given_by us) /\ g_weights (given_by (us ++ flat_map evaluate_at qs)) = g_weights (given_by us).
Proof using Type.
  clear. intros qs. induction qs as [|q qs IH]; intros us F; cbn [flat_map]; [rewrite app_nil_r; auto|].
  change (evaluate_at q ++ flat_map evaluate_at qs) with ([UseTarget q; UseRun] ++ flat_map evaluate_at qs). rewrite app_assoc.
  destruct (IH (us ++ [UseTarget q; UseRun])) as (A & B & C); [apply Forall_app; split; [exact F|repeat constructor]|]. split; [exact A|].
  rewrite B, C. unfold given_by. rewrite fold_left_app. cbn [fold_left given_step g_source g_weights]. auto.
Qed.
Theorem interpolant_queries : forall terms n w qs, Forall (fun t => range_ok (tk t) (t1 t)) terms -> length w = (size vec d n + l)%nat ->
  Forall (fun t => few_between false n t /\ Forall (kernels_between d n t) terms) qs ->
  exists s ys, evaluator_used d accuracy grad_accuracy l basis (new_evaluator d rest near fresh l false (map function_of terms)) (interpolant_uses n w qs) = Ok (s, ys) /\
  Forall2 (fun t r => exists y, r = inl y /\ evaluates d l basis terms n t w y) qs ys.
Proof using REST SEARCH.
  intros terms n w qs RO L. induction qs as [|q qs IH] using rev_ind; intros FQ.
  - unfold interpolant_uses. cbn [flat_map evaluator_used].
    destruct (evaluator_loads d accuracy grad_accuracy rest near fresh l basis false REST SEARCH terms [UseSource n] _ [] n w RO ltac:(repeat constructor) eq_refl eq_refl L) as (s' & E).
    cbn [evaluator_used] in E. rewrite E. cbn [bind]. exists s', []. split; [reflexivity|constructor].
  - apply Forall_app in FQ. destruct FQ as [FQ1 FQ2]. inversion FQ2 as [|? ? [F K] _]; subst. destruct (IH FQ1) as (s & ys & E & Y).
    set (new := new_evaluator d rest near fresh l false (map function_of terms)) in *.
    destruct (given_queries qs [UseSource n; UseWeights w] ltac:(repeat constructor)) as (U & GS & GW).
    change ([UseSource n; UseWeights w] ++ flat_map evaluate_at qs) with (interpolant_uses n w qs) in *.
    assert (U' : Forall (use_of false) (interpolant_uses n w qs ++ [UseTarget q])) by (apply Forall_app; split; [exact U|repeat constructor]).
    assert (E' : evaluator_used d accuracy grad_accuracy l basis new (interpolant_uses n w qs ++ [UseTarget q]) = Ok (set_target s q, ys)).
    { rewrite evaluator_used_app, E. cbn [bind fst snd evaluator_used]. rewrite app_nil_r. reflexivity. }
    assert (G : given_by (interpolant_uses n w qs ++ [UseTarget q]) = Given (Some n) q (Some w)).
    { unfold given_by. rewrite fold_left_app. cbn [fold_left given_step]. unfold given_by in GS, GW. rewrite GS, GW. reflexivity. }
    destruct (evaluator_exact d accuracy grad_accuracy rest near fresh l basis false REST SEARCH terms _ _ _ n q w RO U' E' G F K) as (s' & y & ER & EV).
    assert (X : interpolant_uses n w (qs ++ [q]) = interpolant_uses n w qs ++ [UseTarget q; UseRun]).
    { unfold interpolant_uses. rewrite flat_map_app. reflexivity. }
    rewrite X, evaluator_used_app, E. cbn [bind fst snd evaluator_used]. rewrite ER. cbn [bind fst snd]. exists s', (ys ++ [inl y]). split; [reflexivity|].
    apply Forall2_app; [exact Y|]. constructor; [eauto|constructor].
Qed.
End Interpolant.

(** ** What evaluations agree on *)
Definition one_by_one (terms : list term) : list (list nat * (nat -> nat)) := map (fun _ : term => ([0%nat], fun _ : nat => 0%nat)) terms.
Lemma one_by_one_ok : forall d terms m, schedules_ok (nat -> R) (map (term_rbf d) terms) m (one_by_one terms).
Proof.
  intros d terms m. unfold one_by_one. split; [rewrite !map_length; reflexivity|]. apply Forall_forall. intros x X. apply in_map_iff in X. destruct X as (t & <- & _). split; cbn [fst snd].
  - constructor; [intros []|constructor].
  - intros r _. left. reflexivity.
Qed.
Theorem evaluates_operator : forall d l basis terms nugget n w y, evaluates d l basis terms n n w y -> forall ss r, schedules_ok (nat -> R) (map (term_rbf d) terms) (rows d n) ss -> (r < rows d n)%nat ->
  direct_operator (nat -> R) difference d (map (term_rbf d) terms) nugget l ss n (basis n) (fun i => nth i w 0) r = nth r y 0 + (if (r <? values n)%nat then nugget * nth r w 0 else 0).
Proof.
  intros d l basis terms nugget n w y [_ E] ss r SS R0. rewrite (E ss r SS R0). exact (evaluator_operator (nat -> R) difference d (map (term_rbf d) terms) nugget l ss ss n (basis n) (fun i => nth i w 0) r SS SS R0).
Qed.
Theorem evaluates_points : forall d degree terms n t t' w y y', let l := basis_size d degree in let p := basis d degree in
  evaluates d l p terms n t w y -> evaluates d l p terms n t' w y' ->
  (forall i j, (i < values t)%nat -> (j < values t')%nat -> pt (nat -> R) t i = pt (nat -> R) t' j -> nth i y 0 = nth j y' 0) /\
  (forall i j e, (i < gradients t)%nat -> (j < gradients t')%nat -> (e < d)%nat -> gpt (nat -> R) t i = gpt (nat -> R) t' j ->
    nth (values t + d * i + e) y 0 = nth (values t' + d * j + e) y' 0).
Proof.
  intros d degree terms n t t' w y y' l p [_ Y] [_ Y'].
  specialize (Y (one_by_one terms)). specialize (Y' (one_by_one terms)).
  assert (V : forall q r (S1 : (r < rows d q)%nat), direct_evaluator (nat -> R) difference d (map (term_rbf d) terms) l (one_by_one terms) n q (p q) (fun i => nth i w 0) r =
    lsum (map (term_rbf d) terms) (fun f => row (nat -> R) difference d f n q (fun i => nth i w 0) r) + mat_vec l (p q) (fun k => nth (rows d n + k) w 0) r).
  { intros q r R0. unfold direct_evaluator. rewrite sweep_spec; [rewrite Rplus_0_l; reflexivity|apply one_by_one_ok|exact R0]. }
  unfold values, gradients in *. unfold rows, size in *. split.
  - intros i j I0 J0 E. rewrite Y, Y' by (apply one_by_one_ok || lia). rewrite !V by lia. f_equal.
    + apply lsum_ext. intros f _. unfold row. rewrite (proj2 (Nat.ltb_lt _ _) I0), (proj2 (Nat.ltb_lt _ _) J0), E. reflexivity.
    + unfold mat_vec. apply rsum_ext. intros k K. f_equal. unfold p, basis. destruct degree as [k0|]; [|reflexivity]. unfold MonomialBasis.evaluate.
      rewrite (proj2 (Nat.ltb_lt _ _) I0), (proj2 (Nat.ltb_lt _ _) J0), E. reflexivity.
  - intros i j e I0 J0 E0 E.
    assert (B : forall a b s, (a < s)%nat -> (b < d)%nat -> (d * a + b < d * s)%nat) by (intros a b s A B; nia).
    pose proof (B i e _ I0 E0) as B1. pose proof (B j e _ J0 E0) as B2. rewrite Y, Y' by (apply one_by_one_ok || lia). rewrite !V by lia.
    assert (Q : forall a b, (b < d)%nat -> ((d * a + b) / d = a)%nat /\ ((d * a + b) mod d = b)%nat).
    { intros a b BD. split; [rewrite Nat.mul_comm, Nat.div_add_l, Nat.div_small by lia; lia|rewrite Nat.add_comm, Nat.mul_comm, Nat.mod_add, Nat.mod_small by lia; lia]. }
    assert (X1 : forall a b c : nat, (a + b + c - a = b + c)%nat) by (intros; lia). assert (X2 : forall a b c, (a + b + c <? a)%nat = false) by (intros; apply Nat.ltb_ge; lia).
    f_equal.
    + apply lsum_ext. intros f _. unfold row. rewrite !X2, !X1. rewrite (proj1 (Q i e E0)), (proj1 (Q j e E0)), (proj2 (Q i e E0)), (proj2 (Q j e E0)), E. reflexivity.
    + unfold mat_vec. apply rsum_ext. intros k K. f_equal. unfold p, basis. destruct degree as [k0|]; [|reflexivity]. unfold MonomialBasis.evaluate.
      rewrite !X2, !X1. rewrite (proj1 (Q i e E0)), (proj1 (Q j e E0)), (proj2 (Q i e E0)), (proj2 (Q j e E0)), E. reflexivity.
Qed.
Theorem between_defined : forall d m s t tm, gradients t = 0%nat -> gradients s = 0%nat \/ usable d m s tm -> kernels_between d s t tm.
Proof.
  intros d m s t tm Z H. unfold gradients in Z. change (nat -> R) with vec in Z. assert (E : gradient_rows t = []) by (unfold gradient_rows; rewrite Z; reflexivity).
  unfold kernels_between, defined_between. rewrite E. split; [|split; intros x y i j []].
  intros x y i j X Y. destruct H as [H|((k & O & _) & SM & _)].
  - unfold gradients in H. change (nat -> R) with vec in H. unfold gradient_rows in Y. rewrite H in Y. destruct Y.
  - assert (O' : definite_order (tk tm) <> None). { unfold smooth_term in SM. unfold definite_in in O. destruct (tk tm); cbn in *; congruence || contradiction. }
    apply entry_defined; intros K; [apply smooth_gradient; auto|discriminate].
Qed.
