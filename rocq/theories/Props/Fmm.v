From Coq Require Import List Arith NArith Reals Lia Lra Permutation.
From Verif Require Import Model.Outcome Model.Fmm Spec.Fmm Proofs.Fmm Proofs.FmmSymmetric Proofs.FmmFailure Proofs.FmmSearch.
Import ListNotations.

(** C27: for every history of calls with weight vectors of the right size, an evaluation that returns
    gives, in the order of the caller's targets, the exact potentials of the caller's weights at the caller's
    sources, or for large problems what the far field gives for those sources with a configuration found for
    the current accuracy. Nothing else is thrown than runtime_error, and undefined behaviour needs an earlier
    failed evaluation since the accuracy or the sources were set. *)
Theorem C27_evaluate : forall P E, env_ok P E -> forall os s rs, well_sized P E (new_view P) os ->
  run P E (new_state P) os = Ok (s, rs) ->
  match evaluate P E s with
  | Ok (_, inl y) => forall w, v_weights (seen P os) = Some w -> correct P E (seen P os) w y
  | Ok (_, inr e) => e = ExRuntimeError
  | Throw _ => False
  | UB => clean P true os rs = false
  end.
Proof. exact evaluation_correct. Qed.
Print Assumptions C27_evaluate.

(** Small problems are always summed exactly. *)
Theorem C27_small_exact : forall P E, env_ok P E -> forall os s rs w, well_sized P E (new_view P) os ->
  run P E (new_state P) os = Ok (s, rs) ->
  (N.of_nat (length (v_src (seen P os))) * N.of_nat (length (v_trg (seen P os))) < 1048576)%N -> v_weights (seen P os) = Some w ->
  exists s' y, evaluate P E s = Ok (s', inl y) /\ lists P E y (v_trg (seen P os)) (potential P E (v_src (seen P os)) w).
Proof. exact small_exact. Qed.
Print Assumptions C27_small_exact.

(** The setters always succeed. *)
Theorem C27_setters : forall P E, env_ok P E -> forall os o s rs, well_sized P E (new_view P) (os ++ [o]) ->
  run P E (new_state P) os = Ok (s, rs) -> o <> Evaluate -> exists s', step P E s o = Ok (s', None).
Proof. exact setters_defined. Qed.
Print Assumptions C27_setters.

(** The symmetric evaluator; the self-interaction is counted once per point. *)
Theorem C27_symmetric : forall P E, env_ok P E -> same_at_zero P E -> forall os s rs, sym_well_sized P E (new_view P) os ->
  sym_run P E (new_sym P) os = Ok (s, rs) ->
  match sym_evaluate P E s with
  | Ok (_, inl y) => forall w, v_weights (sym_seen P os) = Some w -> sym_correct P E (sym_seen P os) w y
  | Ok (_, inr e) => e = ExRuntimeError
  | Throw _ => False
  | UB => sym_clean P true os rs = false
  end.
Proof. exact sym_evaluation_correct. Qed.
Print Assumptions C27_symmetric.

(** C46: the search returns one of the candidate configurations, within the accuracy at every sampled source
    point (all of them if there are at most 10000), or throws when no candidate is. *)
Theorem C46_search : forall P E, env_ok P E -> forall a ps h, (0 < a)%R ->
  exists xs, length xs = N.to_nat (N.min (N.of_nat (length ps)) 10000) /\
  (forall x, In x xs -> In x (map p_pos ps)) /\ ((N.of_nat (length ps) <= 10000)%N -> forall q, In q ps -> In (p_pos q) xs) /\
  match search P E (Some a) ps h with
  | Ok c => In c (candidates h) /\ forall x, In x xs -> within P E c ps a x
  | Throw e => e = ExRuntimeError /\ forall c, In c (candidates h) -> ~ forall x, In x xs -> within P E c ps a x
  | UB => False
  end.
Proof. exact search_accurate. Qed.
Print Assumptions C46_search.

(** C46: the candidates are the even orders from 8 to 20, the classic interpolator below 12 and the degrees 7 to 9 from there. *)
Theorem C46_candidates : forall h c, In c (candidates h) <->
  c_height c = h /\ Nat.Even (c_order c) /\ 8 <= c_order c <= 20 /\ match c_d c with None => c_order c < 12 | Some k => 12 <= c_order c /\ 7 <= k <= 9 end.
Proof. exact candidates_iff. Qed.
Print Assumptions C46_candidates.

(** C46: the search takes the cheapest one: every candidate of a lower order, or of the same order and a lower degree, misses the accuracy at a
    sampled point. *)
Theorem C46_cheapest : forall P E, env_ok P E -> forall a ps h c xs, (0 < a)%R -> search P E (Some a) ps h = Ok c -> sample P E ps = Ok xs ->
  forall b, In b (candidates h) -> c_order b < c_order c \/ c_order b = c_order c /\ (exists k m, c_d b = Some k /\ c_d c = Some m /\ k < m) ->
  ~ forall x, In x xs -> within P E b ps a x.
Proof. exact cheapest. Qed.
Print Assumptions C46_cheapest.

(** A failed evaluation is never reported twice: the next one sums directly, and is undefined (an interpolator
    of order 0) if a configuration had been in use before. *)
Theorem C46_retry : forall P E, env_ok P E -> forall s s' e,
  (exists os rs, well_sized P E (new_view P) os /\ run P E (new_state P) os = Ok (s, rs)) ->
  evaluate P E s = Ok (s', inr e) ->
  match evaluate P E s' with
  | Ok (_, inl y) => exists src' trg', Permutation src' (src P s') /\ Permutation trg' (trg P s') /\
      potentials P E (length trg') (map t_id trg') (out_at P (direct_at P E src') trg') = Ok y
  | UB => cfg P s <> no_config
  | _ => False
  end.
Proof. exact retry. Qed.
Print Assumptions C46_retry.

(** So an exception need not be repeated. *)
Theorem C46_failure_repeats_refuted : ~ forall (P : Type) (E : fenv P) os s rs s' e, env_ok P E -> well_sized P E (new_view P) os ->
  run P E (new_state P) os = Ok (s, rs) -> evaluate P E s = Ok (s', inr e) -> exists s'' e', evaluate P E s' = Ok (s'', inr e').
Proof.
  exact (fun H => match failure_then_success (repeat tt (N.to_nat 1024)) (repeat 0%R (N.to_nat 1024)) many_ex
      (eq_trans (repeat_length _ _) (eq_sym (repeat_length _ _))) with
    | ex_intro _ s (conj R (ex_intro _ s' (conj F (ex_intro _ s'' (ex_intro _ y G))))) =>
        match H unit (wenv 0 1) _ s _ s' _ (wenv_ok 0 1)
          (setup_sized 0 1 (1 / 2) _ _ (eq_trans (repeat_length _ _) (eq_sym (repeat_length _ _)))) R F with
        | ex_intro _ t (ex_intro _ e' K) => match eq_trans (eq_sym G) K with eq_refl => I end
        end
    end).
Qed.
Print Assumptions C46_failure_repeats_refuted.

(** When the accuracy has just been set, the result is within it at the source points. *)
Theorem C46_fresh_accuracy : forall P E, env_ok P E ->
  (forall c ps ps' x i, Permutation ps ps' -> far P E c ps ps x i = far P E c ps' ps' x i) ->
  forall os s rs a w s' y, well_sized P E (new_view P) (os ++ [SetAccuracy (Some a)]) ->
  run P E (new_state P) (os ++ [SetAccuracy (Some a)]) = Ok (s, rs) -> (0 < a)%R ->
  let v := seen P (os ++ [SetAccuracy (Some a)]) in
  v_weights v = Some w -> (N.of_nat (length (v_src v)) <= 10000)%N -> evaluate P E s = Ok (s', inl y) ->
  forall j x i, nth_error (v_trg v) j = Some x -> In x (v_src v) -> i < kn P E ->
    exists r, nth_error y (kn P E * j + i) = Some r /\ (Rabs (r - potential P E (v_src v) w x i) <= a)%R.
Proof. exact fresh_accurate. Qed.
Print Assumptions C46_fresh_accuracy.

(** Not so after the weights have changed: the old configuration is used unchecked. *)
Theorem C46_accuracy_after_set_weights_refuted : ~ forall (P : Type) (E : fenv P) os s rs a w s' y, env_ok P E -> well_sized P E (new_view P) os ->
  run P E (new_state P) os = Ok (s, rs) -> v_accuracy (seen P os) = Some a -> (0 < a)%R -> v_weights (seen P os) = Some w ->
  (N.of_nat (length (v_src (seen P os))) <= 10000)%N -> evaluate P E s = Ok (s', inl y) ->
  forall j x i, nth_error (v_trg (seen P os)) j = Some x -> In x (v_src (seen P os)) -> i < kn P E ->
    exists r, nth_error y (kn P E * j + i) = Some r /\ (Rabs (r - potential P E (v_src (seen P os)) w x i) <= a)%R.
Proof. exact stale_refutes. Qed.
Print Assumptions C46_accuracy_after_set_weights_refuted.

(** C45: if every evaluator is within its share, each entry of the result is within the accuracy. Without
    gradient points the evaluators for them contribute nothing, exactly (C27_small_exact with no sources). *)
Theorem C45_budget : forall n sigma acc a f A F p, (0 <= acc)%R ->
  (forall i, i < n -> (Rabs (a i - A i) <= share acc sigma n)%R) ->
  (forall i, i < n -> (if 0 <? sigma then Rabs (f i - F i) <= share acc sigma n else f i = F i)%R) ->
  (Rabs (total n a f p - total n A F p) <= acc)%R.
Proof. exact budget. Qed.
Print Assumptions C45_budget.

(** The bound is tight: all evaluators off by their share in one direction use it up. *)
Theorem C45_tight : forall n sigma acc, 0 < n -> 0 < sigma ->
  (total n (fun _ => share acc sigma n) (fun _ => share acc sigma n) 0 = acc)%R.
Proof. exact budget_tight. Qed.
Print Assumptions C45_tight.

(** Two sources, one weight each; the result is in the order of the targets although sorting reverses them. *)
Definition rev_env : fenv R :=
  mk_fenv R 1 1 (fun x y _ _ => Rabs (x - y)) (fun _ => 2) (fun _ => @rev _) (fun _ => @rev _) (fun _ _ _ _ _ => 0%R) (fun _ _ _ _ => 0%R)
    (fun n => seq 0 n) (fun _ => [0%R]) 0%R.
Example C27_example : env_ok R rev_env /\ exists s rs y,
  run R rev_env (new_state R) [SetSource [0; 1]%R; SetTarget [5; 2; 3]%R; SetWeights [1; 10]%R] = Ok (s, rs) /\
  (exists s', evaluate R rev_env s = Ok (s', inl y)) /\ nth_error y 1 = Some 12%R.
Proof.
  assert (env_ok R rev_env) as OK. { split; cbn; auto; intros; apply Permutation_sym; apply Permutation_rev. }
  split; auto. set (os := [SetSource [0; 1]%R; SetTarget [5; 2; 3]%R; SetWeights [1; 10]%R]).
  assert (well_sized R rev_env (new_view R) os) as W by (cbn; auto).
  destruct (run R rev_env (new_state R) os) as [[s rs]|e|] eqn:RU; [|discriminate RU|discriminate RU].
  destruct (C27_small_exact R rev_env OK os s rs [1; 10]%R W RU) as (s' & y & EV & _ & G); [cbn; lia|reflexivity|].
  exists s, rs, y. split; auto. split; [exists s'; auto|]. specialize (G 1 2%R 0 eq_refl). cbn [kn rev_env] in G.
  change (1 * 1 + 0) with 1 in G. rewrite G by lia. f_equal. unfold potential, sum. cbn. rewrite !Rabs_right by lra. lra.
Qed.

(** The retry after a failure happens: 1024 points, a far field off by one, accuracy one half. *)
Example C46_example : exists s, (exists rs, run unit (wenv 0 1) (new_state unit) (setup (1 / 2) (repeat tt (N.to_nat 1024)) (repeat 0%R (N.to_nat 1024))) = Ok (s, rs)) /\
  exists s', evaluate unit (wenv 0 1) s = Ok (s', inr ExRuntimeError) /\ exists s'' y, evaluate unit (wenv 0 1) s' = Ok (s'', inl y).
Proof.
  destruct (failure_then_success (repeat tt (N.to_nat 1024)) (repeat 0%R (N.to_nat 1024)) many_ex) as (s & R & G).
  - rewrite !repeat_length. reflexivity.
  - exists s. split; eauto.
Qed.

(** Two RBFs with gradient points: each of the four evaluators gets a quarter. *)
Example C45_example : share 1 3 2 = (1 / 4)%R /\ share 1 0 2 = (1 / 2)%R.
Proof. unfold share. cbn. split; field. Qed.
