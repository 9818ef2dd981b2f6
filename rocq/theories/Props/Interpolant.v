From Coq Require Import List Arith ZArith Bool Lia.
From Verif Require Import Model.Outcome Model.Interpolant Spec.Interpolant Proofs.Interpolant.
Import ListNotations.

(** A small environment for the examples: one-dimensional integer points, natural numbers for
    doubles, one polynomial basis function; fit succeeds unless a value is 9, and its weights are the
    values (plus one for each initial weight that is not zero) followed by a 7. *)
Definition ex_fitter (k : nat) (m : nat) (p g : list Z) (v : list nat) (t : tols nat)
  (w0 : option (list nat)) : outcome (list nat) :=
  if existsb (Nat.eqb 9) v then Throw ExRuntimeError
  else Ok (match w0 with None => v | Some w => map (fun x => fst x + Nat.min 1 (snd x)) (combine v w) end ++ [7]).
Definition ex_env : env Z nat (list Z) nat :=
  mk_env 1 Z.eqb (Nat.ltb 0) 0 1000 (fun ps => ps) (fun a b => a ++ b) [] (fun _ => 0%Z) (fun _ => 1)
    Nat.eqb (Nat.eqb 0) ex_fitter
    (fun _ _ _ _ v _ => if existsb (Nat.eqb 9) v then Throw ExRuntimeError else Ok (([1], []), [5; 6]))
    (fun _ _ _ v _ _ _ _ => Ok ([0], [5; 6]))
    (fun _ => None) (fun e p g => Ok (e_weights e)).
Definition ex_tols : tols nat := mk_tols 1 1 3%Z 1 1.
Definition ex_history : list (op Z nat (list Z) nat) :=
  [OpFit (Fit (Ext [1; 2]%Z) (Ext []) [3; 4] ex_tols NoInitial);
   OpEvaluate [5%Z] [] 1 1;
   OpFit (Fit (Ext [2; 7]%Z) (Ext []) [1; 1] ex_tols InitialSelf);
   OpFit (Fit (Ext [1; 2]%Z) (Ext []) [3] ex_tols NoInitial)].

(** C01: after any history of calls with any results of the numerical code, what the accessors show is
    the outcome of the abstract lifecycle: the data of the last accepted fit if it succeeded, nothing
    if it failed, and never a mixture. (Point arguments must not be references into the object.) *)
Theorem C01_history_refines_lifecycle :
  forall (Pt D Box M : Type) (E : env Pt D Box M) (m : M) (os : list (op Pt D Box M)) s',
  positive E (dinf E) = true -> Forall external_op os -> run E (init E m) os = Ok s' ->
  exists cur k, lifecycles E m (None, 0) os (cur, k) /\ shows s' cur.
Proof. exact (fun Pt D Box M E m os s' H => run_shows E H m os s'). Qed.
Print Assumptions C01_history_refines_lifecycle.

Example C01_history_refines_lifecycle_ex :
  match run ex_env (init ex_env 0) ex_history with
  | Ok s => centers s = Ok [2; 7]%Z /\ weights s = Ok [2; 1; 7]
  | _ => False
  end.
Proof. vm_compute. auto. Qed.

(** C01: a call with unacceptable arguments throws and leaves the whole object as it was; an accepted
    call either succeeds and shows its own data, or throws and leaves the object unfitted. *)
Theorem C01_single_fit :
  forall (Pt D Box M : Type) (E : env Pt D Box M) (s : state Pt D Box M) c out s',
  positive E (dinf E) = true -> external c -> fit E s c = Ok (out, s') ->
  (~ acceptable E (model_ s) (data_of s) c /\ s' = s /\ exists e, out = Throw e) \/
  (acceptable E (model_ s) (data_of s) c /\ ncalls s' = S (ncalls s) /\ model_ s' = model_ s /\
   evaluator_ s' = evaluator_ s /\
   ((exists d, fit_result E (model_ s) (ncalls s) (data_of s) c (Ok d) /\
               data_of s' = Some d /\ out = Ok tt) \/
    (exists e, fit_result E (model_ s) (ncalls s) (data_of s) c (Throw e) /\
               data_of s' = None /\ out = Throw e))).
Proof. exact (fun Pt D Box M E s c out s' H => fit_spec E H s c out s'). Qed.
Print Assumptions C01_single_fit.

Example C01_single_fit_ex :
  match run ex_env (init ex_env 0) (firstn 1 ex_history) with
  | Ok s =>
      fit ex_env s (Fit (Ext [1; 2]%Z) (Ext []) [3] ex_tols NoInitial)
        = Ok (Throw ExInvalidArgument, s) /\
      match fit ex_env s (Fit (Ext [1; 2]%Z) (Ext []) [3; 9] ex_tols NoInitial) with
      | Ok (Throw ExRuntimeError, s') => centers s' = Throw ExRuntimeError
      | _ => False
      end
  | _ => False
  end.
Proof. vm_compute. auto. Qed.

(** C01: the last accepted fit decides: whatever rejected fits and evaluations follow it. *)
Theorem C01_last_accepted_fit_decides :
  forall (Pt D Box M : Type) (E : env Pt D Box M) (s s1 s2 : state Pt D Box M) c os out,
  positive E (dinf E) = true -> external c -> Forall external_op os ->
  fit E s c = Ok (out, s1) -> acceptable E (model_ s) (data_of s) c ->
  run E s1 os = Ok s2 ->
  (forall o pre post sp, os = pre ++ o :: post -> run E s1 pre = Ok sp ->
     match o with OpFit c' => ~ acceptable E (model_ sp) (data_of sp) c' | _ => True end) ->
  data_of s2 = data_of s1.
Proof. exact (fun Pt D Box M E s s1 s2 c os out H => last_fit_decides E H s s1 s2 c os out). Qed.
Print Assumptions C01_last_accepted_fit_decides.

(** C01: passing the interpolant's own centers() to fit() breaks the claim: the reference is emptied
    by clear() after validation, the fitter is run on zero points with the old number of values, and if
    it does not fail the interpolant ends up fitted with no centers. *)
Theorem C01_own_centers_refuted :
  forall (Pt D Box M : Type) (E : env Pt D Box M) (s s' : state Pt D Box M) v t,
  fit E s (Fit OwnCenters (Ext []) v t NoInitial) = Ok (Ok tt, s') ->
  fitter E (ncalls s) (model_ s) [] [] v t None = Ok (weights_ s') /\
  length v = length (centers_ s) /\ centers s' = Ok [].
Proof. exact (fun Pt D Box M E s s' v t => own_centers E s s' v t). Qed.
Print Assumptions C01_own_centers_refuted.

Example C01_own_centers_refuted_ex :
  match run ex_env (init ex_env 0) (firstn 1 ex_history) with
  | Ok s => centers s = Ok [1; 2]%Z /\
            exists s', fit ex_env s (Fit OwnCenters (Ext []) [3; 5] ex_tols NoInitial) = Ok (Ok tt, s')
  | _ => False
  end.
Proof. vm_compute. split; eauto. Qed.

(** C02: evaluate() uses the current fit [d], whatever happened before: its result is that of a fresh
    evaluator built from the current model, centers and weights. *)
Theorem C02_evaluate_uses_current_fit :
  forall (Pt D Box M : Type) (E : env Pt D Box M) (s : state Pt D Box M) d p g a ga,
  data_of s = Some d -> positive E a = true -> positive E ga = true ->
  let e := evaluator_of E (model_ s) d (hull E (from_points E p) (from_points E g)) a ga in
  fst (evaluate E s p g a ga) =
  match make_evaluator_throws E e with Some x => Throw x | None => eval E e p g end.
Proof. exact (fun Pt D Box M E s d p g a ga => evaluate_current E s d p g a ga). Qed.
Print Assumptions C02_evaluate_uses_current_fit.

Theorem C02_evaluate_unfitted_throws :
  forall (Pt D Box M : Type) (E : env Pt D Box M) (s : state Pt D Box M) p g a ga,
  data_of s = None ->
  evaluate E s p g a ga = (Throw ExRuntimeError, s) /\ evaluate_impl E s p g = Throw ExRuntimeError.
Proof. exact (fun Pt D Box M E s p g a ga => evaluate_unfitted E s p g a ga). Qed.
Print Assumptions C02_evaluate_unfitted_throws.

Example C02_evaluate_uses_current_fit_ex :
  match run ex_env (init ex_env 0) ex_history with
  | Ok s => fst (evaluate ex_env s [5%Z] [] 1 1) = Ok [2; 1; 7] /\
            fst (evaluate ex_env (init ex_env 0) [5%Z] [] 1 1) = Throw ExRuntimeError
  | _ => False
  end.
Proof. vm_compute. auto. Qed.

(** C02: the two-step protocol evaluates the fit that was current when the box was set, as long as
    only evaluations and rejected fits follow. *)
Theorem C02_two_step_protocol :
  forall (Pt D Box M : Type) (E : env Pt D Box M) (s s1 s2 : state Pt D Box M) d b a ga os p g,
  positive E (dinf E) = true ->
  data_of s = Some d -> set_evaluation_bbox E s b a ga = (Ok tt, s1) ->
  Forall external_op os -> quiet E os s1 -> run E s1 os = Ok s2 ->
  evaluate_impl E s2 p g = eval E (evaluator_of E (model_ s) d b a ga) p g.
Proof. exact (fun Pt D Box M E s s1 s2 d b a ga os p g H => two_step E H s s1 s2 d b a ga os p g). Qed.
Print Assumptions C02_two_step_protocol.

(** C02: after any successful refit without a new box, the old fit is still evaluated. *)
Theorem C02_stale_evaluator_refuted :
  forall (Pt D Box M : Type) (E : env Pt D Box M) (s s' : state Pt D Box M) d b a ga c p g s1,
  positive E (dinf E) = true ->
  data_of s = Some d -> set_evaluation_bbox E s b a ga = (Ok tt, s1) ->
  external c -> fit E s1 c = Ok (Ok tt, s') ->
  evaluate_impl E s' p g = eval E (evaluator_of E (model_ s) d b a ga) p g.
Proof. exact (fun Pt D Box M E s s' d b a ga c p g s1 H => stale_evaluator E H s s' d b a ga c p g s1). Qed.
Print Assumptions C02_stale_evaluator_refuted.

Example C02_stale_evaluator_refuted_ex :
  match run ex_env (init ex_env 0)
          [OpFit (Fit (Ext [1; 2]%Z) (Ext []) [3; 4] ex_tols NoInitial); OpSetBox [] 1 1;
           OpFit (Fit (Ext [8]%Z) (Ext []) [5] ex_tols NoInitial)] with
  | Ok s => evaluate_impl ex_env s [8%Z] [] = Ok [3; 4; 7] /\ weights s = Ok [5; 7]
  | _ => False
  end.
Proof. vm_compute. auto. Qed.

(** C02: evaluate_impl on a fitted interpolant that never had a box dereferences a null pointer. *)
Theorem C02_null_evaluator_refuted :
  forall (Pt D Box M : Type) (E : env Pt D Box M) m c s' p g,
  positive E (dinf E) = true ->
  external c -> fit E (init E m) c = Ok (Ok tt, s') -> evaluate_impl E s' p g = UB.
Proof. exact (fun Pt D Box M E m c s' p g H => null_evaluator E H m c s' p g). Qed.
Print Assumptions C02_null_evaluator_refuted.

(** C14: when the initial interpolant is fitted and its model compares equal, every point inherits the
    weight of the first equal center or zero, gradients likewise, and the polynomial part is copied;
    the vector has the size the fitter expects. *)
Theorem C14_initial_weights_mapped :
  forall (Pt D Box M : Type) (E : env Pt D Box M) (s ini : state Pt D Box M) same p g w,
  same || meqb E (model_ s) (model_ ini) = true -> fitted ini = true ->
  build_initial_weights E s same p g ini = Ok w ->
  starts_from E (model_ s) p g (mk_data (centers_ ini) (grads_ ini) (bbox_ ini) (weights_ ini)) w
  /\ length w = length p + dim E * length g + basis_size E (model_ s).
Proof. exact (fun Pt D Box M E s ini same p g w => build_same E s same p g ini w). Qed.
Print Assumptions C14_initial_weights_mapped.

(** C14: no undefined behaviour when the initial weights have the size of a fitted interpolant. *)
Theorem C14_initial_weights_defined :
  forall (Pt D Box M : Type) (E : env Pt D Box M) (s ini : state Pt D Box M) same p g,
  fitted ini = true ->
  (same || meqb E (model_ s) (model_ ini) = true ->
   length (weights_ ini) = length (centers_ ini) + dim E * length (grads_ ini) +
                           basis_size E (model_ s)) ->
  exists w, build_initial_weights E s same p g ini = Ok w /\
            length w = length p + dim E * length g + basis_size E (model_ s).
Proof. exact (fun Pt D Box M E s ini same p g => build_defined E s same p g ini). Qed.
Print Assumptions C14_initial_weights_defined.

(** C14: a different model gives all zeros; an unfitted initial interpolant throws. *)
Theorem C14_different_model_zero :
  forall (Pt D Box M : Type) (E : env Pt D Box M) (s ini : state Pt D Box M) p g,
  meqb E (model_ s) (model_ ini) = false ->
  build_initial_weights E s false p g ini
  = Ok (repeat (dzero E) (length p + dim E * length g + basis_size E (model_ s))).
Proof. exact (fun Pt D Box M E s ini p g => build_differ E s p g ini). Qed.
Print Assumptions C14_different_model_zero.

Theorem C14_unfitted_initial_throws :
  forall (Pt D Box M : Type) (E : env Pt D Box M) (s ini : state Pt D Box M) same p g,
  same || meqb E (model_ s) (model_ ini) = true -> fitted ini = false ->
  build_initial_weights E s same p g ini = Throw ExRuntimeError.
Proof. exact (fun Pt D Box M E s ini same p g => build_unfitted E s same p g ini). Qed.
Print Assumptions C14_unfitted_initial_throws.

(** C14: refitting the same (distinct) points starts from exactly the previous weights. *)
Theorem C14_refit_starts_from_previous_weights :
  forall (Pt D Box M : Type) (E : env Pt D Box M) (s : state Pt D Box M) same,
  fitted s = true -> same || meqb E (model_ s) (model_ s) = true ->
  (forall p, In p (centers_ s) -> peqb E p p = true) -> distinct E (centers_ s) ->
  (forall p, In p (grads_ s) -> peqb E p p = true) -> distinct E (grads_ s) ->
  length (weights_ s) = length (centers_ s) + dim E * length (grads_ s) + basis_size E (model_ s) ->
  build_initial_weights E s same (centers_ s) (grads_ s) s = Ok (weights_ s).
Proof. exact (fun Pt D Box M E s same => build_refit E s same). Qed.
Print Assumptions C14_refit_starts_from_previous_weights.

(** A two-dimensional example with a duplicated center, gradient blocks and two basis functions. *)
Definition ex_env2 : env Z nat unit nat :=
  mk_env 2 Z.eqb (Nat.ltb 0) 0 1000 (fun _ => tt) (fun _ _ => tt) tt (fun _ => 1%Z) (fun _ => 2)
    Nat.eqb (fun _ => true) (fun _ _ _ _ _ _ _ => UB) (fun _ _ _ _ _ _ => UB)
    (fun _ _ _ _ _ _ _ _ => UB) (fun _ => None) (fun _ _ _ => UB).
Definition ex_initial : state Z nat unit nat :=
  mk_state 4 true [10; 20; 10]%Z [30; 40]%Z tt [1; 2; 3; 4; 5; 6; 7; 8; 9] None 0.

Example C14_initial_weights_mapped_ex :
  build_initial_weights ex_env2 ex_initial true [20; 10; 50]%Z [40; 60]%Z ex_initial
  = Ok [2; 1; 0; 6; 7; 0; 0; 8; 9].
Proof. reflexivity. Qed.

Example C14_refit_ex :
  let s := mk_state 4 true [10; 20]%Z [30; 40]%Z tt [1; 2; 4; 5; 6; 7; 8; 9] None 0 in
  build_initial_weights ex_env2 s true [10; 20]%Z [30; 40]%Z s = Ok [1; 2; 4; 5; 6; 7; 8; 9].
Proof. reflexivity. Qed.
