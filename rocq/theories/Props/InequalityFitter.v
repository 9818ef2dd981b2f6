From Coq Require Import List Arith Bool ZArith Reals Permutation Lia.
From Verif Require Import Model.Outcome Model.IncrementalFitter Model.InequalityFitter.
From Verif Require Import Spec.IncrementalFitter Spec.InequalityFitter.
From Verif Require Import Proofs.IncrementalFitter Proofs.InequalityFitter.
From Verif Require Model.DistanceFilter.
Import ListNotations.

(** ** Examples: rows are natural numbers, values are integers, tolerance 0, no two points are near each
    other. The solver answers with the wanted values as weights; the evaluator answers at a center with
    its weight and elsewhere with the weight of the first center minus the number of centers. *)
Definition xz (o : option Z) : Z := match o with Some z => z | None => 0%Z end.
Fixpoint xlookup (c : list nat) (w : list Z) (i : nat) : option Z :=
  match c, w with
  | k :: c', x :: w' => if Nat.eqb k i then Some x else xlookup c' w' i
  | _, _ => None
  end.
Definition xeval (c : list nat) (w : list Z) (i : nat) : Z :=
  match xlookup c w i with Some z => z | None => (hd 0 w - Z.of_nat (length c))%Z end.
Definition xenv (n poly : nat) (v lb ub : list (option Z)) : ienv nat Z :=
  mk_ienv (seq 0 n) poly v lb ub (repeat 0%Z (n + poly)) 0%Z 1%R
    (fun f b => Z.ltb f b) (fun f b => Z.ltb b f) (fun w => Z.leb w 0) (fun w => Z.leb 0 w)
    (fun b f => Z.max (b - f) 0) (fun f b => Z.max (f - b) 0) Z.max (fun rs => rs)
    (fun _ _ _ => [])
    (fun _ c v _ => if Nat.eqb (length v) (length c) then Ok (v ++ repeat 0%Z poly) else Throw ExRuntimeError)
    (fun _ c w is => map (xeval c w) is).

Lemma xenv_ok : forall n poly v lb ub, length v = n -> length lb = n -> length ub = n ->
  ienv_ok (xenv n poly v lb ub).
Proof.
  intros n poly v lb ub V L U. constructor; unfold n_points; cbn; rewrite ?seq_length; auto.
  - apply repeat_length.
  - intros r c x _ w H. destruct (Nat.eqb_spec (length x) (length c)); [|discriminate]. injection H as <-.
    rewrite app_length, repeat_length. lia.
  - intros. apply map_length.
Qed.

Ltac xcbn := cbn -[Rmax valid_distance kMinDistance Rmult Rdiv IZR irun istep];
  change (Pos.to_nat 1) with 1; change (Pos.to_nat 2) with 2;
  cbn -[Rmax valid_distance kMinDistance Rmult Rdiv IZR irun istep].
Ltac xstep V :=
  unfold istep at 1; xcbn; unfold survivors, DistanceFilter.filter_indices; rewrite ?V; xcbn.

(** C13: when fit() returns with at least as many centers as basis functions, the centers are distinct
    rows, namely the equality rows and the active rows; the weights are the solver's answer for the
    equality values and the active bounds, one per center and basis function; every active bound has a
    weight of the right sign and every inactive bound holds within the tolerance for the fitted values. *)
Theorem C13_returned_fit :
  forall (Pt D : Type) (E : ienv Pt D), ienv_ok E ->
  forall n c w, irun E n (iinit E) = Ok (IFinished c w) -> n_poly E <= length c -> ineq_fitted E c w.
Proof. exact @ineq_returned. Qed.
Print Assumptions C13_returned_fit.

Definition x1 : ienv nat Z := xenv 2 0 [Some 1%Z; None] [None; Some 3%Z] [None; None].
Example C13_returned_fit_ex :
  ienv_ok x1 /\ irun x1 2 (iinit x1) = Ok (IFinished [0; 1] [1%Z; 3%Z]).
Proof.
  split; [apply xenv_ok; reflexivity|].
  assert (valid_distance (Rmax 1 kMinDistance) = true) as V by (apply valid_ge, Rmax_r).
  unfold iinit. cbn [iwidth_norm x1 xenv]. set (d := Rmax 1 kMinDistance) in *. clearbody d.
  cbn [irun]. xstep V.
  assert (valid_distance (Rmax (1 / 2 * d) kMinDistance) = true) as V' by (apply valid_ge, Rmax_r).
  xstep V'. reflexivity.
Qed.

(** C13: when every row has a value or a bound, fit() does nothing undefined. *)
Theorem C13_no_undefined_behaviour :
  forall (Pt D : Type) (E : ienv Pt D), ienv_ok E -> all_constrained E ->
  (forall r c v w0, isolve E r c v w0 <> UB) -> forall n, irun E n (iinit E) <> UB.
Proof. exact @ineq_no_ub. Qed.
Print Assumptions C13_no_undefined_behaviour.

Example C13_no_undefined_behaviour_ex : all_constrained x1.
Proof. intros [|[|i]] H; cbn in *; auto. lia. Qed.

(** C13: how the active sets change in a round that does not end the loop: an active bound stays exactly
    when its weight has the right sign; a bound becomes active only if it is violated and its row is not
    a center, and its weight then starts at zero. *)
Theorem C13_active_set_update :
  forall (Pt D : Type) (E : ienv Pt D), ienv_ok E ->
  forall s s', ireach E s -> istep E s = Ok (INext s') ->
  exists w cw fit, fit_step E s (centers_of E s) = Ok (w, cw, fit) /\
  forall k i f, nth_error (ineq_idcs E) k = Some i -> nth_error fit k = Some f ->
    (In i (active_lb s) -> (In i (active_lb s') <-> ~ stale_lb E (active_lb s) w i)) /\
    (In i (active_ub s) -> (In i (active_ub s') <-> ~ stale_ub E (active_ub s) w i)) /\
    (~ In i (active_lb s) -> In i (active_lb s') ->
       violates_lb E (active_lb s) f i /\ ~ In i (centers_of E s) /\
       nth_error (iweights s') i = Some (izero E)) /\
    (~ In i (active_ub s) -> In i (active_ub s') ->
       violates_ub E (active_ub s) f i /\ ~ In i (centers_of E s) /\
       nth_error (iweights s') i = Some (izero E)).
Proof. exact @ineq_active_step. Qed.
Print Assumptions C13_active_set_update.

Example C13_active_set_update_ex :
  ireach x1 (iinit x1) /\ exists s, istep x1 (iinit x1) = Ok (INext s) /\ active_lb s = [1].
Proof.
  split; [constructor|].
  assert (valid_distance (Rmax 1 kMinDistance) = true) as V by (apply valid_ge, Rmax_r).
  unfold iinit. cbn [iwidth_norm x1 xenv]. set (d := Rmax 1 kMinDistance) in *. clearbody d.
  xstep V. eexists. split; reflexivity.
Qed.

(** C13, exception: a row without value and bounds makes the residual loop read values_fit out of range. *)
Definition x2 : ienv nat Z := xenv 3 0 [Some 1%Z; None; None] [None; None; Some 3%Z] [None; None; None].
Theorem C13_unconstrained_row_refuted :
  exists E : ienv nat Z, ienv_ok E /\ (forall r c v w0, isolve E r c v w0 <> UB) /\
  istep E (iinit E) = UB.
Proof.
  exists x2. split; [apply xenv_ok; reflexivity|]. split.
  - intros r c v w0. cbn. destruct (Nat.eqb (length v) (length c)); discriminate.
  - reflexivity.
Qed.
Print Assumptions C13_unconstrained_row_refuted.

(** C13, exception: the residual that orders the rows is computed from another row's fitted value. Row 2
    is below its bound by 1, but is listed with residual 0. *)
Definition x3 : ienv nat Z :=
  xenv 3 0 [Some 1%Z; None; None] [None; Some 3%Z; Some 0%Z] [None; None; None].
Theorem C13_residual_of_another_row_refuted :
  exists (E : ienv nat Z) s w cw fit, ienv_ok E /\ all_constrained E /\ ireach E s /\
  fit_step E s (centers_of E s) = Ok (w, cw, fit) /\
  complement (centers_of E s) (n_points E) = Ok [2] /\
  nth_error (ineq_idcs E) 1 = Some 2 /\ nth_error fit 1 = Some (-1)%Z /\
  nth_error (values_lb E) 2 = Some (Some 0%Z) /\
  iresiduals E fit 0 [2] = Ok [(2, 0%Z)].
Proof.
  assert (valid_distance (Rmax 1 kMinDistance) = true) as V by (apply valid_ge, Rmax_r).
  eexists x3, _, _, _, _. split; [apply xenv_ok; reflexivity|].
  split; [intros [|[|[|i]]] H; cbn in *; auto; lia|]. split.
  { eapply ireach_step; [constructor|].
    unfold iinit. cbn [iwidth_norm x3 xenv].
    xstep V. reflexivity. }
  split; [reflexivity|]. repeat split.
Qed.
Print Assumptions C13_residual_of_another_row_refuted.

(** C13, exception: with fewer centers than basis functions (here one equality row, two basis functions)
    fit() can return without fitting: the weights have the wrong length and the value 5 is ignored. *)
Definition x4 : ienv nat Z := xenv 2 2 [Some 5%Z; None] [None; None] [None; Some 10%Z].
Theorem C13_too_few_centers_refuted :
  exists (E : ienv nat Z) c w, ienv_ok E /\ all_constrained E /\ n_poly E <= n_points E /\
  irun E 1 (iinit E) = Ok (IFinished c w) /\ length w <> length c + n_poly E /\
  Forall (fun x => x = izero E) w /\ has (values E) 0 = true.
Proof.
  exists x4, [0], [0%Z; 0%Z]. split; [apply xenv_ok; reflexivity|].
  split; [intros [|[|i]] H; cbn in *; auto; lia|]. split; [cbn; auto|]. split.
  - assert (valid_distance (Rmax 1 kMinDistance) = true) as V by (apply valid_ge, Rmax_r).
    unfold iinit. cbn [iwidth_norm x4 xenv irun]. set (d := Rmax 1 kMinDistance) in *. clearbody d.
    xstep V. reflexivity.
  - split; [cbn; discriminate|]. split; [repeat constructor|reflexivity].
Qed.
Print Assumptions C13_too_few_centers_refuted.

(** C13, exception: with fewer active rows than basis functions the loop can also go on for ever on
    satisfiable bounds: row 0 is activated because the zero fit violates its bound, then dropped because
    its weight was never computed. *)
Definition x5 : ienv nat Z := xenv 2 2 [None; None] [Some 3%Z; None] [None; Some 10%Z].
Lemma x5_cycle : forall n r d, (kMinDistance <= d)%R ->
  (exists s, irun x5 n (mk_istate r [0; 0; 0; 0]%Z [] [] d) = Ok (INext s)) /\
  (exists s, irun x5 n (mk_istate r [0; 0; 0; 0]%Z [0] [] d) = Ok (INext s)).
Proof.
  induction n as [|n IH]; intros r d H; [split; eexists; reflexivity|].
  cbn [irun]. pose proof (valid_ge d H) as V. split.
  - xstep V. apply IH. apply Rmax_r.
  - xstep V. apply IH. apply Rmax_r.
Qed.
Theorem C13_few_active_rows_loop_refuted :
  exists E : ienv nat Z, ienv_ok E /\ all_constrained E /\ n_poly E <= n_points E /\
  (forall n, exists s, irun E n (iinit E) = Ok (INext s)).
Proof.
  exists x5. split; [apply xenv_ok; reflexivity|].
  split; [intros [|[|i]] H; cbn in *; auto; lia|]. split; [cbn; auto|].
  intros n. apply (x5_cycle n 0 (Rmax 1 kMinDistance)). apply Rmax_r.
Qed.
Print Assumptions C13_few_active_rows_loop_refuted.

(** C13, exception: an equality row whose own bound is violated by its value keeps the loop running: it
    is a center already, so it is never activated, yet counts as a change. *)
Definition x6 : ienv nat Z := xenv 1 0 [Some 5%Z] [Some 7%Z] [None].
Theorem C13_conflicting_row_loop_refuted :
  exists E : ienv nat Z, ienv_ok E /\ all_constrained E /\
  (forall n, exists s, irun E n (iinit E) = Ok (INext s)).
Proof.
  exists x6. split; [apply xenv_ok; reflexivity|].
  split; [intros [|i] H; cbn in *; auto; lia|].
  assert (forall n r w d, (kMinDistance <= d)%R ->
          exists s, irun x6 n (mk_istate r [w] [] [] d) = Ok (INext s)) as G.
  { induction n as [|n IH]; intros r w d H; [eexists; reflexivity|].
    cbn [irun]. pose proof (valid_ge d H) as V. xstep V. apply IH. apply Rmax_r. }
  intros n. apply G. apply Rmax_r.
Qed.
Print Assumptions C13_conflicting_row_loop_refuted.
