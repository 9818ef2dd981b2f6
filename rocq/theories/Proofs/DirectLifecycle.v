From Coq Require Import Reals List Arith Lia Lra.
From Verif Require Import Model.Outcome Model.LinAlg Model.Operator Proofs.LinAlg Spec.Operator Proofs.Operator Model.DirectLifecycle Spec.DirectLifecycle.
Import ListNotations.
Local Open Scope R_scope.

Section Proofs.
Variable V : Type.
Variable dif : V -> V -> V.
Variable origin : V.
Variable dim : nat.
Variable rbfs : list (rbf V).
Variable l : nat.
Variable basis : nodes V -> nat -> nat -> R.
Notation size := (size V dim).
Notation run := (run V dif dim rbfs l basis).
Notation step := (step V dif dim rbfs l basis).
Notation evaluate := (evaluate V dif dim rbfs l basis).
Notation values := (values V dif dim rbfs l basis).
Notation state := (state V).

(** The members agree with what was set last. *)
Definition holds (s : state) (a t : nodes V) (ws : list R) : Prop :=
  src V s = a /\ trg V s = t /\ weights V s = ws /\ ((0 < l)%nat -> ptrg V s = t /\ forall k, (k < l)%nat -> nth k (pweights V s) 0 = nth (length ws - l + k) ws 0).

Lemma nth_skipn : forall (xs : list R) n k, nth k (skipn n xs) 0 = nth (n + k) xs 0.
Proof. induction xs as [|x xs IH]; intros [|n] k; cbn; auto; destruct k; reflexivity. Qed.
Lemma start_holds : holds (start V origin l) (none V origin) (none V origin) [].
Proof.
  repeat split. intros k L. cbn. rewrite nth_repeat. destruct k; reflexivity.
Qed.
Lemma target_holds : forall s a t ws n, holds s a t ws -> holds (set_target V l s n) a n ws.
Proof.
  intros s a t ws n (A & B & C & D). unfold set_target. repeat split; cbn [src trg weights ptrg pweights]; auto.
  - destruct (Nat.ltb_spec 0 l); [reflexivity|lia].
  - apply D. assumption.
Qed.
Lemma evaluate_holds : forall s a t ws ss, holds s a t ws -> schedules_ok V rbfs (size t) ss ->
  evaluate ss s = if (length ws <? size a)%nat then UB else Ok (values a t ws).
Proof.
  intros s a t ws ss (A & B & C & D) OK. unfold DirectLifecycle.evaluate. rewrite A, B, C.
  destruct (length ws <? size a)%nat; [reflexivity|].
  assert (S : forall r, (r < size t)%nat -> sweep V dif dim rbfs ss a t (fun i => nth i ws 0) (fun _ => 0) r = mat_vec (size a) (kernel V dif dim rbfs a t) (fun i => nth i ws 0) r).
  { intros r L. rewrite (sweep_spec V dif dim rbfs ss a t _ _ r OK L), <- (rows_kernel V dif dim rbfs a t). lra. }
  destruct (Nat.ltb_spec 0 l) as [P|P].
  - destruct (D P) as [T W]. rewrite T, Nat.eqb_refl. f_equal. apply map_ext_in. intros r I. apply in_seq in I.
    unfold value. rewrite S by lia. f_equal. unfold mat_vec. apply rsum_ext. intros k L. rewrite W by lia. reflexivity.
  - f_equal. apply map_ext_in. intros r I. apply in_seq in I. unfold value. rewrite S by lia.
    match goal with |- ?x = ?x + ?z => assert (Z : z = 0) end.
    { unfold mat_vec. replace l with 0%nat by lia. reflexivity. }
    rewrite Z. symmetry. apply Rplus_0_r.
Qed.
Lemma step_holds : forall s a t ws o s' y, holds s a t ws -> step s o = Ok (s', y) ->
  holds s' (match o with SetSource _ n => n | _ => a end) (match o with SetTarget _ n | EvaluateAt _ _ n => n | _ => t end)
    (match o with SetWeights _ v => v | _ => ws end).
Proof.
  intros s a t ws [n|n|v|ss|ss n] s' y H E; cbn [DirectLifecycle.step] in E.
  - injection E as <- <-. destruct H as (A & B & C & D). repeat split; cbn [set_source src trg weights ptrg pweights]; auto; apply D; assumption.
  - injection E as <- <-. eapply target_holds; eassumption.
  - unfold set_weights in E. destruct (length v =? size (src V s) + l)%nat eqn:L; cbn [bind] in E; [|discriminate]. injection E as <- <-.
    destruct H as (A & B & C & D). repeat split; cbn [src trg weights ptrg pweights]; auto.
    + apply D. assumption.
    + intros k K. destruct (Nat.ltb_spec 0 l); [apply nth_skipn|lia].
  - destruct (evaluate ss s); cbn [bind] in E; try discriminate. injection E as <- <-. exact H.
  - destruct (evaluate ss (set_target V l s n)); cbn [bind] in E; try discriminate. injection E as <- <-. eapply target_holds; eassumption.
Qed.
Lemma run_holds : forall os s a t ws s' y, holds s a t ws -> run s os = Ok (s', y) ->
  holds s' (fold_left (fun a o => match o with SetSource _ n => n | _ => a end) os a)
    (fold_left (fun a o => match o with SetTarget _ n | EvaluateAt _ _ n => n | _ => a end) os t)
    (fold_left (fun a o => match o with SetWeights _ v => v | _ => a end) os ws).
Proof.
  induction os as [|o os IH]; intros s a t ws s' y H E; cbn [DirectLifecycle.run fold_left] in *.
  - injection E as <- <-. exact H.
  - destruct (step s o) as [[s1 y1]| |] eqn:E1; cbn in E; try discriminate.
    destruct (run s1 os) as [[s2 y2]| |] eqn:E2; cbn in E; try discriminate. injection E as <- <-.
    eapply IH; [|eassumption]. eapply step_holds; eassumption.
Qed.

Theorem latest : forall os s y ss, run (start V origin l) os = Ok (s, y) -> schedules_ok V rbfs (size (last_target V origin os)) ss ->
  evaluate ss s = if (length (last_weights V os) <? size (last_source V origin os))%nat then UB
                  else Ok (values (last_source V origin os) (last_target V origin os) (last_weights V os)).
Proof. intros os s y ss E OK. apply evaluate_holds; [|exact OK]. exact (run_holds os _ _ _ _ _ _ start_holds E). Qed.

Lemma answers_run : forall os s a t ws, holds s a t ws -> (size a <= length ws)%nat -> Forall (keeps V) os -> scheduled V dim rbfs t os ->
  exists s', run s os = Ok (s', answers V dif dim rbfs l basis a t ws os).
Proof.
  induction os as [|o os IH]; intros s a t ws H L K S; [eexists; reflexivity|]. inversion K as [|? ? Ko Kos]; subst.
  destruct o as [n|n|v|ss|ss n]; cbn [keeps] in Ko; try contradiction; cbn [scheduled] in S; cbn [DirectLifecycle.run answers DirectLifecycle.step].
  - destruct (IH _ a n ws (target_holds s a t ws n H) L Kos S) as (s' & E). exists s'. cbn [bind fst snd]. rewrite E. reflexivity.
  - destruct S as [S1 S2]. rewrite (evaluate_holds s a t ws ss H S1). destruct (Nat.ltb_spec (length ws) (size a)) as [X|_]; [lia|].
    destruct (IH s a t ws H L Kos S2) as (s' & E). exists s'. cbn [bind fst snd]. rewrite E. reflexivity.
  - destruct S as [S1 S2]. rewrite (evaluate_holds _ a n ws ss (target_holds s a t ws n H) S1).
    destruct (Nat.ltb_spec (length ws) (size a)) as [X|_]; [lia|].
    destruct (IH _ a n ws (target_holds s a t ws n H) L Kos S2) as (s' & E). exists s'. cbn [bind fst snd]. rewrite E. reflexivity.
Qed.
Theorem reused : forall os s y ws ps, run (start V origin l) os = Ok (s, y) -> length ws = (size (last_source V origin os) + l)%nat ->
  Forall (keeps V) ps -> scheduled V dim rbfs (last_target V origin os) ps ->
  exists s', run s (SetWeights V ws :: ps) = Ok (s', answers V dif dim rbfs l basis (last_source V origin os) (last_target V origin os) ws ps).
Proof.
  intros os s y ws ps E L K S. pose proof (run_holds os _ _ _ _ _ _ start_holds E) as H.
  assert (A : src V s = last_source V origin os) by apply H.
  assert (T : step s (SetWeights V ws) = Ok (State V (src V s) (trg V s) ws (ptrg V s) (if (0 <? l)%nat then skipn (length ws - l) ws else pweights V s), [])).
  { cbn [DirectLifecycle.step]. unfold set_weights. rewrite A, L, Nat.eqb_refl. reflexivity. }
  pose proof (step_holds s _ _ _ _ _ _ H T) as H'. cbv beta iota in H'.
  assert (L' : (size (last_source V origin os) <= length ws)%nat) by (rewrite L; apply Nat.le_add_r).
  destruct (answers_run ps _ _ _ _ H' L' K S) as (s' & R). exists s'.
  cbn [DirectLifecycle.run]. rewrite T. cbn [bind fst snd]. unfold last_source, last_target in *. rewrite R. reflexivity.
Qed.
Theorem mismatch : forall os s y ws, run (start V origin l) os = Ok (s, y) ->
  (set_weights V dim l s ws = UB <-> length ws <> (size (last_source V origin os) + l)%nat).
Proof.
  intros os s y ws E. pose proof (run_holds os _ _ _ _ _ _ start_holds E) as (A & _). unfold set_weights. rewrite A.
  change (fold_left _ os _) with (last_source V origin os) in *.
  destruct (Nat.eqb_spec (length ws) (size (last_source V origin os) + l)); split; intros; try discriminate; try contradiction; auto.
Qed.
End Proofs.
