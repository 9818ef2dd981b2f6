From Coq Require Import List Arith ZArith Bool Reals Permutation Lia.
From Verif Require Import Model.Outcome Model.IncrementalFitter Model.InequalityFitter.
From Verif Require Import Spec.DistanceFilter Spec.IncrementalFitter Spec.InequalityFitter.
From Verif Require Import Proofs.IncrementalFitter.
From Verif Require Model.DistanceFilter Proofs.DistanceFilter.
Import ListNotations.

Section Lists.
Context {D : Type}.

Lemma memb_In : forall i l, memb i l = true <-> In i l.
Proof. exact Proofs.DistanceFilter.memb_In. Qed.
Lemma memb_false : forall i l, memb i l = false <-> ~ In i l.
Proof. exact Proofs.DistanceFilter.memb_false. Qed.

Lemma set_at_ok : forall (w w' : list D) i x, set_at w i x = Ok w' ->
  length w' = length w /\ i < length w /\ nth_error w' i = Some x /\
  forall j, j <> i -> nth_error w' j = nth_error w j.
Proof.
  intros w w' i x H. unfold set_at in H. destruct (Nat.ltb_spec i (length w)) as [L|]; [|discriminate].
  injection H as <-.
  assert (length (firstn i w) = i) as F by (apply firstn_length_le; lia).
  split; [|split; [auto|split]].
  - rewrite app_length, F. change (i + S (length (skipn (S i) w)) = length w). rewrite skipn_length. lia.
  - rewrite nth_error_app2 by lia. rewrite F, Nat.sub_diag. reflexivity.
  - intros j N. destruct (Nat.lt_ge_cases j i) as [B|B].
    + rewrite nth_error_app1 by lia. apply nth_error_firstn'. auto.
    + rewrite nth_error_app2 by lia. rewrite F. destruct (j - i) as [|m] eqn:M; [lia|].
      change (nth_error (skipn (S i) w) m = nth_error w j). rewrite nth_error_skipn'. f_equal. lia.
Qed.

Lemma set_at_defined : forall (w : list D) i x, i < length w -> exists w', set_at w i x = Ok w'.
Proof. intros w i x L. unfold set_at. rewrite (proj2 (Nat.ltb_lt _ _) L). eauto. Qed.

Lemma at_ok : forall {A} (v : list A) i x, at_ v i = Ok x <-> nth_error v i = Some x.
Proof.
  intros A v i x. unfold at_, of_option. destruct (nth_error v i); split; intros H; congruence.
Qed.

Lemma at_defined : forall {A} (v : list A) i, i < length v -> exists x, at_ v i = Ok x.
Proof.
  intros A v i L. unfold at_. destruct (nth_error v i) eqn:N; [cbn; eauto|]. apply nth_error_None in N. lia.
Qed.

Lemma scatter_ok : forall cs (w cw : list D) pos w', scatter w cs cw pos = Ok w' -> NoDup cs ->
  length w' = length w /\
  (forall k i, nth_error cs k = Some i -> nth_error w' i = nth_error cw (pos + k) /\ nth_error w' i <> None) /\
  (forall i, ~ In i cs -> nth_error w' i = nth_error w i).
Proof.
  induction cs as [|c cs IH]; intros w cw pos w' H ND; cbn [scatter] in H.
  - injection H as <-. split; auto. split; auto. intros [|k]; discriminate.
  - destruct (at_ cw pos) as [x| |] eqn:A; cbn in H; try discriminate. apply at_ok in A.
    destruct (set_at w c x) as [w1| |] eqn:S1; cbn in H; try discriminate.
    apply set_at_ok in S1. destruct S1 as (L1 & B1 & X1 & O1).
    inversion ND as [|? ? NI ND']; subst.
    destruct (IH _ _ _ _ H ND') as (L & K & O). split; [congruence|]. split.
    + intros [|k] i N; cbn in N.
      * injection N as <-. rewrite O, X1, Nat.add_0_r by auto. rewrite A. split; congruence.
      * rewrite Nat.add_succ_r. apply (K k i N).
    + intros i N. rewrite O by (intros I; apply N; right; auto). apply O1. intros ->. apply N. left; auto.
Qed.

Lemma scatter_defined : forall cs (w cw : list D) pos, (forall i, In i cs -> i < length w) ->
  pos + length cs <= length cw -> exists w', scatter w cs cw pos = Ok w'.
Proof.
  induction cs as [|c cs IH]; intros w cw pos B L; cbn [scatter]; [eauto|]. cbn [length] in L.
  destruct (at_defined cw pos) as (x & ->); [lia|]. cbn [bind].
  destruct (set_at_defined w c x) as (w1 & S1); [apply B; left; auto|]. rewrite S1. cbn [bind].
  apply set_at_ok in S1. apply IH; [|lia]. intros i I. rewrite (proj1 S1). apply B. right; auto.
Qed.

Lemma gather_weights_defined : forall cs (w : list D), (forall i, In i cs -> i < length w) ->
  exists x, gather_weights w cs = Ok x.
Proof.
  induction cs as [|c cs IH]; intros w B; cbn [gather_weights]; [eauto|].
  destruct (at_defined w c) as (x & ->); [apply B; left; auto|].
  destruct (IH w) as (xs & ->); [intros; apply B; right; auto|]. cbn. eauto.
Qed.

Lemma has_spec : forall (v : list (option D)) i, has v i = true <-> exists x, nth_error v i = Some (Some x).
Proof.
  intros v i. unfold has. destruct (nth_error v i) as [[x|]|]; split; intros H; try discriminate; eauto;
    destruct H as (y & Y); discriminate.
Qed.

Lemma has_lt : forall (v : list (option D)) i, has v i = true -> i < length v.
Proof. intros v i H. apply has_spec in H. destruct H as (x & X). apply nth_error_Some. congruence. Qed.

Lemma NoDup_filter' : forall (f : nat -> bool) l, NoDup l -> NoDup (filter f l).
Proof.
  induction 1; cbn; [constructor|]. destruct (f x); auto. constructor; auto.
  rewrite filter_In. tauto.
Qed.

Lemma erase_In : forall i j l, In j (erase i l) <-> In j l /\ j <> i.
Proof.
  intros i j l. unfold erase. rewrite filter_In. destruct (Nat.eqb_spec j i); cbn; intuition congruence.
Qed.

End Lists.

Section Update.
Context {Pt D : Type}.
Variable E : ienv Pt D.

(** ** One row of the active-set loop *)

Definition lb_flag (a : active D) (f : D) (i : nat) : Prop :=
  violates_lb E (alb a) f i \/ stale_lb E (alb a) (aw a) i.
Definition ub_flag (a : active D) (f : D) (i : nat) : Prop :=
  violates_ub E (aub a) f i \/ stale_ub E (aub a) (aw a) i.

Definition frame (i : nat) (a a' : active D) : Prop :=
  length (aw a') = length (aw a) /\
  forall j, j <> i -> (In j (alb a') <-> In j (alb a)) /\ (In j (aub a') <-> In j (aub a)) /\
                      nth_error (aw a') j = nth_error (aw a) j.

Lemma update_lb_spec : forall kept f i b a a', nth_error (values_lb E) i = Some b ->
  update_lb E kept f i b a = Ok a' ->
  frame i a a' /\ aub a' = aub a /\
  (In i (alb a') <-> (In i (alb a) /\ ~ stale_lb E (alb a) (aw a) i) \/
                     (violates_lb E (alb a) f i /\ In i kept)) /\
  (~ In i kept -> aw a' = aw a) /\
  (nth_error (aw a') i = nth_error (aw a) i \/ nth_error (aw a') i = Some (izero E)) /\
  (violates_lb E (alb a) f i -> In i kept -> nth_error (aw a') i = Some (izero E)) /\
  (changed a' = true <-> changed a = true \/ lb_flag a f i).
Proof.
  intros kept f i b a a' B H. unfold update_lb in H. unfold lb_flag, violates_lb, stale_lb.
  assert (forall x, In x (alb a) <-> memb x (alb a) = true) as MI by (intros; symmetry; apply memb_In).
  destruct b as [lb|].
  2:{ injection H as <-. split; [split; auto; intros; tauto|]. split; auto. split; [|split; [auto|split; [auto|split; [intros (_ & ? & Q & _); congruence|]]]].
      - split; [intros I; left; split; auto; intros (_ & ? & ? & Q & _); congruence|].
        intros [[I _]|[(_ & ? & Q & _) _]]; [auto|congruence].
      - split; [auto|]. intros [C|[(_ & ? & Q & _)|(_ & ? & ? & Q & _)]]; [auto|congruence|congruence]. }
  destruct (memb i (alb a)) eqn:M.
  - apply memb_In in M. destruct (at_ (aw a) i) as [w| |] eqn:W; cbn in H; try discriminate. apply at_ok in W.
    destruct (nonpositive E w) eqn:P; injection H as <-; cbn [alb aub aw changed].
    + split; [|split; [auto|split; [|split; [auto|split; [auto|split; [intros [? _]; tauto|]]]]]].
      * split; auto. cbn. intros j N. rewrite erase_In. tauto.
      * rewrite erase_In. split; [tauto|]. intros [[_ S1]|[[S1 _] _]]; [|tauto].
        exfalso. apply S1. split; auto. eauto.
      * split; auto. intros _. right. right. split; eauto.
    + split; [split; auto; intros; tauto|]. split; [auto|split; [|split; [auto|split; [auto|split; [intros [? _]; tauto|]]]]].
      * split; auto. intros _. left. split; auto. intros (_ & ? & ? & _ & Q & R). congruence.
      * split; auto. intros [C|[[S1 _]|(_ & ? & ? & _ & Q & R)]]; [auto|tauto|congruence].
  - apply memb_false in M. destruct (below E f lb) eqn:BL.
    + destruct (memb i kept) eqn:K.
      * apply memb_In in K. destruct (set_at (aw a) i (izero E)) as [w| |] eqn:W; cbn in H; try discriminate.
        injection H as <-. cbn [alb aub aw changed]. apply set_at_ok in W. destruct W as (L & _ & X & O).
        split; [|split; [auto|split; [|split; [tauto|split; [auto|split; [auto|]]]]]].
        -- split; auto. cbn. intros j N. rewrite (O j N). split; [|tauto]. intuition congruence.
        -- split; [|left; auto]. intros _. right. split; auto. split; eauto.
        -- split; auto. intros _. right. left. split; eauto.
      * apply memb_false in K. injection H as <-. cbn [alb aub aw changed].
        split; [split; cbn; auto; intros; tauto|]. split; [auto|split; [|split; [auto|split; [auto|split; [tauto|]]]]].
        -- tauto.
        -- split; auto. intros _. right. left. split; eauto.
    + injection H as <-. split; [split; auto; intros; tauto|].
      split; [auto|split; [|split; [auto|split; [auto|split; [intros (_ & ? & Q & R); congruence|]]]]].
      * split; [tauto|]. intros [[S1 _]|[(_ & ? & Q & R) _]]; [tauto|congruence].
      * split; auto. intros [C|[(_ & ? & Q & R)|[S1 _]]]; [auto|congruence|tauto].
Qed.

Lemma update_ub_spec : forall kept f i b a a', nth_error (values_ub E) i = Some b ->
  update_ub E kept f i b a = Ok a' ->
  frame i a a' /\ alb a' = alb a /\
  (In i (aub a') <-> (In i (aub a) /\ ~ stale_ub E (aub a) (aw a) i) \/
                     (violates_ub E (aub a) f i /\ In i kept)) /\
  (~ In i kept -> aw a' = aw a) /\
  (nth_error (aw a') i = nth_error (aw a) i \/ nth_error (aw a') i = Some (izero E)) /\
  (violates_ub E (aub a) f i -> In i kept -> nth_error (aw a') i = Some (izero E)) /\
  (changed a' = true <-> changed a = true \/ ub_flag a f i).
Proof.
  intros kept f i b a a' B H. unfold update_ub in H. unfold ub_flag, violates_ub, stale_ub.
  destruct b as [lb|].
  2:{ injection H as <-. split; [split; auto; intros; tauto|]. split; auto. split; [|split; [auto|split; [auto|split; [intros (_ & ? & Q & _); congruence|]]]].
      - split; [intros I; left; split; auto; intros (_ & ? & ? & Q & _); congruence|].
        intros [[I _]|[(_ & ? & Q & _) _]]; [auto|congruence].
      - split; [auto|]. intros [C|[(_ & ? & Q & _)|(_ & ? & ? & Q & _)]]; [auto|congruence|congruence]. }
  destruct (memb i (aub a)) eqn:M.
  - apply memb_In in M. destruct (at_ (aw a) i) as [w| |] eqn:W; cbn in H; try discriminate. apply at_ok in W.
    destruct (nonnegative E w) eqn:P; injection H as <-; cbn [alb aub aw changed].
    + split; [|split; [auto|split; [|split; [auto|split; [auto|split; [intros [? _]; tauto|]]]]]].
      * split; auto. cbn. intros j N. rewrite erase_In. tauto.
      * rewrite erase_In. split; [tauto|]. intros [[_ S1]|[[S1 _] _]]; [|tauto].
        exfalso. apply S1. split; auto. eauto.
      * split; auto. intros _. right. right. split; eauto.
    + split; [split; auto; intros; tauto|]. split; [auto|split; [|split; [auto|split; [auto|split; [intros [? _]; tauto|]]]]].
      * split; auto. intros _. left. split; auto. intros (_ & ? & ? & _ & Q & R). congruence.
      * split; auto. intros [C|[[S1 _]|(_ & ? & ? & _ & Q & R)]]; [auto|tauto|congruence].
  - apply memb_false in M. destruct (above E f lb) eqn:BL.
    + destruct (memb i kept) eqn:K.
      * apply memb_In in K. destruct (set_at (aw a) i (izero E)) as [w| |] eqn:W; cbn in H; try discriminate.
        injection H as <-. cbn [alb aub aw changed]. apply set_at_ok in W. destruct W as (L & _ & X & O).
        split; [|split; [auto|split; [|split; [tauto|split; [auto|split; [auto|]]]]]].
        -- split; auto. cbn. intros j N. rewrite (O j N). split; [tauto|]. intuition congruence.
        -- split; [|left; auto]. intros _. right. split; auto. split; eauto.
        -- split; auto. intros _. right. left. split; eauto.
      * apply memb_false in K. injection H as <-. cbn [alb aub aw changed].
        split; [split; cbn; auto; intros; tauto|]. split; [auto|split; [|split; [auto|split; [auto|split; [tauto|]]]]].
        -- tauto.
        -- split; auto. intros _. right. left. split; eauto.
    + injection H as <-. split; [split; auto; intros; tauto|].
      split; [auto|split; [|split; [auto|split; [auto|split; [intros (_ & ? & Q & R); congruence|]]]]].
      * split; [tauto|]. intros [[S1 _]|[(_ & ? & Q & R) _]]; [tauto|congruence].
      * split; auto. intros [C|[(_ & ? & Q & R)|[S1 _]]]; [auto|congruence|tauto].
Qed.

(** What the loop does to one row, in terms of the state before the loop. *)
Definition row_updated (kept : list nat) (f : D) (i : nat) (a a' : active D) : Prop :=
  (In i (alb a') <-> (In i (alb a) /\ ~ stale_lb E (alb a) (aw a) i) \/
                     (violates_lb E (alb a) f i /\ In i kept)) /\
  (In i (aub a') <-> (In i (aub a) /\ ~ stale_ub E (aub a) (aw a) i) \/
                     (violates_ub E (aub a) f i /\ In i kept)) /\
  (nth_error (aw a') i = nth_error (aw a) i \/ nth_error (aw a') i = Some (izero E)) /\
  (~ In i kept -> nth_error (aw a') i = nth_error (aw a) i) /\
  (violates_lb E (alb a) f i \/ violates_ub E (aub a) f i -> In i kept ->
   nth_error (aw a') i = Some (izero E)).

Lemma stale_ub_frame : forall act act' w w' i, (In i act' <-> In i act) ->
  nth_error w' i = nth_error w i -> stale_ub E act' w' i <-> stale_ub E act w i.
Proof. intros act act' w w' i H1 H2. unfold stale_ub. rewrite H1, H2. tauto. Qed.
Lemma stale_lb_frame : forall act act' w w' i, (In i act' <-> In i act) ->
  nth_error w' i = nth_error w i -> stale_lb E act' w' i <-> stale_lb E act w i.
Proof. intros act act' w w' i H1 H2. unfold stale_lb. rewrite H1, H2. tauto. Qed.
Lemma violates_ub_frame : forall act act' f i, (In i act' <-> In i act) ->
  violates_ub E act' f i <-> violates_ub E act f i.
Proof. intros act act' f i H1. unfold violates_ub. rewrite H1. tauto. Qed.
Lemma violates_lb_frame : forall act act' f i, (In i act' <-> In i act) ->
  violates_lb E act' f i <-> violates_lb E act f i.
Proof. intros act act' f i H1. unfold violates_lb. rewrite H1. tauto. Qed.

Lemma row_spec : forall kept f i lb ub a a1 a', nth_error (values_lb E) i = Some lb ->
  nth_error (values_ub E) i = Some ub ->
  (In i kept -> ~ In i (alb a) /\ ~ In i (aub a)) ->
  update_lb E kept f i lb a = Ok a1 -> update_ub E kept f i ub a1 = Ok a' ->
  frame i a a' /\ row_updated kept f i a a' /\
  (changed a' = true <-> changed a = true \/ lb_flag a f i \/ ub_flag a f i).
Proof.
  intros kept f i lb ub a a1 a' L U K H1 H2.
  destruct (update_lb_spec _ _ _ _ _ _ L H1) as ([F1 F1'] & AU & IL & W1 & Z1 & V1 & C1).
  destruct (update_ub_spec _ _ _ _ _ _ U H2) as ([F2 F2'] & AL & IU & W2 & Z2 & V2 & C2).
  assert (stale_ub E (aub a1) (aw a1) i <-> stale_ub E (aub a) (aw a) i) as SU.
  { rewrite AU. destruct (in_dec Nat.eq_dec i kept) as [I|I].
    - apply K in I. unfold stale_ub. tauto.
    - rewrite (W1 I). tauto. }
  split; [|split].
  - split; [congruence|]. intros j N. destruct (F1' j N) as (A1 & A2 & A3).
    destruct (F2' j N) as (B1 & B2 & B3). rewrite B1, B2, B3. auto.
  - split; [rewrite AL; exact IL|]. split; [rewrite IU, SU, AU; tauto|]. split.
    + destruct Z2 as [->|]; auto.
    + split; [intros N; rewrite (W2 N), (W1 N); auto|].
      intros [V|V] N.
      * destruct Z2 as [->|]; auto.
      * apply V2; auto. rewrite AU. auto.
  - rewrite C2, C1. unfold ub_flag. rewrite SU, AU. tauto.
Qed.

Lemma update_active_spec : forall kept fit is pos a a', NoDup is ->
  (forall i, In i is -> In i kept -> ~ In i (alb a) /\ ~ In i (aub a)) ->
  update_active E kept fit pos is a = Ok a' ->
  length (aw a') = length (aw a) /\
  (forall j, ~ In j is -> (In j (alb a') <-> In j (alb a)) /\ (In j (aub a') <-> In j (aub a)) /\
                          nth_error (aw a') j = nth_error (aw a) j) /\
  (forall k i, nth_error is k = Some i ->
     exists f, nth_error fit (pos + k) = Some f /\ row_updated kept f i a a') /\
  (changed a' = true <-> changed a = true \/
     exists k i f, nth_error is k = Some i /\ nth_error fit (pos + k) = Some f /\
                   (lb_flag a f i \/ ub_flag a f i)).
Proof.
  intros kept fit. induction is as [|i is IH]; intros pos a a' ND K H; cbn [update_active] in H.
  - injection H as <-. split; auto. split; [intros; tauto|]. split; [intros [|k]; discriminate|].
    split; auto. intros [C|([|k] & ? & ? & Q & _)]; auto; discriminate.
  - inversion ND as [|? ? NI ND']; subst.
    destruct (at_ fit pos) as [f| |] eqn:F; cbn in H; try discriminate. apply at_ok in F.
    destruct (at_ (values_lb E) i) as [lb| |] eqn:L; cbn in H; try discriminate. apply at_ok in L.
    destruct (update_lb E kept f i lb a) as [a1| |] eqn:U1; cbn in H; try discriminate.
    destruct (at_ (values_ub E) i) as [ub| |] eqn:U; cbn in H; try discriminate. apply at_ok in U.
    destruct (update_ub E kept f i ub a1) as [a2| |] eqn:U2; cbn in H; try discriminate.
    destruct (row_spec kept f i lb ub a a1 a2 L U) as ([FL FO] & RU & CH); auto.
    { intros I. apply K; auto. left; auto. }
    assert (forall j, In j is -> j <> i) as NE by (intros j J ->; auto).
    destruct (IH (S pos) a2 a' ND') as (IL & IO & IR & IC); auto.
    { intros j J JK. destruct (FO j (NE j J)) as (A1 & A2 & _). rewrite A1, A2. apply K; auto. right; auto. }
    split; [congruence|]. split; [|split].
    + intros j N. destruct (IO j) as (A1 & A2 & A3); [intros I; apply N; right; auto|].
      destruct (FO j) as (B1 & B2 & B3); [intros ->; apply N; left; auto|]. rewrite A1, A2, A3. auto.
    + intros [|k] j J; cbn in J.
      * injection J as <-. exists f. rewrite Nat.add_0_r. split; auto.
        destruct (IO i NI) as (A1 & A2 & A3). unfold row_updated in *. rewrite A1, A2, A3. auto.
      * destruct (IR k j J) as (g & G & R). exists g. rewrite Nat.add_succ_r. split; auto.
        assert (In j is) as JI by (eapply nth_error_In; eauto).
        destruct (FO j (NE j JI)) as (A1 & A2 & A3). unfold row_updated in *.
        rewrite (stale_lb_frame _ _ _ _ _ A1 A3), (stale_ub_frame _ _ _ _ _ A2 A3) in R.
        rewrite (violates_lb_frame _ _ _ _ A1), (violates_ub_frame _ _ _ _ A2), A3, A1, A2 in R. exact R.
    + assert (forall j g, In j is -> (lb_flag a2 g j \/ ub_flag a2 g j) <-> (lb_flag a g j \/ ub_flag a g j)) as FF.
      { intros j g J. destruct (FO j (NE j J)) as (A1 & A2 & A3). unfold lb_flag, ub_flag.
        rewrite (stale_lb_frame _ _ _ _ _ A1 A3), (stale_ub_frame _ _ _ _ _ A2 A3),
                (violates_lb_frame _ _ _ _ A1), (violates_ub_frame _ _ _ _ A2). tauto. }
      rewrite IC, CH. split.
      * intros [[C|C]|(k & j & g & J & G & R)]; [auto| |].
        -- right. exists 0, i, f. rewrite Nat.add_0_r. auto.
        -- right. exists (S k), j, g. rewrite Nat.add_succ_r. split; auto. split; auto.
           apply FF; auto. eapply nth_error_In; eauto.
      * intros [C|([|k] & j & g & J & G & R)]; [auto| |]; cbn in J.
        -- injection J as <-. rewrite Nat.add_0_r in G. left. right. congruence.
        -- right. exists k, j, g. rewrite Nat.add_succ_r in G. split; auto. split; auto.
           apply FF; auto. eapply nth_error_In; eauto.
Qed.

Lemma update_lb_defined : forall kept f i b a, i < length (aw a) ->
  exists a', update_lb E kept f i b a = Ok a' /\ length (aw a') = length (aw a).
Proof.
  intros kept f i b a L. unfold update_lb. destruct b as [b|]; [|eauto].
  destruct (memb i (alb a)).
  - destruct (at_defined (aw a) i L) as (w & ->). cbn. destruct (nonpositive E w); eauto.
  - destruct (below E f b); [|eauto]. destruct (memb i kept); [|eauto].
    destruct (set_at_defined (aw a) i (izero E) L) as (w & W). rewrite W. cbn.
    apply set_at_ok in W. eexists. split; [reflexivity|]. cbn. tauto.
Qed.
Lemma update_ub_defined : forall kept f i b a, i < length (aw a) ->
  exists a', update_ub E kept f i b a = Ok a' /\ length (aw a') = length (aw a).
Proof.
  intros kept f i b a L. unfold update_ub. destruct b as [b|]; [|eauto].
  destruct (memb i (aub a)).
  - destruct (at_defined (aw a) i L) as (w & ->). cbn. destruct (nonnegative E w); eauto.
  - destruct (above E f b); [|eauto]. destruct (memb i kept); [|eauto].
    destruct (set_at_defined (aw a) i (izero E) L) as (w & W). rewrite W. cbn.
    apply set_at_ok in W. eexists. split; [reflexivity|]. cbn. tauto.
Qed.
Lemma update_active_defined : forall kept fit is pos a,
  (forall i, In i is -> i < length (aw a) /\ i < length (values_lb E) /\ i < length (values_ub E)) ->
  pos + length is <= length fit -> exists a', update_active E kept fit pos is a = Ok a'.
Proof.
  intros kept fit. induction is as [|i is IH]; intros pos a B L; cbn [update_active]; [eauto|].
  cbn [length] in L. destruct (B i (or_introl eq_refl)) as (B1 & B2 & B3).
  destruct (at_defined fit pos) as (f & ->); [lia|]. cbn [bind].
  destruct (at_defined (values_lb E) i B2) as (lb & ->). cbn [bind].
  destruct (update_lb_defined kept f i lb a B1) as (a1 & -> & L1). cbn [bind].
  destruct (at_defined (values_ub E) i B3) as (ub & ->). cbn [bind].
  destruct (update_ub_defined kept f i ub a1) as (a2 & -> & L2); [lia|]. cbn [bind].
  apply IH; [|lia]. intros j J. rewrite L2, L1. apply B. right; auto.
Qed.

End Update.

Section Step.
Context {Pt D : Type}.
Variable E : ienv Pt D.
Hypothesis OK : ienv_ok E.

Lemma eq_In : forall i, In i (eq_idcs E) <-> has (values E) i = true.
Proof.
  intros i. unfold eq_idcs, arg_where. rewrite filter_In, in_seq. split; [tauto|].
  intros H. pose proof (has_lt _ _ H). split; [lia|auto].
Qed.
Lemma eq_lt : forall i, In i (eq_idcs E) -> i < n_points E.
Proof. intros i H. apply eq_In, has_lt in H. rewrite (iok_values E OK) in H. auto. Qed.
Lemma eq_NoDup : NoDup (eq_idcs E).
Proof. apply NoDup_filter', seq_NoDup. Qed.
Lemma ineq_In : forall i, In i (ineq_idcs E) <->
  has (values_lb E) i = true \/ has (values_ub E) i = true.
Proof.
  intros i. unfold ineq_idcs. rewrite filter_In, in_seq, orb_true_iff. split; [tauto|].
  intros H. split; [|auto]. destruct H as [H|H]; apply has_lt in H.
  - rewrite (iok_lb E OK) in H. lia.
  - rewrite (iok_ub E OK) in H. lia.
Qed.
Lemma ineq_lt : forall i, In i (ineq_idcs E) -> i < n_points E.
Proof. intros i H. apply filter_In in H. destruct H as [H _]. apply in_seq in H. lia. Qed.
Lemma ineq_NoDup : NoDup (ineq_idcs E).
Proof. apply NoDup_filter', seq_NoDup. Qed.

(** What holds between rounds. *)
Definition iinv (s : istate D) : Prop :=
  length (iweights s) = n_points E + n_poly E /\
  (forall i, In i (active_lb s) -> has (values_lb E) i = true /\ has (values E) i = false) /\
  (forall i, In i (active_ub s) -> has (values_ub E) i = true /\ has (values E) i = false) /\
  (kMinDistance <= idistance s)%R.

Lemma iinv_init : iinv (iinit E).
Proof.
  split; [apply (iok_weights E OK)|]. split; [intros i []|]. split; [intros i []|]. apply Rmax_r.
Qed.

Lemma centers_In : forall s, iinv s -> forall i,
  In i (centers_of E s) <-> In i (eq_idcs E) \/ In i (active_lb s) \/ In i (active_ub s).
Proof.
  intros s (_ & L & U & _) i. unfold centers_of. rewrite in_app_iff, filter_In, in_seq, orb_true_iff, !memb_In.
  split; [tauto|]. intros [H|H]; [auto|]. right. split; [|auto].
  destruct H as [H|H]; [apply L in H|apply U in H]; destruct H as [H _]; apply has_lt in H.
  - rewrite (iok_lb E OK) in H. lia.
  - rewrite (iok_ub E OK) in H. lia.
Qed.

Lemma centers_distinct : forall s, iinv s -> distinct_rows (centers_of E s) (n_points E).
Proof.
  intros s I. split.
  - unfold centers_of. apply NoDup_app_disjoint; [apply eq_NoDup|apply NoDup_filter', seq_NoDup|].
    intros i A B. apply eq_In in A. apply filter_In in B. destruct B as [_ B].
    rewrite orb_true_iff, !memb_In in B. destruct I as (_ & L & U & _).
    destruct B as [B|B]; [apply L in B|apply U in B]; destruct B; congruence.
  - intros i H. unfold centers_of in H. apply in_app_iff in H. destruct H as [H|H].
    + apply eq_lt; auto.
    + apply filter_In in H. destruct H as [H _]. apply in_seq in H. lia.
Qed.

(** ** Values of the centers *)

Lemma center_values_ok : forall s cs pos cv, center_values_from E s pos cs = Ok cv ->
  length cv = length cs /\
  forall k i, nth_error cs k = Some i -> exists v, nth_error cv k = Some v /\ center_value E s (pos + k) i = Ok v.
Proof.
  intros s. induction cs as [|c cs IH]; intros pos cv H; cbn [center_values_from] in H.
  - injection H as <-. split; auto. intros [|k]; discriminate.
  - destruct (center_value E s pos c) as [v| |] eqn:V; cbn in H; try discriminate.
    destruct (center_values_from E s (S pos) cs) as [vs| |] eqn:R; cbn in H; try discriminate.
    injection H as <-. destruct (IH _ _ R) as [L N]. split; [cbn; auto|].
    intros [|k] i K; cbn in K.
    + injection K as <-. exists v. rewrite Nat.add_0_r. auto.
    + destruct (N k i K) as (x & X & Y). exists x. rewrite Nat.add_succ_r. auto.
Qed.

Lemma center_value_target : forall s, iinv s -> forall k i, nth_error (centers_of E s) k = Some i ->
  exists v, center_value E s k i = Ok v /\ target E (active_lb s) (active_ub s) i v.
Proof.
  intros s I k i H. unfold center_value, target.
  destruct (Nat.ltb_spec k (length (eq_idcs E))) as [K|K].
  - unfold centers_of in H. rewrite nth_error_app1 in H by auto.
    apply nth_error_In, eq_In, has_spec in H. destruct H as (v & V). unfold at_. rewrite V. cbn. eauto.
  - unfold centers_of in H. rewrite nth_error_app2 in H by auto. apply nth_error_In, filter_In in H.
    destruct H as [SQ H]. apply in_seq in SQ. rewrite orb_true_iff, !memb_In in H.
    destruct I as (_ & L & U & _).
    assert (has (values E) i = false -> nth_error (values E) i = Some None) as NN.
    { intros Q. unfold has in Q. destruct (nth_error (values E) i) as [[x|]|] eqn:N; try discriminate; auto.
      apply nth_error_None in N. rewrite (iok_values E OK) in N. lia. }
    destruct (memb i (active_lb s)) eqn:M.
    + apply memb_In in M. destruct (L i M) as [B V]. apply has_spec in B. destruct B as (v & B).
      unfold at_. rewrite B. cbn. exists v. split; auto.
    + apply memb_false in M. assert (In i (active_ub s)) as M' by tauto.
      destruct (U i M') as [B V]. apply has_spec in B. destruct B as (v & B).
      unfold at_. rewrite B. cbn. exists v. split; auto. right. right. auto.
Qed.

Lemma center_values_defined' : forall s, iinv s -> exists cv, center_values_from E s 0 (centers_of E s) = Ok cv.
Proof.
  intros s I.
  assert (forall cs pos, (forall k i, nth_error cs k = Some i -> exists v, center_value E s (pos + k) i = Ok v) ->
          exists cv, center_values_from E s pos cs = Ok cv) as G.
  { induction cs as [|c cs IH]; intros pos H; cbn [center_values_from]; [eauto|].
    destruct (H 0 c eq_refl) as (v & V). rewrite Nat.add_0_r in V. rewrite V. cbn [bind].
    destruct (IH (S pos)) as (vs & ->).
    - intros k i K. destruct (H (S k) i K) as (x & X). exists x. rewrite <- X. f_equal. lia.
    - cbn. eauto. }
  apply G. intros k i K. destruct (center_value_target s I k i K) as (v & V & _). eauto.
Qed.

(** ** Fitting *)

Lemma fit_step_spec : forall s w cw fit, iinv s -> fit_step E s (centers_of E s) = Ok (w, cw, fit) ->
  length w = n_points E + n_poly E /\ length fit = length (ineq_idcs E) /\
  (n_poly E <= length (centers_of E s) ->
   (forall i, In i (centers_of E s) -> exists x, nth_error w i = Some x /\ weight_of (centers_of E s) cw i x) /\
   length cw = length (centers_of E s) + n_poly E /\
   fit = ievaluate E (iround s) (centers_of E s) cw (ineq_idcs E) /\
   exists cv w0, isolve E (iround s) (centers_of E s) cv w0 = Ok cw /\
     length cv = length (centers_of E s) /\
     forall k i v, nth_error (centers_of E s) k = Some i -> nth_error cv k = Some v ->
                   target E (active_lb s) (active_ub s) i v).
Proof.
  intros s w cw fit I H. pose proof (centers_distinct s I) as [ND B]. pose proof I as (LW & _).
  unfold fit_step in H. destruct (Nat.leb_spec (n_poly E) (length (centers_of E s))) as [LE|LT].
  - destruct (center_values_from E s 0 (centers_of E s)) as [cv| |] eqn:CV; cbn in H; try discriminate.
    destruct (gather_weights (iweights s) (centers_of E s)) as [cw0| |] eqn:GW; cbn in H; try discriminate.
    destruct (isolve E (iround s) (centers_of E s) cv (cw0 ++ tail_of E (iweights s))) as [x| |] eqn:SV;
      cbn in H; try discriminate.
    destruct (scatter (iweights s) (centers_of E s) x 0) as [w1| |] eqn:SC; cbn in H; try discriminate.
    injection H as <- <- <-.
    pose proof (iok_solve E OK _ _ _ _ _ SV) as LX.
    destruct (scatter_ok _ _ _ _ _ SC ND) as (L1 & K & O).
    assert (length (tail_of E x) = n_poly E) as LT' by (unfold tail_of; rewrite skipn_length; lia).
    split; [|split].
    + unfold set_tail. rewrite app_length, firstn_length_le, LT'; lia.
    + apply (iok_evaluate E OK).
    + intros _. split; [|split; [auto|split; [auto|]]].
      * intros i Hi. pose proof (B i Hi) as Bi. apply In_nth_error in Hi. destruct Hi as (k & Hk).
        destruct (K k i Hk) as [K1 K2]. cbn in K1.
        destruct (nth_error w1 i) as [y|] eqn:Y; [|congruence]. exists y. split.
        -- unfold set_tail. rewrite nth_error_app1.
           ++ rewrite nth_error_firstn'; [auto|lia].
           ++ rewrite firstn_length_le; lia.
        -- exists k. auto.
      * exists cv. eexists. split; [exact SV|]. destruct (center_values_ok _ _ _ _ CV) as [LC N].
        split; auto. intros k i v Hk Hv. destruct (N k i Hk) as (v' & V' & C). cbn in C.
        destruct (center_value_target s I k i Hk) as (v'' & V'' & T). congruence.
  - injection H as <- <- <-. split; auto. split; [apply repeat_length|]. lia.
Qed.

Lemma fit_step_defined : forall s, iinv s ->
  (forall r c v w0, isolve E r c v w0 <> UB) -> fit_step E s (centers_of E s) <> UB.
Proof.
  intros s I NU. pose proof (centers_distinct s I) as [ND B]. pose proof I as (LW & _).
  unfold fit_step. destruct (Nat.leb_spec (n_poly E) (length (centers_of E s))) as [LE|LT]; [|discriminate].
  destruct (center_values_defined' s I) as (cv & ->). cbn [bind].
  assert (forall i, In i (centers_of E s) -> i < length (iweights s)) as BW.
  { intros i Hi. apply B in Hi. lia. }
  destruct (gather_weights_defined _ _ BW) as (cw0 & ->). cbn [bind].
  destruct (isolve E (iround s) (centers_of E s) cv (cw0 ++ tail_of E (iweights s))) as [x| |] eqn:SV; cbn [bind].
  - pose proof (iok_solve E OK _ _ _ _ _ SV) as LX.
    destruct (scatter_defined (centers_of E s) (iweights s) x 0) as (w1 & ->); [auto|lia|]. discriminate.
  - discriminate.
  - exfalso. eapply NU; eauto.
Qed.

(** ** Residuals and filter *)

Lemma iresiduals_rows : forall fit is pos rs, iresiduals E fit pos is = Ok rs -> map fst rs = is.
Proof.
  intros fit. induction is as [|i is IH]; intros pos rs H; cbn [iresiduals] in H.
  - injection H as <-. auto.
  - destruct (residual_at E fit pos i) as [r| |]; cbn in H; try discriminate.
    destruct (iresiduals E fit (S pos) is) as [r'| |] eqn:R; cbn in H; try discriminate.
    injection H as <-. cbn. f_equal. eauto.
Qed.

Lemma iresiduals_defined : forall fit is pos, (forall i, In i is -> i < n_points E) ->
  pos + length is <= length fit -> exists rs, iresiduals E fit pos is = Ok rs.
Proof.
  intros fit. induction is as [|i is IH]; intros pos B L; cbn [iresiduals]; [eauto|]. cbn [length] in L.
  assert (exists r, residual_at E fit pos i = Ok r) as (r & ->).
  { unfold residual_at. pose proof (B i (or_introl eq_refl)) as Bi.
    destruct (at_defined (values_lb E) i) as (lb & ->); [rewrite (iok_lb E OK); auto|]. cbn [bind].
    destruct (at_defined (values_ub E) i) as (ub & ->); [rewrite (iok_ub E OK); auto|]. cbn [bind].
    destruct (at_defined fit pos) as (f & ->); [lia|].
    destruct lb, ub; cbn; eauto. }
  cbn [bind]. destruct (IH (S pos)) as (rs & ->); [intros; apply B; right; auto|lia|]. cbn. eauto.
Qed.

Lemma survivors_In : forall order d kept, survivors E order d = Ok kept ->
  forall i, In i kept -> In i order.
Proof.
  intros order d kept H i I. unfold survivors, DistanceFilter.filter_indices in H.
  destruct (valid_distance d); cbn in H; [|discriminate].
  destruct (DistanceFilter.mark (isearch E) (ipoints E) d order []) as [r| |] eqn:M; cbn in H; try discriminate.
  injection H as <-. apply filter_In in I. tauto.
Qed.

Lemma survivors_defined : forall order d, (kMinDistance <= d)%R ->
  (forall i, In i order -> i < n_points E) -> exists kept, survivors E order d = Ok kept.
Proof.
  intros order d V B. unfold survivors, DistanceFilter.filter_indices. rewrite (valid_ge d V). cbn [negb].
  destruct (Proofs.DistanceFilter.mark_defined (isearch E) (ipoints E) d order [])
    as (r & R).
  - apply Forall_forall. exact B.
  - cbn [DistanceFilter.points DistanceFilter.init]. rewrite R. cbn. eauto.
Qed.

(** ** A round *)

(** Everything one round computes. *)
Lemma istep_inv : forall s p, iinv s -> istep E s = Ok p ->
  exists w cw fit kept a,
    fit_step E s (centers_of E s) = Ok (w, cw, fit) /\
    (forall i, In i kept -> i < n_points E /\ ~ In i (centers_of E s)) /\
    update_active E kept fit 0 (ineq_idcs E) (mk_active (active_lb s) (active_ub s) w false) = Ok a /\
    p = if changed a then INext (mk_istate (S (iround s)) (aw a) (alb a) (aub a)
                                   (Rmax (1 / 2 * idistance s) kMinDistance))
        else IFinished (centers_of E s) cw.
Proof.
  intros s p I H. unfold istep in H.
  destruct (fit_step E s (centers_of E s)) as [[[w cw] fit]| |] eqn:F; cbn in H; try discriminate.
  destruct (complement_spec _ _ (centers_distinct s I)) as (cs & C & O). rewrite C in H. cbn [bind] in H.
  destruct (iresiduals E fit 0 cs) as [res| |] eqn:R; cbn in H; try discriminate.
  destruct (survivors E (map fst (isort E res)) (idistance s)) as [kept| |] eqn:K; cbn in H; try discriminate.
  destruct (update_active E kept fit 0 (ineq_idcs E) _) as [a| |] eqn:U; cbn in H; try discriminate.
  exists w, cw, fit, kept, a. split; auto. split; [|split; [auto|]].
  - intros i Hi. apply (survivors_In _ _ _ K) in Hi.
    apply (Permutation_in _ (Permutation_map fst (iok_sort E OK res))) in Hi.
    rewrite (iresiduals_rows _ _ _ _ R) in Hi. apply (proj2 O) in Hi. auto.
  - destruct (changed a); injection H as <-; auto.
Qed.

Lemma istep_kept_inactive : forall s kept (w : list D), iinv s ->
  (forall i, In i kept -> i < n_points E /\ ~ In i (centers_of E s)) ->
  forall i, In i (ineq_idcs E) -> In i kept ->
  ~ In i (alb (mk_active (active_lb s) (active_ub s) w false)) /\
  ~ In i (aub (mk_active (active_lb s) (active_ub s) w false)).
Proof.
  intros s kept w I K i _ Hi. cbn. apply K in Hi. destruct Hi as [_ Hi].
  rewrite (centers_In s I) in Hi. tauto.
Qed.

Lemma istep_keeps_inv : forall s s', iinv s -> istep E s = Ok (INext s') -> iinv s'.
Proof.
  intros s s' I H. destruct (istep_inv s _ I H) as (w & cw & fit & kept & a & F & K & U & P).
  destruct (fit_step_spec s w cw fit I F) as (LW & LF & _).
  destruct (update_active_spec E kept fit (ineq_idcs E) 0 _ a ineq_NoDup
             (istep_kept_inactive s kept w I K) U) as (LA & FO & FR & CH).
  destruct (changed a); [|discriminate]. injection P as ->. cbn [aw alb aub] in *.
  destruct I as (_ & L & UB' & _).
  split; [cbn; congruence|]. cbn [active_lb active_ub idistance].
  assert (forall i, In i kept -> has (values E) i = false) as KE.
  { intros i Hi. apply K in Hi. destruct Hi as [_ Hi]. unfold centers_of in Hi.
    destruct (has (values E) i) eqn:Q; auto. exfalso. apply Hi. apply in_app_iff. left. apply eq_In. auto. }
  split; [|split; [|apply Rmax_r]].
  - intros i Hi. destruct (in_dec Nat.eq_dec i (ineq_idcs E)) as [Y|Y].
    + apply In_nth_error in Y. destruct Y as (k & Y). destruct (FR k i Y) as (f & _ & R1 & _).
      apply R1 in Hi. destruct Hi as [[Hi _]|[(_ & b & B & _) Hk]]; [auto|].
      split; auto. apply has_spec. eauto.
    + apply FO in Hi; auto.
  - intros i Hi. destruct (in_dec Nat.eq_dec i (ineq_idcs E)) as [Y|Y].
    + apply In_nth_error in Y. destruct Y as (k & Y). destruct (FR k i Y) as (f & _ & _ & R1 & _).
      apply R1 in Hi. destruct Hi as [[Hi _]|[(_ & b & B & _) Hk]]; [auto|].
      split; auto. apply has_spec. eauto.
    + apply FO in Hi; auto.
Qed.

Lemma istep_fitted : forall s c w, iinv s -> istep E s = Ok (IFinished c w) -> n_poly E <= length c ->
  ineq_fitted E c w.
Proof.
  intros s c w' I H LE. destruct (istep_inv s _ I H) as (w & cw & fit & kept & a & F & K & U & P).
  destruct (changed a) eqn:CA; [discriminate|]. injection P as -> ->.
  destruct (fit_step_spec s w cw fit I F) as (LW & LF & SP). destruct (SP LE) as (WO & LC & FE & cv & w0 & SV & LV & TG).
  destruct (update_active_spec E kept fit (ineq_idcs E) 0 _ a ineq_NoDup
             (istep_kept_inactive s kept w I K) U) as (LA & FO & FR & CH).
  rewrite CA in CH. cbn [changed] in CH.
  exists (iround s), (active_lb s), (active_ub s), cv, w0.
  split; [apply centers_distinct; auto|]. split; [apply centers_In; auto|].
  split; [apply I|]. split; [apply I|]. split; auto. split; auto. split; auto. split; auto.
  rewrite <- FE. intros k i Hk. destruct (FR k i Hk) as (f & Hf & _). cbn in Hf. exists f. split; auto.
  assert (~ (lb_flag E (mk_active (active_lb s) (active_ub s) w false) f i \/
             ub_flag E (mk_active (active_lb s) (active_ub s) w false) f i)) as NF.
  { intros Q. assert (false = true); [|discriminate]. apply CH. right. exists k, i, f. auto. }
  unfold lb_flag, ub_flag, violates_lb, violates_ub, stale_lb, stale_ub in NF. cbn [alb aub aw] in NF.
  split; intros b Hb.
  - destruct (in_dec Nat.eq_dec i (active_lb s)) as [Y|Y]; [left|right]; split; auto.
    + destruct (WO i) as (x & X & WX); [apply centers_In; auto|]. exists x. split; auto.
      destruct (nonpositive E x) eqn:Q; auto. exfalso. apply NF. left. right. split; auto. eauto.
    + destruct (below E f b) eqn:Q; auto. exfalso. apply NF. left. left. split; eauto.
  - destruct (in_dec Nat.eq_dec i (active_ub s)) as [Y|Y]; [left|right]; split; auto.
    + destruct (WO i) as (x & X & WX); [apply centers_In; auto|]. exists x. split; auto.
      destruct (nonnegative E x) eqn:Q; auto. exfalso. apply NF. right. right. split; auto. eauto.
    + destruct (above E f b) eqn:Q; auto. exfalso. apply NF. right. left. split; eauto.
Qed.

Lemma irun_inv : forall n s c w, iinv s -> irun E n s = Ok (IFinished c w) ->
  exists s', iinv s' /\ istep E s' = Ok (IFinished c w).
Proof.
  induction n as [|n IH]; intros s c w I H; cbn [irun] in H; [discriminate|].
  destruct (istep E s) as [[c' w'|s']| |] eqn:ST; cbn in H; try discriminate.
  - injection H as <- <-. eauto.
  - apply (IH s'); auto. eapply istep_keeps_inv; eauto.
Qed.

(** ** Undefined behaviour *)

Lemma istep_no_ub : forall s, iinv s -> all_constrained E ->
  (forall r c v w0, isolve E r c v w0 <> UB) -> istep E s <> UB.
Proof.
  intros s I AC NU. unfold istep. pose proof (fit_step_defined s I NU) as FD.
  destruct (fit_step E s (centers_of E s)) as [[[w cw] fit]| |] eqn:F; cbn [bind]; [|discriminate|congruence].
  destruct (fit_step_spec s w cw fit I F) as (LW & LF & _).
  pose proof (centers_distinct s I) as DR.
  destruct (complement_spec _ _ DR) as (cs & -> & O). cbn [bind].
  destruct (iresiduals_defined fit cs 0) as (res & R).
  { intros i Hi. apply (proj2 O) in Hi. tauto. }
  { rewrite LF. cbn. apply NoDup_incl_length; [apply O|]. intros i Hi. apply (proj2 O) in Hi.
    destruct Hi as [B N]. apply ineq_In. destruct (AC i B) as [Q|Q]; auto.
    exfalso. apply N. unfold centers_of. apply in_app_iff. left. apply eq_In. auto. }
  rewrite R. cbn [bind].
  destruct (survivors_defined (map fst (isort E res)) (idistance s)) as (kept & ->).
  { apply I. }
  { intros i Hi. apply (Permutation_in _ (Permutation_map fst (iok_sort E OK res))) in Hi.
    rewrite (iresiduals_rows _ _ _ _ R) in Hi. apply (proj2 O) in Hi. tauto. }
  cbn [bind].
  destruct (update_active_defined E kept fit (ineq_idcs E) 0 (mk_active (active_lb s) (active_ub s) w false))
    as (a & ->).
  { intros i Hi. apply ineq_lt in Hi. cbn [aw]. rewrite LW, (iok_lb E OK), (iok_ub E OK). lia. }
  { rewrite LF. lia. }
  cbn [bind]. destruct (changed a); discriminate.
Qed.

(** ** The theorems *)

Lemma ineq_returned : forall n c w, irun E n (iinit E) = Ok (IFinished c w) ->
  n_poly E <= length c -> ineq_fitted E c w.
Proof.
  intros n c w H L. destruct (irun_inv n _ _ _ iinv_init H) as (s & I & ST). eapply istep_fitted; eauto.
Qed.

Lemma ineq_no_ub : all_constrained E -> (forall r c v w0, isolve E r c v w0 <> UB) ->
  forall n, irun E n (iinit E) <> UB.
Proof.
  intros AC NU n. pose proof iinv_init as I. revert I. generalize (iinit E).
  induction n as [|n IH]; intros s I; cbn [irun]; [discriminate|].
  pose proof (istep_no_ub s I AC NU) as N.
  destruct (istep E s) as [[c w|s']| |] eqn:ST; cbn [bind]; try discriminate; [|congruence].
  apply IH. eapply istep_keeps_inv; eauto.
Qed.

(** The states the loop goes through. *)
Inductive ireach : istate D -> Prop :=
| ireach_init : ireach (iinit E)
| ireach_step : forall s s', ireach s -> istep E s = Ok (INext s') -> ireach s'.

Lemma ireach_inv : forall s, ireach s -> iinv s.
Proof. induction 1; [apply iinv_init|]. eapply istep_keeps_inv; eauto. Qed.

(** Membership changes in a round that does not end the loop. *)
Lemma ineq_active_step : forall s s', ireach s -> istep E s = Ok (INext s') ->
  exists w cw fit, fit_step E s (centers_of E s) = Ok (w, cw, fit) /\
  forall k i f, nth_error (ineq_idcs E) k = Some i -> nth_error fit k = Some f ->
    (In i (active_lb s) -> (In i (active_lb s') <-> ~ stale_lb E (active_lb s) w i)) /\
    (In i (active_ub s) -> (In i (active_ub s') <-> ~ stale_ub E (active_ub s) w i)) /\
    (~ In i (active_lb s) -> In i (active_lb s') ->
       violates_lb E (active_lb s) f i /\ ~ In i (centers_of E s) /\ nth_error (iweights s') i = Some (izero E)) /\
    (~ In i (active_ub s) -> In i (active_ub s') ->
       violates_ub E (active_ub s) f i /\ ~ In i (centers_of E s) /\ nth_error (iweights s') i = Some (izero E)).
Proof.
  intros s s' RE H. pose proof (ireach_inv s RE) as I.
  destruct (istep_inv s _ I H) as (w & cw & fit & kept & a & F & K & U & P).
  exists w, cw, fit. split; auto.
  destruct (update_active_spec E kept fit (ineq_idcs E) 0 _ a ineq_NoDup
             (istep_kept_inactive s kept w I K) U) as (LA & FO & FR & CH).
  destruct (changed a); [|discriminate]. injection P as ->. cbn [alb aub aw active_lb active_ub iweights] in *.
  intros k i f Hk Hf. destruct (FR k i Hk) as (f' & Hf' & RL & RU & _ & _ & RZ). cbn in Hf'.
  assert (f' = f) as -> by congruence. cbn [alb aub aw] in *.
  split; [|split; [|split]].
  - intros A. rewrite RL. unfold violates_lb. tauto.
  - intros A. rewrite RU. unfold violates_ub. tauto.
  - intros A B. apply RL in B. destruct B as [[B _]|[V Hi]]; [tauto|]. split; auto. split; [apply K; auto|auto].
  - intros A B. apply RU in B. destruct B as [[B _]|[V Hi]]; [tauto|]. split; auto. split; [apply K; auto|auto].
Qed.

End Step.
