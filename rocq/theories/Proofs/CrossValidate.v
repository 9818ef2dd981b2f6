From Coq Require Import List Arith ZArith Bool Sorted Lia.
From Verif Require Import Model.Outcome Model.ComplementaryIndices Model.CrossValidate Spec.ComplementaryIndices Spec.CrossValidate.
From Verif Require Proofs.ComplementaryIndices.
Import ListNotations.

Lemma sorted_unique : forall l m, StronglySorted lt l -> StronglySorted lt m -> (forall i, In i l <-> In i m) -> l = m.
Proof.
  induction l as [|a l IH]; intros m L M E.
  - destruct m as [|b m]; auto. exfalso. apply (proj2 (E b)). left. auto.
  - destruct m as [|b m]; [exfalso; apply (proj1 (E a)); left; auto|].
    inversion L as [|? ? L1 L2]; subst. inversion M as [|? ? M1 M2]; subst. rewrite Forall_forall in L2, M2.
    assert (a = b) as <-.
    { destruct (proj1 (E a) (or_introl eq_refl)) as [|A]; auto. destruct (proj2 (E b) (or_introl eq_refl)) as [|B]; auto.
      specialize (L2 b B). specialize (M2 a A). lia. }
    f_equal. apply IH; auto. intros i. split; intros I.
    + destruct (proj1 (E i) (or_intror I)) as [->|]; auto. specialize (L2 i I). lia.
    + destruct (proj2 (E i) (or_intror I)) as [->|]; auto. specialize (M2 i I). lia.
Qed.
Lemma seq_sorted : forall n k, StronglySorted lt (seq k n).
Proof. induction n as [|n IH]; intros k; cbn; constructor; auto. apply Forall_forall. intros i I. apply in_seq in I. lia. Qed.

Section P.
Context {Pt V : Type}.
Variable zero : V.
Variable dp : Pt.
Variable dv : V.
Variable fit_evaluate : list Pt -> list V -> list Pt -> outcome (list V).
Hypothesis FE : one_value_per_point fit_evaluate.
Variable points : list Pt.
Variable values : list V.
Variable set_ids : list Z.
Let n := length points.
Hypothesis IDS : (n <= length set_ids)%nat.
Hypothesis VALS : (n <= length values)%nat.

Lemma at_row_nth : forall {A : Type} (l : list A) d i, (i < length l)%nat -> at_row l i = Ok (nth i l d).
Proof. intros A l d i L. unfold at_row. rewrite (nth_error_nth' l d L). reflexivity. Qed.
Lemma select_spec : forall {A : Type} (l : list A) d rows, (forall i, In i rows -> (i < length l)%nat) -> select l rows = Ok (map (fun k => nth k l d) rows).
Proof.
  intros A l d. induction rows as [|i rows IH]; intros R; cbn; auto. rewrite (at_row_nth l d) by (apply R; left; auto). cbn.
  rewrite IH by (intros; apply R; right; auto). reflexivity.
Qed.
Lemma test_set_spec : forall id rows, (forall i, In i rows -> (i < length set_ids)%nat) ->
  test_set set_ids id rows = Ok (filter (fun j => Z.eqb (nth j set_ids 0%Z) id) rows).
Proof.
  intros id. induction rows as [|i rows IH]; intros R; cbn; auto. rewrite (at_row_nth set_ids 0%Z) by (apply R; left; auto). cbn.
  rewrite IH by (intros; apply R; right; auto). cbn. destruct (nth i set_ids 0 =? id)%Z; reflexivity.
Qed.
Lemma rows_in_lt : forall id i, In i (rows_in n set_ids id) -> (i < n)%nat.
Proof. intros id i I. apply filter_In in I. destruct I as [I _]. apply in_seq in I. lia. Qed.
Lemma rows_out_lt : forall id i, In i (rows_out n set_ids id) -> (i < n)%nat.
Proof. intros id i I. apply filter_In in I. destruct I as [I _]. apply in_seq in I. lia. Qed.
Lemma train_spec : forall id, exists tr, complementary_indices (map Z.of_nat (rows_in n set_ids id)) n = Ok tr /\ map Z.to_nat tr = rows_out n set_ids id.
Proof.
  intros id. destruct (Proofs.ComplementaryIndices.complementary_indices_ok (map Z.of_nat (rows_in n set_ids id)) n) as (r & R & SS & M).
  { split.
    - apply FinFun.Injective_map_NoDup; [intros x y; lia|]. apply NoDup_filter, seq_NoDup.
    - intros i I. apply in_map_iff in I. destruct I as (j & <- & J). apply rows_in_lt in J. lia. }
  exists r. split; auto. assert (forall z, In z r -> (0 <= z)%Z) as POS by (intros z Z0; apply M in Z0; lia). apply sorted_unique.
  - clear - SS POS. induction SS as [|z r SS IH F]; cbn; constructor.
    + apply IH. intros; apply POS; right; auto.
    + apply Forall_forall. intros i I. apply in_map_iff in I. destruct I as (y & <- & Y). rewrite Forall_forall in F. specialize (F y Y).
      assert (0 <= z)%Z by (apply POS; left; auto). lia.
  - apply Proofs.ComplementaryIndices.strongly_sorted_filter, seq_sorted.
  - intros i. unfold rows_out. rewrite filter_In, in_map_iff. split.
    + intros (z & <- & Z0). specialize (POS z Z0). apply M in Z0. destruct Z0 as [B N]. split; [apply in_seq; lia|].
      apply negb_true_iff. destruct (Z.eqb_spec (nth (Z.to_nat z) set_ids 0%Z) id); auto. exfalso. apply N. apply in_map_iff. exists (Z.to_nat z).
      split; [lia|]. apply filter_In. split; [apply in_seq; lia|]. apply Z.eqb_eq. auto.
    + intros [I N]. apply in_seq in I. exists (Z.of_nat i). split; [lia|]. apply M. split; [lia|]. intros X. apply in_map_iff in X.
      destruct X as (j & E & J). apply Nat2Z.inj in E. subst j. apply filter_In in J. destruct J as [_ J]. rewrite J in N. discriminate.
Qed.
(** What one pass asks the interpolant. *)
Definition ask (id : Z) : outcome (list V) :=
  fit_evaluate (map (fun k => nth k points dp) (rows_out n set_ids id)) (map (fun k => nth k values dv) (rows_out n set_ids id))
    (map (fun k => nth k points dp) (rows_in n set_ids id)).
Lemma one_set_ask : forall id p, one_set fit_evaluate points values set_ids id p = let* fitted := ask id in scatter (rows_in n set_ids id) fitted p.
Proof.
  intros id p. unfold one_set. fold n. rewrite test_set_spec by (intros i I; apply in_seq in I; lia). cbn [bind].
  fold (rows_in n set_ids id). destruct (train_spec id) as (tr & -> & TR). cbn [bind]. rewrite TR.
  rewrite (select_spec points dp) by apply rows_out_lt. cbn [bind]. rewrite (select_spec points dp) by apply rows_in_lt. cbn [bind].
  rewrite (select_spec values dv) by (intros i I; apply rows_out_lt in I; lia). reflexivity.
Qed.
Lemma scatter_spec : forall (rows : list nat) (fitted : list V) (p : nat -> V), NoDup rows -> length fitted = length rows ->
  exists p', scatter rows fitted p = Ok p' /\ (forall i, ~ In i rows -> p' i = p i) /\
    (forall j i, nth_error rows j = Some i -> nth_error fitted j = Some (p' i)).
Proof.
  induction rows as [|r rows IH]; intros fitted p ND L; destruct fitted as [|v fitted]; cbn in L; try lia.
  - exists p. split; [reflexivity|]. split; auto. intros [|j] i E; discriminate.
  - inversion ND as [|? ? NI ND']; subst. destruct (IH fitted (set_row p r v) ND' ltac:(lia)) as (p' & E & O & H). exists p'. cbn. split; auto. split.
    + intros i I. rewrite O by tauto. unfold set_row. destruct (Nat.eqb_spec i r); auto. subst. tauto.
    + intros [|j] i E'; cbn in E'.
      * injection E' as <-. cbn. rewrite O by auto. unfold set_row. rewrite Nat.eqb_refl. auto.
      * apply H. auto.
Qed.
Lemma in_rows_in : forall id i, In i (rows_in n set_ids id) <-> (i < n)%nat /\ nth i set_ids 0%Z = id.
Proof. intros id i. unfold rows_in. rewrite filter_In, in_seq, Z.eqb_eq. lia. Qed.

(** The loop: a row keeps its value unless its set is visited; then it has the answer for that set. *)
Definition answered (p : nat -> V) (i : nat) : Prop := exists fitted j, ask (nth i set_ids 0%Z) = Ok fitted /\
  nth_error (rows_in n set_ids (nth i set_ids 0%Z)) j = Some i /\ nth_error fitted j = Some (p i).
Lemma all_sets_spec : forall order p p', all_sets fit_evaluate points values set_ids order p = Ok p' ->
  (forall id, In id order -> exists fitted, ask id = Ok fitted) /\
  (forall i, ~ In (nth i set_ids 0%Z) order -> p' i = p i) /\
  (forall i, (i < n)%nat -> In (nth i set_ids 0%Z) order -> answered p' i).
Proof.
  induction order as [|id order IH]; intros p p' E; cbn in E.
  - injection E as <-. repeat split; auto; intros ? []; contradiction.
  - rewrite one_set_ask in E. destruct (ask id) as [fitted| |] eqn:A; try discriminate. cbn [bind] in E.
    destruct (scatter_spec (rows_in n set_ids id) fitted p) as (q & Q & O & H).
    { apply NoDup_filter, seq_NoDup. } { apply FE in A. rewrite map_length in A. auto. }
    rewrite Q in E. cbn [bind] in E. destruct (IH q p' E) as (I1 & I2 & I3). split; [|split].
    + intros id' [<-|I]; eauto.
    + intros i NI. rewrite I2 by (intros X; apply NI; right; auto). apply O. intros X. apply in_rows_in in X. apply NI. left. symmetry. tauto.
    + intros i L I. destruct (in_dec Z.eq_dec (nth i set_ids 0%Z) order) as [Y|N]; [auto|]. destruct I as [I|I]; [|contradiction].
      assert (In i (rows_in n set_ids id)) as R by (apply in_rows_in; auto). apply In_nth_error in R. destruct R as [j J].
      exists fitted, j. rewrite <- I. repeat split; auto. rewrite I2 by auto. apply H. auto.
Qed.
Lemma all_sets_ok : forall order p, (forall id, In id order -> exists fitted, ask id = Ok fitted) -> exists p', all_sets fit_evaluate points values set_ids order p = Ok p'.
Proof.
  induction order as [|id order IH]; intros p A; cbn; [eauto|]. rewrite one_set_ask. destruct (A id (or_introl eq_refl)) as [fitted F]. rewrite F. cbn [bind].
  destruct (scatter_spec (rows_in n set_ids id) fitted p) as (q & Q & _). { apply NoDup_filter, seq_NoDup. } { apply FE in F. rewrite map_length in F. auto. }
  rewrite Q. cbn [bind]. apply IH. intros; apply A; right; auto.
Qed.
Lemma answered_functional : forall p q i, answered p i -> answered q i -> p i = q i.
Proof.
  intros p q i (f & j & A & B & C) (f' & j' & A' & B' & C'). rewrite A in A'. injection A' as <-.
  assert (j = j') as <-. { eapply NoDup_nth_error; [| |rewrite B, B'; reflexivity]; [apply NoDup_filter, seq_NoDup|]. apply nth_error_Some. congruence. }
  congruence.
Qed.
Theorem predictions_held_out : forall order preds, traversal set_ids order ->
  cross_validate zero fit_evaluate points values set_ids order = Ok preds ->
  length preds = length points /\
  forall i v, nth_error preds i = Some v -> held_out_prediction dp dv fit_evaluate points values set_ids i v.
Proof.
  intros order preds [_ T] E. unfold cross_validate in E. destruct (all_sets fit_evaluate points values set_ids order (fun _ => zero)) as [p| |] eqn:A; try discriminate.
  cbn in E. injection E as <-. fold n. rewrite map_length, seq_length. split; auto. intros i v N. destruct (all_sets_spec _ _ _ A) as (_ & _ & H).
  assert (i < n)%nat as L. { rewrite <- (seq_length n 0), <- (map_length p). apply nth_error_Some. congruence. }
  rewrite nth_error_map, (nth_error_nth' _ 0%nat) in N by (rewrite seq_length; auto). rewrite seq_nth in N by auto. cbn in N. injection N as <-.
  destruct (H i L) as (f & j & F). { apply T, nth_In. lia. } exists f, j. exact F.
Qed.
Theorem ok_iff : forall order, traversal set_ids order ->
  ((exists preds, cross_validate zero fit_evaluate points values set_ids order = Ok preds) <->
   forall id, In id set_ids -> exists fitted,
     fit_evaluate (map (fun k => nth k points dp) (rows_out n set_ids id)) (map (fun k => nth k values dv) (rows_out n set_ids id))
       (map (fun k => nth k points dp) (rows_in n set_ids id)) = Ok fitted).
Proof.
  intros order [_ T]. unfold cross_validate. split.
  - intros [preds E] id I. destruct (all_sets fit_evaluate points values set_ids order (fun _ => zero)) as [p| |] eqn:A; try discriminate.
    destruct (all_sets_spec _ _ _ A) as (H & _). apply H, T, I.
  - intros H. destruct (all_sets_ok order (fun _ => zero)) as [p P]; [intros id I; apply H, T, I|]. rewrite P. cbn. eauto.
Qed.
Theorem order_irrelevant : forall order order' preds, traversal set_ids order -> traversal set_ids order' ->
  cross_validate zero fit_evaluate points values set_ids order = Ok preds -> cross_validate zero fit_evaluate points values set_ids order' = Ok preds.
Proof.
  intros order order' preds T T' E. assert (exists preds', cross_validate zero fit_evaluate points values set_ids order' = Ok preds') as [preds' E'].
  { apply (ok_iff order' T'), (ok_iff order T). eauto. }
  rewrite E'. f_equal. unfold cross_validate in E, E'. destruct T as [_ T], T' as [_ T'].
  destruct (all_sets fit_evaluate points values set_ids order (fun _ => zero)) as [p| |] eqn:A; try discriminate.
  destruct (all_sets fit_evaluate points values set_ids order' (fun _ => zero)) as [p'| |] eqn:A'; try discriminate.
  cbn in E, E'. injection E as <-. injection E' as <-. apply map_ext_in. intros i I. apply in_seq in I.
  destruct (all_sets_spec _ _ _ A) as (_ & _ & H). destruct (all_sets_spec _ _ _ A') as (_ & _ & H'). fold n in I.
  apply answered_functional; [apply H'|apply H]; try lia; [apply T'|apply T]; apply nth_In; lia.
Qed.
End P.

(** A row's own value, and those of its set, do not influence its prediction. *)
Theorem no_leak : forall {Pt V : Type} (zero : V) (fit_evaluate : list Pt -> list V -> list Pt -> outcome (list V)) points values values' set_ids order preds preds',
  one_value_per_point fit_evaluate -> (length points <= length set_ids)%nat -> (length points <= length values)%nat -> (length points <= length values')%nat ->
  traversal set_ids order ->
  cross_validate zero fit_evaluate points values set_ids order = Ok preds -> cross_validate zero fit_evaluate points values' set_ids order = Ok preds' ->
  forall i, (i < length points)%nat ->
    (forall j, (j < length points)%nat -> nth j set_ids 0%Z <> nth i set_ids 0%Z -> nth_error values j = nth_error values' j) ->
    nth_error preds i = nth_error preds' i.
Proof.
  intros Pt V zero fe points values values' set_ids order preds preds' FE I V1 V2 T E E' i L AG.
  assert (exists dp : Pt, True) as [dp _] by (destruct points; [cbn in L; lia|eauto]).
  destruct (predictions_held_out zero dp zero fe FE points values set_ids I V1 order preds T E) as [LN H].
  destruct (predictions_held_out zero dp zero fe FE points values' set_ids I V2 order preds' T E') as [LN' H'].
  destruct (nth_error preds i) as [v|] eqn:N; [|apply nth_error_None in N; lia]. destruct (nth_error preds' i) as [v'|] eqn:N'; [|apply nth_error_None in N'; lia].
  destruct (H i v N) as (f & j & A & B & C). destruct (H' i v' N') as (f' & j' & A' & B' & C').
  assert (j = j') as <-. { eapply NoDup_nth_error; [| |rewrite B, B'; reflexivity]; [apply NoDup_filter, seq_NoDup|]. apply nth_error_Some. congruence. }
  assert (f = f') as <-; [|congruence].
  rewrite (map_ext_in (fun k => nth k values zero) (fun k => nth k values' zero)) in A; [congruence|].
  intros k K. apply filter_In in K. destruct K as [K1 K2]. apply in_seq in K1. apply negb_true_iff, Z.eqb_neq in K2.
  specialize (AG k ltac:(lia) K2). rewrite (nth_error_nth' values zero), (nth_error_nth' values' zero) in AG by lia. congruence.
Qed.
