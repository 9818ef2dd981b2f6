From Coq Require Import List Arith Bool Reals Permutation Lia Lra.
From Verif Require Import Model.Outcome Model.Solver Spec.Solver.
Import ListNotations.

Section Vectors.

Lemma elem_ok : forall {A} (v : list A) i x, elem v i = Ok x <-> nth_error v i = Some x.
Proof. intros A v i x. unfold elem, of_option. destruct (nth_error v i); split; intros H; congruence. Qed.

Lemma elem_defined : forall {A} (v : list A) i, i < length v -> exists x, elem v i = Ok x.
Proof.
  intros A v i L. unfold elem. destruct (nth_error v i) eqn:N; [cbn; eauto|]. apply nth_error_None in N. lia.
Qed.

Lemma elems_spec : forall {A} (v : list A) is xs, elems v is = Ok xs ->
  length xs = length is /\ forall k i, nth_error is k = Some i -> nth_error xs k = nth_error v i.
Proof.
  induction is as [|i is IH]; intros xs H; cbn [elems] in H.
  - injection H as <-. split; auto. intros [|k]; discriminate.
  - destruct (elem v i) as [x| |] eqn:X; cbn in H; try discriminate. apply elem_ok in X.
    destruct (elems v is) as [ys| |] eqn:Y; cbn in H; try discriminate. injection H as <-.
    destruct (IH _ eq_refl) as [L N]. split; [cbn; auto|]. intros [|k] j K; cbn in *; [congruence|auto].
Qed.

Lemma elems_defined : forall {A} (v : list A) is, (forall i, In i is -> i < length v) ->
  exists xs, elems v is = Ok xs.
Proof.
  induction is as [|i is IH]; intros B; cbn [elems]; [eauto|].
  destruct (elem_defined v i) as (x & ->); [apply B; left; auto|].
  destruct IH as (xs & ->); [intros; apply B; right; auto|]. cbn. eauto.
Qed.

Lemma vsub_spec : forall a b d, vsub a b = Ok d ->
  length a = length b /\ length d = length b /\
  forall i x y, nth_error a i = Some x -> nth_error b i = Some y -> nth_error d i = Some (nsub x y).
Proof.
  induction a as [|x a IH]; intros [|y b] d H; cbn [vsub] in H; try discriminate.
  - injection H as <-. split; auto. split; auto. intros [|i]; discriminate.
  - destruct (vsub a b) as [r| |] eqn:R; cbn in H; try discriminate. injection H as <-.
    destruct (IH _ _ R) as (L1 & L2 & N). split; [cbn; auto|]. split; [cbn; auto|].
    intros [|i] u v U V; cbn in *; [congruence|eauto].
Qed.

Lemma vsub_defined : forall a b, length a = length b -> exists d, vsub a b = Ok d.
Proof.
  induction a as [|x a IH]; intros [|y b] L; cbn in *; try discriminate; [eauto|].
  destruct (IH b) as (d & ->); [lia|]. cbn. eauto.
Qed.

Lemma norm_spec : forall E d t, gtb (norm E d) t = false -> (forall x, In x d -> x <> None) ->
  forall x, In (Some x) d -> (Rabs x <= t)%R.
Proof.
  intros E d t G NN.
  assert (exists xs, all_numbers d = Some xs /\ d = map Some xs) as (xs & AN & ->).
  { clear G. induction d as [|[x|] d IH]; cbn.
    - exists []. auto.
    - destruct IH as (xs & -> & ->); [intros y Y; apply NN; right; auto|]. exists (x :: xs). auto.
    - exfalso. apply (NN None); [left|]; auto. }
  unfold norm in G. rewrite AN in G. cbn in G.
  destruct (Rlt_dec t _) as [|G']; [discriminate|]. apply Rnot_lt_le in G'.
  clear - G'. intros x I. apply in_map_iff in I. destruct I as (y & Y & I). injection Y as ->.
  revert t G'. induction xs as [|z xs IH]; intros t G; [destruct I|].
  cbn in G. destruct I as [->|I].
  - eapply Rle_trans; [apply Rmax_l|exact G].
  - apply IH; auto. eapply Rle_trans; [apply Rmax_r|exact G].
Qed.

(** Two aligned vectors whose difference passes the test agree entry by entry. *)
Lemma error_close : forall E a b r t, absolute_error E a b = Ok r -> gtb r t = false ->
  (forall x, In x a -> x <> None) -> (forall x, In x b -> x <> None) ->
  forall i x y, nth_error a i = Some x -> nth_error b i = Some y -> close x y t.
Proof.
  intros E a b r t H G NA NB i x y X Y. unfold absolute_error in H.
  destruct (vsub a b) as [d| |] eqn:V; cbn in H; try discriminate. injection H as <-.
  destruct (vsub_spec _ _ _ V) as (L1 & L2 & N).
  pose proof (N i x y X Y) as D.
  destruct x as [x|]; [|exfalso; eapply NA; [eapply nth_error_In; exact X|auto]].
  destruct y as [y|]; [|exfalso; eapply NB; [eapply nth_error_In; exact Y|auto]].
  exists x, y. split; auto. split; auto.
  apply (norm_spec E d t G).
  - intros z Z. apply In_nth_error in Z. destruct Z as (j & Z).
    assert (j < length d) as LJ by (apply nth_error_Some; congruence).
    destruct (nth_error a j) as [u|] eqn:U; [|apply nth_error_None in U; lia].
    destruct (nth_error b j) as [v|] eqn:W; [|apply nth_error_None in W; lia].
    rewrite (N j u v U W) in Z. injection Z as <-.
    destruct u; [|exfalso; eapply NA; [eapply nth_error_In; exact U|auto]].
    destruct v; [|exfalso; eapply NB; [eapply nth_error_In; exact W|auto]].
    discriminate.
  - eapply nth_error_In. exact D.
Qed.

Lemma error_defined : forall E a b, length a = length b -> exists r, absolute_error E a b = Ok r.
Proof.
  intros E a b L. unfold absolute_error. destruct (vsub_defined a b L) as (d & ->). cbn. eauto.
Qed.

(** Blocks of equal length. *)
Lemma blocks_length : forall {A} (f : nat -> nat -> A) n is,
  length (flat_map (fun i => map (f i) (seq 0 n)) is) = n * length is.
Proof.
  induction is as [|i is IH]; cbn; [lia|]. rewrite app_length, map_length, seq_length, IH. lia.
Qed.
Lemma blocks_nth : forall {A} (f : nat -> nat -> A) n is k i j, nth_error is k = Some i -> j < n ->
  nth_error (flat_map (fun i => map (f i) (seq 0 n)) is) (n * k + j) = Some (f i j).
Proof.
  induction is as [|x is IH]; intros [|k] i j K J; cbn [nth_error] in K; try discriminate; cbn [flat_map].
  - injection K as ->. rewrite Nat.mul_0_r. cbn [Nat.add].
    rewrite nth_error_app1 by (rewrite map_length, seq_length; auto).
    apply map_nth_error. rewrite nth_error_nth' with (d := 0) by (rewrite seq_length; auto).
    rewrite seq_nth; auto.
  - rewrite nth_error_app2; rewrite map_length, seq_length; [|lia].
    replace (n * S k + j - n) with (n * k + j) by lia. apply IH; auto.
Qed.

Lemma In_blocks : forall {A} (f : nat -> nat -> A) n is x,
  In x (flat_map (fun i => map (f i) (seq 0 n)) is) <-> exists i j, In i is /\ j < n /\ x = f i j.
Proof.
  intros A f n is x. rewrite in_flat_map. split.
  - intros (i & I & J). apply in_map_iff in J. destruct J as (j & <- & J). apply in_seq in J.
    exists i, j. split; auto. split; auto. lia.
  - intros (i & j & I & J & ->). exists i. split; auto. apply in_map_iff. exists j. split; auto.
    apply in_seq. lia.
Qed.

Lemma Rabs_minus_le : forall a b, (Rabs (a - b) <= Rabs a + Rabs b)%R.
Proof. intros a b. unfold Rminus. rewrite <- (Rabs_Ropp b). apply Rabs_triang. Qed.

Lemma firstn_nth : forall {A} (v : list A) n i, i < n -> nth_error (firstn n v) i = nth_error v i.
Proof.
  induction v as [|x v IH]; intros [|n] [|i] H; cbn; auto; try lia. apply IH. lia.
Qed.
Lemma skipn_nth : forall {A} (v : list A) n i, nth_error (skipn n v) i = nth_error v (n + i).
Proof.
  induction v as [|x v IH]; intros [|n] i; cbn; auto. destruct i; auto.
Qed.

End Vectors.

Section Solver.
Variable E : senv.
Hypothesis OK : senv_ok E.

Lemma indices_lt : forall i, In i (direct_indices E) -> i < mu E.
Proof.
  intros i I. unfold direct_indices in I.
  assert (In i (arrange E (value_nonzero E) (seq 0 (mu E)))) as J.
  { rewrite <- (firstn_skipn (direct_mu E)). apply in_app_iff. auto. }
  apply (Permutation_in _ (sok_arrange E OK _ _)) in J. apply in_seq in J. lia.
Qed.
Lemma grad_indices_lt : forall i, In i (direct_grad_indices E) -> i < sigma E.
Proof.
  intros i I. unfold direct_grad_indices in I.
  assert (In i (arrange E (grad_nonzero E) (seq 0 (sigma E)))) as J.
  { rewrite <- (firstn_skipn (direct_sigma E)). apply in_app_iff. auto. }
  apply (Permutation_in _ (sok_arrange E OK _ _)) in J. apply in_seq in J. lia.
Qed.
Lemma indices_all : direct_mu E = mu E -> forall i, i < mu E -> In i (direct_indices E).
Proof.
  intros H i I. unfold direct_indices. rewrite H.
  pose proof (sok_arrange E OK (value_nonzero E) (seq 0 (mu E))) as P.
  rewrite firstn_all2; [|rewrite (Permutation_length P), seq_length; auto].
  apply (Permutation_in _ (Permutation_sym P)). apply in_seq. lia.
Qed.
Lemma grad_indices_all : direct_sigma E = sigma E -> forall i, i < sigma E -> In i (direct_grad_indices E).
Proof.
  intros H i I. unfold direct_grad_indices. rewrite H.
  pose proof (sok_arrange E OK (grad_nonzero E) (seq 0 (sigma E))) as P.
  rewrite firstn_all2; [|rewrite (Permutation_length P), seq_length; auto].
  apply (Permutation_in _ (Permutation_sym P)). apply in_seq. lia.
Qed.

Lemma component_lt : forall i k, i < sigma E -> k < dim E -> mu E + dim E * i + k < length (values E).
Proof.
  intros i k I K. rewrite (sok_values E OK).
  assert (dim E * S i <= dim E * sigma E) by (apply Nat.mul_le_mono_l; lia). lia.
Qed.

Lemma direct_fit_spec : forall w is fit, direct_fit E w is = Ok fit -> (forall i, In i is -> i < mu E) ->
  length fit = length is /\ forall k i, nth_error is k = Some i -> nth_error fit k = Some (predicted E w i).
Proof.
  intros w. induction is as [|i is IH]; intros fit H B; cbn [direct_fit] in H.
  - injection H as <-. split; auto. intros [|k]; discriminate.
  - destruct (elem (firstn (mu E) w) i) as [wi| |] eqn:X; cbn in H; try discriminate. apply elem_ok in X.
    rewrite firstn_nth in X by (apply B; left; auto).
    destruct (direct_fit E w is) as [r| |] eqn:R; cbn in H; try discriminate. injection H as <-.
    destruct (IH _ eq_refl) as [L N]; [intros; apply B; right; auto|]. split; [cbn; auto|].
    intros [|k] j K; cbn in K; [|cbn; auto]. injection K as <-. cbn. f_equal. unfold predicted. rewrite X.
    unfold nadd, nmul. destruct (direct E w i), wi; reflexivity.
Qed.
Lemma direct_fit_defined : forall w is, (forall i, In i is -> i < mu E) -> mu E <= length w ->
  exists fit, direct_fit E w is = Ok fit.
Proof.
  intros w. induction is as [|i is IH]; intros B L; cbn [direct_fit]; [eauto|].
  destruct (elem_defined (firstn (mu E) w) i) as (x & ->).
  { rewrite firstn_length_le by auto. apply B. left; auto. }
  destruct IH as (r & ->); [intros; apply B; right; auto|auto|]. cbn. eauto.
Qed.

Lemma add_nugget_spec : forall fit w r, add_nugget E fit w = Ok r ->
  length r = length fit /\ length w = length fit /\
  forall i f x, nth_error fit i = Some f -> nth_error w i = Some x ->
                nth_error r i = Some (nadd f (nmul x (Some (nugget E)))).
Proof.
  induction fit as [|f fit IH]; intros [|x w] r H; cbn [add_nugget] in H; try discriminate.
  - injection H as <-. split; auto. split; auto. intros [|i]; discriminate.
  - destruct (add_nugget E fit w) as [r'| |] eqn:R; cbn in H; try discriminate. injection H as <-.
    destruct (IH _ _ R) as (L1 & L2 & N). split; [cbn; auto|]. split; [cbn; auto|].
    intros [|i] g y G Y; cbn in *; [congruence|eauto].
Qed.
Lemma add_nugget_defined : forall fit w, length fit = length w -> exists r, add_nugget E fit w = Ok r.
Proof.
  induction fit as [|f fit IH]; intros [|x w] L; cbn in *; try discriminate; [eauto|].
  destruct (IH w) as (r & ->); [lia|]. cbn. eauto.
Qed.

(** ** The residual test *)

Lemma converged_defined : forall w, length w = mu E + dim E * sigma E + l E ->
  exists b, converged E w = Ok b.
Proof.
  intros w L. pose proof (sok_values E OK) as LV. unfold converged, direct_values, direct_grad_values.
  destruct (elems_defined (firstn (mu E) (values E)) (direct_indices E)) as (dv & DV).
  { intros i I. apply indices_lt in I. rewrite firstn_length_le; lia. }
  destruct (elems_defined (values E) (components E (mu E) (direct_grad_indices E))) as (dg & DG).
  { intros i I. apply (In_blocks (fun i k => mu E + dim E * i + k)) in I. destruct I as (j & k & J & K & ->).
    apply grad_indices_lt in J. apply component_lt; auto. }
  destruct (direct_fit_defined w (direct_indices E)) as (fit & F); [apply indices_lt|lia|].
  rewrite DV, DG, F. cbn [bind].
  destruct (elems_spec _ _ _ DV) as [LD _]. destruct (elems_spec _ _ _ DG) as [LG _].
  destruct (direct_fit_spec _ _ _ F indices_lt) as [LF _].
  destruct (error_defined E fit dv) as (r & ->); [congruence|]. cbn [bind].
  destruct (error_defined E (direct_grad_fit E w (direct_grad_indices E)) dg) as (g & ->).
  { rewrite LG. unfold direct_grad_fit, components.
    rewrite (blocks_length (fun i k => direct_grad E w i k)),
            (blocks_length (fun i k => mu E + dim E * i + k)). auto. }
  cbn [bind]. destruct (negb (passes E r g)); [eauto|].
  destruct (Nat.eqb (direct_mu E) (mu E) && Nat.eqb (direct_sigma E) (sigma E)); [eauto|].
  pose proof (sok_fast E OK w) as LFa.
  destruct (add_nugget_defined (firstn (mu E) (fast E w)) (firstn (mu E) w)) as (h & H).
  { rewrite !firstn_length_le; lia. }
  rewrite H. cbn [bind]. destruct (add_nugget_spec _ _ _ H) as (LH & _).
  destruct (error_defined E h (firstn (mu E) (values E))) as (r2 & ->).
  { rewrite LH, !firstn_length_le; lia. }
  cbn [bind].
  destruct (error_defined E (skipn (mu E) (fast E w)) (skipn (mu E) (values E))) as (g2 & ->).
  { rewrite !skipn_length. lia. }
  cbn [bind]. eauto.
Qed.

Lemma passes_spec : forall r g, passes E r g = true ->
  gtb r (tolerance E) = false /\ gtb g (grad_tolerance E) = false.
Proof.
  intros r g H. unfold passes in H. apply negb_true_iff, orb_false_iff in H. auto.
Qed.

Lemma converged_direct : forall w, converged E w = Ok true -> (forall i v, nth_error (values E) i = Some v -> v <> None) ->
  (forall i, i < mu E -> predicted E w i <> None) -> (forall i k, i < sigma E -> k < dim E -> direct_grad E w i k <> None) -> small E ->
  reproduces E w (tolerance E) (grad_tolerance E).
Proof.
  intros w H NV NP NG [S1 S2]. pose proof (sok_values E OK) as LV.
  assert (direct_mu E = mu E) as DM by (unfold direct_mu; lia).
  assert (direct_sigma E = sigma E) as DS by (unfold direct_sigma; lia).
  unfold converged, direct_values, direct_grad_values in H.
  destruct (elems (firstn (mu E) (values E)) (direct_indices E)) as [dv| |] eqn:DV; cbn [bind] in H; try discriminate.
  destruct (elems (values E) (components E (mu E) (direct_grad_indices E))) as [dg| |] eqn:DG;
    cbn [bind] in H; try discriminate.
  destruct (direct_fit E w (direct_indices E)) as [fit| |] eqn:F; cbn [bind] in H; try discriminate.
  destruct (absolute_error E fit dv) as [r| |] eqn:R; cbn [bind] in H; try discriminate.
  destruct (absolute_error E (direct_grad_fit E w (direct_grad_indices E)) dg) as [g| |] eqn:G;
    cbn [bind] in H; try discriminate.
  destruct (passes E r g) eqn:PS; cbn [negb] in H; [|discriminate]. clear H.
  apply passes_spec in PS. destruct PS as [P1 P2].
  destruct (elems_spec _ _ _ DV) as [LD ND]. destruct (elems_spec _ _ _ DG) as [LG NDG].
  destruct (direct_fit_spec _ _ _ F indices_lt) as [LF NF].
  assert (forall x, In x fit -> x <> None) as Nfit.
  { intros x I. apply In_nth_error in I. destruct I as (k & K).
    assert (k < length fit) as LK by (apply nth_error_Some; congruence).
    destruct (nth_error (direct_indices E) k) as [i|] eqn:I; [|apply nth_error_None in I; lia].
    rewrite (NF k i I) in K. injection K as <-. apply NP. apply indices_lt. eapply nth_error_In; eauto. }
  assert (forall x, In x dv -> x <> None) as Ndv.
  { intros x I. apply In_nth_error in I. destruct I as (k & K).
    assert (k < length dv) as LK by (apply nth_error_Some; congruence).
    destruct (nth_error (direct_indices E) k) as [i|] eqn:I; [|apply nth_error_None in I; lia].
    rewrite (ND k i I) in K. rewrite firstn_nth in K; [|apply indices_lt; eapply nth_error_In; eauto].
    eapply NV; eauto. }
  assert (forall x, In x dg -> x <> None) as Ndg.
  { intros x I. apply In_nth_error in I. destruct I as (k & K).
    assert (k < length dg) as LK by (apply nth_error_Some; congruence).
    destruct (nth_error (components E (mu E) (direct_grad_indices E)) k) as [i|] eqn:I;
      [|apply nth_error_None in I; lia].
    rewrite (NDG k i I) in K. eapply NV; eauto. }
  assert (forall x, In x (direct_grad_fit E w (direct_grad_indices E)) -> x <> None) as Ngf.
  { intros x I. apply (In_blocks (fun i k => direct_grad E w i k)) in I. destruct I as (i & k & I & K & ->).
    apply NG; auto. apply grad_indices_lt; auto. }
  split.
  - intros i I. pose proof (indices_all DM i I) as J. apply In_nth_error in J. destruct J as (k & K).
    pose proof (ND k i K) as V. rewrite firstn_nth in V by auto.
    destruct (nth_error (values E) i) as [v|] eqn:VE; [|apply nth_error_None in VE; lia].
    exists v. split; auto. eapply (error_close E fit dv r); eauto.
  - intros i c I C. pose proof (grad_indices_all DS i I) as J. apply In_nth_error in J. destruct J as (k & K).
    pose proof (blocks_nth (fun i k => mu E + dim E * i + k) (dim E) _ k i c K C) as B1.
    pose proof (blocks_nth (fun i k => direct_grad E w i k) (dim E) _ k i c K C) as B2.
    pose proof (NDG _ _ B1) as V.
    destruct (nth_error (values E) (mu E + dim E * i + c)) as [v|] eqn:VE.
    + exists v. split; auto. eapply (error_close E (direct_grad_fit E w (direct_grad_indices E)) dg g); eauto.
    + apply nth_error_None in VE. pose proof (component_lt i c I C). lia.
Qed.

Lemma converged_small : forall w, converged E w = Ok true -> no_nan E w -> small E ->
  reproduces E w (tolerance E) (grad_tolerance E).
Proof. intros w H (NV & NP & NG & _) SM. apply converged_direct; auto. Qed.

Lemma converged_large : forall w, converged E w = Ok true -> no_nan E w -> ~ small E ->
  length w = mu E + dim E * sigma E + l E ->
  reproduces_fast E w (tolerance E) (grad_tolerance E).
Proof.
  intros w H (NV & NP & NG & NF) NS LW. pose proof (sok_values E OK) as LV. pose proof (sok_fast E OK w) as LFa.
  assert (Nat.eqb (direct_mu E) (mu E) && Nat.eqb (direct_sigma E) (sigma E) = false) as SM.
  { apply not_true_iff_false. intros Q. apply andb_true_iff in Q. rewrite !Nat.eqb_eq in Q.
    apply NS. unfold small, direct_mu, direct_sigma in *. lia. }
  unfold converged in H.
  destruct (direct_values E) as [dv| |]; cbn [bind] in H; try discriminate.
  destruct (direct_grad_values E) as [dg| |]; cbn [bind] in H; try discriminate.
  destruct (direct_fit E w (direct_indices E)) as [fit| |]; cbn [bind] in H; try discriminate.
  destruct (absolute_error E fit dv) as [r0| |]; cbn [bind] in H; try discriminate.
  destruct (absolute_error E (direct_grad_fit E w (direct_grad_indices E)) dg) as [g0| |];
    cbn [bind] in H; try discriminate.
  destruct (negb (passes E r0 g0)); [discriminate|]. rewrite SM in H.
  destruct (add_nugget E (firstn (mu E) (fast E w)) (firstn (mu E) w)) as [h| |] eqn:HD; cbn [bind] in H; try discriminate.
  destruct (absolute_error E h (firstn (mu E) (values E))) as [r| |] eqn:R; cbn [bind] in H; try discriminate.
  destruct (absolute_error E (skipn (mu E) (fast E w)) (skipn (mu E) (values E))) as [g| |] eqn:G;
    cbn [bind] in H; try discriminate.
  injection H as H. apply passes_spec in H. destruct H as [P1 P2].
  destruct (add_nugget_spec _ _ _ HD) as (LH & LWh & NH).
  assert (length h = mu E) as LH' by (rewrite LH, firstn_length_le; lia).
  assert (forall i, i < mu E -> nth_error h i = Some (predicted_fast E w i) /\ predicted_fast E w i <> None) as HP.
  { intros i I.
    destruct (nth_error (fast E w) i) as [f|] eqn:FI; [|apply nth_error_None in FI; lia].
    destruct (nth_error w i) as [x|] eqn:XI; [|apply nth_error_None in XI; lia].
    rewrite (NH i f x); [|rewrite firstn_nth; auto|rewrite firstn_nth; auto].
    unfold predicted_fast. rewrite FI, XI.
    pose proof (NP i I) as P. unfold predicted in P. rewrite XI in P.
    destruct x as [x|]; [|tauto]. pose proof (NF i f FI) as Q. destruct f as [f|]; [|tauto].
    split; [reflexivity|discriminate]. }
  split.
  - intros i I. destruct (nth_error (values E) i) as [v|] eqn:VE; [|apply nth_error_None in VE; lia].
    exists v. split; auto. eapply (error_close E h (firstn (mu E) (values E)) r); eauto.
    + intros x J. apply In_nth_error in J. destruct J as (k & K).
      assert (k < mu E) as LK by (rewrite <- LH'; apply nth_error_Some; congruence).
      destruct (HP k LK) as [A B]. rewrite A in K. congruence.
    + intros x J. apply In_nth_error in J. destruct J as (k & K).
      assert (k < length (firstn (mu E) (values E))) as LK by (apply nth_error_Some; congruence).
      rewrite firstn_length_le in LK by lia. rewrite firstn_nth in K by auto. eapply NV; eauto.
    + apply HP; auto.
    + rewrite firstn_nth; auto.
  - intros i c I C. pose proof (component_lt i c I C) as L.
    destruct (nth_error (values E) (mu E + dim E * i + c)) as [v|] eqn:VE; [|apply nth_error_None in VE; lia].
    destruct (nth_error (fast E w) (mu E + dim E * i + c)) as [f|] eqn:FE; [|apply nth_error_None in FE; lia].
    exists v, f. split; auto. split; auto.
    apply (error_close E (skipn (mu E) (fast E w)) (skipn (mu E) (values E)) g (grad_tolerance E) G P2)
      with (i := dim E * i + c).
    + intros x J. apply In_nth_error in J. destruct J as (k & K). rewrite skipn_nth in K. eapply NF; eauto.
    + intros x J. apply In_nth_error in J. destruct J as (k & K). rewrite skipn_nth in K. eapply NV; eauto.
    + rewrite skipn_nth, Nat.add_assoc. auto.
    + rewrite skipn_nth, Nat.add_assoc. auto.
Qed.

(** ** The loop *)

Lemma loop_ok : forall n k w, loop E k n = Ok w -> exists j, k <= j <= k + n /\ w = solution E j /\
  converged E (solution E j) = Ok true /\ forall i, k <= i < j -> converged E (solution E i) = Ok false.
Proof.
  induction n as [|n IH]; intros k w H; cbn [loop] in H;
    destruct (converged E (solution E k)) as [b| |] eqn:C; cbn [bind] in H; try discriminate; destruct b.
  - injection H as <-. exists k. split; [lia|]. split; auto. split; auto. lia.
  - discriminate.
  - injection H as <-. exists k. split; [lia|]. split; auto. split; auto. lia.
  - destruct (IH _ _ H) as (j & J & W & CJ & F). exists j. split; [lia|]. split; auto. split; auto.
    intros i I. destruct (Nat.eq_dec i k) as [->|]; auto. apply F. lia.
Qed.

Lemma loop_cases : forall n k,
  (exists j, k <= j <= k + n /\ loop E k n = Ok (solution E j)) \/
  (loop E k n = Throw ExRuntimeError /\ forall i, k <= i <= k + n -> converged E (solution E i) = Ok false).
Proof.
  induction n as [|n IH]; intros k; cbn [loop];
    destruct (converged_defined (solution E k) (sok_solution E OK k)) as (b & C); rewrite C; cbn [bind]; destruct b.
  - left. exists k. split; [lia|auto].
  - right. split; auto. intros i I. replace i with k by lia. auto.
  - left. exists k. split; [lia|auto].
  - destruct (IH (S k)) as [(j & J & L)|[L F]].
    + left. exists j. split; [lia|auto].
    + right. split; auto. intros i I. destruct (Nat.eq_dec i k) as [->|]; auto. apply F. lia.
Qed.

(** ** The theorems *)

Lemma solve_not_exact : ~ exact_start E -> solve E = loop E 0 (max_iter E).
Proof.
  intros N. unfold solve, exact_start in *. destruct (relative_residual E) as [x|]; auto.
  destruct (Req_EM_T x 0) as [->|]; [tauto|auto].
Qed.

Lemma solve_returns : forall w, solve E = Ok w -> ~ exact_start E ->
  exists k, k <= max_iter E /\ w = solution E k /\ converged E w = Ok true /\
            forall j, j < k -> converged E (solution E j) = Ok false.
Proof.
  intros w H N. rewrite (solve_not_exact N) in H. destruct (loop_ok _ _ _ H) as (j & J & -> & C & F).
  exists j. split; [lia|]. split; auto. split; auto. intros i I. apply F. lia.
Qed.

Lemma solve_total : ~ exact_start E ->
  (exists k, k <= max_iter E /\ solve E = Ok (solution E k)) \/
  (solve E = Throw ExRuntimeError /\ forall k, k <= max_iter E -> converged E (solution E k) = Ok false).
Proof.
  intros N. rewrite (solve_not_exact N). destruct (loop_cases (max_iter E) 0) as [(j & J & H)|[H F]].
  - left. exists j. split; [lia|auto].
  - right. split; auto. intros k K. apply F. lia.
Qed.

Lemma solve_first : ~ exact_start E ->
  (exists k, k <= max_iter E /\ solve E = Ok (solution E k) /\ converged E (solution E k) = Ok true /\
             forall j, j < k -> converged E (solution E j) = Ok false) \/
  (solve E = Throw ExRuntimeError /\
   forall k, k <= max_iter E -> converged E (solution E k) = Ok false).
Proof.
  intros N. destruct (solve_total N) as [(k & _ & H)|T]; [left|right; auto].
  destruct (solve_returns _ H N) as (j & J & W & C & F). exists j. rewrite <- W. auto.
Qed.

Lemma solve_small : forall w, solve E = Ok w -> ~ exact_start E -> no_nan E w -> small E ->
  reproduces E w (tolerance E) (grad_tolerance E).
Proof.
  intros w H N NN S0. destruct (solve_returns w H N) as (k & _ & _ & C & _). apply converged_small; auto.
Qed.

Lemma reproduces_fast_accurate : forall w acc gacc, reproduces_fast E w (tolerance E) (grad_tolerance E) ->
  accurate E w acc gacc ->
  reproduces E w (tolerance E + acc) (grad_tolerance E + gacc).
Proof.
  intros w acc gacc [R1 R2] [A1 A2]. split.
  - intros i I. destruct (R1 i I) as (v & V & x & y & X & -> & L). exists (Some y). split; auto.
    destruct (A1 i I) as (f & d & F & D & FD). unfold predicted_fast in X. rewrite F in X.
    unfold predicted. rewrite D. destruct (nth_error w i) as [[z|]|]; try discriminate. injection X as <-.
    eexists _, y. split; [reflexivity|]. split; [reflexivity|].
    replace (d + z * nugget E - y)%R with ((f + z * nugget E - y) - (f - d))%R by lra.
    eapply Rle_trans; [apply Rabs_minus_le|lra].
  - intros i k I K. destruct (R2 i k I K) as (v & f & V & F & x & y & -> & -> & L). exists (Some y). split; auto.
    destruct (A2 i k I K) as (f' & d & F' & D & FD). rewrite F in F'. injection F' as <-. rewrite D.
    exists d, y. split; auto. split; auto.
    replace (d - y)%R with ((x - y) - (x - d))%R by lra.
    eapply Rle_trans; [apply Rabs_minus_le|lra].
Qed.

Lemma solve_large : forall w acc gacc, solve E = Ok w -> ~ exact_start E -> no_nan E w -> ~ small E ->
  accurate E w acc gacc -> reproduces E w (tolerance E + acc) (grad_tolerance E + gacc).
Proof.
  intros w acc gacc H N NN NS A. destruct (solve_returns w H N) as (k & _ & -> & C & _).
  apply reproduces_fast_accurate; auto. apply converged_large; auto. apply (sok_solution E OK).
Qed.

End Solver.
