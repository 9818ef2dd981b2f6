From Coq Require Import List Arith ZArith Bool Reals Permutation Lia Lra Sorted.
From Verif Require Import Model.Outcome Model.ComplementaryIndices Model.IncrementalFitter.
From Verif Require Import Spec.ComplementaryIndices Spec.DistanceFilter Spec.IncrementalFitter.
From Verif Require Proofs.ComplementaryIndices Model.DistanceFilter Proofs.DistanceFilter.
Import ListNotations.

Lemma kMin_pos : (0 < kMinDistance)%R.
Proof. unfold kMinDistance. apply Rinv_0_lt_compat. apply pow_lt. lra. Qed.

Lemma valid_ge : forall d, (kMinDistance <= d)%R -> valid_distance d = true.
Proof. intros d H. unfold valid_distance. destruct (Rle_dec kMinDistance d); auto. Qed.

Lemma NoDup_app_disjoint : forall {A} (l m : list A), NoDup l -> NoDup m ->
  (forall x, In x l -> In x m -> False) -> NoDup (l ++ m).
Proof.
  induction l as [|a l IH]; intros m L M H; cbn; auto. inversion L; subst. constructor.
  - intros I. apply in_app_iff in I. destruct I as [I|I]; auto. apply (H a); auto. left; auto.
  - apply IH; auto. intros x X Y. apply (H x); auto. right; auto.
Qed.

Section Proofs.

Context {Pt D : Type}.
Variable near : R -> Pt -> Pt -> Prop.
Variable E : env Pt D.
Hypothesis OK : env_ok near E.

Lemma complement_spec : forall is n, distinct_rows is n ->
  exists cs, complement is n = Ok cs /\ other_rows is cs n.
Proof.
  intros is n [ND B]. unfold complement.
  destruct (Proofs.ComplementaryIndices.complementary_indices_ok (map Z.of_nat is) n) as (r & R & S & M).
  { split.
    - apply FinFun.Injective_map_NoDup; auto. intros x y. lia.
    - intros i I. apply in_map_iff in I. destruct I as (j & <- & J). apply B in J. lia. }
  rewrite R. cbn. eexists. split; [reflexivity|].
  assert (forall z, In z r -> (0 <= z)%Z) as POS by (intros z Z0; apply M in Z0; lia).
  split.
  - assert (NoDup r) as NDr.
    { clear - S. induction S; constructor; auto. intros I. rewrite Forall_forall in H. apply H in I. lia. }
    clear - POS NDr. induction r as [|z r IH]; cbn; constructor.
    + intros I. apply in_map_iff in I. destruct I as (y & E & I). inversion NDr; subst. apply H1.
      replace z with y; auto. assert (0 <= z)%Z by (apply POS; left; auto).
      assert (0 <= y)%Z by (apply POS; right; auto). lia.
    + apply IH; [intros; apply POS; right; auto|inversion NDr; auto].
  - intros i. rewrite in_map_iff. split.
    + intros (z & <- & I). apply M in I. destruct I as [I NI]. split; [lia|].
      intros C. apply NI. apply in_map_iff. exists (Z.to_nat z). split; auto. lia.
    + intros [I NI]. exists (Z.of_nat i). split; [lia|]. apply M. split; [lia|].
      intros C. apply in_map_iff in C. destruct C as (j & Q & J). apply NI. replace i with j by lia. auto.
Qed.

Lemma other_rows_length : forall is cs n, distinct_rows is n -> other_rows is cs n ->
  length is + length cs = n.
Proof.
  intros is cs n [ND B] [NDc M].
  assert (Permutation (is ++ cs) (seq 0 n)) as P.
  { apply NoDup_Permutation.
    - apply NoDup_app_disjoint; auto.
      intros x I J. apply M in J. tauto.
    - apply seq_NoDup.
    - intros x. rewrite in_app_iff, in_seq, M. split.
      + intros [I|[I _]]; [apply B in I|]; lia.
      + intros H. destruct (in_dec Nat.eq_dec x is); auto. right. split; [lia|auto]. }
  apply Permutation_length in P. rewrite app_length, seq_length in P. auto.
Qed.

Lemma get_defined : forall (v : list D) i, i < length v -> exists x, get v i = Ok x /\ nth_error v i = Some x.
Proof.
  intros v i H. unfold get. destruct (nth_error v i) eqn:N; [eexists; cbn; eauto|].
  apply nth_error_None in N. lia.
Qed.

Lemma gather_defined : forall (v : list D) is, (forall i, In i is -> i < length v) ->
  exists xs, gather v is = Ok xs /\ length xs = length is.
Proof.
  induction is as [|i is IH]; intros H; cbn [gather]; [exists []; auto|].
  destruct (get_defined v i) as (x & -> & _); [apply H; left; auto|].
  destruct IH as (xs & -> & L); [intros; apply H; right; auto|]. cbn. exists (x :: xs). cbn. auto.
Qed.

Lemma center_values_defined : forall s,
  distinct_rows (centers s) (mu_full E) -> distinct_rows (grad_centers s) (sigma_full E) ->
  exists v, center_values E s = Ok v.
Proof.
  intros s [_ B] [_ G]. unfold center_values. pose proof (ok_values near E OK) as L.
  destruct (gather_defined (values_full E) (centers s)) as (v & -> & _).
  { intros i I. apply B in I. lia. }
  destruct (gather_defined (values_full E) (grad_positions E (mu_full E) (grad_centers s))) as (g & -> & _).
  { intros i I. unfold grad_positions in I. apply in_flat_map in I. destruct I as (j & J & I).
    apply in_map_iff in I. destruct I as (k & <- & K). apply in_seq in K. apply G in J. rewrite L.
    assert (dim E * j + k < dim E * sigma_full E); [|lia].
    assert (dim E * S j <= dim E * sigma_full E) by (apply Nat.mul_le_mono_l; lia). lia. }
  cbn. eexists; reflexivity.
Qed.

(** ** Residuals *)

Lemma residuals_spec : forall fit cs pos rs, residuals_from E fit pos cs = Ok rs ->
  map fst rs = cs /\
  (forall k j, nth_error cs k = Some j -> exists v f,
     nth_error (values_full E) j = Some v /\ nth_error fit (pos + k) = Some f /\
     In (j, absdiff E f v) rs).
Proof.
  intros fit. induction cs as [|c cs IH]; intros pos rs H; cbn [residuals_from] in H.
  - injection H as <-. split; auto. intros [|k]; discriminate.
  - unfold get in H. destruct (nth_error (values_full E) c) as [v|] eqn:V; cbn in H; [|discriminate].
    destruct (nth_error fit pos) as [f|] eqn:F; cbn in H; [|discriminate].
    destruct (residuals_from E fit (S pos) cs) as [r| |] eqn:R; cbn in H; try discriminate.
    injection H as <-. destruct (IH _ _ R) as [M N]. split; [cbn; f_equal; auto|].
    intros [|k] j K; cbn in K.
    + injection K as <-. exists v, f. rewrite Nat.add_0_r. split; auto. split; auto. left; auto.
    + destruct (N k j K) as (v' & f' & V' & F' & I). exists v', f'.
      rewrite <- Nat.add_succ_comm. split; auto. split; auto. right; auto.
Qed.

Lemma residuals_defined : forall fit cs pos,
  (forall c, In c cs -> c < length (values_full E)) -> pos + length cs <= length fit ->
  exists rs, residuals_from E fit pos cs = Ok rs.
Proof.
  intros fit. induction cs as [|c cs IH]; intros pos B L; cbn [residuals_from]; [eexists; eauto|].
  cbn [length] in L.
  destruct (get_defined (values_full E) c) as (v & -> & _); [apply B; left; auto|].
  destruct (get_defined fit pos) as (f & -> & _); [lia|].
  destruct (IH (S pos)) as (r & ->); [intros; apply B; right; auto|lia|]. cbn. eexists; eauto.
Qed.

Lemma max_component_spec : forall fit k pos vpos m, max_component E fit pos vpos k = Ok m ->
  forall t tol, t < k -> ltb E m tol = true ->
  exists v f, nth_error (values_full E) (vpos + t) = Some v /\ nth_error fit (pos + t) = Some f /\
              ltb E (absdiff E f v) tol = true.
Proof.
  intros fit. induction k as [|k IH]; intros pos vpos m H t tol T M; [lia|].
  cbn [max_component] in H. unfold get in H.
  destruct (nth_error fit pos) as [f|] eqn:F; cbn in H; [|discriminate].
  destruct (nth_error (values_full E) vpos) as [v|] eqn:V; cbn in H; [|discriminate].
  destruct k as [|k].
  - injection H as <-. replace t with 0 by lia. rewrite !Nat.add_0_r. eauto.
  - destruct (max_component E fit (S pos) (S vpos) (S k)) as [m'| |] eqn:R; cbn [bind] in H; try discriminate.
    injection H as <-. apply (ok_max near E OK) in M. destruct M as [M1 M2].
    destruct t as [|t].
    + rewrite !Nat.add_0_r. eauto.
    + destruct (IH _ _ _ R t tol) as (v' & f' & V' & F' & L); [lia|auto|].
      exists v', f'. rewrite <- !Nat.add_succ_comm. auto.
Qed.

Lemma max_component_defined : forall fit k pos vpos,
  pos + k <= length fit -> vpos + k <= length (values_full E) ->
  exists m, max_component E fit pos vpos k = Ok m.
Proof.
  intros fit. induction k as [|k IH]; intros pos vpos P V; cbn [max_component]; [eexists; eauto|].
  destruct (get_defined fit pos) as (f & -> & _); [lia|].
  destruct (get_defined (values_full E) vpos) as (v & -> & _); [lia|]. cbn [bind].
  destruct k as [|k]; [eexists; eauto|].
  destruct (IH (S pos) (S vpos)) as (m & ->); [lia|lia|]. cbn. eexists; eauto.
Qed.

Lemma grad_residuals_spec : forall fit cs pos rs, grad_residuals_from E fit pos cs = Ok rs ->
  map fst rs = cs /\
  (forall k j, nth_error cs k = Some j -> exists m,
     In (j, m) rs /\ max_component E fit (pos + dim E * k) (mu_full E + dim E * j) (dim E) = Ok m).
Proof.
  intros fit. induction cs as [|c cs IH]; intros pos rs H; cbn [grad_residuals_from] in H.
  - injection H as <-. split; auto. intros [|k]; discriminate.
  - destruct (max_component E fit pos (mu_full E + dim E * c) (dim E)) as [m| |] eqn:MC; cbn in H; try discriminate.
    destruct (grad_residuals_from E fit (pos + dim E) cs) as [r| |] eqn:R; cbn in H; try discriminate.
    injection H as <-. destruct (IH _ _ R) as [M N]. split; [cbn; f_equal; auto|].
    intros [|k] j K; cbn in K.
    + injection K as <-. exists m. rewrite Nat.mul_0_r, Nat.add_0_r. split; auto. left; auto.
    + destruct (N k j K) as (m' & I & MC'). exists m'. split; [right; auto|].
      replace (pos + dim E * S k) with (pos + dim E + dim E * k) by lia. auto.
Qed.

Lemma grad_residuals_defined : forall fit cs pos,
  (forall c, In c cs -> c < sigma_full E) -> pos + dim E * length cs <= length fit ->
  exists rs, grad_residuals_from E fit pos cs = Ok rs.
Proof.
  intros fit. induction cs as [|c cs IH]; intros pos B L; cbn [grad_residuals_from]; [eexists; eauto|].
  cbn [length] in L. rewrite Nat.mul_succ_r in L.
  destruct (max_component_defined fit (dim E) pos (mu_full E + dim E * c)) as (m & ->).
  { lia. }
  { rewrite (ok_values near E OK).
    assert (dim E * S c <= dim E * sigma_full E); [|lia].
    apply Nat.mul_le_mono_l. apply B. left; auto. }
  destruct (IH (pos + dim E)) as (r & ->); [intros; apply B; right; auto|lia|]. cbn. eexists; eauto.
Qed.

Lemma need_fitting_zero : forall tol rs, need_fitting E tol rs = 0 ->
  forall j r, In (j, r) rs -> ltb E r tol = true.
Proof.
  intros tol. induction rs as [|[c x] rs IH]; intros H j r I; [destruct I|].
  cbn [need_fitting] in H. destruct (ltb E x tol) eqn:L; [|discriminate].
  destruct I as [I|I]; [injection I as <- <-; auto|]. eauto.
Qed.

Lemma need_fitting_le : forall tol rs, need_fitting E tol rs <= length rs.
Proof.
  intros tol. induction rs as [|[c x] rs IH]; cbn [need_fitting length]; [lia|].
  destruct (ltb E x tol); lia.
Qed.

(** ** New rows *)

Lemma sublist_firstn : forall (xs : list nat) n x, In x (firstn n xs) -> In x xs.
Proof.
  induction xs; intros [|n] x H; cbn in *; auto; try contradiction. destruct H; auto. right. eauto.
Qed.

Lemma NoDup_firstn : forall (xs : list nat) n, NoDup xs -> NoDup (firstn n xs).
Proof.
  induction xs; intros [|n] H; cbn; try constructor; inversion H; subst; auto.
  intros I. apply H2. eapply sublist_firstn; eauto.
Qed.

Lemma filter_ok : forall pts d order, (kMinDistance <= d)%R -> (forall i, In i order -> i < length pts) ->
  exists f, DistanceFilter.filter_indices valid_distance (radius_search E) (DistanceFilter.init pts) d order
            = Ok (Ok tt, f).
Proof.
  intros pts d order V B. apply DistanceFilter.filter_defined.
  - apply valid_ge; auto.
  - apply Forall_forall. exact B.
Qed.

Lemma new_rows_spec : forall pts cs others rs n d,
  distinct_rows cs (length pts) -> other_rows cs others (length pts) -> map fst rs = others ->
  (kMinDistance <= d)%R ->
  exists new, new_rows E pts cs (sort E rs) n d = Ok new /\
    NoDup new /\ (forall i, In i new -> In i others) /\
    (separated near d pts -> n <= length rs -> length new = n).
Proof.
  intros pts cs others rs n d [NDc Bc] [NDo Mo] M V.
  unfold new_rows. set (order := map fst (rev (sort E rs))).
  assert (Permutation order others) as P.
  { unfold order. rewrite map_rev. rewrite <- Permutation_rev. subst others.
    apply Permutation_map. apply (ok_sort near E OK). }
  assert (forall i, In i order <-> i < length pts /\ ~ In i cs) as IO.
  { intros i. rewrite <- Mo. split; apply Permutation_in; auto. apply Permutation_sym; auto. }
  assert (NoDup order) as NDO.
  { eapply Permutation_NoDup; [apply Permutation_sym; eauto|auto]. }
  destruct (filter_ok pts d (cs ++ order) V) as (f & F).
  { intros i I. apply in_app_iff in I. destruct I as [I|I]; [auto|]. apply IO in I. tauto. }
  rewrite F. pose proof (DistanceFilter.filter_thinning valid_distance near (radius_search E)
    (ok_search near E OK) (ok_near near E OK) _ _ _ _ F) as (PT & FT & TH).
  unfold DistanceFilter.filtered_indices. rewrite FT. cbn [bind].
  eexists. split; [reflexivity|]. split; [|split].
  - apply NoDup_filter. apply NoDup_firstn. auto.
  - intros i I. apply filter_In in I. destruct I as [I _]. apply sublist_firstn in I.
    eapply Permutation_in; eauto.
  - intros SEP L.
    assert (length order = length rs) as LO.
    { unfold order. rewrite map_length, rev_length. apply Permutation_length. apply (ok_sort near E OK). }
    assert (forall i, In i order -> In i (DistanceFilter.filtered_indices_ f)) as ALL.
    { intros i I. destruct (in_dec Nat.eq_dec i (DistanceFilter.filtered_indices_ f)) as [K|K]; auto.
      exfalso. destruct TH as [_ _ T3]. destruct (T3 i) as (k & KI & _ & A); auto.
      { apply in_app_iff. auto. }
      apply (SEP k i); auto. intros ->. contradiction. }
    assert (filter (fun i => DistanceFilter.memb i (DistanceFilter.filtered_indices_ f)) (firstn n order)
            = firstn n order) as ->.
    { assert (forall xs : list nat, (forall i, In i xs -> In i order) ->
        filter (fun i => DistanceFilter.memb i (DistanceFilter.filtered_indices_ f)) xs = xs) as H.
      { induction xs as [|x xs IH]; intros S; auto. cbn [filter].
        assert (DistanceFilter.memb x (DistanceFilter.filtered_indices_ f) = true) as ->.
        { apply DistanceFilter.memb_In. apply ALL. apply S. left; auto. }
        f_equal. apply IH. intros. apply S. right; auto. }
      apply H. intros i. apply sublist_firstn. }
    rewrite firstn_length. lia.
Qed.

(** ** Carry-over *)

Lemma carry_defined : forall w lm ls mu sigma, length w = lm + dim E * ls + l E ->
  lm <= mu -> ls <= sigma ->
  exists w', carry E w lm ls mu sigma = Ok w' /\ length w' = mu + dim E * sigma + l E.
Proof.
  intros w lm ls mu sigma L M S. unfold carry. rewrite L, Nat.eqb_refl. eexists. split; [reflexivity|].
  rewrite !app_length, !repeat_length, !firstn_length, !skipn_length, L.
  rewrite !Nat.min_l by lia. rewrite Nat.mul_sub_distr_l.
  assert (dim E * ls <= dim E * sigma) by (apply Nat.mul_le_mono_l; auto). lia.
Qed.

Lemma nth_error_repeat' : forall {A} (x : A) n i, i < n -> nth_error (repeat x n) i = Some x.
Proof. induction n; intros [|i] H; cbn; auto; try lia. apply IHn. lia. Qed.

Lemma nth_error_skipn' : forall {A} n (l : list A) i, nth_error (skipn n l) i = nth_error l (n + i).
Proof. induction n; intros [|x xs] i; cbn; auto. destruct i; reflexivity. Qed.

Lemma nth_error_firstn' : forall {A} n (l : list A) i, i < n -> nth_error (firstn n l) i = nth_error l i.
Proof. induction n; intros [|x xs] [|i] H; cbn; auto; try lia. apply IHn. lia. Qed.

Lemma carry_spec : forall w lm ls mu sigma w', carry E w lm ls mu sigma = Ok w' ->
  lm <= mu -> ls <= sigma ->
  (forall i, i < lm -> nth_error w' i = nth_error w i) /\
  (forall i, lm <= i < mu -> nth_error w' i = Some (zero E)) /\
  (forall i, i < dim E * ls -> nth_error w' (mu + i) = nth_error w (lm + i)) /\
  (forall i, dim E * ls <= i < dim E * sigma -> nth_error w' (mu + i) = Some (zero E)) /\
  (forall i, nth_error w' (mu + dim E * sigma + i) = nth_error w (lm + dim E * ls + i)).
Proof.
  intros w lm ls mu sigma w' H M S. unfold carry in H.
  destruct (Nat.eqb_spec (length w) (lm + dim E * ls + l E)) as [L|]; [|discriminate].
  injection H as <-.
  assert (dim E * ls <= dim E * sigma) as MS by (apply Nat.mul_le_mono_l; auto).
  rewrite Nat.mul_sub_distr_l.
  assert (length (firstn lm w) = lm) as L1 by (rewrite firstn_length; lia).
  assert (length (firstn (dim E * ls) (skipn lm w)) = dim E * ls) as L2
    by (rewrite firstn_length, skipn_length; lia).
  repeat split.
  - intros i I. rewrite nth_error_app1 by lia. apply nth_error_firstn'; auto.
  - intros i I. rewrite nth_error_app2, L1 by lia.
    rewrite nth_error_app1 by (rewrite repeat_length; lia). apply nth_error_repeat'. lia.
  - intros i I. rewrite nth_error_app2, L1 by lia.
    rewrite nth_error_app2 by (rewrite repeat_length; lia). rewrite repeat_length.
    rewrite nth_error_app1 by lia. rewrite nth_error_firstn' by lia. rewrite nth_error_skipn'.
    f_equal. lia.
  - intros i I. rewrite nth_error_app2, L1 by lia.
    rewrite nth_error_app2 by (rewrite repeat_length; lia). rewrite repeat_length.
    rewrite nth_error_app2, L2 by lia.
    rewrite nth_error_app1 by (rewrite repeat_length; lia). apply nth_error_repeat'. lia.
  - intros i. rewrite nth_error_app2, L1 by lia.
    rewrite nth_error_app2 by (rewrite repeat_length; lia). rewrite repeat_length.
    rewrite nth_error_app2, L2 by lia.
    rewrite nth_error_app2 by (rewrite repeat_length; lia). rewrite repeat_length.
    rewrite nth_error_skipn'. f_equal. lia.
Qed.

(** ** Rounds *)

Definition good (s : state D) : Prop :=
  distinct_rows (centers s) (mu_full E) /\ distinct_rows (grad_centers s) (sigma_full E) /\
  length (weights s) = length (centers s) + dim E * length (grad_centers s) + l E /\
  (kMinDistance <= filtering_distance s)%R.

Lemma distinct_app : forall is others new n, distinct_rows is n -> other_rows is others n ->
  NoDup new -> (forall i, In i new -> In i others) -> distinct_rows (is ++ new) n.
Proof.
  intros is others new n [ND B] [_ M] NN I. split.
  - apply NoDup_app_disjoint; auto. intros x X Y. apply I, M in Y. tauto.
  - intros i J. apply in_app_iff in J. destruct J as [J|J]; auto. apply I, M in J. tauto.
Qed.

Definition count (s : state D) : nat := length (centers s) + length (grad_centers s).

(** Everything one round can do. *)
Lemma step_spec : forall s, good s ->
  (exists e, step E s = Throw e /\ exists v, (solve_step E s = Throw e /\ center_values E s = Ok v) /\
     solve E (round s) (centers s) (grad_centers s) v (weights s) = Throw e) \/
  (step E s = UB /\ exists v, (solve_step E s = UB /\ center_values E s = Ok v) /\ solve E (round s) (centers s) (grad_centers s) v (weights s) = UB) \/
  (exists w, step E s = Ok (Finished (centers s) (grad_centers s) w) /\
             fitted E (centers s) (grad_centers s) w) \/
  (exists s', step E s = Ok (Next s') /\ good s' /\
     filtering_distance s' = Rmax (1 / 2 * filtering_distance s) kMinDistance /\
     (exists nc ng, centers s' = centers s ++ nc /\ grad_centers s' = grad_centers s ++ ng) /\
     (separated near (filtering_distance s) (points_full E) ->
      separated near (filtering_distance s) (grad_points_full E) -> count s < count s')).
Proof.
  intros s (GC & GG & GW & GF). unfold step, solve_step.
  set (cond := Nat.leb (l E) (length (centers s)) || _).
  assert ((exists e, (if cond then let* v := center_values E s in
             solve E (round s) (centers s) (grad_centers s) v (weights s) else Ok (weights s)) = Throw e /\
             exists v, (cond = true /\ center_values E s = Ok v) /\ solve E (round s) (centers s) (grad_centers s) v (weights s) = Throw e) \/
          ((if cond then let* v := center_values E s in
             solve E (round s) (centers s) (grad_centers s) v (weights s) else Ok (weights s)) = UB /\
             exists v, (cond = true /\ center_values E s = Ok v) /\ solve E (round s) (centers s) (grad_centers s) v (weights s) = UB) \/
          (exists w, (if cond then let* v := center_values E s in
             solve E (round s) (centers s) (grad_centers s) v (weights s) else Ok (weights s)) = Ok w /\
             length w = length (centers s) + dim E * length (grad_centers s) + l E)) as SOLVE.
  { destruct cond; [|right; right; eauto].
    destruct (center_values_defined s GC GG) as (v & CV). rewrite CV. cbn [bind].
    destruct (solve E (round s) (centers s) (grad_centers s) v (weights s)) as [w|e|] eqn:Q.
    - right; right. exists w. split; auto. eapply (ok_solve near E OK); eauto.
    - left. exists e. eauto.
    - right; left. split; auto. exists v. auto. }
  destruct SOLVE as [(e & -> & H)|[(-> & H)|(w & -> & LW)]]; cbn [bind].
  { left. exists e. split; auto. destruct H as (v & (-> & ->) & Q). exists v. cbn [bind]. auto. }
  { right; left. split; auto. destruct H as (v & (-> & ->) & Q). exists v. cbn [bind]. auto. }
  right; right.
  destruct (Nat.eqb (length (centers s)) (mu_full E) && Nat.eqb (length (grad_centers s)) (sigma_full E))
    eqn:ALL.
  { left. exists w. split; auto. apply andb_true_iff in ALL. destruct ALL as [A1 A2].
    apply Nat.eqb_eq in A1, A2. split; [auto|]. split; [auto|]. split; [auto|]. left. auto. }
  destruct (complement_spec _ _ GC) as (cc & -> & OC). destruct (complement_spec _ _ GG) as (cg & -> & OG).
  cbn [bind]. set (fit := evaluate E (round s) (centers s) (grad_centers s) w cc cg).
  assert (length fit = length cc + dim E * length cg) as LF by apply (ok_evaluate near E OK).
  pose proof (ok_values near E OK) as LV.
  destruct (residuals_defined fit cc 0) as (res & RES).
  { intros c I. apply (proj2 OC) in I. lia. }
  { lia. }
  destruct (grad_residuals_defined fit cg (length cc)) as (gres & GRES).
  { intros c I. apply (proj2 OG) in I. lia. }
  { lia. }
  rewrite RES, GRES. cbn [bind].
  destruct (residuals_spec _ _ _ _ RES) as [MR NR].
  destruct (grad_residuals_spec _ _ _ _ GRES) as [MG NG].
  set (n := need_fitting E (tolerance E) (sort E res)).
  set (gn := need_fitting E (grad_tolerance E) (sort E gres)).
  destruct (Nat.eqb n 0 && Nat.eqb gn 0) eqn:Z.
  { left. exists w. split; auto. apply andb_true_iff in Z. destruct Z as [Z1 Z2].
    apply Nat.eqb_eq in Z1, Z2.
    split; [auto|]. split; [auto|]. split; [auto|]. right. exists (round s), cc, cg.
    split; [auto|]. split; [auto|]. fold fit. split.
    - intros k j K. destruct (NR k j K) as (v & f & V & F & I). exists v, f. split; auto. split; auto.
      apply (need_fitting_zero _ _ Z1 j). eapply Permutation_in; [|exact I].
      apply Permutation_sym. apply (ok_sort near E OK).
    - intros k j t K T. destruct (NG k j K) as (m & I & MC).
      apply (max_component_spec _ _ _ _ _ MC t (grad_tolerance E) T).
      apply (need_fitting_zero _ _ Z2 j). eapply Permutation_in; [|exact I].
      apply Permutation_sym. apply (ok_sort near E OK). }
  right.
  destruct (new_rows_spec (points_full E) (centers s) cc res n (filtering_distance s) GC OC MR GF)
    as (new & -> & ND & IN & LN).
  destruct (new_rows_spec (grad_points_full E) (grad_centers s) cg gres gn (filtering_distance s) GG OG MG GF)
    as (gnew & -> & NDg & INg & LNg).
  cbn [bind].
  destruct (carry_defined w (length (centers s)) (length (grad_centers s)) (length (centers s ++ new))
              (length (grad_centers s ++ gnew)) LW) as (w' & -> & LW').
  { rewrite app_length. lia. }
  { rewrite app_length. lia. }
  cbn [bind]. eexists. split; [reflexivity|]. split; [|split; [|split]].
  - split; [|split; [|split]]; cbn [centers grad_centers weights filtering_distance].
    + eapply distinct_app; eauto.
    + eapply distinct_app; eauto.
    + exact LW'.
    + apply Rmax_r.
  - reflexivity.
  - exists new, gnew. split; reflexivity.
  - intros SP SG. unfold count. cbn [centers grad_centers].
    rewrite !app_length. rewrite LN, LNg; auto.
    + destruct n; [destruct gn; [discriminate Z|lia]|lia].
    + unfold gn. rewrite <- (Permutation_length (ok_sort near E OK gres)). apply need_fitting_le.
    + unfold n. rewrite <- (Permutation_length (ok_sort near E OK res)). apply need_fitting_le.
Qed.

Lemma init_good : good (init E).
Proof.
  unfold init, good. cbn [centers grad_centers weights filtering_distance].
  split; [|split; [|split]].
  - destruct (degree_one E && (mu_full E =? 1) && (1 <=? sigma_full E)) eqn:C.
    + apply andb_true_iff in C. destruct C as [C _]. apply andb_true_iff in C. destruct C as [_ C].
      apply Nat.eqb_eq in C. split; [repeat constructor; auto|]. intros i [<-|[]]. lia.
    + split; [constructor|]. intros i [].
  - split; [constructor|]. intros i [].
  - rewrite repeat_length. reflexivity.
  - apply Rmax_r.
Qed.

Lemma run_spec : forall n s, good s ->
  match run E n s with
  | Ok (Finished c g w) => fitted E c g w
  | Ok (Next s') => good s'
  | Throw e => exists r c g v w0, solve E r c g v w0 = Throw e
  | UB => exists r c g v w0, solve E r c g v w0 = UB
  end.
Proof.
  induction n as [|n IH]; intros s G; cbn [run]; auto.
  destruct (step_spec s G) as [(e & -> & v & _ & H)|[(-> & v & _ & H)|[(w & -> & F)|(s' & -> & G' & _)]]]; cbn [bind].
  - eauto 8.
  - eauto 8.
  - auto.
  - apply IH; auto.
Qed.

Lemma incremental_fitted : forall n c g w,
  run E n (init E) = Ok (Finished c g w) -> fitted E c g w.
Proof. intros n c g w H. pose proof (run_spec n (init E) init_good) as R. rewrite H in R. auto. Qed.

Lemma incremental_no_ub : forall n,
  (forall r c g v w0, solve E r c g v w0 <> UB) -> run E n (init E) <> UB.
Proof.
  intros n S H. pose proof (run_spec n (init E) init_good) as R. rewrite H in R.
  destruct R as (r & c & g & v & w0 & R). eapply S; eauto.
Qed.

(** ** Termination *)

(** The distance after k rounds. *)
Lemma halving : forall k d, (d <= 2 ^ S k * kMinDistance)%R ->
  (Rmax (1 / 2 * d) kMinDistance <= 2 ^ k * kMinDistance)%R.
Proof.
  intros k d H. pose proof kMin_pos. assert (1 <= 2 ^ k)%R by (apply pow_R1_Rle; lra).
  cbn [pow] in H. apply Rmax_lub; nra.
Qed.

Lemma count_le : forall s, good s -> count s <= mu_full E + sigma_full E.
Proof.
  intros s ((ND & B) & (NDg & Bg) & _). unfold count.
  assert (forall is n, NoDup is -> (forall i, In i is -> i < n) -> length is <= n) as L.
  { intros is n N1 N2. rewrite <- (seq_length n 0). apply NoDup_incl_length; auto.
    intros i I. apply in_seq. apply N2 in I. lia. }
  pose proof (L _ _ ND B). pose proof (L _ _ NDg Bg). lia.
Qed.

Lemma terminates_at_min : separated near kMinDistance (points_full E) ->
  separated near kMinDistance (grad_points_full E) ->
  forall n s, good s -> filtering_distance s = kMinDistance ->
  mu_full E + sigma_full E < n + count s -> settled (run E n s).
Proof.
  intros SP SG. induction n as [|n IH]; intros s G D0 L.
  { pose proof (count_le s G). lia. }
  cbn [run]. destruct (step_spec s G) as [(e & -> & _)|[(-> & _)|[(w & -> & _)|(s' & -> & G' & FD & _ & C)]]];
    cbn [bind settled]; auto.
  apply IH; auto.
  - rewrite FD, D0. pose proof kMin_pos. apply Rmax_right. lra.
  - rewrite D0 in C. specialize (C SP SG). lia.
Qed.

Lemma terminates_from : separated near kMinDistance (points_full E) ->
  separated near kMinDistance (grad_points_full E) ->
  forall k s n, good s -> (filtering_distance s <= 2 ^ k * kMinDistance)%R ->
  mu_full E + sigma_full E < n -> settled (run E (k + n) s).
Proof.
  intros SP SG. induction k as [|k IH]; intros s n G H L; cbn [plus].
  - apply terminates_at_min; auto; [|lia]. destruct G as (_ & _ & _ & G). cbn in H. lra.
  - cbn [run]. destruct (step_spec s G) as [(e & -> & _)|[(-> & _)|[(w & -> & _)|(s' & -> & G' & FD & _)]]];
      cbn [bind settled]; auto.
    apply IH; auto. rewrite FD. apply halving. auto.
Qed.

Lemma incremental_terminates : separated near kMinDistance (points_full E) ->
  separated near kMinDistance (grad_points_full E) ->
  forall k, (width_norm E <= 2 ^ k * kMinDistance)%R ->
  settled (run E (k + (mu_full E + sigma_full E + 1)) (init E)).
Proof.
  intros SP SG k H. apply terminates_from; auto.
  - apply init_good.
  - unfold init. cbn [filtering_distance]. pose proof kMin_pos.
    assert (1 <= 2 ^ k)%R by (apply pow_R1_Rle; lra). apply Rmax_lub; nra.
  - lia.
Qed.

End Proofs.
