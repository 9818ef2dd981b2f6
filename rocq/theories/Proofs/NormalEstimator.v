From Coq Require Import Reals List Arith ZArith Bool Permutation Lia Lra Sorted.
From Verif Require Import Model.Outcome Model.LinAlg Model.NormalEstimator Spec.NormalEstimator Proofs.LinAlg.
Import ListNotations.
Local Open Scope R_scope.

(** ** Orientation of single normals *)
Lemma dot_neg : forall v w, dot 3 (neg3 v) w = - dot 3 v w.
Proof. intros v w. unfold dot, neg3. rewrite <- rsum_opp. apply rsum_ext. intros; ring. Qed.
Lemma dot_neg2 : forall v w, dot 3 (neg3 v) (neg3 w) = dot 3 v w.
Proof. intros v w. unfold dot, neg3. apply rsum_ext. intros; ring. Qed.
Lemma dot_z : forall v, dot 3 v unit_z = v 2%nat.
Proof. intros v. unfold dot, unit_z. cbn. ring. Qed.
Lemma zero_is_zero : is_zero zero3 = true.
Proof.
  unfold is_zero, zero3. rewrite Rabs_R0. assert (0 <= / 10 ^ 12) by (left; apply Rinv_0_lt_compat, pow_lt; lra). destruct (Rle_dec 0 (/ 10 ^ 12)); [auto|contradiction].
Qed.
Theorem direction_spec : forall d s i, kept_or_negated (normals (orient_toward_direction d s) i) (normals s i) /\
  0 <= dot 3 (normals (orient_toward_direction d s) i) d /\ (normals s i = zero3 -> normals (orient_toward_direction d s) i = zero3) /\
  (0 <= dot 3 (normals s i) d -> normals (orient_toward_direction d s) i = normals s i).
Proof.
  intros d s i. unfold orient_toward_direction. cbn [normals]. destruct (Rlt_dec (dot 3 (normals s i) d) 0) as [L|L].
  - split; [right; auto|]. rewrite dot_neg. split; [lra|]. split; [|intros; lra]. intros Z. rewrite Z in L. unfold dot, zero3 in L. cbn in L. lra.
  - split; [left; auto|]. split; [lra|]. auto.
Qed.
Theorem point_spec : forall points q s i, let v := fun e => q e - points i e in
  kept_or_negated (normals (orient_toward_point points q s) i) (normals s i) /\
  0 <= dot 3 (normals (orient_toward_point points q s) i) v /\ (normals s i = zero3 -> normals (orient_toward_point points q s) i = zero3) /\
  (0 <= dot 3 (normals s i) v -> normals (orient_toward_point points q s) i = normals s i).
Proof. intros points q s i v. exact (direction_spec v s i). Qed.
Theorem filter_spec : forall t s i, (factors s i < t -> normals (filter_by_plane_factor t s) i = zero3) /\
  (t <= factors s i -> normals (filter_by_plane_factor t s) i = normals s i).
Proof. intros t s i. unfold filter_by_plane_factor. cbn [normals]. destruct (Rlt_dec (factors s i) t); split; intros; auto; lra. Qed.

(** ** Estimation *)
Lemma best_of_spec : forall l b, In (best_of b l) (b :: l) /\ forall y, In y (b :: l) -> fst y <= fst (best_of b l).
Proof.
  induction l as [|x l IH]; intros b; cbn [best_of].
  - split; [left; auto|]. intros y [<-|[]]. lra.
  - destruct (Rlt_dec (fst b) (fst x)) as [L|L].
    + destruct (IH x) as [A B]. split; [right; auto|]. intros y [<-|Y]; [|auto]. specialize (B x (or_introl eq_refl)). lra.
    + destruct (IH b) as [A B]. split; [destruct A; [left|right; right]; auto|]. intros y [<-|[<-|Y]]; [apply B; left; auto| |apply B; right; auto].
      specialize (B b (or_introl eq_refl)). lra.
Qed.
Lemma for_rows_ok : forall {A : Type} (f : nat -> outcome A) rows l, for_rows f rows = Ok l -> forall k i, nth_error rows k = Some i -> exists x, nth_error l k = Some x /\ f i = Ok x.
Proof.
  intros A f. induction rows as [|r rows IH]; intros l E k i K; [destruct k; discriminate|]. cbn in E. destruct (f r) as [x| |] eqn:F; try discriminate. cbn in E.
  destruct (for_rows f rows) as [l'| |] eqn:G; try discriminate. cbn in E. injection E as <-. destruct k as [|k]; cbn in K |- *.
  - injection K as <-. eauto.
  - eapply IH; eauto.
Qed.
Lemma for_rows_all : forall {A : Type} (f : nat -> outcome A) rows, (forall i, In i rows -> exists x, f i = Ok x) -> exists l, for_rows f rows = Ok l.
Proof.
  intros A f. induction rows as [|r rows IH]; intros H; cbn; [eauto|]. destruct (H r (or_introl eq_refl)) as [x X]. rewrite X. cbn.
  destruct IH as [l L]; [intros; apply H; right; auto|]. rewrite L. cbn. eauto.
Qed.
Lemma insert_down_perm : forall k l, Permutation (k :: l) (insert_down k l).
Proof. intros k l. induction l as [|x l IH]; cbn; auto. destruct (x <=? k)%Z; auto. rewrite perm_swap. constructor. auto. Qed.
Lemma sort_down_perm : forall l, Permutation l (sort_down l).
Proof. induction l as [|k l IH]; cbn; auto. rewrite <- insert_down_perm. constructor. auto. Qed.
Lemma insert_down_sorted : forall k l, StronglySorted Z.ge l -> StronglySorted Z.ge (insert_down k l).
Proof.
  intros k l SS. induction SS as [|x l SS IH F]; cbn; [repeat constructor|]. rewrite Forall_forall in F. destruct (Z.leb_spec x k) as [L|L].
  - constructor; [constructor; auto; apply Forall_forall; auto|]. constructor; [lia|]. apply Forall_forall. intros y Y. specialize (F y Y). lia.
  - constructor; auto. apply Forall_forall. intros y Y. apply (Permutation_in _ (Permutation_sym (insert_down_perm k l))) in Y. destruct Y as [<-|Y]; [lia|]. auto.
Qed.
Lemma sort_down_sorted : forall l, StronglySorted Z.ge (sort_down l).
Proof. induction l as [|k l IH]; cbn; [constructor|]. apply insert_down_sorted. auto. Qed.
Section K.
Variable n_points : nat.
Variable plane : list nat -> R * vec3.
Lemma resize_firstn : forall l k, (k <= length l)%nat -> resize l k = firstn k l.
Proof. intros l k L. unfold resize. replace (k - length l)%nat with 0%nat by lia. apply app_nil_r. Qed.
Lemma knn_scales_spec : forall (nn : list nat) ks m, StronglySorted Z.ge ks -> (forall k, In k ks -> (3 <= k)%Z /\ (min (Z.to_nat k) n_points <= m)%nat) -> (3 <= n_points)%nat -> (m <= length nn)%nat ->
  knn_scales n_points plane ks (firstn m nn) = Ok (map (fun k => plane (firstn (min (Z.to_nat k) n_points) nn)) ks).
Proof.
  intros nn. induction ks as [|k ks IH]; intros m SS K N L; cbn [knn_scales map]; auto.
  destruct (K k (or_introl eq_refl)) as [K3 KM]. assert (length (firstn m nn) = m) as LM by (rewrite firstn_length; lia).
  rewrite resize_firstn by lia. rewrite firstn_firstn. replace (min (min (Z.to_nat k) n_points) m) with (min (Z.to_nat k) n_points) by lia.
  unfold plane_estimator. rewrite firstn_length. destruct (Nat.ltb_spec (min (min (Z.to_nat k) n_points) (length nn)) 3); [lia|]. cbn [bind].
  inversion SS as [|? ? S1 S2]; subst. rewrite Forall_forall in S2. rewrite IH; auto; try lia.
  intros k' K'. split; [apply K; right; auto|]. specialize (S2 k' K'). lia.
Qed.
Theorem knn_spec : forall nearest ks, (forall i k, length (nearest i k) = k) -> ks <> [] -> (forall k, In k ks -> (3 <= k)%Z) -> (3 <= n_points)%nat ->
  exists s, estimate_with_knn n_points plane nearest ks = Ok s /\
  forall i, (i < n_points)%nat ->
    best_scale (map (fun k => plane (firstn (min (Z.to_nat k) n_points) (nearest i (min (Z.to_nat (fold_right Z.max 0%Z ks)) n_points)))) ks) (factors s i, normals s i).
Proof.
  intros nearest ks LN NE K N. unfold estimate_with_knn. destruct ks as [|k0 ks0] eqn:E; [contradiction|]. rewrite <- E in *. cbv iota beta.
  assert (existsb (fun k => (k <? 3)%Z) ks = false) as ->.
  { destruct (existsb (fun k => (k <? 3)%Z) ks) eqn:X; auto. apply existsb_exists in X. destruct X as (k & I & L). apply Z.ltb_lt in L. specialize (K k I). lia. }
  destruct (Nat.ltb_spec n_points 3); [lia|]. cbv zeta. set (kmax := min (Z.to_nat (hd 0%Z (sort_down ks))) n_points).
  pose proof (sort_down_perm ks) as P. pose proof (sort_down_sorted ks) as SS.
  assert (fold_right Z.max 0%Z ks = hd 0%Z (sort_down ks)) as HM.
  { assert (forall l, (forall k, In k l -> (3 <= k)%Z) -> forall x, In x l -> (x <= fold_right Z.max 0 l)%Z) as UP.
    { induction l as [|y l IH]; intros A x I; [destruct I|]. destruct I as [<-|I]; cbn; [lia|]. specialize (IH ltac:(intros; apply A; right; auto) x I). lia. }
    assert (forall l, l <> [] -> (forall k, In k l -> (3 <= k)%Z) -> In (fold_right Z.max 0%Z l) l) as IN.
    { induction l as [|y l IH]; intros A B; [contradiction|]. cbn. destruct l as [|y' l']; [left; cbn; specialize (B y (or_introl eq_refl)); lia|].
      specialize (IH ltac:(discriminate) ltac:(intros; apply B; right; auto)). destruct (Z.max_spec y (fold_right Z.max 0%Z (y' :: l'))) as [[_ ->]|[_ ->]]; [right; auto|left; auto]. }
    destruct (sort_down ks) as [|h t] eqn:SD; [apply Permutation_sym, Permutation_nil in P; congruence|]. cbn [hd]. inversion SS as [|? ? S1 S2]; subst. rewrite Forall_forall in S2.
    apply Z.le_antisymm.
    - specialize (IN _ NE K). apply (Permutation_in _ P) in IN. destruct IN as [<-|I]; [lia|]. specialize (S2 _ I). lia.
    - apply UP; auto. apply (Permutation_in _ (Permutation_sym P)). left. auto. }
  rewrite HM. fold kmax.
  assert (forall i, knn_scales n_points plane (sort_down ks) (nearest i kmax) = Ok (map (fun k => plane (firstn (min (Z.to_nat k) n_points) (nearest i kmax))) (sort_down ks))) as KS.
  { intros i. rewrite <- (firstn_all (nearest i kmax)) at 1. rewrite LN. apply knn_scales_spec; auto; [|rewrite LN; lia]. intros k I. split.
    - apply K. apply (Permutation_in _ (Permutation_sym P)). auto.
    - unfold kmax. destruct (sort_down ks) as [|h t] eqn:SD; [destruct I|]. cbn [hd]. inversion SS as [|? ? S1 S2]; subst. rewrite Forall_forall in S2.
      destruct I as [<-|I]; [lia|]. specialize (S2 k I). lia. }
  set (f := fun i => let* xs := knn_scales n_points plane (sort_down ks) (nearest i kmax) in best xs).
  assert (forall i, exists x, f i = Ok x /\ best_scale (map (fun k => plane (firstn (min (Z.to_nat k) n_points) (nearest i kmax))) (sort_down ks)) x) as FB.
  { intros i. unfold f. rewrite KS. cbn [bind]. destruct (sort_down ks) as [|h t] eqn:SD; [apply Permutation_sym, Permutation_nil in P; congruence|]. cbn [map best].
    eexists. split; [reflexivity|]. apply best_of_spec. }
  destruct (for_rows_all f (seq 0 n_points)) as [l L]; [intros i _; destruct (FB i) as (x & X & _); eauto|]. rewrite L. cbn [bind]. eexists. split; [reflexivity|].
  intros i I. destruct (for_rows_ok _ _ _ L i i) as (x & X & FX). { rewrite (nth_error_nth' _ 0%nat) by (rewrite seq_length; auto). rewrite seq_nth; auto. }
  destruct (FB i) as (x' & FX' & [B1 B2]). rewrite FX in FX'. injection FX' as <-. cbn [normals factors of_rows].
  rewrite (nth_error_nth l i (0, zero3) X). rewrite <- surjective_pairing.
  assert (Permutation (map (fun k => plane (firstn (min (Z.to_nat k) n_points) (nearest i kmax))) ks) (map (fun k => plane (firstn (min (Z.to_nat k) n_points) (nearest i kmax))) (sort_down ks))) as PM by (apply Permutation_map; auto).
  split; [apply (Permutation_in _ (Permutation_sym PM)); auto|]. intros y Y. apply B2. apply (Permutation_in _ PM). auto.
Qed.
Theorem knn_few : forall nearest ks, ks <> [] -> (forall k, In k ks -> (3 <= k)%Z) -> (n_points < 3)%nat ->
  estimate_with_knn n_points plane nearest ks = Ok {| normals := fun _ => zero3; factors := fun _ => 0 |}.
Proof.
  intros nearest ks NE K N. unfold estimate_with_knn. destruct ks as [|k0 ks0] eqn:E; [contradiction|]. rewrite <- E in *. cbv iota beta.
  assert (existsb (fun k => (k <? 3)%Z) ks = false) as ->.
  { destruct (existsb (fun k => (k <? 3)%Z) ks) eqn:X; auto. apply existsb_exists in X. destruct X as (k & I & L). apply Z.ltb_lt in L. specialize (K k I). lia. }
  destruct (Nat.ltb_spec n_points 3); [auto|lia].
Qed.

(** *** By radius *)
Lemma insert_r_perm : forall k l, Permutation (k :: l) (insert_r k l).
Proof. intros k l. induction l as [|x l IH]; cbn; auto. destruct (Rle_dec x k); auto. rewrite perm_swap. constructor. auto. Qed.
Lemma sort_r_perm : forall l, Permutation l (sort_r l).
Proof. induction l as [|k l IH]; cbn; auto. rewrite <- insert_r_perm. constructor. auto. Qed.
Lemma insert_r_sorted : forall k l, StronglySorted Rge l -> StronglySorted Rge (insert_r k l).
Proof.
  intros k l SS. induction SS as [|x l SS IH F]; cbn; [repeat constructor|]. rewrite Forall_forall in F. destruct (Rle_dec x k) as [L|L].
  - constructor; [constructor; auto; apply Forall_forall; auto|]. constructor; [lra|]. apply Forall_forall. intros y Y. specialize (F y Y). lra.
  - constructor; auto. apply Forall_forall. intros y Y. apply (Permutation_in _ (Permutation_sym (insert_r_perm k l))) in Y. destruct Y as [<-|Y]; [lra|]. auto.
Qed.
Lemma sort_r_sorted : forall l, StronglySorted Rge (sort_r l).
Proof. induction l as [|k l IH]; cbn; [constructor|]. apply insert_r_sorted. auto. Qed.
Lemma radius_scales_spec : forall (nn : list nat) (count : R -> nat) radii m, StronglySorted Rge radii -> (forall r r', r <= r' -> (count r <= count r')%nat) ->
  (forall r, In r radii -> (3 <= count r <= m)%nat) -> (m <= length nn)%nat ->
  radius_scales plane count radii (firstn m nn) = Ok (map (fun r => plane (firstn (count r) nn)) radii).
Proof.
  intros nn count. induction radii as [|r radii IH]; intros m SS MO K L; cbn [radius_scales map]; auto.
  pose proof (K r (or_introl eq_refl)) as KR. assert (length (firstn m nn) = m) as LM by (rewrite firstn_length; lia).
  rewrite LM. replace (min (count r) m) with (count r) by lia. rewrite resize_firstn by lia. rewrite firstn_firstn. replace (min (count r) m) with (count r) by lia.
  unfold plane_estimator. rewrite firstn_length. destruct (Nat.ltb_spec (min (count r) (length nn)) 3); [lia|]. cbn [bind].
  inversion SS as [|? ? S1 S2]; subst. rewrite Forall_forall in S2. rewrite IH; auto; try lia.
  intros r' R'. split; [apply K; right; auto|]. apply MO. specialize (S2 r' R'). lra.
Qed.
Lemma largest_head : forall radii, radii <> [] -> (forall r, In r radii -> 0 < r) -> largest radii = hd 0 (sort_r radii).
Proof.
  intros radii NE K. unfold largest. pose proof (sort_r_perm radii) as P. pose proof (sort_r_sorted radii) as SS.
  assert (forall l, (forall k, In k l -> 0 < k) -> forall x, In x l -> x <= fold_right Rmax 0 l) as UP.
  { induction l as [|y l IH]; intros A x I; [destruct I|]. destruct I as [<-|I]; cbn; [apply Rmax_l|]. eapply Rle_trans; [apply IH; [intros; apply A; right; auto|exact I]|apply Rmax_r]. }
  assert (forall l, l <> [] -> (forall k, In k l -> 0 < k) -> In (fold_right Rmax 0 l) l) as IN.
  { induction l as [|y l IH]; intros A B; [contradiction|]. cbn. destruct l as [|y' l'].
    - left. cbn. rewrite Rmax_left; auto. specialize (B y (or_introl eq_refl)). lra.
    - specialize (IH ltac:(discriminate) ltac:(intros; apply B; right; auto)). change (In (Rmax y (fold_right Rmax 0 (y' :: l'))) (y :: y' :: l')). apply Rmax_case; [left; auto|right; auto]. }
  destruct (sort_r radii) as [|h t] eqn:SD; [apply Permutation_sym, Permutation_nil in P; congruence|]. cbn [hd]. inversion SS as [|? ? S1 S2]; subst. rewrite Forall_forall in S2.
  apply Rle_antisym.
  - specialize (IN _ NE K). apply (Permutation_in _ P) in IN. destruct IN as [<-|I]; [lra|]. specialize (S2 _ I). lra.
  - apply UP; auto. apply (Permutation_in _ (Permutation_sym P)). left. auto.
Qed.
Theorem radius_spec : forall within count radii, radii <> [] -> (forall r, In r radii -> 0 < r) ->
  (forall i r r', r <= r' -> (count i r <= count i r')%nat) -> (forall i r, r <= largest radii -> (count i r <= length (within i (largest radii)))%nat) ->
  (forall i r, (i < n_points)%nat -> In r radii -> (3 <= length (within i (largest radii)))%nat -> (3 <= count i r)%nat) ->
  exists s, estimate_with_radius n_points plane within count radii = Ok s /\
  forall i, (i < n_points)%nat ->
    ((length (within i (largest radii)) < 3)%nat -> factors s i = 0 /\ normals s i = zero3) /\
    ((3 <= length (within i (largest radii)))%nat -> best_scale (map (fun r => plane (firstn (count i r) (within i (largest radii)))) radii) (factors s i, normals s i)).
Proof.
  intros within count radii NE K MO LE C3. unfold estimate_with_radius. pose proof (largest_head radii NE K) as HM.
  destruct radii as [|k0 ks0] eqn:E; [contradiction|]. rewrite <- E in *. cbv iota beta.
  match goal with |- context [existsb ?f radii] => assert (existsb f radii = false) as -> end.
  { match goal with |- ?x = false => destruct x eqn:X; auto end. apply existsb_exists in X. destruct X as (k & I & L). specialize (K k I). destruct (Rlt_dec 0 k); [discriminate|contradiction]. }
  cbv zeta. rewrite <- HM.
  pose proof (sort_r_perm radii) as P. pose proof (sort_r_sorted radii) as SS.
  set (w := fun i => within i (largest radii)) in *.
  assert (forall r, In r radii -> r <= largest radii) as LG.
  { intros r I. rewrite HM. apply (Permutation_in _ P) in I. clear - I SS. destruct (sort_r radii) as [|h t]; [destruct I|]. cbn [hd]. inversion SS as [|? ? S1 S2]; subst. rewrite Forall_forall in S2.
    destruct I as [<-|I]; [lra|]. specialize (S2 _ I). lra. }
  match goal with |- context [for_rows ?f0 _] => set (f := f0) end.
  assert (forall i, (i < n_points)%nat -> exists x, f i = Ok x /\ ((length (w i) < 3)%nat -> x = (0, zero3)) /\
            ((3 <= length (w i))%nat -> best_scale (map (fun r => plane (firstn (count i r) (w i))) (sort_r radii)) x)) as FB.
  { intros i IN. unfold f. fold (w i). destruct (Nat.ltb_spec (length (w i)) 3) as [L|L]; [eexists; split; [reflexivity|]; split; [auto|lia]|].
    pose proof (radius_scales_spec (w i) (count i) (sort_r radii) (length (w i)) SS (MO i)) as RS. rewrite firstn_all in RS. rewrite RS; [|intros r I; apply (Permutation_in _ (Permutation_sym P)) in I; split; [apply C3; auto|apply LE; auto]|lia].
    cbn [bind]. destruct (sort_r radii) as [|h t] eqn:SD; [apply Permutation_sym, Permutation_nil in P; congruence|]. cbn [map best].
    eexists. split; [reflexivity|]. split; [lia|]. intros _. apply best_of_spec. }
  destruct (for_rows_all f (seq 0 n_points)) as [l L]; [intros i I; apply in_seq in I; destruct (FB i) as (x & X & _); [lia|]; eauto|]. rewrite L. cbn [bind]. eexists. split; [reflexivity|].
  intros i I. destruct (for_rows_ok _ _ _ L i i) as (x & X & FX). { rewrite (nth_error_nth' _ 0%nat) by (rewrite seq_length; auto). rewrite seq_nth; auto. }
  destruct (FB i I) as (x' & FX' & B0 & B). rewrite FX in FX'. injection FX' as <-. cbn [normals factors of_rows].
  rewrite (nth_error_nth l i (0, zero3) X). rewrite <- surjective_pairing. split; [intros Y; rewrite (B0 Y); auto|]. intros Y. destruct (B Y) as [B1 B2].
  assert (Permutation (map (fun r => plane (firstn (count i r) (w i))) radii) (map (fun r => plane (firstn (count i r) (w i))) (sort_r radii))) as PM by (apply Permutation_map; auto).
  split; [apply (Permutation_in _ (Permutation_sym PM)); auto|]. intros y YI. apply B2. apply (Permutation_in _ PM). auto.
Qed.
(** A smaller ball with fewer than three rows. *)
Theorem radius_few : forall within count r1 r2, (0 < n_points)%nat -> 0 < r2 -> r2 < r1 -> (3 <= length (within 0%nat r1))%nat -> (length (within 0%nat r1) <= count 0%nat r1)%nat -> (count 0%nat r2 < 3)%nat ->
  estimate_with_radius n_points plane within count [r1; r2] = UB.
Proof.
  intros within count r1 r2 N R2 R1 W C1 C2. unfold estimate_with_radius. cbn [existsb].
  destruct (Rlt_dec 0 r1); [|lra]. destruct (Rlt_dec 0 r2); [|lra]. cbn [orb]. cbv zeta. unfold sort_r. cbn [fold_right insert_r].
  destruct (Rle_dec r2 r1); [|lra]. cbn [hd].
  destruct n_points as [|n]; [lia|]. cbn [seq for_rows]. destruct (Nat.ltb_spec (length (within 0%nat r1)) 3); [lia|]. cbn [radius_scales].
  rewrite resize_firstn by lia. unfold plane_estimator at 1. rewrite firstn_length. destruct (Nat.ltb_spec (min (min (count 0%nat r1) (length (within 0%nat r1))) (length (within 0%nat r1))) 3); [lia|]. cbn [bind].
  match goal with |- context [plane_estimator ?a ?b] => assert (plane_estimator a b = UB) as -> end; [|reflexivity].
  unfold plane_estimator. rewrite resize_firstn by (rewrite firstn_length; lia). rewrite !firstn_length. match goal with |- context [(?a <? 3)%nat] => destruct (Nat.ltb_spec a 3); [auto|lia] end.
Qed.
End K.
