From Coq Require Import Reals List Arith ZArith Bool Permutation Lia Lra.
From Verif Require Import Model.Outcome Model.LinAlg Model.Variogram Spec.Variogram Proofs.LinAlg.
From Verif Require Proofs.LatticeVertices.
Import ListNotations.
Local Open Scope R_scope.

(** ** Rounding *)
Lemma floor_le : forall x (z : Z), (z <= floor x)%Z <-> IZR z <= x.
Proof.
  intros x z. unfold floor. destruct (base_Int_part x) as [A B]. split; intros H.
  - apply IZR_le in H. lra.
  - apply Z.lt_succ_r. apply lt_IZR. unfold Z.succ. rewrite plus_IZR. lra.
Qed.
Lemma ceil_le : forall x (z : Z), (ceil x <= z)%Z <-> x <= IZR z.
Proof.
  intros x z. unfold ceil. pose proof (floor_le (- x) (- z)) as F. unfold floor in F. rewrite opp_IZR in F.
  split; intros H.
  - assert (- IZR z <= - x) by (apply F; lia). lra.
  - assert (- z <= Int_part (- x))%Z by (apply F; lra). lia.
Qed.

Lemma each_app : forall {A B : Type} (f : A -> B -> outcome B) l m b, each f (l ++ m) b = let* b' := each f l b in each f m b'.
Proof. intros A B f. induction l as [|a l IH]; intros m b; cbn; auto. destruct (f a b); cbn; auto. Qed.
Lemma change_map : forall {A : Type} (f : nat -> A) (h : A -> outcome A) m s i r, (i < m)%nat -> h (f (s + i)%nat) = Ok r ->
  change (map f (seq s m)) i h = Ok (map (fun b => if Nat.eqb b (s + i) then r else f b) (seq s m)).
Proof.
  intros A f h. induction m as [|m IH]; intros s i r L H; [lia|]. cbn [seq map]. destruct i as [|i]; cbn [change].
  - rewrite Nat.add_0_r in *. rewrite H. cbn [bind]. rewrite Nat.eqb_refl. f_equal. f_equal. apply map_ext_in. intros b B. apply in_seq in B.
    destruct (Nat.eqb_spec b s); [lia|auto].
  - rewrite (IH (S s) i r) by (lia || (rewrite <- H; f_equal; f_equal; lia)). cbn [bind]. destruct (Nat.eqb_spec s (s + S i)); [lia|]. f_equal. f_equal.
    apply map_ext. intros b. replace (S s + i)%nat with (s + S i)%nat by lia. auto.
Qed.
Lemma each_change : forall {A : Type} (h : A -> outcome A) m ts (f f' : nat -> A), NoDup ts -> (forall t, In t ts -> (t < m)%nat /\ h (f t) = Ok (f' t)) ->
  each (fun t l => change l t h) ts (map f (seq 0 m)) = Ok (map (fun b => if existsb (Nat.eqb b) ts then f' b else f b) (seq 0 m)).
Proof.
  intros A h m. induction ts as [|t ts IH]; intros f f' ND H; cbn [each existsb]; auto.
  inversion ND as [|? ? NI ND']; subst. destruct (H t (or_introl eq_refl)) as [L E].
  rewrite (change_map f h m 0 t (f' t)) by auto. cbn [bind Nat.add].
  rewrite (IH (fun b => if Nat.eqb b t then f' t else f b) f' ND').
  - f_equal. apply map_ext. intros b. destruct (Nat.eqb_spec b t); cbn; auto. subst. destruct (existsb (Nat.eqb t) ts); auto.
  - intros t' T. destruct (H t' (or_intror T)) as [L' E']. split; auto. destruct (Nat.eqb_spec t' t); auto. subst. contradiction.
Qed.

Section V.
Variable dim n_points : nat.
Variable points : nat -> nat -> R.
Variable values : nat -> R.
Variable lag_distance : R.
Variable num_lags : nat.
Variable lag_tolerance : option R.
Variable n_directions : nat.
Variable directions : nat -> nat -> R.
Variable angle_tolerance : option R.
Hypothesis LAG : 0 < lag_distance.
Hypothesis DIRS : (0 < n_directions)%nat.
Notation tol := (tolerance lag_distance lag_tolerance).
Notation D := (dist dim points).
Notation G := (gamma values).

Lemma bins_of_spec : forall d b, In b (bins_of lag_distance num_lags lag_tolerance d) <-> (b < num_lags)%nat /\ in_bin lag_distance tol b d.
Proof.
  intros d b. unfold bins_of. cbv zeta. set (c := ceil _). set (f := floor _). rewrite in_seq.
  assert ((c <= Z.of_nat b)%Z <-> d - tol <= INR b * lag_distance) as C.
  { unfold c. rewrite ceil_le, <- INR_IZR_INZ. split; intros H.
    - replace (d - tol) with (lag_distance * (/ lag_distance * (d - tol))) by (field; lra). rewrite Rmult_comm. apply Rmult_le_compat_r; lra.
    - apply Rmult_le_reg_l with lag_distance; [lra|]. replace (lag_distance * (/ lag_distance * (d - tol))) with (d - tol) by (field; lra). lra. }
  assert ((Z.of_nat b <= f)%Z <-> INR b * lag_distance <= d + tol) as F.
  { unfold f. rewrite floor_le, <- INR_IZR_INZ. split; intros H.
    - replace (d + tol) with (/ lag_distance * (d + tol) * lag_distance) by (field; lra). apply Rmult_le_compat_r; lra.
    - apply Rmult_le_reg_r with lag_distance; [lra|]. replace (/ lag_distance * (d + tol) * lag_distance) with (d + tol) by (field; lra). lra. }
  assert (in_bin lag_distance tol b d <-> (c <= Z.of_nat b)%Z /\ (Z.of_nat b <= f)%Z) as I.
  { rewrite C, F. unfold in_bin. split; [intros H|].
    - assert (- tol <= d - INR b * lag_distance <= tol) as [X Y]. { split; [|apply Rle_trans with (2 := H); apply Rle_abs].
        apply Ropp_le_cancel. rewrite Ropp_involutive. apply Rle_trans with (2 := H). rewrite <- Rabs_Ropp. apply Rle_abs. } split; lra.
    - intros [X Y]. apply Rabs_le. lra. }
  rewrite I. lia.
Qed.

(** ** What the bins hold *)
Definition inb (b : nat) (p : nat * nat) : bool := if Rle_dec (Rabs (D (fst p) (snd p) - INR b * lag_distance)) tol then true else false.
Lemma inb_spec : forall b p, inb b p = true <-> in_bin lag_distance tol b (D (fst p) (snd p)).
Proof. intros b p. unfold inb, in_bin. destruct (Rle_dec _ _); split; auto; discriminate || contradiction. Qed.
Definition content (b : nat) (ps : list (nat * nat)) : bin :=
  let l := filter (inb b) ps in (lsum l (fun p => D (fst p) (snd p)), lsum l (fun p => G (fst p) (snd p)), length l).
Definition contents (ps : list (nat * nat)) : list bin := map (fun b => content b ps) (seq 0 num_lags).
Lemma content_app : forall b ps qs, content b (ps ++ qs) = plus_bin (content b ps) (content b qs).
Proof. intros b ps qs. unfold content, plus_bin. rewrite filter_app, !lsum_app, app_length. reflexivity. Qed.
Lemma content_perm : forall b ps qs, Permutation ps qs -> content b ps = content b qs.
Proof.
  intros b ps qs P. assert (Permutation (filter (inb b) ps) (filter (inb b) qs)) as PF.
  { clear - P. induction P; cbn; auto; [destruct (inb b x); auto| |eapply perm_trans; eauto]. destruct (inb b x), (inb b y); auto. apply perm_swap. }
  unfold content. rewrite !(lsum_perm _ _ _ _ PF), (Permutation_length PF). reflexivity.
Qed.
Lemma add_pair_spec : forall i j ps, add_pair dim points values lag_distance num_lags lag_tolerance i j (contents ps) = Ok (contents (ps ++ [(i, j)])).
Proof.
  intros i j ps. unfold add_pair, contents.
  rewrite (each_change _ num_lags _ (fun b => content b ps) (fun b => plus_bin (content b ps) (D i j, G i j, 1%nat))).
  - f_equal. apply map_ext_in. intros b B. apply in_seq in B. rewrite content_app.
    destruct (existsb (Nat.eqb b) (bins_of lag_distance num_lags lag_tolerance (D i j))) eqn:X.
    + f_equal. unfold content. cbn [filter]. replace (inb b (i, j)) with true; [cbn; f_equal; f_equal; ring|]. symmetry. apply inb_spec. cbn.
      apply existsb_exists in X. destruct X as (b' & B' & E). apply Nat.eqb_eq in E. subst b'. apply bins_of_spec in B'. tauto.
    + assert (inb b (i, j) = false) as H.
      { destruct (inb b (i, j)) eqn:Y; auto. apply inb_spec in Y. cbn in Y.
        assert (existsb (Nat.eqb b) (bins_of lag_distance num_lags lag_tolerance (D i j)) = true); [|congruence].
        apply existsb_exists. exists b. rewrite Nat.eqb_refl. split; auto. apply bins_of_spec. split; auto. lia. }
      assert (content b [(i, j)] = (0, 0, 0%nat)) as -> by (unfold content; cbn [filter]; rewrite H; reflexivity).
      destruct (content b ps) as [[x y] z]. unfold plus_bin. rewrite !Rplus_0_r, Nat.add_0_r. reflexivity.
  - unfold bins_of. apply seq_NoDup.
  - intros t T. apply bins_of_spec in T. split; [tauto|reflexivity].
Qed.
Lemma merge_spec : forall ps qs, merge (contents ps) (contents qs) = Ok (contents (ps ++ qs)).
Proof.
  intros ps qs. unfold contents. induction (seq 0 num_lags) as [|b l IH]; cbn; auto. rewrite IH. cbn. rewrite content_app. reflexivity.
Qed.
Lemma contents_nil : contents [] = repeat empty_bin num_lags.
Proof. unfold contents. generalize 0%nat. induction num_lags as [|m IH]; intros s; cbn; auto. rewrite IH. reflexivity. Qed.

(** ** Directions *)
Lemma arg_max_spec : forall (f : nat -> R) m, (arg_max f m <= m)%nat /\ (forall k, (k <= m)%nat -> f k <= f (arg_max f m)) /\
  (forall k, (k < arg_max f m)%nat -> f k < f (arg_max f m)).
Proof.
  intros f. induction m as [|m (A & B & C)]; cbn [arg_max].
  - split; auto. split; intros k K; [replace k with 0%nat by lia; lra|lia].
  - destruct (Rlt_dec (f (arg_max f m)) (f (S m))) as [L|L].
    + split; auto. split; intros k K.
      * destruct (Nat.eq_dec k (S m)) as [->|N]; [lra|]. specialize (B k ltac:(lia)). lra.
      * specialize (B k ltac:(lia)). lra.
    + split; [lia|]. split; intros k K; [|auto]. destruct (Nat.eq_dec k (S m)) as [->|N]; [lra|]. apply B. lia.
Qed.
Notation targets_ := (targets dim points n_directions directions angle_tolerance).
Lemma targets_nodup : forall i j, NoDup (targets_ i j).
Proof. intros i j. unfold targets. destruct angle_tolerance; [apply NoDup_filter, seq_NoDup|repeat constructor; auto]. Qed.
Lemma targets_lt : forall i j k, In k (targets_ i j) -> (k < n_directions)%nat.
Proof.
  intros i j k. unfold targets. destruct angle_tolerance as [a|].
  - intros I. apply filter_In in I. destruct I as [I _]. apply in_seq in I. lia.
  - intros [<-|[]]. destruct (arg_max_spec (squared_dot dim points directions i j) (n_directions - 1)) as [A _]. lia.
Qed.
Definition sel (k : nat) (p : nat * nat) : bool := existsb (Nat.eqb k) (targets_ (fst p) (snd p)).
Lemma sel_spec : forall k p, sel k p = true <-> In k (targets_ (fst p) (snd p)).
Proof.
  intros k p. unfold sel. rewrite existsb_exists. split; [intros (x & X & E); apply Nat.eqb_eq in E; subst; auto|]. intros I. exists k. rewrite Nat.eqb_refl. auto.
Qed.
Definition all (ps : list (nat * nat)) : list (list bin) := map (fun k => contents (filter (sel k) ps)) (seq 0 n_directions).
Lemma pair_spec : forall i j ps, each (fun k bs => change bs k (add_pair dim points values lag_distance num_lags lag_tolerance i j)) (targets_ i j) (all ps) = Ok (all (ps ++ [(i, j)])).
Proof.
  intros i j ps. unfold all. rewrite (each_change _ n_directions _ _ (fun k => contents (filter (sel k) ps ++ [(i, j)]))).
  - f_equal. apply map_ext. intros k. rewrite filter_app. cbn [filter]. change (sel k (i, j)) with (existsb (Nat.eqb k) (targets_ i j)).
    destruct (existsb (Nat.eqb k) (targets_ i j)); auto. rewrite app_nil_r. auto.
  - apply targets_nodup.
  - intros t T. split; [eapply targets_lt; eauto|]. apply add_pair_spec.
Qed.
Definition row_pairs (i : nat) : list (nat * nat) := map (pair i) (seq (S i) (n_points - S i)).
Lemma row_spec : forall i ps, row dim n_points points values lag_distance num_lags lag_tolerance n_directions directions angle_tolerance i (all ps) = Ok (all (ps ++ row_pairs i)).
Proof.
  intros i ps. unfold row, row_pairs. revert ps. induction (seq (S i) (n_points - S i)) as [|j js IH]; intros ps; cbn [each map]; [rewrite app_nil_r; auto|].
  rewrite pair_spec. cbn [bind]. rewrite IH. rewrite <- app_assoc. reflexivity.
Qed.
Lemma all_nil : all [] = builders num_lags n_directions.
Proof.
  unfold all, builders. cbn [filter]. rewrite contents_nil. generalize 0%nat. clear DIRS. induction n_directions as [|m IH]; intros s; cbn; auto. rewrite IH. reflexivity.
Qed.
Lemma thread_spec : forall rows, thread dim n_points points values lag_distance num_lags lag_tolerance n_directions directions angle_tolerance rows = Ok (all (flat_map row_pairs rows)).
Proof.
  intros rows. unfold thread. rewrite <- all_nil. enough (forall ps, each (row dim n_points points values lag_distance num_lags lag_tolerance n_directions directions angle_tolerance) rows (all ps) = Ok (all (ps ++ flat_map row_pairs rows))) as H by apply H.
  induction rows as [|i rows IH]; intros ps; cbn [each flat_map]; [rewrite app_nil_r; auto|]. rewrite row_spec. cbn [bind]. rewrite IH, <- app_assoc. reflexivity.
Qed.
Lemma merge_all_spec : forall ps qs, merge_all (all ps) (all qs) = Ok (all (ps ++ qs)).
Proof.
  intros ps qs. unfold all. induction (seq 0 n_directions) as [|k l IH]; cbn [map merge_all]; auto. rewrite merge_spec. cbn [bind]. rewrite IH. cbn [bind]. rewrite filter_app. reflexivity.
Qed.
Lemma threads_spec : forall schedule ps,
  each (fun rows acc => let* l := thread dim n_points points values lag_distance num_lags lag_tolerance n_directions directions angle_tolerance rows in merge_all acc l) schedule (all ps) =
  Ok (all (ps ++ flat_map row_pairs (concat schedule))).
Proof.
  induction schedule as [|rows schedule IH]; intros ps; cbn [each concat]; [cbn; rewrite app_nil_r; auto|]. rewrite thread_spec. cbn [bind]. rewrite merge_all_spec. cbn [bind].
  rewrite IH, flat_map_app, <- app_assoc. reflexivity.
Qed.
Lemma into_spec : forall ps, into_variogram (contents ps) = variogram D G num_lags (fun b => filter (inb b) ps).
Proof.
  intros ps. unfold contents, variogram. induction (seq 0 num_lags) as [|b l IH]; cbn [map into_variogram flat_map]; auto. unfold into_variogram in *. rewrite IH. f_equal.
  unfold content, averages. cbv zeta. destruct (filter (inb b) ps); reflexivity.
Qed.
Lemma variogram_counts : forall (d g : nat -> nat -> R) num (pairs : nat -> list (nat * nat)),
  list_sum (map snd (variogram d g num pairs)) = 0%nat -> variogram d g num pairs = [].
Proof.
  intros d g num pairs. unfold variogram. induction (seq 0 num) as [|b l IH]; cbn [flat_map]; auto. destruct (pairs b) as [|p q]; cbn [app]; auto.
  intros H. exfalso. unfold averages in H. cbn [map snd length] in H. unfold list_sum in H. cbn [fold_right] in H. lia.
Qed.
Lemma final_spec : forall ps, flat_map (fun '(k, bins) => let v := into_variogram bins in if Nat.eqb (list_sum (map snd v)) 0 then [] else [(k, v)]) (combine (seq 0 n_directions) (all ps)) =
  variograms D G num_lags n_directions (fun k b => filter (inb b) (filter (sel k) ps)).
Proof.
  intros ps. unfold all, variograms. induction (seq 0 n_directions) as [|k l IH]; cbn [map combine flat_map]; auto. rewrite IH. f_equal. cbv zeta. rewrite into_spec.
  destruct (Nat.eqb_spec (list_sum (map snd (variogram D G num_lags (fun b => filter (inb b) (filter (sel k) ps))))) 0) as [E|N].
  - rewrite (variogram_counts _ _ _ _ E). reflexivity.
  - destruct (variogram D G num_lags (fun b => filter (inb b) (filter (sel k) ps))); auto. cbn in N. lia.
Qed.
Notation calc := (calculate dim n_points points values lag_distance num_lags lag_tolerance n_directions directions angle_tolerance).
Lemma calculate_spec : forall schedule, calc schedule =
  Ok (variograms D G num_lags n_directions (fun k b => filter (inb b) (filter (sel k) (flat_map row_pairs (concat schedule))))).
Proof. intros schedule. unfold calculate. rewrite <- all_nil, threads_spec. cbn [bind app]. rewrite final_spec. reflexivity. Qed.

(** ** The pairs *)
Lemma all_pairs_nodup : NoDup (flat_map row_pairs (seq 0 (n_points - 1))).
Proof.
  apply LatticeVertices.NoDup_flat_map; [apply seq_NoDup| |].
  - intros i _. apply FinFun.Injective_map_NoDup; [intros x y E; injection E; auto|apply seq_NoDup].
  - intros i i' p _ _ I I'. unfold row_pairs in *. apply in_map_iff in I, I'. destruct I as (x & <- & _), I' as (y & E & _). injection E as E1 _. auto.
Qed.
Lemma in_all_pairs : forall i j, In (i, j) (flat_map row_pairs (seq 0 (n_points - 1))) <-> (i < j < n_points)%nat.
Proof.
  intros i j. rewrite in_flat_map. split.
  - intros (x & X & I). apply in_map_iff in I. destruct I as (y & E & Y). injection E as -> ->. apply in_seq in X, Y. lia.
  - intros L. exists i. split; [apply in_seq; lia|]. apply in_map_iff. exists j. split; auto. apply in_seq. lia.
Qed.
Lemma rows_perm : forall schedule, divided n_points schedule -> Permutation (flat_map row_pairs (concat schedule)) (flat_map row_pairs (seq 0 (n_points - 1))).
Proof. intros schedule P. unfold divided in P. apply Permutation_flat_map, P. Qed.
Lemma takes_spec : (match angle_tolerance with None => True | Some a => 0 <= cos a end) -> forall i j k, In k (targets_ i j) <-> takes dim n_directions points directions angle_tolerance i j k.
Proof.
  intros COS i j k. unfold targets, takes. destruct angle_tolerance as [a|].
  - rewrite filter_In, in_seq. cbv zeta. unfold squared_dot. set (c := dot dim (lag points i j) (directions k)).
    assert (dot dim (lag points i j) (lag points i j) = D i j * D i j) as ->.
    { unfold dist. rewrite sqrt_sqrt; auto. apply rsum_pos. intros e _. apply Rle_0_sqr. }
    assert (0 <= D i j) by apply sqrt_pos.
    assert (D i j * D i j * (cos a * cos a) <= c * c <-> D i j * cos a <= Rabs c) as E.
    { replace (D i j * D i j * (cos a * cos a)) with (Rsqr (D i j * cos a)) by (unfold Rsqr; ring). change (c * c) with (Rsqr c). rewrite (Rsqr_abs c). split; intros L.
      - apply Rsqr_incr_0; auto; [apply Rmult_le_pos; auto|apply Rabs_pos].
      - apply Rsqr_incr_1; auto; [apply Rmult_le_pos; auto|apply Rabs_pos]. }
    destruct (Rle_dec _ _) as [L|L]; rewrite E in L; split; intros [A B]; split; auto; try lia; try discriminate; contradiction.
  - set (f := squared_dot dim points directions i j). destruct (arg_max_spec f (n_directions - 1)) as (A & B & C).
    assert (forall k k', Rabs (dot dim (lag points i j) (directions k)) <= Rabs (dot dim (lag points i j) (directions k')) <-> f k <= f k') as M.
    { intros x y. unfold f, squared_dot. set (p := dot dim _ _). set (q := dot dim _ (directions y)).
      change (p * p) with (Rsqr p). change (q * q) with (Rsqr q). rewrite (Rsqr_abs p), (Rsqr_abs q). split; intros L.
      - apply Rsqr_incr_1; auto; apply Rabs_pos.
      - apply Rsqr_incr_0; auto; apply Rabs_pos. }
    split.
    + intros [<-|[]]. split; [lia|]. cbv zeta. split; intros k' K.
      * apply M. apply B. lia.
      * apply Rnot_le_lt. intros L. apply M in L. specialize (C k' K). lra.
    + cbv zeta. intros (K & X & Y). left. destruct (Nat.lt_trichotomy (arg_max f (n_directions - 1)) k) as [L|[E|L]]; auto; exfalso.
      * specialize (Y _ L). apply Rlt_not_le in Y. apply Y. apply M. apply B. lia.
      * specialize (C _ L). specialize (X (arg_max f (n_directions - 1)) ltac:(lia)). apply M in X. lra.
Qed.
Theorem one_direction : angle_tolerance = None -> forall i j, exists! k, takes dim n_directions points directions angle_tolerance i j k.
Proof.
  intros N i j. assert (match angle_tolerance with None => True | Some a => 0 <= cos a end) as C by (rewrite N; auto).
  exists (arg_max (squared_dot dim points directions i j) (n_directions - 1)). split.
  - apply (takes_spec C). unfold targets. rewrite N. left. auto.
  - intros k K. apply (takes_spec C) in K. unfold targets in K. rewrite N in K. destruct K as [K|[]]. auto.
Qed.
Theorem calculate_pairs : (match angle_tolerance with None => True | Some a => 0 <= cos a end) -> forall schedule, divided n_points schedule ->
  exists pairs, (forall k b, pairs_of n_points (fun i j => takes dim n_directions points directions angle_tolerance i j k) (in_bin lag_distance tol b) D (pairs k b)) /\
  calc schedule = Ok (variograms D G num_lags n_directions pairs).
Proof.
  intros COS schedule P. eexists. split; [|apply calculate_spec]. intros k b. cbv beta. apply rows_perm in P. split.
  - apply NoDup_filter, NoDup_filter. eapply Permutation_NoDup; [apply Permutation_sym, P|apply all_pairs_nodup].
  - intros i j. rewrite !filter_In, inb_spec, sel_spec. cbn [fst snd]. rewrite (takes_spec COS), <- in_all_pairs.
    assert (In (i, j) (flat_map row_pairs (concat schedule)) <-> In (i, j) (flat_map row_pairs (seq 0 (n_points - 1)))) as ->; [|tauto].
    split; apply Permutation_in; [|apply Permutation_sym]; auto.
Qed.
Lemma averages_perm : forall (d g : nat -> nat -> R) l m, Permutation l m -> averages d g l = averages d g m.
Proof. intros d g l m P. unfold averages. rewrite !(lsum_perm _ _ _ _ P), (Permutation_length P). reflexivity. Qed.
Lemma filter_perm : forall (f : nat * nat -> bool) l m, Permutation l m -> Permutation (filter f l) (filter f m).
Proof. intros f l m P. induction P; cbn; auto; [destruct (f x); auto| |eapply perm_trans; eauto]. destruct (f x), (f y); auto. apply perm_swap. Qed.
Theorem schedule_free : forall s s', divided n_points s -> divided n_points s' -> calc s = calc s'.
Proof.
  intros s s' P P'. rewrite !calculate_spec. apply rows_perm in P, P'. pose proof (perm_trans P (Permutation_sym P')) as Q.
  f_equal. unfold variograms. f_equal. set (A := flat_map row_pairs (concat s)) in *. set (B := flat_map row_pairs (concat s')) in *.
  apply FunctionalExtensionality.functional_extensionality. intros k.
  assert (forall k, variogram D G num_lags (fun b => filter (inb b) (filter (sel k) A)) = variogram D G num_lags (fun b => filter (inb b) (filter (sel k) B))) as E; [|rewrite E; auto].
  intros k'. unfold variogram. induction (seq 0 num_lags) as [|b l IH]; cbn [flat_map]; auto. rewrite IH. f_equal.
  pose proof (filter_perm (inb b) _ _ (filter_perm (sel k') _ _ Q)) as F. pose proof (averages_perm D G _ _ F) as AV. pose proof (Permutation_length F) as LN.
  destruct (filter (inb b) (filter (sel k') A)), (filter (inb b) (filter (sel k') B)); cbn in LN; try lia; auto. rewrite AV. auto.
Qed.
End V.

Lemma terms : (forall dim points i j, dist dim points i j = sqrt (rsum dim (fun e => (points i e - points j e) ^ 2))) /\
  (forall values i j, gamma values i j = (values i - values j) ^ 2 / 2) /\ (forall lag_distance, tolerance lag_distance None = lag_distance / 2) /\
  (forall lag_distance t, tolerance lag_distance (Some t) = t).
Proof.
  repeat split; intros; unfold gamma, tolerance; try lra. unfold dist, dot. f_equal. apply rsum_ext. intros e _. unfold lag. ring.
Qed.
