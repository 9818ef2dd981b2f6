From Coq Require Import Reals List Arith ZArith Bool Permutation Lia Lra.
From Verif Require Import Model.Outcome Model.LinAlg Model.NormalScore Spec.NormalScore Proofs.LinAlg.
Import ListNotations.
Local Open Scope R_scope.

(** ** Hermite polynomials *)
Lemma he_rec : forall p y, he (S (S p)) y = y * he (S p) y - INR (S p) * he p y.
Proof. intros p y. unfold he. cbn [he_pair]. destruct (he_pair p y) as [a b] eqn:E. reflexivity. Qed.
Lemma fact_pos : forall p, 0 < INR (fact p).
Proof. intros p. apply lt_0_INR, lt_O_fact. Qed.
Lemma hermite_rec : forall p y, hermite (S (S p)) y = -1 / sqrt (INR (S p) + 1) * (y * hermite (S p) y) - sqrt (INR (S p) / (INR (S p) + 1)) * hermite p y.
Proof.
  intros p y. unfold hermite. rewrite he_rec. set (a := he (S p) y). set (b := he p y).
  assert (0 < INR (S p)) as P1 by (apply lt_0_INR; lia). assert (0 < INR (S p) + 1) as P2 by lra. pose proof (fact_pos p) as F.
  replace (INR (fact (S (S p)))) with ((INR (S p) + 1) * (INR (S p) * INR (fact p))).
  2:{ change (fact (S (S p))) with (S (S p) * (S p * fact p))%nat. rewrite !mult_INR. rewrite (S_INR (S p)). reflexivity. }
  replace (INR (fact (S p))) with (INR (S p) * INR (fact p)) by (change (fact (S p)) with (S p * fact p)%nat; rewrite mult_INR; reflexivity).
  assert (0 < INR (S p) * INR (fact p)) as F1 by (apply Rmult_lt_0_compat; auto).
  rewrite (sqrt_mult (INR (S p) + 1)) by lra. rewrite (sqrt_mult (INR (S p))) by lra. rewrite sqrt_div by lra.
  set (s1 := sqrt (INR (S p))). set (s2 := sqrt (INR (S p) + 1)). set (s := sqrt (INR (fact p))).
  assert (s1 * s1 = INR (S p)) as Q1 by (apply sqrt_sqrt; lra).
  assert (0 < s1) by (apply sqrt_lt_R0; auto). assert (0 < s2) by (apply sqrt_lt_R0; auto). assert (0 < s) by (apply sqrt_lt_R0; auto).
  cbn [pow]. rewrite <- Q1. field. repeat split; lra.
Qed.
Lemma hermite_pair_spec : forall p y, hermite_pair p y = (hermite p y, hermite (S p) y).
Proof.
  induction p as [|p IH]; intros y.
  - cbn [hermite_pair]. unfold hermite, he. cbn. rewrite sqrt_1. f_equal; field.
  - cbn [hermite_pair]. rewrite IH. rewrite hermite_rec. reflexivity.
Qed.

Section P.
Variable quantile : R -> R.

Lemma scores_gen : forall n indices, NoDup indices -> forall m y, (m <= length indices)%nat ->
  let r := fold_left (fun y i => set_at y (nth i indices 0%nat) (quantile ((2 * INR i + 1) * (1 / (2 * INR n))))) (seq 0 m) y in
  (forall i, (i < m)%nat -> r (nth i indices 0%nat) = quantile ((2 * INR i + 1) * (1 / (2 * INR n)))).
Proof.
  intros n indices ND. induction m as [|m IH]; intros y L; cbn zeta; [intros; lia|].
  intros i I. rewrite seq_S, fold_left_app. cbn [fold_left Nat.add]. unfold set_at at 1. destruct (Nat.eqb_spec (nth i indices 0%nat) (nth m indices 0%nat)) as [E|N].
  - apply NoDup_nth in E; auto; try lia. subst. auto.
  - apply (IH y); [lia|]. destruct (Nat.eq_dec i m); [subst; contradiction|lia].
Qed.
Lemma scores_nth : forall n z indices, sorting n z indices -> forall i, (i < n)%nat ->
  scores quantile n indices (nth i indices 0%nat) = quantile ((2 * INR i + 1) * (1 / (2 * INR n))).
Proof.
  intros n z indices [P _] i I. assert (length indices = n) as L by (rewrite (Permutation_length P); apply seq_length).
  apply scores_gen; auto; [|lia]. eapply Permutation_NoDup; [apply Permutation_sym, P|apply seq_NoDup].
Qed.
Lemma scores_perm : forall n z indices, sorting n z indices ->
  Permutation (map (scores quantile n indices) (seq 0 n)) (map (fun i => quantile ((2 * INR i + 1) * (1 / (2 * INR n)))) (seq 0 n)).
Proof.
  intros n z indices SO. destruct SO as [P S2] eqn:X. rewrite <- (Permutation_map (scores quantile n indices) P).
  assert (length indices = n) as L by (rewrite (Permutation_length P); apply seq_length).
  replace (map (scores quantile n indices) indices) with (map (fun i => scores quantile n indices (nth i indices 0%nat)) (seq 0 n)).
  - erewrite map_ext_in; [apply Permutation_refl|]. intros i I. apply in_seq in I. cbv beta. apply (scores_nth n z indices SO). lia.
  - rewrite <- (map_map (fun i => nth i indices 0%nat)). f_equal. rewrite <- L. clear. apply (nth_ext _ _ 0%nat 0%nat); [rewrite map_length, seq_length; auto|].
    intros k K. rewrite map_length, seq_length in K. rewrite (nth_indep _ 0%nat (nth 0 indices 0%nat)) by (rewrite map_length, seq_length; auto).
    rewrite (map_nth (fun i => nth i indices 0%nat)). rewrite seq_nth by auto. reflexivity.
Qed.
Lemma position : forall n z indices, sorting n z indices -> forall i, (i < n)%nat -> exists k, (k < n)%nat /\ nth k indices 0%nat = i.
Proof.
  intros n z indices [P _] i I. assert (In i indices) as X by (apply (Permutation_in i (Permutation_sym P)), in_seq; lia).
  apply (In_nth _ _ 0%nat) in X. destruct X as (k & K & E). exists k. rewrite (Permutation_length P), seq_length in K. auto.
Qed.
Lemma prob : forall n i, (i < n)%nat -> 0 < (2 * INR i + 1) * (1 / (2 * INR n)) < 1.
Proof.
  intros n i I. assert (0 < INR n) as N by (apply lt_0_INR; lia). assert (INR i + 1 <= INR n) as L by (rewrite <- S_INR; apply le_INR; lia). pose proof (pos_INR i).
  assert (0 < 1 / (2 * INR n)) by (apply Rdiv_lt_0_compat; lra). split; [apply Rmult_lt_0_compat; lra|].
  apply Rmult_lt_reg_r with (2 * INR n); [lra|]. replace ((2 * INR i + 1) * (1 / (2 * INR n)) * (2 * INR n)) with (2 * INR i + 1) by (field; lra). lra.
Qed.
Lemma prob_lt : forall n i j, (i < j < n)%nat -> (2 * INR i + 1) * (1 / (2 * INR n)) < (2 * INR j + 1) * (1 / (2 * INR n)).
Proof.
  intros n i j I. assert (0 < INR n) as N by (apply lt_0_INR; lia). assert (INR i < INR j) by (apply lt_INR; lia).
  apply Rmult_lt_compat_r; [apply Rdiv_lt_0_compat; lra|lra].
Qed.
Theorem scores_monotone : increasing quantile -> forall n z indices, sorting n z indices -> forall i j, (i < n)%nat -> (j < n)%nat -> z i < z j ->
  scores quantile n indices i < scores quantile n indices j.
Proof.
  intros INC n z indices SO i j I J L. destruct (position n z indices SO i I) as (a & A & EA). destruct (position n z indices SO j J) as (b & B & EB).
  rewrite <- EA, <- EB, !(scores_nth n z indices SO) by auto. apply INC; [apply prob; auto| |apply prob; auto]. apply prob_lt. split; auto.
  destruct (Nat.lt_trichotomy a b) as [|[E|G]]; auto; exfalso.
  - subst. lra.
  - destruct SO as [_ S2]. specialize (S2 b a (conj G A)). rewrite EA, EB in S2. lra.
Qed.
Theorem transform_spec : forall t n z indices t' y, transform quantile t n z indices = Ok (t', y) ->
  n <> 1%nat /\ s_order t' = s_order t /\ y = scores quantile n indices /\ exists phi, s_phi t' = Some phi /\ phi 0%nat = rsum n (fun i => z (nth i indices 0%nat)) / INR n /\
  forall p, (1 <= p <= s_order t)%nat -> phi p = 1 / sqrt (INR p) * rsum n (fun i => slope n (fun k => z (nth k indices 0%nat)) i * hermite (p - 1) (y (nth i indices 0%nat)) * density (y (nth i indices 0%nat))).
Proof.
  intros t n z indices t' y E. unfold transform in E. cbv zeta in E. unfold compute_phi in E. destruct (Nat.eqb_spec n 1) as [|N]; [discriminate|]. cbn [bind] in E. injection E as <- <-.
  split; auto. split; auto. split; auto. eexists. split; [reflexivity|]. split; [reflexivity|]. intros p P. cbv beta.
  destruct (Nat.eqb_spec p 0); [lia|]. destruct (Nat.leb_spec p (s_order t)); [|lia]. f_equal. apply rsum_ext. intros i _. rewrite hermite_pair_spec. reflexivity.
Qed.
Theorem back_transform_spec : forall t phi, s_phi t = Some phi -> forall y, back_transform t y = Ok (rsum (S (s_order t)) (fun p => phi p * hermite p y)).
Proof.
  intros t phi E y. unfold back_transform. rewrite E. f_equal. induction (s_order t) as [|m IH].
  - cbn. unfold hermite, he. cbn. rewrite sqrt_1. field.
  - rewrite seq_S, fold_left_app, IH. cbn [fold_left Nat.add]. replace (S m - 1)%nat with m by lia. rewrite hermite_pair_spec. reflexivity.
Qed.
Lemma gamma_loop : forall (phi : nat -> R) g m, fold_left (fun '(s, q) p => (s + phi p * phi p * (1 - q), q * (1 - g))) (seq 1 m) (0, 1 - g) =
  (rsum m (fun p => phi (S p) * phi (S p) * (1 - (1 - g) ^ S p)), (1 - g) ^ S m).
Proof.
  intros phi g. induction m as [|m IH]; [cbn; f_equal; ring|]. rewrite seq_S, fold_left_app, IH. cbn [fold_left Nat.add rsum pow]. f_equal. ring.
Qed.
Theorem gamma_spec : forall t phi, s_phi t = Some phi -> forall g,
  back_transform_gamma t g = Ok (rsum (s_order t) (fun p => phi (S p) * phi (S p) * (1 - (1 - g) ^ S p))).
Proof. intros t phi E g. unfold back_transform_gamma. rewrite E, gamma_loop. reflexivity. Qed.
Theorem gamma_ends : forall t phi, s_phi t = Some phi -> back_transform_gamma t 0 = Ok 0 /\
  back_transform_gamma t 1 = Ok (rsum (s_order t) (fun p => phi (S p) * phi (S p))).
Proof.
  intros t phi E. rewrite !(gamma_spec t phi E). split; f_equal.
  - apply rsum_0. intros p _. rewrite Rminus_0_r, pow1. ring.
  - apply rsum_ext. intros p _. replace (1 - 1) with 0 by ring. rewrite pow_i by lia. ring.
Qed.
Theorem gamma_monotone : forall t phi, s_phi t = Some phi -> forall a b u v, 0 <= a <= b -> b <= 1 ->
  back_transform_gamma t a = Ok u -> back_transform_gamma t b = Ok v -> 0 <= u <= v.
Proof.
  intros t phi E a b u v [A0 AB] B U V. rewrite (gamma_spec t phi E) in U, V. injection U as <-. injection V as <-. split.
  - apply rsum_pos. intros p _. apply Rmult_le_pos; [apply Rle_0_sqr|]. assert ((1 - a) ^ S p <= 1 ^ S p) by (apply pow_incr; lra). rewrite pow1 in H. cbn [pow] in H. lra.
  - apply rsum_le. intros p _. apply Rmult_le_compat_l; [apply Rle_0_sqr|]. assert ((1 - b) ^ S p <= (1 - a) ^ S p) as H by (apply pow_incr; lra). cbn [pow] in H. lra.
Qed.
End P.

Lemma slope_even : forall n a b i, (2 <= n)%nat -> (i < n)%nat -> slope n (fun k => a + b * INR k) i = - b.
Proof.
  intros n a b i N I. unfold slope. destruct (Nat.eqb_spec i 0) as [-> |E]; [rewrite S_INR; cbn [INR]; ring|].
  destruct i as [|i]; [lia|]. replace (S i - 1)%nat with i by lia. destruct (Nat.eqb_spec (S i) (n - 1)); rewrite ?S_INR; lra.
Qed.
Lemma slope_sorted : forall n z, (2 <= n)%nat -> (forall i j, (i < j < n)%nat -> z i <= z j) -> forall i, (i < n)%nat -> slope n z i <= 0.
Proof.
  intros n z N H i I. unfold slope. destruct (Nat.eqb_spec i 0) as [-> |E]; [specialize (H 0%nat 1%nat ltac:(lia)); lra|].
  destruct (Nat.eqb_spec i (n - 1)) as [F|F]; [specialize (H (i - 1)%nat i ltac:(lia)); lra|]. specialize (H (i - 1)%nat (S i) ltac:(lia)). lra.
Qed.
Lemma rsum_nonpos : forall n f, (forall i, (i < n)%nat -> f i <= 0) -> rsum n f <= 0.
Proof. induction n as [|n IH]; intros f H; cbn [rsum]; [lra|]. pose proof (H n ltac:(lia)). pose proof (IH f ltac:(intros; apply H; lia)). lra. Qed.
Lemma first_coefficient : forall quantile t n z indices t' y phi, sorting n z indices -> (1 <= s_order t)%nat -> (2 <= n)%nat ->
  transform quantile t n z indices = Ok (t', y) -> s_phi t' = Some phi -> phi 1%nat <= 0.
Proof.
  intros quantile t n z indices t' y phi [_ Q] O N T P. apply transform_spec in T. destruct T as (_ & _ & _ & phi' & P' & _ & F).
  rewrite P in P'. injection P' as ->. rewrite F by lia. cbn [INR Nat.sub]. rewrite sqrt_1.
  match goal with |- 1 / 1 * rsum n ?f <= 0 => enough (rsum n f <= 0) by lra end. apply rsum_nonpos. intros i I.
  pose proof (slope_sorted n (fun k => z (nth k indices 0%nat)) N Q i I) as L. set (s := slope n _ i) in *. clearbody s.
  assert (hermite 0 (y (nth i indices 0%nat)) = 1) as ->. { unfold hermite, he. cbn. rewrite sqrt_1. lra. }
  assert (0 < density (y (nth i indices 0%nat))) as D.
  { unfold density. apply Rmult_lt_0_compat; [|apply exp_pos]. unfold Rdiv. rewrite Rmult_1_l. apply Rinv_0_lt_compat, sqrt_lt_R0. pose proof PI_RGT_0. lra. }
  set (d := density _) in *. clearbody d. clear - L D. nra.
Qed.
