From Coq Require Import Reals List Arith Lia Lra Psatz.
From Verif Require Import Proofs.LinAlg Proofs.VariogramFitting Proofs.Description.
From Verif Require Import Model.Outcome Model.LinAlg Model.VariogramFitting Model.PlaneEstimator Spec.Description Spec.PlaneEstimator.
Local Open Scope R_scope.

Lemma dot3_expand : forall x y, dot 3 x y = x 0%nat * y 0%nat + x 1%nat * y 1%nat + x 2%nat * y 2%nat.
Proof. intros. unfold dot. cbn [rsum]. ring. Qed.
Lemma cauchy_dot : forall u e, unit3 u -> dot 3 u e * dot 3 u e <= dot 3 e e.
Proof.
  intros u e U. unfold unit3 in U. rewrite !dot3_expand in *.
  pose proof (Rle_0_sqr (u 0%nat * e 1%nat - u 1%nat * e 0%nat)). pose proof (Rle_0_sqr (u 1%nat * e 2%nat - u 2%nat * e 1%nat)). pose proof (Rle_0_sqr (u 2%nat * e 0%nat - u 0%nat * e 2%nat)).
  unfold Rsqr in *. apply Rle_trans with ((u 0%nat * u 0%nat + u 1%nat * u 1%nat + u 2%nat * u 2%nat) * (e 0%nat * e 0%nat + e 1%nat * e 1%nat + e 2%nat * e 2%nat)); [lra|rewrite U; lra].
Qed.
Lemma const_sum : forall m c, rsum m (fun _ => c) = INR m * c.
Proof. induction m as [|m IH]; intros c; [cbn; ring|]. cbn [rsum]. rewrite IH, S_INR. ring. Qed.
Section Points.
Variable n : nat.
Variable p : nat -> nat -> R.
Variable s : nat -> R.
Variable v : nat -> nat -> R.
Hypothesis N : (3 <= n)%nat.
Hypothesis S : svd n (centered n p) s v.
Let x := centered n p.
Let b := barycenter n p.
Lemma n_pos : 0 < INR n.
Proof using N. apply lt_0_INR. lia. Qed.
Lemma centered_sum : forall w, rsum n (fun i => dot 3 w (x i)) = 0.
Proof using N.
  intros w. unfold dot. rewrite rsum_swap. apply rsum_0. intros k _. rewrite rsum_scal. unfold x, centered. rewrite rsum_minus.
  rewrite const_sum. unfold barycenter. pose proof n_pos. field. lra.
Qed.
Lemma coordinates : forall w k, (k < 3)%nat -> w k = rsum 3 (fun j => dot 3 (column v j) w * v k j).
Proof using N S.
  intros w k K. destruct S as (O & _). pose proof (columns_rows 3 v ltac:(lia) O) as RW. symmetry. unfold dot, column.
  transitivity (rsum 3 (fun j => rsum 3 (fun m => w m * (v m j * v k j)))).
  { apply rsum_ext. intros j _. rewrite <- rsum_scal_r. apply rsum_ext. intros; ring. }
  rewrite rsum_swap. transitivity (rsum 3 (fun m => w m * identity m k)); [|apply rsum_identity; exact K].
  apply rsum_ext. intros m M. rewrite rsum_scal. f_equal. exact (RW m k M K).
Qed.
Lemma form : forall w, rsum n (fun i => dot 3 w (x i) * dot 3 w (x i)) = rsum 3 (fun j => s j * s j * (dot 3 (column v j) w * dot 3 (column v j) w)).
Proof using N S.
  intros w. set (a := fun j => dot 3 (column v j) w).
  assert (E : forall i, dot 3 w (x i) = rsum 3 (fun j => a j * dot 3 (x i) (column v j))).
  { intros i. unfold dot at 1. transitivity (rsum 3 (fun k => rsum 3 (fun j => a j * (x i k * v k j)))).
    - apply rsum_ext. intros k K. rewrite (coordinates w k K) at 1. fold a. rewrite <- rsum_scal_r. apply rsum_ext. intros j _. unfold a. ring.
    - rewrite rsum_swap. apply rsum_ext. intros j _. rewrite rsum_scal. reflexivity. }
  transitivity (rsum n (fun i => rsum 3 (fun j => rsum 3 (fun l => a j * a l * (dot 3 (x i) (column v j) * dot 3 (x i) (column v l)))))).
  { apply rsum_ext. intros i _. rewrite E. rewrite <- rsum_scal_r. apply rsum_ext. intros j _. rewrite <- rsum_scal. apply rsum_ext. intros; ring. }
  rewrite rsum_swap. apply rsum_ext. intros j J. rewrite rsum_swap. destruct S as (_ & G & _). fold x in G.
  rewrite (rsum_single 3 j); [|exact J|].
  - rewrite rsum_scal, (G j j J J). unfold identity. rewrite Nat.eqb_refl. unfold a. ring.
  - intros l L NE. rewrite rsum_scal, (G j l J L). unfold identity. assert (X : (j =? l)%nat = false) by (apply Nat.eqb_neq; lia). rewrite X. ring.
Qed.
Lemma squares : rsum n (fun i => dot 3 (x i) (x i)) = s 0%nat * s 0%nat + s 1%nat * s 1%nat + s 2%nat * s 2%nat.
Proof using N S.
  destruct S as (O & G & _). pose proof (columns_rows 3 v ltac:(lia) O) as RW.
  transitivity (rsum n (fun i => rsum 3 (fun j => dot 3 (x i) (column v j) * dot 3 (x i) (column v j)))).
  { apply rsum_ext. intros i _. rewrite <- (parseval 3 v (x i) RW) by lia. apply rsum_ext. intros j _. rewrite !(dot_sym 3 (column v j) (x i)). reflexivity. }
  rewrite rsum_swap. fold x in G. cbn [rsum]. rewrite !G by lia. unfold identity. cbn [Nat.eqb]. ring.
Qed.
Lemma unit_form : forall w, unit3 w -> s 2%nat * s 2%nat <= rsum n (fun i => dot 3 w (x i) * dot 3 w (x i)) <= s 0%nat * s 0%nat.
Proof using N S.
  intros w U. rewrite form. destruct S as (O & G & P & D1 & D2). pose proof (columns_rows 3 v ltac:(lia) O) as RW.
  pose proof (parseval 3 v w RW ltac:(lia)) as Q. unfold unit3 in U. rewrite U in Q. cbn [rsum] in *.
  revert Q. generalize (dot 3 (column v 0) w) (dot 3 (column v 1) w) (dot 3 (column v 2) w). intros a0 a1 a2 Q.
  pose proof (P 0%nat ltac:(lia)). pose proof (P 1%nat ltac:(lia)). pose proof (P 2%nat ltac:(lia)).
  assert (X : s 2%nat * s 2%nat <= s 1%nat * s 1%nat) by nra. assert (Y : s 1%nat * s 1%nat <= s 0%nat * s 0%nat) by nra.
  pose proof (Rle_0_sqr a0) as A0. pose proof (Rle_0_sqr a1) as A1. pose proof (Rle_0_sqr a2) as A2. unfold Rsqr in *.
  assert (Z : a0 * a0 = 1 - a1 * a1 - a2 * a2) by lra. revert X Y A0 A1 A2 Z. clear.
  generalize (s 0%nat * s 0%nat) (s 1%nat * s 1%nat) (s 2%nat * s 2%nat) (a0 * a0) (a1 * a1) (a2 * a2). intros t0 t1 t2 q0 q1 q2 X Y A0 A1 A2 ->. split; nra.
Qed.
Lemma axis_form : forall j, (j < 3)%nat -> rsum n (fun i => dot 3 (column v j) (x i) * dot 3 (column v j) (x i)) = s j * s j.
Proof using N S.
  intros j J. destruct S as (_ & G & _). fold x in G. transitivity (s j * s j * identity j j); [|unfold identity; rewrite Nat.eqb_refl; ring].
  rewrite <- (G j j J J). apply rsum_ext. intros i _. rewrite !(dot_sym 3 (column v j) (x i)). reflexivity.
Qed.
Lemma axis_unit : forall j, (j < 3)%nat -> unit3 (column v j).
Proof using N S. intros j J. destruct S as (O & _). unfold unit3. rewrite (O j j J J). unfold identity. rewrite Nat.eqb_refl. reflexivity. Qed.
Lemma shift : forall q i k, minus (p i) q k = x i k + minus b q k.
Proof using. intros. unfold minus, x, b, centered. ring. Qed.
Lemma dot_shift : forall w q i, dot 3 w (minus (p i) q) = dot 3 w (x i) + dot 3 w (minus b q).
Proof using. intros. rewrite !dot3_expand, !shift. ring. Qed.
Lemma sum_plane : forall w c, rsum n (fun i => (dot 3 w (p i) - c) * (dot 3 w (p i) - c)) =
  rsum n (fun i => dot 3 w (x i) * dot 3 w (x i)) + INR n * ((dot 3 w b - c) * (dot 3 w b - c)).
Proof using N.
  intros w c. set (d := dot 3 w b - c). transitivity (rsum n (fun i => dot 3 w (x i) * dot 3 w (x i) + (2 * d * dot 3 w (x i) + d * d))).
  - apply rsum_ext. intros i _. assert (E : dot 3 w (p i) - c = dot 3 w (x i) + d) by (unfold d; rewrite !dot3_expand; unfold x, centered, b; ring). rewrite E. ring.
  - rewrite rsum_plus, rsum_plus, rsum_scal, centered_sum, const_sum. ring.
Qed.
Lemma sum_point : forall q, rsum n (fun i => dot 3 (minus (p i) q) (minus (p i) q)) = rsum n (fun i => dot 3 (x i) (x i)) + INR n * dot 3 (minus b q) (minus b q).
Proof using N.
  intros q. set (e := minus b q). transitivity (rsum n (fun i => dot 3 (x i) (x i) + (2 * dot 3 e (x i) + dot 3 e e))).
  - apply rsum_ext. intros i _. rewrite !dot3_expand, !shift. fold e. ring.
  - rewrite rsum_plus, rsum_plus, rsum_scal, centered_sum, const_sum. ring.
Qed.
Lemma sum_line : forall u q, rsum n (fun i => dot 3 u (minus (p i) q) * dot 3 u (minus (p i) q)) =
  rsum n (fun i => dot 3 u (x i) * dot 3 u (x i)) + INR n * (dot 3 u (minus b q) * dot 3 u (minus b q)).
Proof using N.
  intros u q. set (d := dot 3 u (minus b q)). transitivity (rsum n (fun i => dot 3 u (x i) * dot 3 u (x i) + (2 * d * dot 3 u (x i) + d * d))).
  - apply rsum_ext. intros i _. rewrite dot_shift. fold d. ring.
  - rewrite rsum_plus, rsum_plus, rsum_scal, centered_sum, const_sum. ring.
Qed.
Lemma zero_gap : forall k, minus b b k = 0.
Proof using. intros. unfold minus. ring. Qed.
Theorem best_point : least (fun _ => True) (from_point n p) ((s 0%nat * s 0%nat + s 1%nat * s 1%nat + s 2%nat * s 2%nat) / INR n) /\
  from_point n p b = (s 0%nat * s 0%nat + s 1%nat * s 1%nat + s 2%nat * s 2%nat) / INR n.
Proof using N S.
  assert (E : from_point n p b = (s 0%nat * s 0%nat + s 1%nat * s 1%nat + s 2%nat * s 2%nat) / INR n).
  { unfold from_point. rewrite sum_point, squares. rewrite (dot3_expand (minus b b)), !zero_gap. f_equal. ring. }
  split; [|exact E]. split; [exists b; split; [exact I|exact E]|]. intros q _. unfold from_point. rewrite sum_point, squares. pose proof (dot_nonneg 3 (minus b q)). pose proof n_pos as P.
  apply Rmult_le_compat_r; [apply Rlt_le, Rinv_0_lt_compat; exact P|]. nra.
Qed.
Theorem best_line : least (fun qu => unit3 (snd qu)) (fun qu => from_line n p (fst qu) (snd qu)) ((s 1%nat * s 1%nat + s 2%nat * s 2%nat) / INR n) /\
  from_line n p b (column v 0) = (s 1%nat * s 1%nat + s 2%nat * s 2%nat) / INR n.
Proof using N S.
  assert (E : from_line n p b (column v 0) = (s 1%nat * s 1%nat + s 2%nat * s 2%nat) / INR n).
  { unfold from_line. rewrite rsum_minus, sum_point, sum_line, squares, axis_form by lia. rewrite (dot3_expand (minus b b)), (dot3_expand _ (minus b b)), !zero_gap. f_equal. ring. }
  split; [|exact E]. split; [exists (b, column v 0); cbn [fst snd]; split; [apply axis_unit; lia|exact E]|].
  intros [q u] U. cbn [fst snd] in *. unfold from_line. rewrite rsum_minus, sum_point, sum_line, squares. pose proof (unit_form u U) as [_ L]. pose proof (cauchy_dot u (minus b q) U). pose proof n_pos as P.
  apply Rmult_le_compat_r; [apply Rlt_le, Rinv_0_lt_compat; exact P|]. nra.
Qed.
Theorem best_plane : least (fun wc => unit3 (fst wc)) (fun wc => from_plane n p (fst wc) (snd wc)) ((s 2%nat * s 2%nat) / INR n) /\
  from_plane n p (column v 2) (dot 3 (column v 2) b) = (s 2%nat * s 2%nat) / INR n.
Proof using N S.
  assert (E : from_plane n p (column v 2) (dot 3 (column v 2) b) = (s 2%nat * s 2%nat) / INR n).
  { unfold from_plane. rewrite sum_plane, axis_form by lia. f_equal. ring. }
  split; [|exact E]. split; [exists (column v 2, dot 3 (column v 2) b); cbn [fst snd]; split; [apply axis_unit; lia|exact E]|].
  intros [w c] U. cbn [fst snd] in *. unfold from_plane. rewrite sum_plane. pose proof (unit_form w U) as [L _]. pose proof n_pos as P.
  pose proof (Rle_0_sqr (dot 3 w b - c)) as Q. unfold Rsqr in Q.
  apply Rmult_le_compat_r; [apply Rlt_le, Rinv_0_lt_compat; exact P|]. nra.
Qed.
End Points.
(** The errors as functions of the three least mean squared distances. *)
Definition errors (mp ml mq : R) : R * R * R :=
  let a := Rmax (sqrt mp) (/ 10 ^ 10) in let b := Rmax (sqrt ml) (/ 10 ^ 10 * a) in (a, b, Rmax (sqrt mq) (/ 10 ^ 10 * b)).
Lemma least_unique : forall (A : Type) (ok : A -> Prop) f m m', least ok f m -> least ok f m' -> m = m'.
Proof.
  intros A ok f m m' ((a & Oa & Ea) & La) ((a' & Oa' & Ea') & La'). pose proof (La a' Oa'). pose proof (La' a Oa). lra.
Qed.
Theorem estimator_spec : forall n p s v, (3 <= n)%nat -> svd n (centered n p) s v -> exists e mp ml mq, estimator n s v = Ok e /\
  least (fun _ => True) (from_point n p) mp /\ least (fun qu => unit3 (snd qu)) (fun qu => from_line n p (fst qu) (snd qu)) ml /\
  least (fun wc => unit3 (fst wc)) (fun wc => from_plane n p (fst wc) (snd wc)) mq /\
  (point_error e, line_error e, plane_error e) = errors mp ml mq /\ plane_factor e = line_error e * line_error e / (plane_error e * point_error e) /\
  unit3 (plane_normal e) /\ from_plane n p (plane_normal e) (dot 3 (plane_normal e) (barycenter n p)) = mq /\ 0 <= mq <= ml /\ ml <= mp.
Proof.
  intros n p s v N S. unfold estimator. destruct (Nat.ltb_spec n 3); [lia|]. eexists.
  exists ((s 0%nat * s 0%nat + s 1%nat * s 1%nat + s 2%nat * s 2%nat) / INR n), ((s 1%nat * s 1%nat + s 2%nat * s 2%nat) / INR n), ((s 2%nat * s 2%nat) / INR n).
  split; [reflexivity|]. split; [exact (proj1 (best_point n p s v N S))|]. split; [exact (proj1 (best_line n p s v N S))|]. split; [exact (proj1 (best_plane n p s v N S))|].
  pose proof (n_pos n N) as P. cbn [point_error line_error plane_error plane_factor plane_normal]. split; [|split; [reflexivity|split; [|split; [|split]]]].
  - unfold errors. cbv zeta. rewrite !sqrt_div_alt by exact P. unfold hypot3, hypot2.
    assert (A : sqrt (s 2%nat * s 2%nat) = Rabs (s 2%nat)) by (apply sqrt_Rsqr_abs). rewrite A. reflexivity.
  - exact (axis_unit n p s v N S 2 ltac:(lia)).
  - exact (proj2 (best_plane n p s v N S)).
  - pose proof (Rinv_0_lt_compat _ P) as I. unfold Rdiv. pose proof (Rle_0_sqr (s 1%nat)). pose proof (Rle_0_sqr (s 2%nat)). unfold Rsqr in *. split; [apply Rmult_le_pos; lra|apply Rmult_le_compat_r; lra].
  - pose proof (Rinv_0_lt_compat _ P) as I. pose proof (Rle_0_sqr (s 0%nat)). unfold Rdiv, Rsqr in *. apply Rmult_le_compat_r; lra.
Qed.
Definition factor (mp ml mq : R) : R := let '(a, b, c) := errors mp ml mq in b * b / (c * a).
Lemma ten_pos : 0 < / 10 ^ 10 /\ / 10 ^ 10 < 1.
Proof. split; [apply Rinv_0_lt_compat; lra|]. apply (Rmult_lt_reg_l (10 ^ 10)); [lra|]. rewrite Rinv_r; lra. Qed.
Theorem factor_bounds : forall mp ml mq, 0 <= mq <= ml -> ml <= mp -> / 10 ^ 10 <= factor mp ml mq <= 10 ^ 10.
Proof.
  intros mp ml mq Q L. unfold factor, errors. cbv zeta. set (t := / 10 ^ 10). assert (T : 0 < t /\ t < 1) by exact ten_pos. assert (E : 10 ^ 10 = / t) by (unfold t; rewrite Rinv_inv; reflexivity). rewrite E. clearbody t.
  set (a := Rmax (sqrt mp) t). set (b := Rmax (sqrt ml) (t * a)). set (c := Rmax (sqrt mq) (t * b)).
  pose proof (sqrt_le_1_alt _ _ L) as SL. pose proof (sqrt_le_1_alt _ _ (proj2 Q)) as SQ. pose proof (sqrt_pos mq) as P.
  assert (A : t <= a) by apply Rmax_r. assert (B : t * a <= b) by apply Rmax_r. assert (C : t * b <= c) by apply Rmax_r.
  assert (BA : b <= a) by (apply Rmax_lub; [apply Rle_trans with (sqrt mp); [exact SL|apply Rmax_l]|nra]).
  assert (CB : c <= b) by (apply Rmax_lub; [apply Rle_trans with (sqrt ml); [exact SQ|apply Rmax_l]|nra]).
  clearbody a b c. assert (PA : 0 < a) by lra. assert (PB : 0 < b) by nra. assert (PC : 0 < c) by nra. assert (PCA : 0 < c * a) by nra.
  clear - T A B C BA CB PA PB PC PCA. split.
  - apply (Rmult_le_reg_r (c * a)); [exact PCA|]. unfold Rdiv. rewrite Rmult_assoc, Rinv_l, Rmult_1_r by lra.
    apply Rle_trans with (b * (t * a)); [|apply Rmult_le_compat_l; lra]. apply Rle_trans with ((t * a) * c); [lra|]. apply Rle_trans with ((t * a) * b); [|lra]. apply Rmult_le_compat_l; [nra|exact CB].
  - apply (Rmult_le_reg_r (c * a)); [exact PCA|]. unfold Rdiv. rewrite Rmult_assoc, Rinv_l, Rmult_1_r by lra.
    apply (Rmult_le_reg_l t); [lra|]. replace (t * (/ t * (c * a))) with (c * a) by (field; lra). apply Rle_trans with (c * b); [|apply Rmult_le_compat_l; lra]. rewrite <- Rmult_assoc. apply Rmult_le_compat_r; lra.
Qed.
(** Points in a line or in one place have the factor 1; points in a plane but far from a line a large one. *)
Theorem factor_line : forall mp, factor mp 0 0 = 1.
Proof.
  intros mp. unfold factor, errors. cbv zeta. set (t := / 10 ^ 10). assert (T : 0 < t /\ t < 1) by exact ten_pos. clearbody t. rewrite sqrt_0.
  set (a := Rmax (sqrt mp) t). assert (A : t <= a) by apply Rmax_r. clearbody a. rewrite (Rmax_right 0 (t * a)) by nra. rewrite Rmax_right by nra. field. split; lra.
Qed.
Theorem factor_plane : forall mp ml, / 10 ^ 10 <= sqrt ml -> ml <= mp -> / 10 ^ 10 * sqrt mp <= sqrt ml -> factor mp ml 0 = 10 ^ 10 * (sqrt ml / sqrt mp).
Proof.
  intros mp ml L ML R. unfold factor, errors. cbv zeta. pose proof (sqrt_le_1_alt _ _ ML) as SL. set (t := / 10 ^ 10) in *. assert (T : 0 < t /\ t < 1) by exact ten_pos. assert (E : 10 ^ 10 = / t) by (unfold t; rewrite Rinv_inv; reflexivity). rewrite E. clearbody t.
  rewrite sqrt_0. rewrite (Rmax_left (sqrt mp) t) by lra. rewrite (Rmax_left (sqrt ml)) by lra. rewrite Rmax_right by nra. field. split; lra.
Qed.
Lemma triple_eq : forall a b c a' b' c' : R, (a, b, c) = (a', b', c') -> a = a' /\ b = b' /\ c = c'.
Proof. intros a b c a' b' c' H. injection H as -> -> ->. auto. Qed.
