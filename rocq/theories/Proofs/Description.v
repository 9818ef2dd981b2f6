From Coq Require Import Reals ZArith List Arith Bool Lia Lra Psatz.
From Verif Require Import Proofs.LinAlg Proofs.Covariance Proofs.VariogramFitting.
From Verif Require Import Model.Outcome Model.LinAlg Model.Rbfs Model.VariogramFitting Model.Description Spec.Rbfs Spec.VariogramFitting Spec.Description.
Import ListNotations.
Local Open Scope R_scope.

(** fmod and turns. *)
Lemma int_part_bounds : forall x, IZR (Int_part x) <= x < IZR (Int_part x) + 1.
Proof. intros x. destruct (base_Int_part x). lra. Qed.
Lemma fmod_spec : forall x y, 0 < y -> (0 <= x -> 0 <= fmod x y < y) /\ (x < 0 -> - y < fmod x y <= 0) /\ exists k, fmod x y = x + y * IZR k.
Proof.
  intros x y Y. assert (E : x = y * (x / y)) by (field; lra). split; [|split].
  - intros X. unfold fmod, trunc. assert (Q : 0 <= x / y) by (apply Rmult_le_pos; [exact X|apply Rlt_le, Rinv_0_lt_compat; exact Y]).
    destruct (Rle_dec 0 (x / y)); [|contradiction]. pose proof (int_part_bounds (x / y)) as B. rewrite E at 1 3. generalize dependent (IZR (Int_part (x / y))). intros k B. nra.
  - intros X. unfold fmod, trunc. assert (Q : x / y < 0) by (unfold Rdiv; pose proof (Rinv_0_lt_compat y Y); nra).
    destruct (Rle_dec 0 (x / y)); [lra|]. rewrite opp_IZR. pose proof (int_part_bounds (- (x / y))) as B. rewrite E at 1 3. generalize dependent (IZR (Int_part (- (x / y)))). intros k B. nra.
  - exists (- trunc (x / y))%Z. unfold fmod. rewrite opp_IZR. ring.
Qed.
Lemma half_turn_spec : forall x, 0 <= half_turn x < 180 /\ exists k, half_turn x = x + 180 * IZR k.
Proof.
  intros x. destruct (fmod_spec x 180 ltac:(lra)) as (A & B & k & E). unfold half_turn. cbv zeta. unfold lt_dec_b.
  destruct (Rlt_dec (fmod x 180) 0) as [L|L].
  - destruct (Rle_lt_dec 0 x) as [X|X]; [specialize (A X); lra|specialize (B X)]. split; [lra|]. exists (k + 1)%Z. rewrite plus_IZR. lra.
  - split; [|exists k; exact E]. destruct (Rle_lt_dec 0 x) as [X|X]; [specialize (A X); lra|specialize (B X); lra].
Qed.
Lemma full_turn_spec : forall x, 0 <= full_turn x < 360 /\ exists k, full_turn x = x + 360 * IZR k.
Proof.
  intros x. destruct (fmod_spec x 360 ltac:(lra)) as (A & B & k & E). unfold full_turn. cbv zeta. unfold lt_dec_b.
  destruct (Rlt_dec (fmod x 360) 0) as [L|L].
  - destruct (Rle_lt_dec 0 x) as [X|X]; [specialize (A X); lra|specialize (B X)]. split; [lra|]. exists (k + 1)%Z. rewrite plus_IZR. lra.
  - split; [|exists k; exact E]. destruct (Rle_lt_dec 0 x) as [X|X]; [specialize (A X); lra|specialize (B X); lra].
Qed.

(** Periods. *)
Lemma half_nat : forall k x, exists s, (s = 1 \/ s = -1) /\ cos (x + INR k * PI) = s * cos x /\ sin (x + INR k * PI) = s * sin x.
Proof.
  induction k as [|k IH]; intros x.
  - exists 1. cbn [INR]. rewrite Rmult_0_l, Rplus_0_r. split; [auto|split; ring].
  - destruct (IH x) as (s & S & C & I). exists (- s). rewrite S_INR. replace (x + (INR k + 1) * PI) with (x + INR k * PI + PI) by ring.
    rewrite neg_cos, neg_sin, C, I. split; [destruct S as [-> | ->]; [right|left]; lra|split; ring].
Qed.
Lemma half_turns : forall k x, exists s, (s = 1 \/ s = -1) /\ cos (x + IZR k * PI) = s * cos x /\ sin (x + IZR k * PI) = s * sin x.
Proof.
  intros k x. destruct (Z_le_gt_dec 0 k) as [K|K].
  - rewrite <- (Z2Nat.id k K), <- INR_IZR_INZ. apply half_nat.
  - destruct (half_nat (Z.to_nat (- k)) (x + IZR k * PI)) as (s & S & C & I). rewrite INR_IZR_INZ, Z2Nat.id in C, I by lia. rewrite opp_IZR in C, I.
    replace (x + IZR k * PI + - IZR k * PI) with x in C, I by ring. exists s. split; [exact S|]. rewrite C, I. destruct S as [-> | ->]; split; ring.
Qed.
Lemma full_turns : forall k x, cos (x + 2 * IZR k * PI) = cos x /\ sin (x + 2 * IZR k * PI) = sin x.
Proof.
  intros k x. destruct (half_turns k x) as (s & S & C & I). destruct (half_turns k (x + IZR k * PI)) as (s' & S' & C' & I').
  replace (x + IZR k * PI + IZR k * PI) with (x + 2 * IZR k * PI) in C', I' by ring. rewrite C in C'. rewrite I in I'.
  assert (W : s = s').
  { assert (P : forall y, exists s, (s = 1 \/ s = -1) /\ (cos (y + IZR k * PI) = s * cos y /\ sin (y + IZR k * PI) = s * sin y)) by (intros; apply half_turns).
    pose proof (sin2_cos2 x) as N. unfold Rsqr in N.
    (* the sign is cos (k PI), whatever x *)
    assert (G : forall y t, (t = 1 \/ t = -1) -> cos (y + IZR k * PI) = t * cos y -> sin (y + IZR k * PI) = t * sin y -> t = cos (IZR k * PI)).
    { intros y t T A B. replace (IZR k * PI) with (y + IZR k * PI - y) at 1 by ring. rewrite cos_minus, A, B. pose proof (sin2_cos2 y) as M. unfold Rsqr in M. nra. }
    rewrite (G x s S C I). symmetry. apply (G (x + IZR k * PI) s' S'); replace (x + IZR k * PI + IZR k * PI) with (x + 2 * IZR k * PI) by ring; [rewrite C', C|rewrite I', I]; ring. }
  subst s'. rewrite C', I'. destruct S as [-> | ->]; split; ring.
Qed.

(** The axes. *)
Lemma same_axes_refl : forall n a, same_axes n a a.
Proof. intros n a j _. exists 1. split; [auto|]. intros; ring. Qed.
Lemma same_axes_trans : forall n a b c, same_axes n a b -> same_axes n b c -> same_axes n a c.
Proof.
  intros n a b c A B j J. destruct (A j J) as (s & S & E). destruct (B j J) as (t & T & F). exists (s * t). split.
  - destruct S as [-> | ->], T as [-> | ->]; lra.
  - intros i I. rewrite E, F by exact I. ring.
Qed.
Definition described (az dip rot : R) : nat -> nat -> R := zxz (- (az * deg)) (- (dip * deg)) (- (rot * deg)).
Lemma zxz_entries : forall a b c i j, (i < 3)%nat -> (j < 3)%nat -> zxz a b c i j =
  match j with
  | 0%nat => match i with 0%nat => cos a * cos c - sin a * cos b * sin c | 1%nat => sin a * cos c + cos a * cos b * sin c | _ => sin b * sin c end
  | 1%nat => match i with 0%nat => - (cos a * sin c) - sin a * cos b * cos c | 1%nat => - (sin a * sin c) + cos a * cos b * cos c | _ => sin b * cos c end
  | _ => match i with 0%nat => sin a * sin b | 1%nat => - (cos a * sin b) | _ => cos b end
  end.
Proof.
  intros a b c i j I J. unfold zxz, product. destruct i as [|[|[|i]]]; try lia; destruct j as [|[|[|j]]]; try lia; cbn [rsum about_z about_x]; ring.
Qed.
Ltac axes s0 s1 s2 :=
  let j := fresh "j" in let J := fresh "J" in intros j J; destruct j as [|[|[|j]]]; [exists s0|exists s1|exists s2|lia];
  (split; [try lra; auto|]); intros i I; rewrite !zxz_entries by (exact I || lia); destruct i as [|[|[|i]]]; try lia.
Lemma turn_azimuth : forall az dip rot k, same_axes 3 (described (az + 360 * IZR k) dip rot) (described az dip rot).
Proof.
  intros az dip rot k. unfold described. replace (- ((az + 360 * IZR k) * deg)) with (- (az * deg) + 2 * IZR (- k) * PI) by (rewrite opp_IZR; unfold deg; field).
  destruct (full_turns (- k) (- (az * deg))) as [C S]. axes 1 1 1; rewrite ?C, ?S; ring.
Qed.
Lemma turn_dip : forall az dip rot k, same_axes 3 (described az (dip + 360 * IZR k) rot) (described az dip rot).
Proof.
  intros az dip rot k. unfold described. replace (- ((dip + 360 * IZR k) * deg)) with (- (dip * deg) + 2 * IZR (- k) * PI) by (rewrite opp_IZR; unfold deg; field).
  destruct (full_turns (- k) (- (dip * deg))) as [C S]. axes 1 1 1; rewrite ?C, ?S; ring.
Qed.
Lemma turn_rotation : forall az dip rot k, same_axes 3 (described az dip (rot + 180 * IZR k)) (described az dip rot).
Proof.
  intros az dip rot k. unfold described. replace (- ((rot + 180 * IZR k) * deg)) with (- (rot * deg) + IZR (- k) * PI) by (rewrite opp_IZR; unfold deg; field).
  destruct (half_turns (- k) (- (rot * deg))) as (s & X & C & S). axes s s 1; rewrite ?C, ?S; ring.
Qed.
Lemma flip_dip : forall az dip rot, same_axes 3 (described (az + 180) (- dip) rot) (described az dip rot).
Proof.
  intros az dip rot. unfold described. replace (- ((az + 180) * deg)) with (- (az * deg) + IZR (-1) * PI) by (unfold deg; field).
  replace (- (- dip * deg)) with (- - (dip * deg)) by ring.
  assert (C : cos (- (az * deg) + -1 * PI) = - cos (- (az * deg))) by (replace (- (az * deg) + -1 * PI) with (- (az * deg) - PI) by ring; rewrite cos_minus, cos_PI, sin_PI; ring).
  assert (S : sin (- (az * deg) + -1 * PI) = - sin (- (az * deg))) by (replace (- (az * deg) + -1 * PI) with (- (az * deg) - PI) by ring; rewrite sin_minus, cos_PI, sin_PI; ring).
  axes (-1) (-1) 1; rewrite ?C, ?S, ?(cos_neg (- (dip * deg))), ?(sin_neg (- (dip * deg))); ring.
Qed.
Lemma flip_over : forall az dip rot, same_axes 3 (described (az + 180) (180 - dip) (- rot)) (described az dip rot).
Proof.
  intros az dip rot. unfold described. replace (- ((az + 180) * deg)) with (- (az * deg) + IZR (-1) * PI) by (unfold deg; field).
  replace (- ((180 - dip) * deg)) with (- - (dip * deg) - PI) by (unfold deg; field). replace (- (- rot * deg)) with (- - (rot * deg)) by ring.
  assert (C : cos (- (az * deg) + -1 * PI) = - cos (- (az * deg))) by (replace (- (az * deg) + -1 * PI) with (- (az * deg) - PI) by ring; rewrite cos_minus, cos_PI, sin_PI; ring).
  assert (S : sin (- (az * deg) + -1 * PI) = - sin (- (az * deg))) by (replace (- (az * deg) + -1 * PI) with (- (az * deg) - PI) by ring; rewrite sin_minus, cos_PI, sin_PI; ring).
  assert (C' : cos (- - (dip * deg) - PI) = - cos (- (dip * deg))) by (rewrite cos_minus, cos_PI, sin_PI, cos_neg; ring).
  assert (S' : sin (- - (dip * deg) - PI) = sin (- (dip * deg))) by (rewrite sin_minus, cos_PI, sin_PI, (sin_neg (- (dip * deg))); ring).
  axes (-1) 1 (-1); rewrite ?C, ?S, ?C', ?S', ?(cos_neg (- (rot * deg))), ?(sin_neg (- (rot * deg))); ring.
Qed.
Theorem angles3_spec : forall e0 e1 e2, let '(az, dip, rot) := angles3 e0 e1 e2 in
  0 <= az < 360 /\ 0 <= dip <= 90 /\ 0 <= rot < 180 /\ same_axes 3 (zxz (- (az * deg)) (- (dip * deg)) (- (rot * deg))) (zxz e0 e1 e2).
Proof.
  intros e0 e1 e2. assert (D : deg <> 0) by (unfold deg; pose proof PI_RGT_0; lra).
  assert (START : same_axes 3 (described (- e0 / deg) (fmod (- e1 / deg) 360) (- e2 / deg)) (zxz e0 e1 e2)).
  { destruct (fmod_spec (- e1 / deg) 360 ltac:(lra)) as (_ & _ & k & ->). eapply same_axes_trans; [apply turn_dip|]. unfold described.
    replace (- (- e0 / deg * deg)) with e0 by (field; exact D). replace (- (- e1 / deg * deg)) with e1 by (field; exact D). replace (- (- e2 / deg * deg)) with e2 by (field; exact D).
    apply same_axes_refl. }
  assert (B : -360 < fmod (- e1 / deg) 360 < 360).
  { destruct (fmod_spec (- e1 / deg) 360 ltac:(lra)) as (A & B & _). destruct (Rle_lt_dec 0 (- e1 / deg)) as [X|X]; [specialize (A X)|specialize (B X)]; lra. }
  assert (FIN : forall az dip rot, same_axes 3 (described az dip rot) (zxz e0 e1 e2) -> 0 <= dip <= 90 ->
    0 <= full_turn az < 360 /\ 0 <= dip <= 90 /\ 0 <= half_turn rot < 180 /\ same_axes 3 (zxz (- (full_turn az * deg)) (- (dip * deg)) (- (half_turn rot * deg))) (zxz e0 e1 e2)).
  { intros az dip rot S R. destruct (full_turn_spec az) as (A & k & E). destruct (half_turn_spec rot) as (C & l & F).
    split; [exact A|]. split; [exact R|]. split; [exact C|]. rewrite E, F. eapply same_axes_trans; [apply (turn_azimuth az dip (rot + 180 * IZR l) k)|].
    eapply same_axes_trans; [apply turn_rotation|exact S]. }
  unfold angles3. cbv zeta. revert START B. generalize (- e0 / deg) (fmod (- e1 / deg) 360) (- e2 / deg). clear D. intros az dip rot START B.
  assert (S1 : exists d a, (if lt_dec_b dip 0 then (- dip, az + 180) else (dip, az)) = (d, a) /\ 0 <= d < 360 /\ same_axes 3 (described a d rot) (zxz e0 e1 e2)).
  { unfold lt_dec_b. destruct (Rlt_dec dip 0); eexists; eexists; (split; [reflexivity|]); (split; [lra|]); [eapply same_axes_trans; [apply flip_dip|]|]; exact START. }
  destruct S1 as (d & a & -> & Bd & S1). clear START B.
  assert (S2 : exists d' a', (if lt_dec_b 180 d then (360 - d, a + 180) else (d, a)) = (d', a') /\ 0 <= d' <= 180 /\ same_axes 3 (described a' d' rot) (zxz e0 e1 e2)).
  { unfold lt_dec_b. destruct (Rlt_dec 180 d); eexists; eexists; (split; [reflexivity|]); (split; [lra|]); [|exact S1].
    replace (360 - d) with (- (d + 360 * IZR (-1))) by lra. eapply same_axes_trans; [apply flip_dip|]. eapply same_axes_trans; [apply turn_dip|exact S1]. }
  destruct S2 as (d' & a' & -> & Bd' & S2). clear S1. unfold lt_dec_b.
  destruct (Rlt_dec 90 d'); apply FIN; try lra; [eapply same_axes_trans; [apply flip_over|]|]; exact S2.
Qed.
Theorem angle2_spec : forall angle, 0 <= angle2 angle < 180 /\ exists s, (s = 1 \/ s = -1) /\
  cos (angle2 angle * deg) = s * cos angle /\ sin (angle2 angle * deg) = - (s * sin angle).
Proof.
  intros angle. unfold angle2. destruct (half_turn_spec (- angle / deg)) as (A & k & E). split; [exact A|]. rewrite E.
  assert (D : deg <> 0) by (unfold deg; pose proof PI_RGT_0; lra).
  replace ((- angle / deg + 180 * IZR k) * deg) with (- angle + IZR k * PI) by (rewrite Rmult_plus_distr_r; f_equal; [field; exact D|unfold deg; field]).
  destruct (half_turns k (- angle)) as (s & S & C & I). exists s. split; [exact S|]. rewrite C, I, cos_neg, sin_neg. split; ring.
Qed.

(** Inverting a matrix of at most three columns. *)
Lemma injective2 : forall a b c d x y, a * x + b * y = 0 -> c * x + d * y = 0 -> (a * d - b * c) * x = 0 /\ (a * d - b * c) * y = 0.
Proof.
  intros a b c d x y P Q. split.
  - transitivity (d * (a * x + b * y) - b * (c * x + d * y)); [ring|rewrite P, Q; ring].
  - transitivity (a * (c * x + d * y) - c * (a * x + b * y)); [ring|rewrite P, Q; ring].
Qed.
Lemma injective3 : forall a b c d e f g h i x y z, a * x + b * y + c * z = 0 -> d * x + e * y + f * z = 0 -> g * x + h * y + i * z = 0 ->
  (a * (e * i - f * h) - b * (d * i - f * g) + c * (d * h - e * g)) * x = 0 /\
  (a * (e * i - f * h) - b * (d * i - f * g) + c * (d * h - e * g)) * y = 0 /\
  (a * (e * i - f * h) - b * (d * i - f * g) + c * (d * h - e * g)) * z = 0.
Proof.
  intros a b c d e f g h i x y z P Q S. split; [|split].
  - transitivity ((e * i - f * h) * (a * x + b * y + c * z) + (c * h - b * i) * (d * x + e * y + f * z) + (b * f - c * e) * (g * x + h * y + i * z)); [ring|rewrite P, Q, S; ring].
  - transitivity ((f * g - d * i) * (a * x + b * y + c * z) + (a * i - c * g) * (d * x + e * y + f * z) + (c * d - a * f) * (g * x + h * y + i * z)); [ring|rewrite P, Q, S; ring].
  - transitivity ((d * h - e * g) * (a * x + b * y + c * z) + (b * g - a * h) * (d * x + e * y + f * z) + (a * e - b * d) * (g * x + h * y + i * z)); [ring|rewrite P, Q, S; ring].
Qed.
Lemma three : forall n, (1 <= n <= 3)%nat -> n = 1%nat \/ n = 2%nat \/ n = 3%nat.
Proof. intros; lia. Qed.
Lemma injective : forall n a v, (1 <= n <= 3)%nat -> det n a <> 0 -> (forall i, (i < n)%nat -> mat_vec n a v i = 0) -> forall j, (j < n)%nat -> v j = 0.
Proof.
  intros n a v N D Z j J. apply (Rmult_eq_reg_l (det n a)); [|exact D]. rewrite Rmult_0_r.
  destruct (three n N) as [-> | [-> | ->]].
  - pose proof (Z 0%nat ltac:(lia)) as Z0. unfold mat_vec in Z0. cbn [rsum] in Z0. unfold det. assert (j = 0%nat) by lia. subst j. lra.
  - pose proof (Z 0%nat ltac:(lia)) as Z0. pose proof (Z 1%nat ltac:(lia)) as Z1. unfold mat_vec in Z0, Z1. cbn [rsum] in Z0, Z1. rewrite Rplus_0_l in Z0, Z1.
    destruct (injective2 _ _ _ _ _ _ Z0 Z1) as [P Q]. destruct j as [|[|j]]; [exact P|exact Q|lia].
  - pose proof (Z 0%nat ltac:(lia)) as Z0. pose proof (Z 1%nat ltac:(lia)) as Z1. pose proof (Z 2%nat ltac:(lia)) as Z2. unfold mat_vec in Z0, Z1, Z2.
    cbn [rsum] in Z0, Z1, Z2. rewrite Rplus_0_l in Z0, Z1, Z2.
    destruct (injective3 _ _ _ _ _ _ _ _ _ _ _ _ Z0 Z1 Z2) as (P & Q & S). destruct j as [|[|[|j]]]; [exact P|exact Q|exact S|lia].
Qed.
Lemma det_columns : forall n v, (1 <= n <= 3)%nat -> (forall i j, (i < n)%nat -> (j < n)%nat -> dot n (column v i) (column v j) = identity i j) -> det n v * det n v = 1.
Proof.
  intros n v N O. set (g := fun i j => dot n (column v i) (column v j)).
  assert (E : det n v * det n v = det n g) by (destruct (three n N) as [-> | [-> | ->]]; unfold det, g, dot, column; cbn [rsum]; ring).
  rewrite E. destruct (three n N) as [-> | [-> | ->]]; unfold det, g; rewrite !O by lia; unfold identity; cbn [Nat.eqb]; ring.
Qed.
Lemma det_rows : forall n v, (1 <= n <= 3)%nat -> (forall i j, (i < n)%nat -> (j < n)%nat -> dot n (v i) (v j) = identity i j) -> det n v * det n v = 1.
Proof.
  intros n v N O. set (g := fun i j => dot n (v i) (v j)).
  assert (E : det n v * det n v = det n g) by (destruct (three n N) as [-> | [-> | ->]]; unfold det, g, dot, column; cbn [rsum]; ring).
  rewrite E. destruct (three n N) as [-> | [-> | ->]]; unfold det, g; rewrite !O by lia; unfold identity; cbn [Nat.eqb]; ring.
Qed.
Lemma rsum_identity : forall n f j, (j < n)%nat -> rsum n (fun k => f k * identity k j) = f j.
Proof.
  intros n f j J. rewrite (rsum_single n j); [unfold identity; rewrite Nat.eqb_refl; ring|exact J|].
  intros i _ NE. unfold identity. apply Nat.eqb_neq in NE. rewrite NE. ring.
Qed.
Lemma dot_sym : forall n x y, dot n x y = dot n y x.
Proof. intros. unfold dot. apply rsum_ext. intros. ring. Qed.
Lemma identity_sym : forall i j, identity i j = identity j i.
Proof. intros. unfold identity. rewrite Nat.eqb_sym. reflexivity. Qed.
(** Orthonormal columns have orthonormal rows and conversely. *)
Lemma columns_rows : forall n v, (1 <= n <= 3)%nat -> (forall i j, (i < n)%nat -> (j < n)%nat -> dot n (column v i) (column v j) = identity i j) ->
  forall i j, (i < n)%nat -> (j < n)%nat -> dot n (v i) (v j) = identity i j.
Proof.
  intros n v N O i j I J. set (t := fun i j => v j i).
  assert (D : det n t <> 0).
  { pose proof (det_columns n v N O) as E. assert (F : det n t = det n v) by (destruct (three n N) as [-> | [-> | ->]]; unfold det, t; ring). rewrite F. intros Z. rewrite Z in E. lra. }
  assert (G : forall k, (k < n)%nat -> dot n (v k) (v j) - identity k j = 0).
  { apply (injective n t (fun k => dot n (v k) (v j) - identity k j) N D). intros c C. unfold mat_vec, t.
    transitivity (rsum n (fun k => v k c * dot n (v k) (v j)) - rsum n (fun k => v k c * identity k j)).
    { rewrite <- rsum_minus. apply rsum_ext. intros; ring. }
    rewrite rsum_identity by exact J. unfold dot.
    transitivity (rsum n (fun k => rsum n (fun m => v k c * (v k m * v j m))) - v j c).
    { f_equal. apply rsum_ext. intros k _. rewrite rsum_scal. reflexivity. }
    rewrite rsum_swap. transitivity (rsum n (fun m => v j m * identity m c) - v j c); [|rewrite rsum_identity by exact C; ring].
    f_equal. apply rsum_ext. intros m M. rewrite <- (O m c M C). unfold dot, column. rewrite <- rsum_scal. apply rsum_ext. intros; ring. }
  specialize (G i I). lra.
Qed.
(** The quadratic form of [gram]. *)
Lemma gram_form : forall n a x, dot n (mat_vec n a x) (mat_vec n a x) = dot n x (mat_vec n (gram n a) x).
Proof.
  intros n a x. unfold dot at 2. unfold mat_vec at 3. unfold gram.
  transitivity (rsum n (fun i => rsum n (fun j => rsum n (fun k => (a k i * x i) * (a k j * x j))))).
  - transitivity (rsum n (fun k => rsum n (fun i => rsum n (fun j => (a k i * x i) * (a k j * x j))))).
    + unfold dot. apply rsum_ext. intros k _. unfold mat_vec. rewrite <- rsum_scal_r. apply rsum_ext. intros i _. rewrite <- rsum_scal. reflexivity.
    + rewrite rsum_swap. apply rsum_ext. intros i _. rewrite rsum_swap. reflexivity.
  - apply rsum_ext. intros i _. rewrite <- rsum_scal. apply rsum_ext. intros j _. transitivity (x i * x j * rsum n (fun k => a k i * a k j)); [|ring].
    rewrite <- rsum_scal. apply rsum_ext. intros; ring.
Qed.
Lemma gram_bilinear : forall n a x y, dot n (mat_vec n a x) (mat_vec n a y) = dot n x (mat_vec n (gram n a) y).
Proof.
  intros n a x y. unfold dot at 2. unfold mat_vec at 3. unfold gram.
  transitivity (rsum n (fun i => rsum n (fun j => rsum n (fun k => (a k i * x i) * (a k j * y j))))).
  - transitivity (rsum n (fun k => rsum n (fun i => rsum n (fun j => (a k i * x i) * (a k j * y j))))).
    + unfold dot. apply rsum_ext. intros k _. unfold mat_vec. rewrite <- rsum_scal_r. apply rsum_ext. intros i _. rewrite <- rsum_scal. reflexivity.
    + rewrite rsum_swap. apply rsum_ext. intros i _. rewrite rsum_swap. reflexivity.
  - apply rsum_ext. intros i _. rewrite <- rsum_scal. apply rsum_ext. intros j _. transitivity (x i * y j * rsum n (fun k => a k i * a k j)); [|ring].
    rewrite <- rsum_scal. apply rsum_ext. intros; ring.
Qed.
Section Eigen.
Variable n : nat.
Variable a : nat -> nat -> R.
Variable values : nat -> R.
Variable vectors : nat -> nat -> R.
Hypothesis N : (1 <= n <= 3)%nat.
Hypothesis E : eigen_system n (gram n a) values vectors.
Lemma image_dot : forall i j, (i < n)%nat -> (j < n)%nat -> dot n (mat_vec n a (column vectors i)) (mat_vec n a (column vectors j)) = values j * identity i j.
Proof using E.
  intros i j I J. rewrite gram_bilinear. destruct E as (O & V & _). rewrite <- (O i j I J). unfold dot. rewrite <- rsum_scal. apply rsum_ext. intros k K.
  rewrite (V k j K J). unfold column. ring.
Qed.
Lemma values_pos : det n a <> 0 -> forall i, (i < n)%nat -> 0 < values i.
Proof using N E.
  intros D i I. pose proof (image_dot i i I I) as X. unfold identity in X. rewrite Nat.eqb_refl, Rmult_1_r in X. rewrite <- X.
  destruct (Rle_lt_or_eq_dec 0 _ (dot_nonneg n (mat_vec n a (column vectors i)))) as [L|Z]; [exact L|exfalso].
  assert (Z' : forall k, (k < n)%nat -> mat_vec n a (column vectors i) k = 0).
  { intros k K. symmetry in Z. assert (S : forall f m, (forall q, 0 <= f q) -> rsum m f = 0 -> forall q, (q < m)%nat -> f q = 0).
    { intros f m P. induction m as [|m IH]; intros S q Q; [lia|]. cbn [rsum] in S. pose proof (rsum_pos m f ltac:(auto)). pose proof (P m).
      destruct (Nat.eq_dec q m) as [-> |NE]; [lra|]. apply IH; [lra|lia]. }
    unfold dot in Z. refine (Rsqr_0_uniq _ (S _ n _ Z k K)). intros q. apply Rle_0_sqr. }
  pose proof (injective n a (column vectors i) N D Z') as V. destruct E as (O & _ & _). pose proof (O i i I I) as U. unfold identity in U. rewrite Nat.eqb_refl in U.
  assert (W : dot n (column vectors i) (column vectors i) = 0) by (unfold dot; apply rsum_0; intros k K; rewrite (V k K); ring). lra.
Qed.
Lemma flipped : forall i j, fst (decompose n values vectors) i j = (if lt_dec_b (det n vectors) 0 && (j =? 0)%nat then -1 else 1) * vectors i j.
Proof using. intros. unfold decompose. cbn [fst]. destruct (_ && _); ring. Qed.
Theorem decompose_rotation : column_rotation n (fst (decompose n values vectors)).
Proof using N E.
  destruct E as (O & _ & _). split.
  - intros i j I J. unfold dot, column.
    transitivity ((if lt_dec_b (det n vectors) 0 && (i =? 0)%nat then -1 else 1) * (if lt_dec_b (det n vectors) 0 && (j =? 0)%nat then -1 else 1) * dot n (column vectors i) (column vectors j)).
    { unfold dot, column. rewrite <- rsum_scal. apply rsum_ext. intros k _. rewrite !flipped. ring. }
    rewrite (O i j I J). unfold identity. destruct (lt_dec_b (det n vectors) 0), (i =? j)%nat eqn:F; cbn [andb]; try ring.
    apply Nat.eqb_eq in F. subst j. destruct (i =? 0)%nat; ring.
  - pose proof (det_columns n vectors N O) as D. unfold decompose. cbn [fst].
    assert (X : forall s, det n (fun i j => if s && (j =? 0)%nat then vectors i j * -1 else vectors i j) = (if s then -1 else 1) * det n vectors).
    { intros s. destruct (three n N) as [-> | [-> | ->]]; destruct s; unfold det; cbn [andb Nat.eqb]; ring. }
    rewrite X. unfold lt_dec_b. assert (W : (det n vectors - 1) * (det n vectors + 1) = 0) by lra. apply Rmult_integral in W.
    destruct (Rlt_dec (det n vectors) 0), W; lra.
Qed.
Lemma scale_pos : det n a <> 0 -> forall i, (i < n)%nat -> 0 < snd (decompose n values vectors) i.
Proof using N E. intros D i I. unfold decompose. cbn [snd]. apply Rinv_0_lt_compat, sqrt_lt_R0, values_pos; assumption. Qed.
Lemma scale_descending : det n a <> 0 -> forall i j, (i <= j < n)%nat -> snd (decompose n values vectors) j <= snd (decompose n values vectors) i.
Proof using N E.
  intros D i j IJ. unfold decompose. cbn [snd]. destruct E as (_ & _ & S). pose proof (S i j IJ) as L. pose proof (values_pos D i ltac:(lia)) as P.
  apply Rinv_le_contravar; [apply sqrt_lt_R0; exact P|apply sqrt_le_1_alt; exact L].
Qed.
Theorem described_range : det n a <> 0 -> forall k p0 p1 i h, covariance k -> 0 < p1 -> (i < n)%nat -> 0 <= h ->
  evaluate n k p0 p1 a (fun j => h * fst (decompose n values vectors) j i) = at_distance k p0 (snd (decompose n values vectors) i * p1) h.
Proof using N E.
  intros D k p0 p1 i h K P I H. rewrite evaluate_distance. pose proof (values_pos D i I) as V.
  set (s := if lt_dec_b (det n vectors) 0 && (i =? 0)%nat then -1 else 1).
  assert (S2 : s * s = 1) by (unfold s; destruct (_ && _); ring).
  assert (X : dot n (mat_vec n a (fun j => h * fst (decompose n values vectors) j i)) (mat_vec n a (fun j => h * fst (decompose n values vectors) j i)) = h * h * values i).
  { transitivity ((h * s) * (h * s) * dot n (mat_vec n a (column vectors i)) (mat_vec n a (column vectors i))).
    - unfold dot. rewrite <- rsum_scal. apply rsum_ext. intros q _.
      assert (M : mat_vec n a (fun j => h * fst (decompose n values vectors) j i) q = h * s * mat_vec n a (column vectors i) q).
      { unfold mat_vec. rewrite <- rsum_scal. apply rsum_ext. intros j _. rewrite flipped. fold s. unfold column. ring. }
      rewrite M. ring.
    - rewrite image_dot by exact I. unfold identity. rewrite Nat.eqb_refl. transitivity (h * h * (s * s) * values i); [ring|rewrite S2; ring]. }
  rewrite X. replace (h * h * values i) with (Rsqr h * values i) by (unfold Rsqr; ring). rewrite sqrt_mult by (try apply Rle_0_sqr; lra).
  rewrite sqrt_Rsqr by exact H. unfold decompose. cbn [snd]. rewrite range_scaling by (try assumption; apply sqrt_lt_R0; exact V).
  f_equal. unfold Rdiv. ring.
Qed.
(** Every vector in the eigenbasis. *)
Lemma spectral : forall x, dot n (mat_vec n a x) (mat_vec n a x) = rsum n (fun j => values j * (dot n (column vectors j) x * dot n (column vectors j) x)).
Proof using N E.
  intros x. destruct E as (O & V & _). pose proof (columns_rows n vectors N O) as RW.
  assert (EX : forall k, (k < n)%nat -> x k = rsum n (fun j => vectors k j * dot n (column vectors j) x)).
  { intros k K. unfold dot, column. symmetry. transitivity (rsum n (fun j => rsum n (fun m => vectors k j * (vectors m j * x m)))).
    - apply rsum_ext. intros j _. rewrite rsum_scal. reflexivity.
    - rewrite rsum_swap. transitivity (rsum n (fun m => x m * identity m k)); [|apply rsum_identity; exact K].
      apply rsum_ext. intros m M. rewrite <- (RW m k M K). unfold dot. rewrite <- rsum_scal. apply rsum_ext. intros; ring. }
  rewrite gram_form. assert (G : forall i, (i < n)%nat -> mat_vec n (gram n a) x i = rsum n (fun j => values j * vectors i j * dot n (column vectors j) x)).
  { intros i I. unfold mat_vec at 1. transitivity (rsum n (fun k => rsum n (fun j => gram n a i k * (vectors k j * dot n (column vectors j) x)))).
    - apply rsum_ext. intros k K. rewrite (EX k K) at 1. rewrite rsum_scal. reflexivity.
    - rewrite rsum_swap. apply rsum_ext. intros j J. rewrite <- (V i j I J). unfold mat_vec. rewrite <- rsum_scal_r. apply rsum_ext. intros; unfold column; ring. }
  unfold dot at 1. transitivity (rsum n (fun i => rsum n (fun j => x i * (values j * vectors i j * dot n (column vectors j) x)))).
  - apply rsum_ext. intros i I. rewrite (G i I), rsum_scal. reflexivity.
  - rewrite rsum_swap. apply rsum_ext. intros j _. transitivity (values j * dot n (column vectors j) x * rsum n (fun i => column vectors j i * x i)); [|unfold dot; ring].
    rewrite <- rsum_scal. apply rsum_ext. intros i _. change (column vectors j i) with (vectors i j). ring.
Qed.
End Eigen.
Lemma parseval : forall n v x, (forall i j, (i < n)%nat -> (j < n)%nat -> dot n (v i) (v j) = identity i j) -> (1 <= n <= 3)%nat ->
  rsum n (fun j => dot n (column v j) x * dot n (column v j) x) = dot n x x.
Proof.
  intros n v x RW N. unfold dot at 1 2, column.
  transitivity (rsum n (fun j => rsum n (fun i => rsum n (fun k => (v i j * x i) * (v k j * x k))))).
  { apply rsum_ext. intros j _. rewrite <- rsum_scal_r. apply rsum_ext. intros i _. rewrite <- rsum_scal. reflexivity. }
  rewrite rsum_swap. unfold dot. apply rsum_ext. intros i I. rewrite rsum_swap.
  transitivity (rsum n (fun k => x i * x k * identity k i)); [|apply (rsum_identity n (fun k => x i * x k) i I)].
  apply rsum_ext. intros k K. rewrite <- (RW k i K I). unfold dot. rewrite <- rsum_scal. apply rsum_ext. intros; ring.
Qed.

(** The fitted matrix: its eigenvalues are the squared scales. *)
Section Fitted.
Variable n : nat.
Variable rot : nat -> nat -> R.
Variable s : nat -> R.
Variable values : nat -> R.
Variable vectors : nat -> nat -> R.
Hypothesis N : (1 <= n <= 3)%nat.
Hypothesis RO : rotation n rot.
Hypothesis P : forall i, (i < n)%nat -> 0 < s i.
Hypothesis A : forall i j, (i <= j < n)%nat -> s i <= s j.
Hypothesis E : eigen_system n (gram n (scaled rot s)) values vectors.
Lemma scaled_form : forall x, dot n (mat_vec n (scaled rot s) x) (mat_vec n (scaled rot s) x) = rsum n (fun i => s i * s i * (dot n (rot i) x * dot n (rot i) x)).
Proof using.
  intros x. unfold dot at 1. apply rsum_ext. intros i _. assert (M : mat_vec n (scaled rot s) x i = s i * dot n (rot i) x).
  { unfold mat_vec, dot, scaled. rewrite <- rsum_scal. apply rsum_ext. intros; ring. }
  rewrite M. ring.
Qed.
Lemma row_parseval : forall x, rsum n (fun i => dot n (rot i) x * dot n (rot i) x) = dot n x x.
Proof using N RO.
  intros x. apply (parseval n (fun i j => rot j i) x); [|exact N]. intros i j I J. destruct RO as [O _].
  apply (columns_rows n (fun i j => rot j i) N); [|exact I|exact J]. exact O.
Qed.
Lemma lowest : values 0%nat = s 0%nat * s 0%nat.
Proof using N RO P A E.
  assert (Z : (0 < n)%nat) by lia. destruct E as (O & V & AS). pose proof (columns_rows n vectors N O) as RW. apply Rle_antisym.
  - (* the form at the first row of the rotation *)
    pose proof (spectral n (scaled rot s) values vectors N E (rot 0%nat)) as F. rewrite scaled_form in F.
    rewrite (rsum_single n 0%nat) in F; [|exact Z|].
    + destruct RO as [OR _]. rewrite (OR 0%nat 0%nat Z Z) in F. unfold identity in F. cbn [Nat.eqb] in F.
      pose proof (parseval n vectors (rot 0%nat) RW N) as Q. rewrite (OR 0%nat 0%nat Z Z) in Q. unfold identity in Q. cbn [Nat.eqb] in Q.
      assert (L : rsum n (fun j => values 0%nat * (dot n (column vectors j) (rot 0%nat) * dot n (column vectors j) (rot 0%nat))) <= rsum n (fun j => values j * (dot n (column vectors j) (rot 0%nat) * dot n (column vectors j) (rot 0%nat)))).
      { apply rsum_le. intros j J. apply Rmult_le_compat_r; [apply Rle_0_sqr|apply AS; lia]. }
      rewrite rsum_scal, Q in L. lra.
    + intros i I NE. destruct RO as [OR _]. rewrite (OR i 0%nat I Z). unfold identity. apply Nat.eqb_neq in NE. rewrite NE. ring.
  - pose proof (image_dot n (scaled rot s) values vectors E 0%nat 0%nat Z Z) as F. unfold identity in F. cbn [Nat.eqb] in F. rewrite Rmult_1_r in F. rewrite <- F, scaled_form.
    pose proof (row_parseval (column vectors 0%nat)) as Q. rewrite (O 0%nat 0%nat Z Z) in Q. unfold identity in Q. cbn [Nat.eqb] in Q.
    assert (L : rsum n (fun i => s 0%nat * s 0%nat * (dot n (rot i) (column vectors 0%nat) * dot n (rot i) (column vectors 0%nat))) <= rsum n (fun i => s i * s i * (dot n (rot i) (column vectors 0%nat) * dot n (rot i) (column vectors 0%nat)))).
    { apply rsum_le. intros i I. apply Rmult_le_compat_r; [apply Rle_0_sqr|]. pose proof (P 0%nat Z). pose proof (A 0%nat i ltac:(lia)). nra. }
    rewrite rsum_scal, Q in L. lra.
Qed.
Lemma highest : values (n - 1)%nat = s (n - 1)%nat * s (n - 1)%nat.
Proof using N RO P A E.
  assert (Z : (n - 1 < n)%nat) by lia. destruct E as (O & V & AS). pose proof (columns_rows n vectors N O) as RW. set (h := (n - 1)%nat) in *.
  assert (HH : identity h h = 1) by (unfold identity; rewrite Nat.eqb_refl; reflexivity). apply Rle_antisym.
  - pose proof (image_dot n (scaled rot s) values vectors E h h Z Z) as F. rewrite HH, Rmult_1_r in F. rewrite <- F, scaled_form.
    pose proof (row_parseval (column vectors h)) as Q. rewrite (O h h Z Z), HH in Q.
    assert (L : rsum n (fun i => s i * s i * (dot n (rot i) (column vectors h) * dot n (rot i) (column vectors h))) <= rsum n (fun i => s h * s h * (dot n (rot i) (column vectors h) * dot n (rot i) (column vectors h)))).
    { apply rsum_le. intros i I. apply Rmult_le_compat_r; [apply Rle_0_sqr|]. pose proof (P i I). pose proof (A i h ltac:(unfold h; lia)). nra. }
    rewrite (rsum_scal n (s h * s h)), Q in L. lra.
  - pose proof (spectral n (scaled rot s) values vectors N E (rot h)) as F. rewrite scaled_form in F.
    rewrite (rsum_single n h) in F; [|exact Z|].
    + destruct RO as [OR _]. rewrite (OR h h Z Z), HH in F.
      pose proof (parseval n vectors (rot h) RW N) as Q. rewrite (OR h h Z Z), HH in Q.
      assert (L : rsum n (fun j => values j * (dot n (column vectors j) (rot h) * dot n (column vectors j) (rot h))) <= rsum n (fun j => values h * (dot n (column vectors j) (rot h) * dot n (column vectors j) (rot h)))).
      { apply rsum_le. intros j J. apply Rmult_le_compat_r; [apply Rle_0_sqr|apply AS; unfold h; lia]. }
      rewrite (rsum_scal n (values h)), Q in L. lra.
    + intros i I NE. destruct RO as [OR _]. rewrite (OR i h I Z). unfold identity. apply Nat.eqb_neq in NE. rewrite NE. ring.
Qed.
Lemma trace : rsum n values = rsum n (fun i => s i * s i).
Proof using N RO E.
  destruct E as (O & V & AS). pose proof (columns_rows n vectors N O) as RW. destruct RO as [OR _].
  transitivity (rsum n (fun k => gram n (scaled rot s) k k)).
  - (* the form at the unit vectors *)
    transitivity (rsum n (fun k => rsum n (fun j => values j * (vectors k j * vectors k j)))).
    + rewrite rsum_swap. apply rsum_ext. intros j J. rewrite rsum_scal. pose proof (O j j J J) as U. unfold identity in U. rewrite Nat.eqb_refl in U. unfold dot, column in U. rewrite U. ring.
    + apply rsum_ext. intros k K. pose proof (spectral n (scaled rot s) values vectors N E (fun i => identity i k)) as F.
      assert (U : forall v, dot n v (fun i => identity i k) = v k) by (intros v; unfold dot; apply rsum_identity; exact K).
      transitivity (rsum n (fun j => values j * (dot n (column vectors j) (fun i => identity i k) * dot n (column vectors j) (fun i => identity i k)))).
      { apply rsum_ext. intros j _. rewrite U. reflexivity. }
      rewrite <- F. unfold dot. unfold gram. apply rsum_ext. intros i _. unfold mat_vec. rewrite rsum_identity by exact K. reflexivity.
  - unfold gram. rewrite rsum_swap. apply rsum_ext. intros i I. pose proof (OR i i I I) as U. unfold identity in U. rewrite Nat.eqb_refl in U.
    transitivity (s i * s i * dot n (rot i) (rot i)); [|rewrite U; ring]. unfold dot. rewrite <- rsum_scal. apply rsum_ext. intros k _. unfold scaled. ring.
Qed.
Theorem fitted_scales : forall i, (i < n)%nat -> snd (decompose n values vectors) i = / s i.
Proof using N RO P A E.
  assert (V : forall i, (i < n)%nat -> values i = s i * s i).
  { pose proof lowest as L. pose proof highest as H. pose proof trace as T. clear - N L H T. intros i I.
    destruct (three n N) as [-> | [-> | ->]]; cbn [Nat.sub] in H; cbn [rsum] in T.
    - assert (i = 0%nat) by lia. subst i. exact L.
    - destruct i as [|[|i]]; [exact L|exact H|lia].
    - destruct i as [|[|[|i]]]; [exact L| |exact H|lia]. lra. }
  intros i I. unfold decompose. cbn [snd]. rewrite (V i I), sqrt_square by (apply Rlt_le, P; exact I). reflexivity.
Qed.
End Fitted.
Theorem description_spec : forall n m eigen,
  (description n m eigen = Throw ExRuntimeError <-> Exists (fun f => In (f_kind f) [Bh2; Th2; Bh3; Th3]) (m_rbfs m)) /\
  (forall d, description n m eigen = Ok d -> fst d = m_nugget m /\
     Forall2 (fun f l => fst l = f_p0 f /\ forall i, (i < n)%nat -> nth_error (snd l) i = Some (snd (decompose n (fst (eigen f)) (snd (eigen f))) i * f_p1 f)) (m_rbfs m) (snd d)).
Proof.
  intros n m eigen. unfold description. assert (K : forall k, is_covariance_function k = false <-> In k [Bh2; Th2; Bh3; Th3]).
  { intros k. destruct k; cbn; intuition congruence. }
  split.
  - split.
    + intros H. destruct (forallb (fun f => is_covariance_function (f_kind f)) (m_rbfs m)) eqn:F; cbn [negb] in H; [discriminate|]. clear H.
      induction (m_rbfs m) as [|f fs IH]; cbn [forallb] in F; [discriminate|]. apply andb_false_iff in F. destruct F as [F|F]; [left; apply K; exact F|right; auto].
    + intros X. replace (forallb (fun f => is_covariance_function (f_kind f)) (m_rbfs m)) with false; [reflexivity|]. symmetry.
      induction X as [f fs H|f fs H IH]; cbn [forallb]; apply andb_false_iff; [left; apply K; exact H|right; exact IH].
  - intros d H. destruct (negb _); [discriminate|]. injection H as <-. cbn [fst snd]. split; [reflexivity|].
    induction (m_rbfs m) as [|f fs IH]; cbn [map]; constructor; [|exact IH]. unfold line. cbn [fst snd]. split; [reflexivity|]. intros i I. unfold ranges.
    rewrite nth_error_map, (nth_error_nth' _ 0%nat) by (rewrite seq_length; exact I). rewrite seq_nth by exact I. reflexivity.
Qed.
