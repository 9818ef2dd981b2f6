From Coq Require Import Reals ZArith List Arith Lia Lra Bool Permutation Sorted.
From Verif Require Import Proofs.LinAlg Proofs.DistanceFilter Proofs.FastOperator Proofs.Spheroidal.
From Verif Require Import Spec.DistanceFilter Model.DistanceFilter Model.Rbfs.
From Verif Require Import Model.Outcome Model.LinAlg Model.KdTree Spec.KdTree.
Import ListNotations.
Local Open Scope R_scope.

(** ** Powers of two *)
Lemma pow2_pos : forall e, 0 < pow2 e. Proof. intros e. apply powerRZ_lt. lra. Qed.
Lemma pow2_add : forall a b, pow2 (a + b) = pow2 a * pow2 b. Proof. intros. apply powerRZ_add. lra. Qed.
Lemma pow2_succ : forall a, pow2 (a + 1) = 2 * pow2 a. Proof. intros. rewrite pow2_add. change (pow2 1) with (2 * 1). ring. Qed.
Lemma pow2_nat : forall n, pow2 (Z.of_nat n) = 2 ^ n. Proof. intros. unfold pow2. symmetry. apply pow_powerRZ. Qed.
Lemma pow2_IZR : forall n, (0 <= n)%Z -> pow2 n = IZR (2 ^ n).
Proof. intros n N. rewrite <- (Z2Nat.id n N). rewrite pow2_nat, pow_IZR. reflexivity. Qed.
Lemma pow2_neg : forall a, pow2 (- a) = / pow2 a. Proof. intros. unfold pow2. apply powerRZ_neg'. Qed.
Lemma pow2_ln : forall e, ln (pow2 e) = IZR e * ln 2.
Proof.
  intros e. destruct (Z_le_gt_dec 0 e) as [L|L].
  - rewrite <- (Z2Nat.id e L), pow2_nat, ln_pow, <- INR_IZR_INZ by lra. reflexivity.
  - replace e with (- (- e))%Z by lia. rewrite pow2_neg, ln_Rinv by apply pow2_pos. rewrite <- (Z2Nat.id (- e)) by lia. rewrite pow2_nat, ln_pow by lra.
    rewrite opp_IZR, <- INR_IZR_INZ. ring.
Qed.
Lemma ln2_pos : 0 < ln 2. Proof. rewrite <- ln_1. apply ln_increasing; lra. Qed.
Lemma pow2_le : forall a b, (a <= b)%Z -> pow2 a <= pow2 b.
Proof.
  intros a b L. replace b with (a + (b - a))%Z by lia. rewrite pow2_add. pose proof (pow2_pos a). assert (1 <= pow2 (b - a)).
  { rewrite <- (Z2Nat.id (b - a)) by lia. rewrite pow2_nat. apply pow_R1_Rle. lra. } nra.
Qed.
Lemma pow2_lt : forall a b, (a < b)%Z -> pow2 a < pow2 b.
Proof. intros a b L. pose proof (pow2_le (a + 1) b ltac:(lia)). rewrite pow2_succ in H. pose proof (pow2_pos a). lra. Qed.
Lemma pow2_lt_inv : forall a b, pow2 a < pow2 b -> (a < b)%Z.
Proof. intros a b L. destruct (Z_lt_ge_dec a b) as [|G]; auto. pose proof (pow2_le b a ltac:(lia)). lra. Qed.

(** ** Rounding *)
Lemma int_part : forall x, IZR (Int_part x) <= x < IZR (Int_part x) + 1.
Proof. intros x. destruct (base_Int_part x). lra. Qed.
Lemma exponent_bounds : forall x, 0 < x -> pow2 (exponent x) <= x < pow2 (exponent x + 1).
Proof.
  intros x X. unfold exponent. set (e := Int_part (ln x / ln 2)). pose proof (int_part (ln x / ln 2)) as [A B]. fold e in A, B. pose proof ln2_pos as L2.
  assert (E : ln x = ln x / ln 2 * ln 2) by (field; lra). split.
  - destruct (Rle_lt_dec (pow2 e) x) as [|N]; auto. exfalso. apply ln_increasing in N; auto. rewrite pow2_ln in N. nra.
  - destruct (Rlt_le_dec x (pow2 (e + 1))) as [|N]; auto. exfalso. assert (ln (pow2 (e + 1)) <= ln x). { destruct N as [N| ->]; [left; apply ln_increasing; auto using pow2_pos|right; reflexivity]. }
    rewrite pow2_ln, plus_IZR in H. nra.
Qed.
Lemma exponent_unique : forall x e, pow2 e <= x < pow2 (e + 1) -> exponent x = e.
Proof.
  intros x e [A B]. assert (X : 0 < x) by (pose proof (pow2_pos e); lra). destruct (exponent_bounds x X) as [C D].
  assert (exponent x < e + 1)%Z by (apply pow2_lt_inv; lra). assert (e < exponent x + 1)%Z by (apply pow2_lt_inv; lra). lia.
Qed.
Lemma nearest_error : forall x, Rabs (IZR (nearest x) - x) <= 1 / 2.
Proof.
  intros x. unfold nearest. pose proof (int_part x) as [A B]. apply Rabs_le. destruct (Rlt_dec (x - IZR (Int_part x)) (1 / 2)); [lra|].
  destruct (Rlt_dec (1 / 2) (x - IZR (Int_part x))); [rewrite plus_IZR; lra|]. destruct (Z.even _); [lra|rewrite plus_IZR; lra].
Qed.
Lemma nearest_of : forall x z, Rabs (IZR z - x) < 1 / 2 -> nearest x = z.
Proof.
  intros x z H. pose proof (nearest_error x) as E. apply Rabs_def2 in H. assert (-(1/2) <= IZR (nearest x) - x <= 1/2) by (split; pose proof (Rle_abs (IZR (nearest x) - x)); pose proof (Rle_abs (- (IZR (nearest x) - x))); rewrite Rabs_Ropp in *; lra).
  assert (IZR (nearest x) < IZR (z + 1)) by (rewrite plus_IZR; lra). assert (IZR z < IZR (nearest x + 1)) by (rewrite plus_IZR; lra).
  apply lt_IZR in H1, H2. lia.
Qed.
Lemma nearest_IZR : forall z, nearest (IZR z) = z.
Proof. intros z. apply nearest_of. rewrite Rminus_eq_0, Rabs_R0. lra. Qed.
Lemma rounded_0 : forall p emin, rounded p emin 0 = 0.
Proof. intros. unfold rounded. destruct (Req_EM_T 0 0); [reflexivity|contradiction]. Qed.
Lemma rounded_step : forall p emin x, 0 < x -> let e := Z.max (exponent x - (p - 1)) emin in rounded p emin x = IZR (nearest (x / pow2 e)) * pow2 e.
Proof. intros p emin x X. unfold rounded. destruct (Req_EM_T x 0); [lra|]. reflexivity. Qed.
Lemma rounded_near : forall p emin x, 0 < x -> Rabs (rounded p emin x - x) <= pow2 (Z.max (exponent x - (p - 1)) emin) / 2.
Proof.
  intros p emin x X. rewrite rounded_step by exact X. set (e := Z.max _ emin). pose proof (pow2_pos e) as P.
  replace (IZR (nearest (x / pow2 e)) * pow2 e - x) with ((IZR (nearest (x / pow2 e)) - x / pow2 e) * pow2 e) by (field; lra).
  rewrite Rabs_mult, (Rabs_right (pow2 e)) by lra. pose proof (nearest_error (x / pow2 e)). nra.
Qed.
Lemma rounded_relative : forall p emin x, pow2 (emin + (p - 1)) <= x -> Rabs (rounded p emin x - x) <= pow2 (- p) * x.
Proof.
  intros p emin x L. assert (X : 0 < x) by (pose proof (pow2_pos (emin + (p - 1))); lra). pose proof (rounded_near p emin x X) as H. destruct (exponent_bounds x X) as [A B].
  assert (emin + (p - 1) < exponent x + 1)%Z by (apply pow2_lt_inv; lra). rewrite Z.max_l in H by lia.
  replace (exponent x - (p - 1))%Z with (exponent x + - p + 1)%Z in H by lia. rewrite pow2_succ, pow2_add in H. pose proof (pow2_pos (- p)). nra.
Qed.
Lemma rounded_exact : forall p emin m k, (0 < m < 2 ^ p)%Z -> (emin <= k)%Z -> (0 <= p)%Z -> rounded p emin (IZR m * pow2 k) = IZR m * pow2 k.
Proof.
  intros p emin m k [M1 M2] K P0. pose proof (pow2_pos k) as PK. assert (MP : 0 < IZR m) by (apply IZR_lt; lia). assert (X : 0 < IZR m * pow2 k) by nra.
  rewrite rounded_step by exact X. destruct (exponent_bounds _ X) as [A B]. set (x := IZR m * pow2 k) in *. set (e := Z.max _ emin).
  assert (E : (e <= k)%Z).
  { assert (exponent x < p + k)%Z; [|unfold e; lia]. apply pow2_lt_inv. rewrite pow2_add. apply (Rle_lt_trans _ x); auto. unfold x. rewrite (pow2_IZR p P0). apply IZR_lt in M2. nra. }
  replace (x / pow2 e) with (IZR (m * 2 ^ (k - e))).
  - rewrite nearest_IZR. unfold x. rewrite mult_IZR, <- pow2_IZR by lia. rewrite Rmult_assoc, <- pow2_add. do 2 f_equal. lia.
  - unfold x. rewrite mult_IZR, <- pow2_IZR by lia. replace (pow2 k) with (pow2 (k - e) * pow2 e) by (rewrite <- pow2_add; f_equal; lia). field. pose proof (pow2_pos e). lra.
Qed.

Lemma rounded_at_least : forall p emin x k, (1 <= p)%Z -> (emin + (p - 1) <= k)%Z -> pow2 k <= x -> pow2 k <= rounded p emin x.
Proof.
  intros p emin x k P0 K X1. pose proof (pow2_pos k) as PK. rewrite rounded_step by lra. destruct (exponent_bounds x ltac:(lra)) as [A B]. set (e := Z.max _ emin).
  assert (EX : (k <= exponent x)%Z) by (assert (k < exponent x + 1)%Z by (apply pow2_lt_inv; lra); lia). assert (EE : e = (exponent x - (p - 1))%Z) by (unfold e; lia).
  pose proof (pow2_pos e) as PE. assert (G : IZR (2 ^ (p - 1)) <= x / pow2 e).
  { rewrite <- pow2_IZR by lia. apply (Rmult_le_reg_r (pow2 e)); auto. replace (x / pow2 e * pow2 e) with x by (field; lra). rewrite <- pow2_add. replace (p - 1 + e)%Z with (exponent x) by lia. exact A. }
  pose proof (nearest_error (x / pow2 e)) as NE. assert (H : IZR (2 ^ (p - 1) - 1) < IZR (nearest (x / pow2 e))).
  { rewrite minus_IZR. pose proof (Rle_abs (- (IZR (nearest (x / pow2 e)) - x / pow2 e))). rewrite Rabs_Ropp in *. lra. }
  apply lt_IZR in H. assert (H0 : IZR (2 ^ (p - 1)) <= IZR (nearest (x / pow2 e))) by (apply IZR_le; lia). rewrite <- pow2_IZR in H0 by lia.
  assert (H1 : pow2 (p - 1) * pow2 e <= IZR (nearest (x / pow2 e)) * pow2 e) by nra. rewrite <- pow2_add in H1. replace (p - 1 + e)%Z with (exponent x) in H1 by lia. pose proof (pow2_le k (exponent x) EX). lra.
Qed.
Lemma rounded_is : forall p emin x e z, pow2 e <= x < pow2 (e + 1) -> (emin <= e - (p - 1))%Z -> Rabs (IZR z - x / pow2 (e - (p - 1))) < 1 / 2 ->
  rounded p emin x = IZR z * pow2 (e - (p - 1)).
Proof.
  intros p emin x e z B E N. rewrite rounded_step by (pose proof (pow2_pos e); lra). rewrite (exponent_unique x e B), Z.max_l by lia. rewrite (nearest_of _ _ N). reflexivity.
Qed.

(** ** The radius *)
Lemma pow2_m24 : pow2 (-24) = / 16777216. Proof. transitivity (/ pow2 24); [exact (pow2_neg 24)|]. rewrite pow2_IZR by lia. reflexivity. Qed.
Lemma pow2_m53 : pow2 (-53) = / 9007199254740992. Proof. transitivity (/ pow2 53); [exact (pow2_neg 53)|]. rewrite pow2_IZR by lia. reflexivity. Qed.
Theorem radius_bounds : forall r, normal_radius r -> exists f, radius_sq r = Some f /\ (1 - half_ulp) * (1 - half_ulp) * (r * r) <= f <= (1 + half_ulp) * (1 + half_ulp) * (r * r).
Proof.
  intros r [R1 R2]. pose proof (pow2_pos (-63)) as P63. set (x := r * r).
  assert (X1 : pow2 (-126) <= x) by (change (-126)%Z with (-63 + -63)%Z; rewrite pow2_add; unfold x; nra).
  assert (X2 : x <= pow2 126) by (change 126%Z with (63 + 63)%Z; rewrite pow2_add; unfold x; nra). pose proof (pow2_pos (-126)) as P126.
  pose proof (rounded_relative 53 (-1074) x) as D. change (-1074 + (53 - 1))%Z with (-1022)%Z in D. specialize (D ltac:(pose proof (pow2_le (-1022) (-126) ltac:(lia)); lra)).
  change (- (53))%Z with (-53)%Z in D. rewrite pow2_m53 in D. set (y := rounded 53 (-1074) x) in *.
  assert (DY : - (/ 9007199254740992 * x) <= y - x <= / 9007199254740992 * x) by (pose proof (Rle_abs (y - x)); pose proof (Rle_abs (- (y - x))); rewrite Rabs_Ropp in *; lra).
  assert (Y0 : 0 < y) by lra.
  assert (Y1 : pow2 (-126) <= y) by (apply rounded_at_least; [lia|lia|exact X1]).
  pose proof (rounded_relative 24 (-149) y) as F. change (-149 + (24 - 1))%Z with (-126)%Z in F. specialize (F Y1). change (- (24))%Z with (-24)%Z in F. rewrite pow2_m24 in F.
  set (f := rounded 24 (-149) y) in *.
  assert (DF : - (/ 16777216 * y) <= f - y <= / 16777216 * y) by (pose proof (Rle_abs (f - y)); pose proof (Rle_abs (- (f - y))); rewrite Rabs_Ropp in *; lra).
  assert (B1 : y < pow2 1024). { pose proof (pow2_le (126 + 1) 1024 ltac:(lia)) as L. rewrite pow2_succ in L. pose proof (pow2_pos 126). lra. }
  assert (B2 : f < pow2 128). { pose proof (pow2_succ 126). pose proof (pow2_succ 127). change (126 + 1)%Z with 127%Z in *. change (127 + 1)%Z with 128%Z in *. pose proof (pow2_pos 126). lra. }
  exists f. split.
  - unfold radius_sq, to_float, to_double, below. fold x y. destruct (Rlt_dec y (pow2 1024)); [|contradiction]. fold f. destruct (Rlt_dec f (pow2 128)); [reflexivity|contradiction].
  - unfold half_ulp. rewrite pow2_m24. assert (0 < x) by lra. split; nra.
Qed.
Theorem radius_exact : forall m k, (0 < m < 2 ^ 12)%Z -> (-74 <= k)%Z -> (k <= 51)%Z -> radius_sq (IZR m * pow2 k) = Some ((IZR m * pow2 k) * (IZR m * pow2 k)).
Proof.
  intros m k [M1 M2] K1 K2. replace (IZR m * pow2 k * (IZR m * pow2 k)) with (IZR (m * m) * pow2 (k + k)) by (rewrite mult_IZR, pow2_add; ring).
  assert (MM : (0 < m * m < 2 ^ 24)%Z). { change (2 ^ 24)%Z with (2 ^ 12 * 2 ^ 12)%Z. nia. }
  assert (B : IZR (m * m) * pow2 (k + k) < pow2 128).
  { apply (Rlt_le_trans _ (pow2 24 * pow2 (k + k))); [|rewrite <- pow2_add; apply pow2_le; lia]. rewrite (pow2_IZR 24) by lia. pose proof (pow2_pos (k + k)). destruct MM as [_ MM]. apply IZR_lt in MM. nra. }
  unfold radius_sq, to_float, to_double, below.
  assert (MM53 : (0 < m * m < 2 ^ 53)%Z) by (assert (2 ^ 24 < 2 ^ 53)%Z by reflexivity; lia).
  replace (IZR m * pow2 k * (IZR m * pow2 k)) with (IZR (m * m) * pow2 (k + k)) by (rewrite mult_IZR, pow2_add; ring).
  rewrite (rounded_exact 53) by (auto; lia). destruct (Rlt_dec (IZR (m * m) * pow2 (k + k)) (pow2 1024)) as [|N].
  - rewrite (rounded_exact 24) by (auto; lia). destruct (Rlt_dec (IZR (m * m) * pow2 (k + k)) (pow2 128)); [reflexivity|contradiction].
  - exfalso. apply N. apply (Rlt_trans _ _ _ B), pow2_lt. lia.
Qed.

Theorem radius_tiny : forall r, 0 <= r <= pow2 (-76) -> radius_sq r = Some 0.
Proof.
  intros r [R1 R2]. unfold radius_sq, to_double. pose proof (pow2_pos 1024) as P1. pose proof (pow2_pos 128) as P2.
  assert (Z : to_float (Some 0) = Some 0). { unfold to_float, below. rewrite rounded_0. destruct (Rlt_dec 0 (pow2 128)); [reflexivity|contradiction]. }
  destruct (Req_dec r 0) as [-> |NZ].
  - rewrite Rmult_0_l, rounded_0. unfold below. destruct (Rlt_dec 0 (pow2 1024)); [exact Z|contradiction].
  - assert (X : 0 < r * r) by nra. assert (X2 : r * r <= pow2 (-152)) by (change (-152)%Z with (-76 + -76)%Z; rewrite pow2_add; nra).
    set (x := r * r) in *. set (y := rounded 53 (-1074) x). pose proof (rounded_near 53 (-1074) x X) as N. fold y in N.
    destruct (exponent_bounds x X) as [A B]. set (e := Z.max (exponent x - (53 - 1)) (-1074)) in *.
    assert (EB : (e <= -152)%Z) by (assert (exponent x < -152 + 1)%Z by (apply pow2_lt_inv; pose proof (pow2_lt (-152) (-152 + 1) ltac:(lia)); lra); unfold e; lia).
    pose proof (pow2_le e (-152) EB) as PE. pose proof (pow2_pos e) as PE0.
    assert (NB : - (pow2 (-152) / 2) <= y - x <= pow2 (-152) / 2) by (pose proof (Rle_abs (y - x)); pose proof (Rle_abs (- (y - x))); rewrite Rabs_Ropp in *; lra).
    assert (Y0 : 0 <= y). { unfold y. rewrite rounded_step by exact X. fold e. assert (0 <= IZR (nearest (x / pow2 e))); [|nra]. apply IZR_le.
      pose proof (nearest_error (x / pow2 e)) as NE. assert (0 <= x / pow2 e) by (apply Rmult_le_pos; [lra|left; apply Rinv_0_lt_compat; lra]).
      assert (IZR (-1) < IZR (nearest (x / pow2 e))) by (pose proof (Rle_abs (- (IZR (nearest (x / pow2 e)) - x / pow2 e))); rewrite Rabs_Ropp in *; lra). apply lt_IZR in H0. lia. }
    assert (P151 : pow2 (-151) = 2 * pow2 (-152)) by (exact (pow2_succ (-152))). assert (P150 : pow2 (-150) = 2 * pow2 (-151)) by (exact (pow2_succ (-151))). assert (P149 : pow2 (-149) = 2 * pow2 (-150)) by (exact (pow2_succ (-150))).
    pose proof (pow2_pos (-152)) as P152. pose proof (pow2_lt (-149) 1024 ltac:(lia)). unfold below. destruct (Rlt_dec y (pow2 1024)) as [|NY]; [|exfalso; lra]. unfold to_float, below.
    assert (F : rounded 24 (-149) y = 0).
    { destruct (Req_dec y 0) as [-> |Y1]; [apply rounded_0|]. assert (YP : 0 < y) by lra. rewrite rounded_step by exact YP. destruct (exponent_bounds y YP) as [A' B'].
      assert (exponent y < -149)%Z by (apply pow2_lt_inv; lra). rewrite Z.max_r by lia. rewrite (nearest_of _ 0%Z); [ring|].
      rewrite Rminus_0_l, Rabs_Ropp, Rabs_right by (apply Rle_ge, Rmult_le_pos; [lra|left; apply Rinv_0_lt_compat; lra]).
      apply (Rmult_lt_reg_r (pow2 (-149))); [lra|]. replace (y / pow2 (-149) * pow2 (-149)) with y by (field; lra). lra. }
    rewrite F. destruct (Rlt_dec 0 (pow2 128)); [reflexivity|contradiction].
Qed.
Theorem radius_large : forall r, pow2 64 <= r -> radius_sq r = None.
Proof.
  intros r L. assert (X : pow2 128 <= r * r) by (change 128%Z with (64 + 64)%Z; rewrite pow2_add; pose proof (pow2_pos 64); nra).
  unfold radius_sq, to_double, to_float, below. pose proof (rounded_at_least 53 (-1074) (r * r) 128 ltac:(lia) ltac:(lia) X) as Y. destruct (Rlt_dec _ (pow2 1024)); [|reflexivity].
  pose proof (rounded_at_least 24 (-149) _ 128 ltac:(lia) ltac:(lia) Y) as F. destruct (Rlt_dec _ (pow2 128)); [lra|reflexivity].
Qed.
Theorem min_distance_is : min_distance = pow2 (-63).
Proof.
  unfold min_distance. assert (P : forall k, (0 <= k)%Z -> pow2 (- k) = / IZR (2 ^ k)) by (intros k K; rewrite pow2_neg, pow2_IZR by exact K; reflexivity).
  assert (E : rounded 53 (-1074) k_min_distance = IZR (2 ^ 53) * pow2 (-64 - (53 - 1))).
  { apply rounded_is.
    - change (-64 + 1)%Z with (- (63))%Z. change (-64)%Z with (- (64))%Z. rewrite !P by lia. unfold k_min_distance. cbn [Z.pow Z.pow_pos Pos.iter Z.mul Pos.mul pow]. lra.
    - lia.
    - change (-64 - (53 - 1))%Z with (- (116))%Z. rewrite P by lia. unfold k_min_distance. cbn [Z.pow Z.pow_pos Pos.iter Z.mul Pos.mul pow]. apply Rabs_def1; lra. }
  rewrite E, <- pow2_IZR, <- pow2_add by lia. reflexivity.
Qed.

(** ** The search *)
Section Search.
Variable d : nat.
Variable flann : list (nat -> R) -> (nat -> R) -> option R -> list (nat * R).
Hypothesis RIGHT : right_radius d flann.

Lemma squared_pos : forall x y, 0 <= squared_distance d x y.
Proof using Type. intros x y. unfold squared_distance. clear RIGHT. induction d as [|k IH]; cbn [rsum]; [lra|]. pose proof (Rle_0_sqr (x k - y k)) as H. unfold Rsqr in H. lra. Qed.
Lemma squared_sym : forall x y, squared_distance d x y = squared_distance d y x.
Proof using Type. intros x y. unfold squared_distance. apply rsum_ext. intros. ring. Qed.
Lemma distance_square : forall x y, distance d x y * distance d x y = squared_distance d x y.
Proof using Type. intros x y. unfold distance. apply sqrt_sqrt, squared_pos. Qed.
Lemma distance_pos : forall x y, 0 <= distance d x y.
Proof using Type. intros x y. apply sqrt_pos. Qed.
Theorem search_found : forall pts x r before, pts <> [] -> 0 <= r -> exists is ds, radius_search flann pts x (Some r) before = Ok (is, ds) /\ NoDup is /\ length ds = length is /\
  (forall j, In j is <-> exists y, nth_error pts j = Some y /\ less (squared_distance d x y) (radius_sq r)) /\
  forall k j, nth_error is k = Some j -> exists y, nth_error pts j = Some y /\ nth_error ds k = Some (distance d x y).
Proof using RIGHT.
  intros pts x r before NE R0. unfold radius_search. destruct (Rle_dec 0 r); [|contradiction]. destruct pts as [|p pts']; [contradiction|]. set (pts := p :: pts') in *.
  destruct (RIGHT pts x (radius_sq r)) as [ND F]. unfold converted. eexists _, _. split; [reflexivity|]. split; [exact ND|]. split; [rewrite !map_length; reflexivity|]. split.
  - intros j. split.
    + intros J. apply in_map_iff in J. destruct J as ([j' s] & <- & J). apply F in J. destruct J as (y & E & -> & L). exists y. auto.
    + intros (y & E & L). apply in_map_iff. exists (j, squared_distance d x y). split; [reflexivity|]. apply F. exists y. auto.
  - intros k j K. rewrite nth_error_map in K. destruct (nth_error (flann pts x (radius_sq r)) k) as [[j' s]|] eqn:E; cbn in K; [|discriminate]. injection K as ->.
    destruct (proj1 (F j s) (nth_error_In _ _ E)) as (y & Y & -> & _). exists y. split; [exact Y|]. rewrite nth_error_map, E. reflexivity.
Qed.
Lemma radius_shell : forall r, normal_radius r -> forall x y, (distance d x y < (1 - half_ulp) * r -> less (squared_distance d x y) (radius_sq r)) /\
  (less (squared_distance d x y) (radius_sq r) -> distance d x y < (1 + half_ulp) * r).
Proof using Type.
  intros r NR x y. destruct (radius_bounds r NR) as (f & -> & F1 & F2). cbn [less]. pose proof (distance_pos x y) as D0. rewrite <- distance_square. destruct NR as [R1 _]. pose proof (pow2_pos (-63)).
  assert (H0 : 0 < half_ulp < 1) by (unfold half_ulp; rewrite pow2_m24; lra). set (h := half_ulp) in *. set (t := distance d x y) in *. assert (RP : 0 < r) by lra. split.
  - intros L. apply (Rlt_le_trans _ ((1 - h) * r * ((1 - h) * r))); [|lra]. apply Rmult_le_0_lt_compat; lra.
  - intros L. destruct (Rlt_le_dec t ((1 + h) * r)) as [|N]; auto. exfalso. assert ((1 + h) * r * ((1 + h) * r) <= t * t) by (apply Rmult_le_compat; nra). lra.
Qed.

(** ** The filter *)
Definition near_by (r : R) (x y : nat -> R) : Prop := 0 <= r /\ less (squared_distance d x y) (radius_sq r).
Lemma filter_search_ok : search_ok near_by (filter_search flann).
Proof using RIGHT.
  intros pts x r j. unfold filter_search, near_by. destruct (Rle_dec 0 r) as [R0|R0].
  - destruct pts as [|p pts'].
    + unfold radius_search. destruct (Rle_dec 0 r); [|contradiction]. cbn. split; [intros []|]. intros (q & E & _). destruct j; discriminate.
    + destruct (search_found (p :: pts') x r ([], []) ltac:(discriminate) R0) as (is & ds & E & _ & _ & F & _). rewrite E. cbn [fst]. rewrite F.
      split; intros (y & Y & L); exists y; tauto.
  - unfold radius_search. destruct (Rle_dec 0 r); [contradiction|]. cbn. split; [intros []|]. intros (q & _ & L & _). contradiction.
Qed.
Lemma near_by_sym : forall r x y, near_by r x y -> near_by r y x.
Proof using Type. intros r x y [A B]. split; auto. rewrite squared_sym. exact B. Qed.
Theorem filter_distances : forall pts dist s, filter_all distance_allowed (filter_search flann) (init pts) dist = Ok (Ok tt, s) -> dist <= pow2 63 ->
  let kept := filtered_indices_ s in
  (forall i j x y, In i kept -> In j kept -> i <> j -> nth_error pts i = Some x -> nth_error pts j = Some y -> (1 - half_ulp) * dist <= distance d x y) /\
  (forall j y, nth_error pts j = Some y -> ~ In j kept -> exists i x, In i kept /\ (i < j)%nat /\ nth_error pts i = Some x /\ distance d x y < (1 + half_ulp) * dist).
Proof using RIGHT.
  intros pts dist s E L kept.
  assert (NR : normal_radius dist).
  { split; [|exact L]. unfold filter_all, filter_indices, distance_allowed in E. destruct (Rle_dec min_distance dist) as [M|M]; [rewrite <- min_distance_is; exact M|]. cbn in E. discriminate. }
  destruct (@filter_all_spec _ _ distance_allowed near_by (filter_search flann) filter_search_ok near_by_sym (init pts) dist s E) as (_ & _ & _ & A & B & _). split.
  - intros i j x y I0 J0 NE X Y. apply Rnot_lt_le. intros LT. apply (A i j I0 J0 NE). exists x, y. split; [exact X|]. split; [exact Y|].
    split; [destruct NR; pose proof (pow2_pos (-63)); lra|]. apply (radius_shell dist NR). exact LT.
  - intros j y Y NI. destruct (B j) as (i & I0 & IJ & x & y' & X & Y' & N); [apply nth_error_Some; cbn [points init]; rewrite Y; discriminate|exact NI|].
    exists i, x. cbn [points init] in X, Y'. rewrite Y in Y'. injection Y' as <-. split; [exact I0|]. split; [exact IJ|]. split; [exact X|]. apply (radius_shell dist NR). apply N.
Qed.

(** ** Sources at the edge *)
Lemma cube_edge : forall rho, 1 - half_ulp <= rho < 1 -> 0 <= 1 + rho * (-1.5 + 0.5 * rho * rho) <= edge Sph.
Proof using Type.
  intros rho [A B]. unfold edge. assert (H : 0 < half_ulp < 1) by (unfold half_ulp; rewrite pow2_m24; lra). set (h := half_ulp) in *.
  replace (1 + rho * (-1.5 + 0.5 * rho * rho)) with ((1 - rho) ^ 2 * (1 + rho / 2)) by lra. assert (S1 : 0 <= (1 - rho) ^ 2 <= h ^ 2) by (clear - A B; nra).
  split; [clear - S1 A B H; nra|]. rewrite (Rmult_comm (3 / 2)). apply Rmult_le_compat; lra.
Qed.
Lemma cubic_edge : forall rho, 1 - half_ulp <= rho < 1 -> let rho2 := rho * rho in 0 <= 1 + rho2 * (-7 + rho * (8.75 + rho2 * (-3.5 + 0.75 * rho2))) <= edge Cub.
Proof using Type.
  intros rho [A B] rho2. unfold edge. assert (H : 0 < half_ulp < 1) by (unfold half_ulp; rewrite pow2_m24; lra). set (h := half_ulp) in *.
  replace (1 + rho2 * (-7 + rho * (8.75 + rho2 * (-3.5 + 0.75 * rho2)))) with ((1 - rho) ^ 4 * (1 + 4 * rho + 3 * (rho * rho) + 3 / 4 * (rho * rho * rho))) by (unfold rho2; lra).
  assert (S1 : 0 <= (1 - rho) ^ 4 <= h ^ 4) by (split; [apply pow_le; lra|apply pow_incr; lra]). assert (Q : 0 <= rho * rho <= 1) by nra. assert (Q3 : 0 <= rho * rho * rho <= 1) by (clear - Q A B H; nra).
  split; [apply Rmult_le_pos; lra|]. rewrite (Rmult_comm (35 / 4)). apply Rmult_le_compat; lra.
Qed.
Lemma value_edge : forall k psill range x y, (k = Sph \/ k = Cub) -> 0 < range -> (1 - half_ulp) * range <= distance d x y ->
  Rabs (value_at d k psill range (fun e => x e - y e)) <= edge k * Rabs psill.
Proof using Type.
  intros k psill range x y K RG D. unfold value_at. set (v := fun e => x e - y e). change (dot d v v) with (squared_distance d x y). clearbody v.
  assert (NN : 0 < half_ulp < 1) by (unfold half_ulp; rewrite pow2_m24; lra). pose proof (Rabs_pos psill) as AP. pose proof (pow_lt half_ulp 2 ltac:(lra)) as E2. pose proof (pow_lt half_ulp 4 ltac:(lra)) as E4.
  assert (RHO : distance d x y < range -> 1 - half_ulp <= distance d x y / range < 1).
  { intros L. split; [apply (Rmult_le_reg_r range)|apply (Rmult_lt_reg_r range)]; auto; replace (distance d x y / range * range) with (distance d x y) by (field; lra); lra. }
  destruct K as [-> | ->]; cbn [value]; unfold sph_value, cub_value; fold (distance d x y); cbv zeta; unfold lt_dec_b; destruct (Rlt_dec (distance d x y) range) as [L|L].
  - destruct (cube_edge _ (RHO L)) as [G1 G2]. rewrite Rabs_mult, (Rabs_right (1 + _)) by lra. rewrite (Rmult_comm (edge Sph)). apply Rmult_le_compat_l; auto.
  - rewrite Rabs_R0. apply Rmult_le_pos; [|lra]. unfold edge. lra.
  - destruct (cubic_edge _ (RHO L)) as [G1 G2]. rewrite Rabs_mult, (Rabs_right (1 + _)) by (cbv zeta in *; lra). rewrite (Rmult_comm (edge Cub)). apply Rmult_le_compat_l; auto.
  - rewrite Rabs_R0. apply Rmult_le_pos; [|lra]. unfold edge. lra.
Qed.
Lemma lsum_abs : forall (l : list nat) (f g : nat -> R), (forall j, In j l -> Rabs (f j) <= g j) -> Rabs (lsum l f) <= lsum l g.
Proof using Type.
  intros l f g. induction l as [|a l IH]; intros H; cbn [lsum]; [rewrite Rabs_R0; lra|]. eapply Rle_trans; [apply Rabs_triang|].
  apply Rplus_le_compat; [apply H; left; auto|apply IH; intros j J; apply H; right; auto].
Qed.
Lemma missed_sum : forall N indices (g b : nat -> R), NoDup indices -> (forall j, In j indices -> (j < N)%nat) -> (forall j, 0 <= b j) ->
  (forall j, (j < N)%nat -> ~ In j indices -> Rabs (g j) <= b j) -> Rabs (lsum indices g - rsum N g) <= rsum N b.
Proof using Type.
  intros N indices g b ND B P Z. rewrite <- !lsum_seq. rewrite (lsum_perm _ _ _ g (perm_complement N indices ND B)), (lsum_perm _ _ _ b (perm_complement N indices ND B)), !lsum_app.
  match goal with |- Rabs (?a - (?a + ?c)) <= ?u + ?v => assert (C : Rabs c <= v); [|assert (U : 0 <= u); [|replace (a - (a + c)) with (- c) by ring; rewrite Rabs_Ropp; lra]] end.
  - apply lsum_abs. intros j J. apply filter_In in J as [J K]. apply in_seq in J. apply Z; [lia|]. intros F. apply Bool.negb_true_iff in K.
    assert (existsb (Nat.eqb j) indices = true) as X by (apply existsb_exists; exists j; split; auto; apply Nat.eqb_refl). congruence.
  - clear - P. induction indices as [|a l IH]; cbn [lsum]; [lra|]. specialize (P a). lra.
Qed.
Lemma value_total : forall k psill range a points w x i indices,
  direct_target d k psill range a KValue points w x i indices = Num (lsum indices (fun j => w j * value_at d k psill range (fun e => x e - points j e))).
Proof using Type.
  clear RIGHT. intros. unfold direct_target. cbn [kernel_inputs]. cbv zeta.
  assert (G : forall z, fold_left (fun y src => add_source 1 (fun j => kernel_entry d k psill range a KValue i j (fun e => x e - points src e)) (fun j => w (1 * src + j)%nat) y) indices (Num z) =
    Num (z + lsum indices (fun j => w j * value_at d k psill range (fun e => x e - points j e)))).
  { induction indices as [|b l IH]; intros z; cbn [fold_left lsum]; [rewrite Rplus_0_r; reflexivity|]. unfold add_source at 2. cbn [seq fold_left kernel_entry res_map res_map2].
    rewrite IH. f_equal. replace (1 * b + 0)%nat with b by lia. ring. }
  rewrite G. f_equal. ring.
Qed.
Theorem direct_edge : forall k psill range a pts w x before is ds, (k = Sph \/ k = Cub) -> normal_radius range ->
  let points := fun j => nth j pts (fun _ => 0) in
  pts <> [] -> radius_search flann pts x (support_radius k range) before = Ok (is, ds) ->
  exists v, direct_target d k psill range a KValue points w x 0 is = Num v /\
  Rabs (v - rsum (length pts) (fun j => w j * value_at d k psill range (fun e => x e - points j e))) <= edge k * Rabs psill * rsum (length pts) (fun j => Rabs (w j)).
Proof using RIGHT.
  intros k psill range a pts w x before is ds K NR points NE E. exists (lsum is (fun j => w j * value_at d k psill range (fun e => x e - points j e))). split; [apply value_total|].
  assert (RP : 0 < range) by (destruct NR; pose proof (pow2_pos (-63)); lra). assert (SR : support_radius k range = Some range) by (destruct K as [-> | ->]; reflexivity). rewrite SR in E.
  destruct (search_found pts x range before NE ltac:(lra)) as (is' & ds' & E' & ND & _ & F & _). rewrite E in E'. injection E' as <- <-.
  replace (edge k * Rabs psill * rsum (length pts) (fun j => Rabs (w j))) with (rsum (length pts) (fun j => edge k * Rabs psill * Rabs (w j))) by (rewrite rsum_scal; reflexivity).
  assert (EP : 0 <= edge k) by (pose proof (pow2_pos (-24)) as HU; fold half_ulp in HU; pose proof (pow_lt _ 2 HU); pose proof (pow_lt _ 4 HU); destruct K as [-> | ->]; unfold edge; lra).
  apply missed_sum; auto.
  - intros j J. apply F in J. destruct J as (y & Y & _). apply nth_error_Some. congruence.
  - intros j. apply Rmult_le_pos; [apply Rmult_le_pos; auto; apply Rabs_pos|apply Rabs_pos].
  - intros j J NI. rewrite Rabs_mult, Rmult_comm. apply Rmult_le_compat_r; [apply Rabs_pos|]. apply value_edge; auto. apply Rnot_lt_le. intros L. apply NI, F.
    exists (points j). split; [unfold points; rewrite (nth_error_nth' pts (fun _ => 0) J); reflexivity|]. apply (radius_shell range NR). exact L.
Qed.
End Search.

Theorem knn_found : forall d flann pts x k before, right_knn d flann -> pts <> [] -> (0 < k)%Z -> exists is ds, knn_search flann pts x k before = Ok (is, ds) /\
  NoDup is /\ length is = Nat.min (Z.to_nat k) (length pts) /\ length ds = length is /\
  (forall q j, nth_error is q = Some j -> exists y, nth_error pts j = Some y /\ nth_error ds q = Some (distance d x y)) /\
  forall i j y z, In j is -> ~ In i is -> nth_error pts j = Some y -> nth_error pts i = Some z -> distance d x y <= distance d x z.
Proof.
  intros d flann pts x k before RIGHT NE K. unfold knn_search. destruct (Z.leb_spec k 0); [lia|]. destruct pts as [|p pts']; [contradiction|]. set (pts := p :: pts') in *.
  destruct (RIGHT pts x (Z.to_nat k)) as (ND & L & F & N). unfold converted. eexists _, _. split; [reflexivity|]. split; [exact ND|]. rewrite !map_length. split; [exact L|]. split; [reflexivity|]. split.
  - intros q j Q. rewrite nth_error_map in Q. destruct (nth_error (flann pts x (Z.to_nat k)) q) as [[j' s]|] eqn:E; cbn in Q; [|discriminate]. injection Q as ->.
    destruct (F j s (nth_error_In _ _ E)) as (y & Y & ->). exists y. split; [exact Y|]. rewrite nth_error_map, E. reflexivity.
  - intros i j y z J I0 Y Z. apply in_map_iff in J. destruct J as ([j' s] & <- & J). cbn in Y. destruct (F _ _ J) as (y' & Y' & ->). rewrite Y in Y'. injection Y' as <-. apply sqrt_le_1_alt. exact (N i _ _ z J Z I0).
Qed.

(** ** A search that is right *)
Definition all_found (d : nat) (pts : list (nat -> R)) (x : nat -> R) : list (nat * R) :=
  map (fun j => (j, squared_distance d x (nth j pts (fun _ => 0)))) (seq 0 (length pts)).
Definition less_b (s : R) (rho : option R) : bool := match rho with Some rho => if Rlt_dec s rho then true else false | None => true end.
Definition plain_radius (d : nat) (pts : list (nat -> R)) (x : nat -> R) (rho : option R) : list (nat * R) := filter (fun q => less_b (snd q) rho) (all_found d pts x).
Lemma less_b_spec : forall s rho, less_b s rho = true <-> less s rho.
Proof. intros s [rho|]; cbn; [|tauto]. destruct (Rlt_dec s rho); split; auto; discriminate. Qed.
Lemma all_found_in : forall d pts x j s, In (j, s) (all_found d pts x) <-> exists y, nth_error pts j = Some y /\ s = squared_distance d x y.
Proof.
  intros d pts x j s. unfold all_found. rewrite in_map_iff. split.
  - intros (j' & E & J). injection E as -> <-. apply in_seq in J. exists (nth j pts (fun _ => 0)). split; [apply nth_error_nth'; lia|reflexivity].
  - intros (y & Y & ->). exists j. rewrite (nth_error_nth _ _ (fun _ => 0) Y). split; [reflexivity|]. apply in_seq. assert (j < length pts)%nat by (apply nth_error_Some; congruence). lia.
Qed.
Lemma all_found_fst : forall d pts x, map fst (all_found d pts x) = seq 0 (length pts).
Proof. intros. unfold all_found. rewrite map_map. cbn [fst]. apply map_id. Qed.
Lemma plain_radius_right : forall d, right_radius d (plain_radius d).
Proof.
  intros d pts x rho. split.
  - unfold plain_radius. assert (G : forall l : list (nat * R), NoDup (map fst l) -> NoDup (map fst (filter (fun q => less_b (snd q) rho) l))).
    { induction l as [|a l IH]; intros N; cbn; [constructor|]. inversion N as [|? ? N1 N2]; subst. destruct (less_b (snd a) rho); auto. cbn. constructor; auto.
      intros F. apply N1. apply in_map_iff in F. destruct F as (q & E & F). apply filter_In in F. apply in_map_iff. exists q. tauto. }
    apply G. rewrite all_found_fst. apply seq_NoDup.
  - intros j s. unfold plain_radius. rewrite filter_In, all_found_in, less_b_spec. cbn [snd]. split; [intros ((y & A & B) & C)|intros (y & A & B & C)]; [exists y|split; [exists y|]]; auto.
Qed.
Fixpoint put (a : nat * R) (l : list (nat * R)) : list (nat * R) :=
  match l with [] => [a] | b :: l' => if Rle_dec (snd a) (snd b) then a :: l else b :: put a l' end.
Definition plain_knn (d : nat) (pts : list (nat -> R)) (x : nat -> R) (k : nat) : list (nat * R) := firstn k (fold_right put [] (all_found d pts x)).
Lemma put_perm : forall a l, Permutation (put a l) (a :: l).
Proof. intros a l. induction l as [|b l IH]; cbn; auto. destruct (Rle_dec (snd a) (snd b)); auto. rewrite IH. apply perm_swap. Qed.
Definition ordered (l : list (nat * R)) : Prop := StronglySorted (fun a b => snd a <= snd b) l.
Lemma put_sorted : forall a l, ordered l -> ordered (put a l).
Proof.
  intros a l. induction l as [|b l IH]; intros O; cbn; [constructor; constructor|]. apply StronglySorted_inv in O. destruct O as [O1 O2]. destruct (Rle_dec (snd a) (snd b)) as [L|L].
  - constructor; [constructor; auto|]. constructor; auto. rewrite Forall_forall in *. intros c C. specialize (O2 c C). lra.
  - constructor; [apply IH; auto|]. rewrite Forall_forall in *. intros c C. apply (Permutation_in _ (put_perm a l)) in C. destruct C as [<- |C]; [lra|auto].
Qed.
Lemma sort_perm : forall l, Permutation (fold_right put [] l) l.
Proof. induction l as [|a l IH]; cbn; auto. rewrite put_perm, IH. reflexivity. Qed.
Lemma sort_sorted : forall l, ordered (fold_right put [] l).
Proof. induction l as [|a l IH]; cbn; [constructor|apply put_sorted; auto]. Qed.
Lemma prefix_NoDup : forall u v : list nat, NoDup (u ++ v) -> NoDup u.
Proof. induction u as [|a u IH]; intros v N; [constructor|]. inversion N as [|? ? N1 N2]; subst. constructor; [intros F; apply N1, in_or_app; auto|eauto]. Qed.
Lemma plain_knn_right : forall d, right_knn d (plain_knn d).
Proof.
  intros d pts x k. unfold plain_knn. set (l := fold_right put [] (all_found d pts x)). pose proof (sort_perm (all_found d pts x)) as P. fold l in P. pose proof (sort_sorted (all_found d pts x)) as O. fold l in O.
  assert (ND : NoDup (map fst l)) by (apply (Permutation_NoDup (Permutation_map fst (Permutation_sym P))); rewrite all_found_fst; apply seq_NoDup).
  split; [|split; [|split]].
  - rewrite <- (firstn_skipn k l), map_app in ND. exact (prefix_NoDup _ _ ND).
  - rewrite firstn_length, (Permutation_length P). unfold all_found. rewrite map_length, seq_length. reflexivity.
  - intros j s J. apply (all_found_in d pts x j s). apply (Permutation_in _ P). rewrite <- (firstn_skipn k l). apply in_or_app. auto.
  - intros i j s y J Y NI. assert (Q : In (i, squared_distance d x y) l) by (apply (Permutation_in _ (Permutation_sym P)); apply all_found_in; exists y; auto).
    rewrite <- (firstn_skipn k l) in Q. apply in_app_or in Q. destruct Q as [Q|Q]; [exfalso; apply NI; apply in_map_iff; exists (i, squared_distance d x y); auto|].
    rewrite <- (firstn_skipn k l) in O. clear - O J Q. unfold ordered in O. revert O J Q. generalize (firstn k l) (skipn k l). intros u v. induction u as [|a u IH]; cbn [app]; intros O J Q; [destruct J|].
    apply StronglySorted_inv in O. destruct O as [O1 O2]. destruct J as [-> |J]; auto. rewrite Forall_forall in O2. apply (O2 (i, squared_distance d x y)). apply in_or_app. auto.
Qed.

(** ** Two radii *)
Lemma pow2_frac : forall k, (0 <= k)%Z -> pow2 (- k) = / IZR (2 ^ k).
Proof. intros k K. rewrite pow2_neg, pow2_IZR by exact K. reflexivity. Qed.
Lemma tenth_sq : radius_sq tenth = Some (10737418 / IZR (2 ^ 30)).
Proof.
  unfold radius_sq, to_double.
  assert (A : rounded 53 (-1074) (tenth * tenth) = 5764607523034236 * pow2 (-7 - (53 - 1))).
  { apply rounded_is; [| lia |].
    - change (-7 + 1)%Z with (- (6))%Z. change (-7)%Z with (- (7))%Z. rewrite !pow2_frac by lia. unfold tenth. cbn [Z.pow Z.pow_pos Pos.iter Z.mul Pos.mul]. lra.
    - change (-7 - (53 - 1))%Z with (- (59))%Z. rewrite !pow2_frac by lia. unfold tenth. cbn [Z.pow Z.pow_pos Pos.iter Z.mul Pos.mul]. apply Rabs_def1; lra. }
  rewrite A. change (-7 - (53 - 1))%Z with (- (59))%Z. rewrite pow2_frac by lia. unfold below at 1. destruct (Rlt_dec _ (pow2 1024)) as [|N].
  2:{ exfalso. apply N. apply Rlt_trans with (pow2 0); [|apply pow2_lt; lia]. unfold pow2 at 1. cbn [powerRZ Z.pow Z.pow_pos Pos.iter Z.mul Pos.mul]. lra. }
  unfold to_float. set (y := 5764607523034236 * / IZR (2 ^ 59)).
  assert (B : rounded 24 (-149) y = 10737418 * pow2 (-7 - (24 - 1))).
  { apply rounded_is; [| lia |].
    - change (-7 + 1)%Z with (- (6))%Z. change (-7)%Z with (- (7))%Z. rewrite !pow2_frac by lia. unfold y. cbn [Z.pow Z.pow_pos Pos.iter Z.mul Pos.mul]. lra.
    - change (-7 - (24 - 1))%Z with (- (30))%Z. rewrite !pow2_frac by lia. unfold y. cbn [Z.pow Z.pow_pos Pos.iter Z.mul Pos.mul]. apply Rabs_def1; lra. }
  rewrite B. change (-7 - (24 - 1))%Z with (- (30))%Z. rewrite pow2_frac by lia. unfold below. destruct (Rlt_dec _ (pow2 128)) as [|N]; [reflexivity|].
  exfalso. apply N. apply Rlt_trans with (pow2 0); [|apply pow2_lt; lia]. unfold pow2 at 1. cbn [powerRZ Z.pow Z.pow_pos Pos.iter Z.mul Pos.mul]. lra.
Qed.
Lemma three_tenths_sq : radius_sq three_tenths = Some (12079596 / IZR (2 ^ 27)).
Proof.
  unfold radius_sq, to_double.
  assert (A : rounded 53 (-1074) (three_tenths * three_tenths) = 6485183463413514 * pow2 (-4 - (53 - 1))).
  { apply rounded_is; [| lia |].
    - change (-4 + 1)%Z with (- (3))%Z. change (-4)%Z with (- (4))%Z. rewrite !pow2_frac by lia. unfold three_tenths. cbn [Z.pow Z.pow_pos Pos.iter Z.mul Pos.mul]. lra.
    - change (-4 - (53 - 1))%Z with (- (56))%Z. rewrite !pow2_frac by lia. unfold three_tenths. cbn [Z.pow Z.pow_pos Pos.iter Z.mul Pos.mul]. apply Rabs_def1; lra. }
  rewrite A. change (-4 - (53 - 1))%Z with (- (56))%Z. rewrite pow2_frac by lia. unfold below at 1. destruct (Rlt_dec _ (pow2 1024)) as [|N].
  2:{ exfalso. apply N. apply Rlt_trans with (pow2 0); [|apply pow2_lt; lia]. unfold pow2 at 1. cbn [powerRZ Z.pow Z.pow_pos Pos.iter Z.mul Pos.mul]. lra. }
  unfold to_float. set (y := 6485183463413514 * / IZR (2 ^ 56)).
  assert (B : rounded 24 (-149) y = 12079596 * pow2 (-4 - (24 - 1))).
  { apply rounded_is; [| lia |].
    - change (-4 + 1)%Z with (- (3))%Z. change (-4)%Z with (- (4))%Z. rewrite !pow2_frac by lia. unfold y. cbn [Z.pow Z.pow_pos Pos.iter Z.mul Pos.mul]. lra.
    - change (-4 - (24 - 1))%Z with (- (27))%Z. rewrite !pow2_frac by lia. unfold y. cbn [Z.pow Z.pow_pos Pos.iter Z.mul Pos.mul]. apply Rabs_def1; lra. }
  rewrite B. change (-4 - (24 - 1))%Z with (- (27))%Z. rewrite pow2_frac by lia. unfold below. destruct (Rlt_dec _ (pow2 128)) as [|N]; [reflexivity|].
  exfalso. apply N. apply Rlt_trans with (pow2 0); [|apply pow2_lt; lia]. unfold pow2 at 1. cbn [powerRZ Z.pow Z.pow_pos Pos.iter Z.mul Pos.mul]. lra.
Qed.
Lemma allowed : forall r, / 2 ^ 4 <= r -> distance_allowed r = true.
Proof.
  intros r H. unfold distance_allowed. rewrite min_distance_is. destruct (Rle_dec (pow2 (-63)) r) as [|N]; [reflexivity|]. exfalso. apply N. apply Rle_trans with (pow2 (- (4))); [apply pow2_le; lia|].
  rewrite pow2_frac by lia. cbn [Z.pow Z.pow_pos Pos.iter Z.mul Pos.mul]. lra.
Qed.
Theorem filter_two : forall flann t r f, right_radius 1 flann -> / 2 ^ 4 <= r -> radius_sq r = Some f -> 0 < f ->
  exists s, filter_all distance_allowed (filter_search flann) (init (two_points t)) r = Ok (Ok tt, s) /\ In 0%nat (filtered_indices_ s) /\ (In 1%nat (filtered_indices_ s) <-> f <= t * t).
Proof.
  intros flann t r f RIGHT R0 F FP. assert (RP : 0 <= r) by lra.
  assert (D : exists s, filter_all distance_allowed (filter_search flann) (init (two_points t)) r = Ok (Ok tt, s)).
  { unfold filter_all. apply filter_defined; [apply allowed; exact R0|]. cbn. repeat constructor. }
  destruct D as (s & E). exists s. split; [exact E|].
  destruct (@filter_all_spec _ _ distance_allowed (near_by 1) (filter_search flann) (filter_search_ok 1 flann RIGHT) (near_by_sym 1) (init (two_points t)) r s E) as (_ & _ & _ & A & B & Z).
  assert (K0 : In 0%nat (filtered_indices_ s)) by (apply Z; discriminate). split; [exact K0|]. cbn [points init] in A, B.
  assert (Q : squared_distance 1 (fun _ => 0) (fun _ => t) = t * t) by (unfold squared_distance; cbn; ring). split.
  - intros K1. apply Rnot_lt_le. intros L. apply (A 0%nat 1%nat K0 K1 ltac:(discriminate)). exists (fun _ => 0), (fun _ => t). repeat split; auto. rewrite F. cbn [less]. rewrite Q. exact L.
  - intros L. destruct (in_dec Nat.eq_dec 1%nat (filtered_indices_ s)) as [|N]; auto. exfalso. destruct (B 1%nat ltac:(cbn; lia) N) as (i & _ & I1 & x & y & X & Y & _ & NB).
    assert (i = 0)%nat by lia. subst i. cbn in X, Y. injection X as <-. injection Y as <-. rewrite F in NB. cbn [less] in NB. rewrite Q in NB. lra.
Qed.

Theorem filter_tenth : forall flann, right_radius 1 flann -> exists t s, filter_all distance_allowed (filter_search flann) (init (two_points t)) tenth = Ok (Ok tt, s) /\
  In 0%nat (filtered_indices_ s) /\ In 1%nat (filtered_indices_ s) /\ distance 1 (fun _ => 0) (fun _ => t) < tenth.
Proof.
  intros flann RIGHT. set (t := 429496729 / IZR (2 ^ 32)). exists t. destruct (filter_two flann t tenth _ RIGHT ltac:(unfold tenth; cbn [Z.pow Z.pow_pos Pos.iter Z.mul Pos.mul]; lra) tenth_sq ltac:(cbn [Z.pow Z.pow_pos Pos.iter Z.mul Pos.mul]; lra)) as (s & E & A & B).
  exists s. split; [exact E|]. split; [exact A|]. split.
  - apply B. unfold t. cbn [Z.pow Z.pow_pos Pos.iter Z.mul Pos.mul]. lra.
  - unfold distance, squared_distance. cbn [rsum]. replace (0 + (0 - t) * (0 - t)) with (t * t) by ring. rewrite sqrt_square by (unfold t; cbn [Z.pow Z.pow_pos Pos.iter Z.mul Pos.mul]; lra).
    unfold t, tenth. cbn [Z.pow Z.pow_pos Pos.iter Z.mul Pos.mul]. lra.
Qed.
Theorem filter_three_tenths : forall flann, right_radius 1 flann -> exists t s, filter_all distance_allowed (filter_search flann) (init (two_points t)) three_tenths = Ok (Ok tt, s) /\
  ~ In 1%nat (filtered_indices_ s) /\ three_tenths < distance 1 (fun _ => 0) (fun _ => t).
Proof.
  intros flann RIGHT. set (t := 644245095 / IZR (2 ^ 31)). exists t. destruct (filter_two flann t three_tenths _ RIGHT ltac:(unfold three_tenths; cbn [Z.pow Z.pow_pos Pos.iter Z.mul Pos.mul]; lra) three_tenths_sq ltac:(cbn [Z.pow Z.pow_pos Pos.iter Z.mul Pos.mul]; lra)) as (s & E & A & B).
  exists s. split; [exact E|]. split.
  - rewrite B. unfold t. cbn [Z.pow Z.pow_pos Pos.iter Z.mul Pos.mul]. lra.
  - unfold distance, squared_distance. cbn [rsum]. replace (0 + (0 - t) * (0 - t)) with (t * t) by ring. rewrite sqrt_square by (unfold t; cbn [Z.pow Z.pow_pos Pos.iter Z.mul Pos.mul]; lra).
    unfold t, three_tenths. cbn [Z.pow Z.pow_pos Pos.iter Z.mul Pos.mul]. lra.
Qed.
