From Coq Require Import Reals List Bool Arith Lia Lra Rtopology.
From Verif Require Import Proofs.LinAlg Proofs.PositiveDefinite Model.LinAlg.
Local Open Scope R_scope.

(** * Averages over a grid *)
Definition node (a b : R) (N k : nat) : R := a + (b - a) * (INR k / INR N).
Definition avg (N : nat) (a b : R) (g : R -> R) : R := / INR N * rsum N (fun k => g (node a b N k)).

Lemma node_bounds : forall a b N k, a <= b -> (k <= N)%nat -> (0 < N)%nat -> a <= node a b N k <= b.
Proof.
  intros a b N k AB K P. unfold node. assert (Q : 0 < INR N) by (apply lt_0_INR; auto). assert (K' : INR k <= INR N) by (apply le_INR; auto). pose proof (pos_INR k) as K0.
  assert (0 <= INR k / INR N <= 1). { split; [apply Rmult_le_pos; auto; left; apply Rinv_0_lt_compat; auto|]. apply Rmult_le_reg_r with (INR N); auto. unfold Rdiv. rewrite Rmult_assoc, Rinv_l; lra. }
  assert (0 <= (b - a) * (INR k / INR N)) by (apply Rmult_le_pos; lra). assert ((b - a) * (INR k / INR N) <= (b - a) * 1) by (apply Rmult_le_compat_l; lra). lra.
Qed.
Lemma avg_ext : forall N a b g h, a <= b -> (forall t, a <= t <= b -> g t = h t) -> avg N a b g = avg N a b h.
Proof. intros N a b g h AB H. unfold avg. f_equal. apply rsum_ext. intros k K. apply H. apply node_bounds; auto; lia. Qed.
Lemma avg_plus : forall N a b g h, avg N a b (fun t => g t + h t) = avg N a b g + avg N a b h.
Proof. intros. unfold avg. rewrite rsum_plus. ring. Qed.
Lemma avg_scal : forall N a b s g, avg N a b (fun t => s * g t) = s * avg N a b g.
Proof. intros. unfold avg. rewrite rsum_scal. ring. Qed.
Lemma avg_rsum : forall N a b m g, avg N a b (fun t => rsum m (fun i => g i t)) = rsum m (fun i => avg N a b (g i)).
Proof.
  intros. induction m as [|m IH]; cbn [rsum].
  - unfold avg. rewrite rsum_0; auto. ring.
  - rewrite avg_plus, IH. reflexivity.
Qed.
Lemma avg_pos : forall N a b g, a <= b -> (forall t, a <= t <= b -> 0 <= g t) -> 0 <= avg N a b g.
Proof.
  intros N a b g AB H. unfold avg. destruct N; [cbn [rsum]; lra|]. apply Rmult_le_pos; [left; apply Rinv_0_lt_compat, lt_0_INR; lia|].
  apply rsum_pos. intros k K. apply H. apply node_bounds; auto; lia.
Qed.
Lemma avg_le : forall N a b g h, a <= b -> (forall t, a <= t <= b -> g t <= h t) -> avg N a b g <= avg N a b h.
Proof.
  intros N a b g h AB H. assert (P : 0 <= avg N a b (fun t => h t + -1 * g t)) by (apply avg_pos; auto; intros t T; specialize (H t T); lra).
  rewrite avg_plus, avg_scal in P. lra.
Qed.
Lemma avg_const : forall N a b c, (0 < N)%nat -> avg N a b (fun _ => c) = c.
Proof.
  intros N a b c P. unfold avg. assert (E : forall n, rsum n (fun _ => c) = INR n * c) by (induction n; cbn [rsum]; [cbn; ring|rewrite IHn, S_INR; ring]).
  rewrite E, <- Rmult_assoc, Rinv_l; [ring|]. apply not_0_INR. lia.
Qed.
Lemma avg_abs : forall N a b g c, a <= b -> (0 < N)%nat -> (forall t, a <= t <= b -> Rabs (g t) <= c) -> Rabs (avg N a b g) <= c.
Proof.
  intros N a b g c AB P H. pose proof (avg_const N a b c P) as C1. pose proof (avg_const N a b (- c) P) as C2.
  assert (avg N a b (fun _ => - c) <= avg N a b g) by (apply avg_le; auto; intros t T; specialize (H t T); unfold Rabs in H; destruct (Rcase_abs (g t)); lra).
  assert (avg N a b g <= avg N a b (fun _ => c)) by (apply avg_le; auto; intros t T; specialize (H t T); unfold Rabs in H; destruct (Rcase_abs (g t)); lra).
  apply Rabs_le. lra.
Qed.

(** One cell at most contains a number. *)
Lemma one_cell : forall (v : nat -> R) y m, (forall k, v k <= v (S k)) ->
  rsum m (fun k => if Rle_dec (v k) y then if Rlt_dec y (v (S k)) then 1 else 0 else 0) <= if Rlt_dec y (v m) then 1 else 0.
Proof.
  intros v y m M. induction m as [|m IH]; cbn [rsum]; [destruct (Rlt_dec y (v 0%nat)); lra|].
  pose proof (M m). destruct (Rlt_dec y (v m)), (Rle_dec (v m) y), (Rlt_dec y (v (S m))); lra.
Qed.
Definition clamp (lo hi v : R) : R := Rmax lo (Rmin v hi).
Lemma rsum_abs : forall n f, Rabs (rsum n f) <= rsum n (fun i => Rabs (f i)).
Proof. intros n f. induction n; cbn [rsum]; [rewrite Rabs_R0; lra|]. eapply Rle_trans; [apply Rabs_triang|]. lra. Qed.
Lemma rsum_cst : forall n c, rsum n (fun _ => c) = INR n * c.
Proof. intros n c. induction n; cbn [rsum]; [cbn; ring|]. rewrite IHn, S_INR. ring. Qed.
Lemma rsum_tele : forall n (f : nat -> R), rsum n (fun k => f (S k) - f k) = f n - f 0%nat.
Proof. intros n f. induction n; cbn [rsum]; [ring|]. rewrite IHn. ring. Qed.

(** The averages of a function cut off outside an interval approach its integral there. *)
Lemma avg_cut : forall (a b lo hi : R) (Q q : R -> R), a < b -> a <= lo -> lo <= hi -> hi <= b ->
  (forall t, a <= t <= b -> derivable_pt_lim Q t (q t)) -> (forall t, a <= t <= b -> continuity_pt q t) ->
  forall g, (forall t, lo <= t <= hi -> g t = q t) -> (forall t, t < lo \/ hi < t -> g t = 0) ->
  Un_cv (fun N => avg N a b g) ((Q hi - Q lo) / (b - a)).
Proof.
  intros a b lo hi Q q AB L1 L2 L3 DQ CQ g G1 G2 e E.
  destruct (continuity_ab_maj q a b) as (tM & HM & _); [lra|auto|]. destruct (continuity_ab_min q a b) as (tm & Hm & _); [lra|auto|].
  set (M := Rabs (q tM) + Rabs (q tm)). assert (M0 : 0 <= M) by (unfold M; pose proof (Rabs_pos (q tM)); pose proof (Rabs_pos (q tm)); lra).
  assert (BM : forall t, a <= t <= b -> Rabs (q t) <= M).
  { intros t T. specialize (HM t T). specialize (Hm t T). pose proof (Rle_abs (q tM)). pose proof (Rle_abs (- q tm)). rewrite Rabs_Ropp in *. pose proof (Rabs_pos (q tM)). pose proof (Rabs_pos (q tm)).
    apply Rabs_le. unfold M. lra. }
  destruct (Heine_cor2 CQ (mkposreal (e / 2) ltac:(lra))) as [[dl DL] HD]. cbn [pos] in HD.
  destruct (cv_inv (4 * M) (e / 2) ltac:(lra)) as [N1 HN1]. destruct (cv_inv (b - a) dl DL) as [N2 HN2]. exists (S (N1 + N2)). intros N NN.
  assert (NP : 0 < INR N) by (apply lt_0_INR; lia). set (h := (b - a) * / INR N).
  assert (H0 : 0 < h) by (apply Rmult_lt_0_compat; [lra|apply Rinv_0_lt_compat; auto]).
  assert (HS : h < dl). { specialize (HN2 N ltac:(lia)). unfold R_dist in HN2. fold h in HN2. rewrite Rminus_0_r, Rabs_right in HN2; lra. }
  specialize (HN1 N ltac:(lia)). unfold R_dist in HN1. rewrite Rminus_0_r, Rabs_right in HN1. 2:{ apply Rle_ge, Rmult_le_pos; [lra|left; apply Rinv_0_lt_compat; auto]. }
  set (v := node a b N). assert (VS : forall k, v (S k) = v k + h). { intros k. unfold v, node, h. rewrite S_INR. field. lra. }
  assert (VB : forall k, (k <= N)%nat -> a <= v k <= b) by (intros k K; apply node_bounds; [lra|auto|lia]).
  set (F := fun t => Q (clamp lo hi t)).
  assert (QL : forall s t, lo <= s <= hi -> lo <= t <= hi -> s <= t -> Rabs (Q t - Q s) <= M * (t - s)).
  { intros s t S0 T0 ST. destruct (Req_dec s t) as [->|NE]; [rewrite !Rminus_eq_0, Rabs_R0; lra|].
    destruct (MVT_cor2 Q q s t) as (x & X & XB); [lra|intros; apply DQ; lra|]. rewrite X, Rabs_mult, (Rabs_right (t - s)) by lra. apply Rmult_le_compat_r; [lra|]. apply BM. lra. }
  assert (CL : forall s t, s <= t -> lo <= clamp lo hi s <= hi /\ lo <= clamp lo hi t <= hi /\ 0 <= clamp lo hi t - clamp lo hi s <= t - s).
  { intros s t ST. unfold clamp, Rmax, Rmin. destruct (Rle_dec s hi), (Rle_dec t hi); repeat (match goal with |- context [Rle_dec ?x ?y] => destruct (Rle_dec x y) end); lra. }
  assert (FL : forall s t, s <= t -> Rabs (F t - F s) <= M * (t - s)).
  { intros s t ST. destruct (CL s t ST) as (A & B & C). unfold F. eapply Rle_trans; [apply QL; lra|]. apply Rmult_le_compat_l; lra. }
  set (cell := fun y k => if Rle_dec (v k) y then if Rlt_dec y (v (S k)) then 1 else 0 else 0).
  assert (C01 : forall y k, 0 <= cell y k). { intros y k. unfold cell. destruct (Rle_dec (v k) y), (Rlt_dec y (v (S k))); lra. }
  assert (GB : forall t, a <= t <= b -> Rabs (g t) <= M).
  { intros t T. destruct (Rlt_dec t lo); [rewrite G2, Rabs_R0; auto|]. destruct (Rlt_dec hi t); [rewrite G2, Rabs_R0; auto|]. rewrite G1 by lra. auto. }
  assert (ER : forall k, (k < N)%nat -> Rabs (h * g (v k) - (F (v (S k)) - F (v k))) <= h * (e / 2) + 2 * M * h * (cell lo k + cell hi k)).
  { intros k K. pose proof (VB k ltac:(lia)) as B1. pose proof (VB (S k) ltac:(lia)) as B2. pose proof (VS k) as S1. pose proof (C01 lo k). pose proof (C01 hi k).
    assert (HE : 0 < h * (e / 2)) by (apply Rmult_lt_0_compat; lra). assert (MH : 0 <= 2 * M * h) by (apply Rmult_le_pos; lra).
    assert (MC : 0 <= 2 * M * h * (cell lo k + cell hi k)) by (apply Rmult_le_pos; lra).
    assert (CA : forall t, t <= lo -> F t = Q lo). { intros t T. unfold F, clamp. rewrite Rmin_left by lra. rewrite Rmax_left by lra. reflexivity. }
    assert (CB : forall t, hi <= t -> F t = Q hi). { intros t T. unfold F, clamp. rewrite Rmin_right by lra. rewrite Rmax_right by lra. reflexivity. }
    destruct (Rle_dec (v (S k)) lo) as [X|X].
    { rewrite !CA by lra. rewrite G2 by lra. rewrite Rminus_eq_0, Rmult_0_r, Rminus_0_r, Rabs_R0. lra. }
    destruct (Rlt_dec hi (v k)) as [Y|Y].
    { rewrite !CB by lra. rewrite G2 by lra. rewrite Rminus_eq_0, Rmult_0_r, Rminus_0_r, Rabs_R0. lra. }
    destruct (Rle_dec lo (v k)) as [Z|Z]; [destruct (Rle_dec (v (S k)) hi) as [W|W]|].
    - assert (FQ : forall t, lo <= t <= hi -> F t = Q t). { intros t T. unfold F, clamp. rewrite Rmin_left by lra. rewrite Rmax_right by lra. reflexivity. }
      rewrite !FQ by lra. destruct (MVT_cor2 Q q (v k) (v (S k))) as (x & XE & XB); [lra|intros; apply DQ; lra|]. rewrite XE, G1 by lra.
      replace (h * q (v k) - q x * (v (S k) - v k)) with (h * (q (v k) - q x)) by (rewrite S1; ring). rewrite Rabs_mult, (Rabs_right h) by lra.
      assert (Rabs (q (v k) - q x) < e / 2). { apply HD; try lra. rewrite Rabs_left; lra. }
      assert (h * Rabs (q (v k) - q x) <= h * (e / 2)) by (apply Rmult_le_compat_l; lra). lra.
    - assert (cell hi k = 1). { unfold cell. destruct (Rle_dec (v k) hi); [|lra]. destruct (Rlt_dec hi (v (S k))); lra. }
      eapply Rle_trans; [apply Rabs_triang|]. rewrite Rabs_Ropp. pose proof (FL (v k) (v (S k)) ltac:(lra)) as FB. rewrite Rabs_mult, (Rabs_right h) by lra.
      assert (h * Rabs (g (v k)) <= h * M) by (apply Rmult_le_compat_l; [lra|apply GB; lra]). replace (v (S k) - v k) with h in FB by lra.
      assert (2 * M * h * 1 <= 2 * M * h * (cell lo k + cell hi k)) by (apply Rmult_le_compat_l; lra). lra.
    - assert (cell lo k = 1). { unfold cell. destruct (Rle_dec (v k) lo); [|lra]. destruct (Rlt_dec lo (v (S k))); lra. }
      eapply Rle_trans; [apply Rabs_triang|]. rewrite Rabs_Ropp. pose proof (FL (v k) (v (S k)) ltac:(lra)) as FB. rewrite Rabs_mult, (Rabs_right h) by lra.
      assert (h * Rabs (g (v k)) <= h * M) by (apply Rmult_le_compat_l; [lra|apply GB; lra]). replace (v (S k) - v k) with h in FB by lra.
      assert (2 * M * h * 1 <= 2 * M * h * (cell lo k + cell hi k)) by (apply Rmult_le_compat_l; lra). lra. }
  assert (VM : forall k, v k <= v (S k)) by (intros k; rewrite VS; lra).
  assert (C1 : rsum N (cell lo) <= 1). { eapply Rle_trans; [apply (one_cell v lo N VM)|]. destruct (Rlt_dec lo (v N)); lra. }
  assert (C2 : rsum N (cell hi) <= 1). { eapply Rle_trans; [apply (one_cell v hi N VM)|]. destruct (Rlt_dec hi (v N)); lra. }
  assert (V0 : v 0%nat = a) by (unfold v, node; cbn [INR]; field; lra). assert (VN : v N = b) by (unfold v, node; field; lra).
  assert (TOT : Rabs (h * rsum N (fun k => g (v k)) - (Q hi - Q lo)) <= (b - a) * (e / 2) + 4 * M * h).
  { assert (EF : Q hi - Q lo = rsum N (fun k => F (v (S k)) - F (v k))).
    { rewrite (rsum_tele N (fun k => F (v k))), V0, VN. unfold F, clamp. rewrite (Rmin_right b hi), (Rmax_right lo hi) by lra. rewrite (Rmin_left a hi), (Rmax_left lo a) by lra. reflexivity. }
    rewrite EF, <- rsum_scal, <- rsum_minus. eapply Rle_trans; [apply rsum_abs|]. eapply Rle_trans; [apply rsum_le; exact ER|].
    rewrite rsum_plus, (rsum_scal N (2 * M * h)), rsum_plus. 
    rewrite rsum_cst. replace (INR N * (h * (e / 2))) with ((b - a) * (e / 2)) by (unfold h; field; lra).
    assert (2 * M * h * (rsum N (cell lo) + rsum N (cell hi)) <= 2 * M * h * 2) by (apply Rmult_le_compat_l; [apply Rmult_le_pos; lra|lra]). lra. }
  unfold R_dist. unfold avg. fold v.
  replace (/ INR N * rsum N (fun k => g (v k)) - (Q hi - Q lo) / (b - a)) with (/ (b - a) * (h * rsum N (fun k => g (v k)) - (Q hi - Q lo))) by (unfold h; field; lra).
  rewrite Rabs_mult, (Rabs_right (/ (b - a))) by (left; apply Rinv_0_lt_compat; lra).
  apply Rmult_lt_reg_l with (b - a); [lra|]. rewrite <- Rmult_assoc, Rinv_r, Rmult_1_l by lra. eapply Rle_lt_trans; [exact TOT|].
  replace (4 * M * h) with ((b - a) * (4 * M * / INR N)) by (unfold h; ring). rewrite <- Rmult_plus_distr_l. apply Rmult_lt_compat_l; lra.
Qed.
Lemma avg_cv : forall (a b : R) (Q q : R -> R), a < b -> (forall t, derivable_pt_lim Q t (q t)) -> continuity q ->
  Un_cv (fun N => avg N a b q) ((Q b - Q a) / (b - a)).
Proof.
  intros a b Q q AB D C. set (g := fun t => if Rlt_dec t a then 0 else if Rlt_dec b t then 0 else q t).
  apply (cv_ext (fun N => avg N a b g)).
  - intros N. apply avg_ext; [lra|]. intros t T. unfold g. destruct (Rlt_dec t a); [lra|]. destruct (Rlt_dec b t); [lra|reflexivity].
  - apply (avg_cut a b a b Q q); auto; try lra.
    + intros t T. unfold g. destruct (Rlt_dec t a); [lra|]. destruct (Rlt_dec b t); [lra|reflexivity].
    + intros t T. unfold g. destruct (Rlt_dec t a); auto. destruct (Rlt_dec b t); [reflexivity|lra].
Qed.

(** * Powers of a wave *)
Definition wave (a b t : R) : R := a * cos t + b * sin t.
Lemma wave_lim : forall a b t, derivable_pt_lim (wave a b) t (wave b (- a) t).
Proof.
  intros a b t. unfold wave. replace (b * cos t + - a * sin t) with (a * (- sin t) + b * cos t) by ring.
  apply (derivable_pt_lim_plus (fun t => a * cos t) (fun t => b * sin t)).
  - apply (derivable_pt_lim_scal cos a t). apply derivable_pt_lim_cos.
  - apply (derivable_pt_lim_scal sin b t). apply derivable_pt_lim_sin.
Qed.
Lemma pow_lim : forall f t l n, derivable_pt_lim f t l -> derivable_pt_lim (fun x => f x ^ n) t (INR n * f t ^ pred n * l).
Proof. intros f t l n D. apply (derivable_pt_lim_comp f (fun y => y ^ n) t l); auto. apply derivable_pt_lim_pow. Qed.
Lemma lim_cont : forall f t l, derivable_pt_lim f t l -> continuity_pt f t.
Proof. intros f t l D. apply derivable_continuous_pt. exists l. exact D. Qed.
Lemma wave_pow_cont : forall a b n, continuity (fun t => wave a b t ^ n).
Proof. intros a b n t. eapply lim_cont. apply pow_lim. apply wave_lim. Qed.
Fixpoint wl (r2 : R) (m : nat) : R :=
  match m with 0 => 1 | 1 => 0 | S (S k) => (INR k + 1) / (INR k + 2) * r2 * wl r2 k end.
Lemma wave_cv : forall a b m, Un_cv (fun N => avg N 0 (2 * PI) (fun t => wave a b t ^ m)) (wl (a * a + b * b) m).
Proof.
  intros a b. pose proof PI_RGT_0 as P0.
  assert (PER : forall x y, wave x y (2 * PI) = wave x y 0). { intros. unfold wave. rewrite cos_2PI, sin_2PI, cos_0, sin_0. reflexivity. }
  assert (K : forall m, Un_cv (fun N => avg N 0 (2 * PI) (fun t => wave a b t ^ m)) (wl (a * a + b * b) m) /\
              Un_cv (fun N => avg N 0 (2 * PI) (fun t => wave a b t ^ S m)) (wl (a * a + b * b) (S m))).
  { induction m as [|m [IH1 IH2]].
    - split.
      + replace (wl (a * a + b * b) 0) with ((2 * PI - 0) / (2 * PI - 0)) by (cbn [wl]; field; lra). apply (avg_cv 0 (2 * PI) (fun t => t)); [lra|intros; apply derivable_pt_lim_id|].
        cbn [pow]. apply continuity_const. intros x y. reflexivity.
      + replace (wl (a * a + b * b) 1) with ((- wave b (- a) (2 * PI) - - wave b (- a) 0) / (2 * PI - 0)) by (rewrite PER; cbn [wl]; field; lra).
        apply (avg_cv 0 (2 * PI) (fun t => - wave b (- a) t)); [lra| |apply wave_pow_cont]. intros t. rewrite pow_1.
        replace (wave a b t) with (- wave (- a) (- b) t) by (unfold wave; ring). apply (derivable_pt_lim_opp (wave b (- a))). apply wave_lim.
    - split; auto. set (r2 := a * a + b * b) in *.
      set (F := fun t => wave a b t ^ S m * wave b (- a) t).
      assert (D : forall t, derivable_pt_lim F t ((INR m + 1) * r2 * wave a b t ^ m - (INR m + 2) * wave a b t ^ S (S m))).
      { intros t. unfold F. replace ((INR m + 1) * r2 * wave a b t ^ m - (INR m + 2) * wave a b t ^ S (S m)) with
          (INR (S m) * wave a b t ^ pred (S m) * wave b (- a) t * wave b (- a) t + wave a b t ^ S m * wave (- a) (- b) t).
        - apply (derivable_pt_lim_mult (fun x => wave a b x ^ S m) (wave b (- a))); [apply pow_lim|]; apply wave_lim.
        - rewrite S_INR. cbn [pred pow]. assert (E : wave b (- a) t * wave b (- a) t = r2 - wave a b t * wave a b t).
          { unfold wave, r2. pose proof (sin2_cos2 t) as SC. unfold Rsqr in SC. replace (a * a + b * b) with ((a * a + b * b) * (sin t * sin t + cos t * cos t)) by (rewrite SC; ring). ring. }
          rewrite (Rmult_assoc _ (wave b (- a) t)), E. replace (wave (- a) (- b) t) with (- wave a b t) by (unfold wave; ring). ring. }
      assert (C : continuity (fun t => (INR m + 1) * r2 * wave a b t ^ m - (INR m + 2) * wave a b t ^ S (S m))).
      { intros t. apply (continuity_pt_minus (fun t => (INR m + 1) * r2 * wave a b t ^ m) (fun t => (INR m + 2) * wave a b t ^ S (S m)));
        apply continuity_pt_mult; try apply wave_pow_cont; apply continuity_pt_const; intros x y; reflexivity. }
      pose proof (avg_cv 0 (2 * PI) F _ ltac:(lra) D C) as L.
      replace ((F (2 * PI) - F 0) / (2 * PI - 0)) with 0 in L by (unfold F; rewrite !PER; field; lra).
      assert (M2 : INR m + 2 <> 0) by (pose proof (pos_INR m); lra).
      pose proof (CV_plus _ _ _ _ (cv_scal _ _ ((INR m + 1) / (INR m + 2) * r2) IH1) (cv_scal _ _ (- / (INR m + 2)) L)) as X.
      rewrite Rmult_0_r, Rplus_0_r in X. change (wl r2 (S (S m))) with ((INR m + 1) / (INR m + 2) * r2 * wl r2 m). eapply cv_ext; [|exact X].
      intros N. cbn beta. rewrite <- !avg_scal, <- avg_plus. apply avg_ext; [lra|]. intros t _. field. auto. }
  intros m. apply K.
Qed.

(** * Powers along the axis *)
Definition axis (j q : nat) (t : R) : R := (1 - t * t) ^ j * t ^ q.
Fixpoint tl (j q : nat) : R :=
  match j with O => (1 - (-1) ^ S q) / (2 * (INR q + 1)) | S i => 2 * (INR i + 1) / (INR q + 1) * tl i (S (S q)) end.
Lemma axis_lim : forall j q t, derivable_pt_lim (axis (S j) (S q)) t ((INR q + 1) * axis (S j) q t - 2 * (INR j + 1) * axis j (S (S q)) t).
Proof.
  intros j q t. unfold axis.
  replace ((INR q + 1) * ((1 - t * t) ^ S j * t ^ q) - 2 * (INR j + 1) * ((1 - t * t) ^ j * t ^ S (S q))) with
    (INR (S j) * (1 - t * t) ^ pred (S j) * (0 - (1 * t + t * 1)) * t ^ S q + (1 - t * t) ^ S j * (INR (S q) * t ^ pred (S q))) by (rewrite !S_INR; cbn [pred pow]; ring).
  apply (derivable_pt_lim_mult (fun x => (1 - x * x) ^ S j) (fun x => x ^ S q)).
  - apply (pow_lim (fun x => 1 - x * x)). apply (derivable_pt_lim_minus (fun _ => 1) (fun x => x * x)); [apply derivable_pt_lim_const|].
    apply (derivable_pt_lim_mult (fun x => x) (fun x => x)); apply derivable_pt_lim_id.
  - apply derivable_pt_lim_pow.
Qed.
Lemma axis_cont : forall j q, continuity (axis j q).
Proof.
  intros j q t. unfold axis. apply (continuity_pt_mult (fun t => (1 - t * t) ^ j) (fun t => t ^ q)).
  - eapply lim_cont. apply (pow_lim (fun x => 1 - x * x)). apply (derivable_pt_lim_minus (fun _ => 1) (fun x => x * x)); [apply derivable_pt_lim_const|].
    apply (derivable_pt_lim_mult (fun x => x) (fun x => x)); apply derivable_pt_lim_id.
  - eapply lim_cont. apply derivable_pt_lim_pow.
Qed.
Lemma axis_cv : forall j q, Un_cv (fun N => avg N (-1) 1 (axis j q)) (tl j q).
Proof.
  intros j. induction j as [|j IH]; intros q; pose proof (pos_INR q) as Q0.
  - cbn [tl]. replace ((1 - (-1) ^ S q) / (2 * (INR q + 1))) with ((/ (INR q + 1) * 1 ^ S q - / (INR q + 1) * (-1) ^ S q) / (1 - -1)) by (rewrite pow1; field; lra).
    apply (cv_ext (fun N => avg N (-1) 1 (fun t => t ^ q))). { intros N. apply avg_ext; [lra|]. intros t _. unfold axis. cbn [pow]. ring. }
    apply (avg_cv (-1) 1 (fun t => / (INR q + 1) * t ^ S q)); [lra| |].
    + intros t. replace (t ^ q) with (/ (INR q + 1) * (INR (S q) * t ^ pred (S q))) by (rewrite S_INR; cbn [pred]; field; lra).
      apply (derivable_pt_lim_scal (fun t => t ^ S q)). apply derivable_pt_lim_pow.
    + intros t. eapply lim_cont. apply derivable_pt_lim_pow.
  - cbn [tl].
    assert (C : continuity (fun t => (INR q + 1) * axis (S j) q t - 2 * (INR j + 1) * axis j (S (S q)) t)).
    { intros t. apply (continuity_pt_minus (fun t => (INR q + 1) * axis (S j) q t) (fun t => 2 * (INR j + 1) * axis j (S (S q)) t));
      apply continuity_pt_mult; try apply axis_cont; apply continuity_pt_const; intros x y; reflexivity. }
    pose proof (avg_cv (-1) 1 (axis (S j) (S q)) _ ltac:(lra) (axis_lim j q) C) as L.
    replace ((axis (S j) (S q) 1 - axis (S j) (S q) (-1)) / (1 - -1)) with 0 in L.
    2:{ unfold axis. replace (1 - 1 * 1) with 0 by ring. replace (1 - -1 * -1) with 0 by ring. rewrite !pow_i by lia. field. }
    pose proof (CV_plus _ _ _ _ (cv_scal _ _ (2 * (INR j + 1) / (INR q + 1)) (IH (S (S q)))) (cv_scal _ _ (/ (INR q + 1)) L)) as X.
    rewrite Rmult_0_r, Rplus_0_r in X. eapply cv_ext; [|exact X]. intros N. cbn beta. rewrite <- !avg_scal, <- avg_plus. apply avg_ext; [lra|].
    intros t _. field. lra.
Qed.

(** * Averages over the sphere *)
Definition aim (z0 z1 z2 t th : R) : R := sqrt (1 - t * t) * wave z0 z1 th + t * z2.
Definition ball (N : nat) (g : R -> R) (z0 z1 z2 : R) : R := avg N (-1) 1 (fun t => avg N 0 (2 * PI) (fun th => g (aim z0 z1 z2 t th))).

Lemma rsum_f : forall n f, rsum (S n) f = sum_f_R0 f n.
Proof. intros n f. induction n; [cbn; ring|]. change (rsum (S (S n)) f) with (rsum (S n) f + f (S n)). rewrite IHn. reflexivity. Qed.
Lemma two_pi : 0 <= 2 * PI. Proof. pose proof PI_RGT_0. lra. Qed.
Lemma ball_pow : forall N n z0 z1 z2, ball N (fun s => s ^ n) z0 z1 z2 =
  rsum (S n) (fun i => C n i * z2 ^ (n - i) * (avg N (-1) 1 (fun t => sqrt (1 - t * t) ^ i * t ^ (n - i)) * avg N 0 (2 * PI) (fun th => wave z0 z1 th ^ i))).
Proof.
  intros N n z0 z1 z2. unfold ball.
  rewrite (avg_ext N (-1) 1 _ (fun t => rsum (S n) (fun i => (C n i * z2 ^ (n - i) * avg N 0 (2 * PI) (fun th => wave z0 z1 th ^ i)) * (sqrt (1 - t * t) ^ i * t ^ (n - i))))); [|lra|].
  - rewrite avg_rsum. apply rsum_ext. intros i _. rewrite avg_scal. ring.
  - intros t _. rewrite (avg_ext N 0 (2 * PI) _ (fun th => rsum (S n) (fun i => (C n i * z2 ^ (n - i) * (sqrt (1 - t * t) ^ i * t ^ (n - i))) * wave z0 z1 th ^ i))); [|apply two_pi|].
    + rewrite avg_rsum. apply rsum_ext. intros i _. rewrite avg_scal. ring.
    + intros th _. unfold aim. rewrite binomial, <- rsum_f. apply rsum_ext. intros i _. rewrite !Rpow_mult_distr. ring.
Qed.
Lemma wl_odd : forall r2 m, Nat.even m = false -> wl r2 m = 0.
Proof.
  intros r2. assert (K : forall m, (Nat.even m = false -> wl r2 m = 0) /\ (Nat.even (S m) = false -> wl r2 (S m) = 0)).
  { induction m as [|m [A B]]; [split; [discriminate|reflexivity]|]. split; auto. intros E. change (wl r2 (S (S m))) with ((INR m + 1) / (INR m + 2) * r2 * wl r2 m). rewrite A; [ring|]. exact E. }
  intros m. apply K.
Qed.
Lemma tl_odd : forall j q, Nat.even q = false -> tl j q = 0.
Proof.
  intros j. induction j as [|j IH]; intros q E; cbn [tl].
  - replace ((-1) ^ S q) with 1; [unfold Rdiv; ring|]. rewrite <- Nat.negb_odd, negb_false_iff in E. apply Nat.odd_spec in E. destruct E as [k ->].
    replace (S (2 * k + 1)) with (2 * S k)%nat by lia. symmetry. apply pow_1_even.
  - rewrite IH; auto. ring.
Qed.
Lemma half_even : forall i, Nat.even i = true -> i = (2 * (i / 2))%nat.
Proof. intros i E. apply Nat.even_spec in E. destruct E as [k ->]. rewrite (Nat.mul_comm 2 k), Nat.div_mul; lia. Qed.
Lemma side_cv : forall a b i q, Un_cv (fun N => avg N (-1) 1 (fun t => sqrt (1 - t * t) ^ i * t ^ q) * avg N 0 (2 * PI) (fun th => wave a b th ^ i))
  (tl (i / 2) q * wl (a * a + b * b) i).
Proof.
  intros a b i q. destruct (Nat.even i) eqn:E.
  - apply CV_mult; [|apply wave_cv]. pose proof (half_even i E) as H. apply (cv_ext (fun N => avg N (-1) 1 (axis (i / 2) q))); [|apply axis_cv].
    intros N. apply avg_ext; [lra|]. intros t T. unfold axis. rewrite H at 2. rewrite pow_mult. replace (sqrt (1 - t * t) ^ 2) with (1 - t * t); [reflexivity|].
    cbn [pow]. rewrite Rmult_1_r. symmetry. apply sqrt_sqrt. nra.
  - rewrite (wl_odd _ _ E), Rmult_0_r. pose proof (wave_cv a b i) as W. rewrite (wl_odd _ _ E) in W. intros e EP. destruct (W e EP) as [m M]. exists (S m). intros N NM.
    specialize (M N ltac:(lia)). unfold R_dist in *. rewrite Rminus_0_r in *. rewrite Rabs_mult.
    assert (B : Rabs (avg N (-1) 1 (fun t => sqrt (1 - t * t) ^ i * t ^ q)) <= 1).
    { apply avg_abs; [lra|lia|]. intros t T. rewrite Rabs_mult, <- !RPow_abs.
      assert (S1 : 0 <= sqrt (1 - t * t) <= 1). { split; [apply sqrt_pos|]. rewrite <- sqrt_1 at 2. apply sqrt_le_1_alt. nra. }
      assert (S2 : 0 <= Rabs t <= 1) by (split; [apply Rabs_pos|apply Rabs_le; lra]). rewrite (Rabs_right (sqrt _)) by lra.
      assert (PW : forall x n, 0 <= x <= 1 -> 0 <= x ^ n <= 1). { intros x n X. induction n; cbn [pow]; [lra|]. nra. }
      pose proof (PW _ i S1). pose proof (PW _ q S2). nra. }
    pose proof (Rabs_pos (avg N 0 (2 * PI) (fun th => wave a b th ^ i))). eapply Rle_lt_trans; [|exact M].
    rewrite <- (Rmult_1_l (Rabs (avg N 0 (2 * PI) (fun th => wave a b th ^ i)))) at 2. apply Rmult_le_compat_r; auto.
Qed.
Lemma rsum_even : forall k g, (forall i, Nat.even i = false -> g i = 0) -> rsum (S (2 * k)) g = rsum (S k) (fun j => g (2 * j)%nat).
Proof.
  intros k g H. induction k as [|k IH]; [reflexivity|]. replace (S (2 * S k)) with (S (S (S (2 * k)))) by lia.
  change (rsum (S (S (S (2 * k)))) g) with (rsum (S (2 * k)) g + g (S (2 * k)) + g (S (S (2 * k)))). rewrite IH.
  rewrite (H (S (2 * k))); [|rewrite Nat.even_succ, <- Nat.negb_even, Nat.even_mul; reflexivity].
  change (rsum (S (S k)) (fun j => g (2 * j)%nat)) with (rsum (S k) (fun j => g (2 * j)%nat) + g (2 * S k)%nat). replace (2 * S k)%nat with (S (S (2 * k))) by lia. ring.
Qed.
Fixpoint wj (j : nat) : R := match j with O => 1 | S i => (2 * INR i + 1) / (2 * INR i + 2) * wj i end.
Lemma wl_even : forall r2 j, wl r2 (2 * j) = wj j * r2 ^ j.
Proof.
  intros r2 j. induction j as [|j IH]; [cbn; ring|]. replace (2 * S j)%nat with (S (S (2 * j))) by lia.
  change (wl r2 (S (S (2 * j)))) with ((INR (2 * j) + 1) / (INR (2 * j) + 2) * r2 * wl r2 (2 * j)). rewrite IH. cbn [wj pow]. rewrite mult_INR. cbn [INR]. replace (1 + 1) with 2 by ring. ring.
Qed.
Lemma moment_ratio : forall k j, (j <= k)%nat -> C (2 * k) (2 * j) * (tl j (2 * k - 2 * j) * wj j) = C k j / (2 * INR k + 1).
Proof.
  intros k j. induction j as [|j IH]; intros L.
  - replace (2 * 0)%nat with 0%nat by lia. rewrite Nat.sub_0_r. cbn [tl wj].
    assert (C0 : forall n, C n 0 = 1). { intros n. unfold C. rewrite Nat.sub_0_r. cbn [fact INR]. field. apply INR_fact_neq_0. }
    rewrite !C0. rewrite mult_INR. replace (S (2 * k)) with (2 * k + 1)%nat by lia. rewrite pow_add, pow_1_even. cbn [INR pow]. pose proof (pos_INR k). field. lra.
  - specialize (IH ltac:(lia)). pose proof (pos_INR k). pose proof (pos_INR j).
    rewrite (pascal_step3 k j) by lia. replace (2 * S j)%nat with (S (S (2 * j))) by lia. rewrite (pascal_step3 (2 * k) (S (2 * j))) by lia. rewrite (pascal_step3 (2 * k) (2 * j)) by lia.
    cbn [tl wj]. replace (S (S (2 * k - S (S (2 * j))))) with (2 * k - 2 * j)%nat by lia.
    rewrite !minus_INR by lia. rewrite !S_INR, !mult_INR. cbn [INR]. assert (LT : INR j + 1 <= INR k). { rewrite <- S_INR. apply le_INR. lia. }
    set (x := INR k) in *. set (y := INR j) in *. set (Ck := C k j) in *. set (C2 := C (2 * k) (2 * j)) in *. set (T := tl j (2 * k - 2 * j)) in *. set (w := wj j) in *.
    transitivity ((x - y) / (y + 1) * (C2 * (T * w))).
    + field. lra.
    + rewrite IH. field. lra.
Qed.
Definition moment (n : nat) (d2 : R) : R := if Nat.even n then d2 ^ (n / 2) / (INR n + 1) else 0.
Lemma ball_cv : forall n z0 z1 z2, Un_cv (fun N => ball N (fun s => s ^ n) z0 z1 z2) (moment n (z0 * z0 + z1 * z1 + z2 * z2)).
Proof.
  intros n z0 z1 z2. apply (cv_ext _ _ _ (fun N => eq_sym (ball_pow N n z0 z1 z2))).
  replace (moment n (z0 * z0 + z1 * z1 + z2 * z2)) with (rsum (S n) (fun i => C n i * z2 ^ (n - i) * (tl (i / 2) (n - i) * wl (z0 * z0 + z1 * z1) i))).
  { apply (cv_rsum (S n)). intros i _. apply cv_scal. apply side_cv. }
  unfold moment. destruct (Nat.even n) eqn:E.
  - pose proof (half_even n E) as H. set (k := (n / 2)%nat) in *. clearbody k. subst n.
    rewrite (rsum_even k (fun i => C (2 * k) i * z2 ^ (2 * k - i) * (tl (i / 2) (2 * k - i) * wl (z0 * z0 + z1 * z1) i))).
    2:{ intros i O. rewrite (wl_odd _ _ O). ring. }
    rewrite binomial, <- rsum_f. unfold Rdiv. rewrite <- rsum_scal_r. apply rsum_ext. intros j J.
    replace (2 * j / 2)%nat with j by (rewrite (Nat.mul_comm 2 j), Nat.div_mul; lia). rewrite wl_even.
    replace (2 * k - 2 * j)%nat with (2 * (k - j))%nat by lia. rewrite pow_mult. replace (z2 ^ 2) with (z2 * z2) by (cbn; ring).
    pose proof (moment_ratio k j ltac:(lia)) as MR. replace (2 * k - 2 * j)%nat with (2 * (k - j))%nat in MR by lia.
    rewrite mult_INR. cbn [INR]. replace (1 + 1) with 2 by ring. unfold Rdiv in MR.
    transitivity ((C (2 * k) (2 * j) * (tl j (2 * (k - j)) * wj j)) * ((z0 * z0 + z1 * z1) ^ j * (z2 * z2) ^ (k - j))); [ring|]. rewrite MR. ring.
  - apply rsum_0. intros i I0. destruct (Nat.even i) eqn:F; [|rewrite (wl_odd _ _ F); ring]. rewrite tl_odd; [ring|].
    rewrite Nat.even_sub by lia. rewrite E, F. reflexivity.
Qed.
