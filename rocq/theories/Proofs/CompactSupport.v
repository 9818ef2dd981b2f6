From Coq Require Import Reals List Bool Arith Lia Lra.
From Verif Require Import Proofs.LinAlg Proofs.PositiveDefinite Proofs.Elimination Model.LinAlg Spec.PositiveDefinite.
Local Open Scope R_scope.

(** * Forms that are nowhere negative *)
Lemma discriminant : forall C b W, (forall t, 0 <= C + 2 * t * b + t * t * W) -> 0 <= W -> b * b <= W * C.
Proof.
  intros C b W H [P|Z].
  - specialize (H (- b / W)). replace (C + 2 * (- b / W) * b + - b / W * (- b / W) * W) with (C - b * b / W) in H by (field; lra).
    apply Rmult_le_reg_r with (/ W); [apply Rinv_0_lt_compat; auto|]. replace (W * C * / W) with C by (field; lra). unfold Rdiv in H. lra.
  - destruct (Req_dec b 0) as [B|B]; [rewrite B, <- Z; lra|]. exfalso. specialize (H (- (C + 1) / (2 * b))). rewrite <- Z in H.
    replace (C + 2 * (- (C + 1) / (2 * b)) * b + - (C + 1) / (2 * b) * (- (C + 1) / (2 * b)) * 0) with (-1) in H by (field; auto). lra.
Qed.
Lemma quad_mat : forall n a c, quad n a c = rsum n (fun i => c i * mat_vec n a c i).
Proof. intros. unfold quad, mat_vec. apply rsum_ext. intros i _. rewrite <- rsum_scal. apply rsum_ext. intros; ring. Qed.
Lemma quad_shift : forall n a c w t, (forall i j, (i < n)%nat -> (j < n)%nat -> a i j = a j i) ->
  quad n a (fun i => c i + t * w i) = quad n a c + 2 * t * rsum n (fun i => c i * mat_vec n a w i) + t * t * quad n a w.
Proof.
  intros n a c w t S0.
  assert (E : rsum n (fun i => w i * mat_vec n a c i) = rsum n (fun i => c i * mat_vec n a w i)).
  { unfold mat_vec. rewrite (rsum_ext n _ (fun i => rsum n (fun j => w i * (a i j * c j)))) by (intros; rewrite <- rsum_scal; auto). rewrite rsum_swap. apply rsum_ext. intros j J.
    rewrite <- rsum_scal. apply rsum_ext. intros i I0. rewrite (S0 i j I0 J). ring. }
  assert (M : forall i, mat_vec n a (fun i => c i + t * w i) i = mat_vec n a c i + t * mat_vec n a w i).
  { intros i. unfold mat_vec. rewrite <- rsum_scal, <- rsum_plus. apply rsum_ext. intros; ring. }
  rewrite !quad_mat. rewrite (rsum_ext n _ (fun i => (c i * mat_vec n a c i + t * (c i * mat_vec n a w i)) + (t * (w i * mat_vec n a c i) + t * t * (w i * mat_vec n a w i)))) by (intros; rewrite M; ring).
  rewrite !rsum_plus, !rsum_scal, E. ring.
Qed.
Lemma psd_definite : forall n a, (forall i j, (i < n)%nat -> (j < n)%nat -> a i j = a j i) -> (forall c, 0 <= quad n a c) ->
  (forall c, quad n a c = 0 -> forall i, (i < n)%nat -> c i = 0) -> exists low, 0 < low /\ forall c, low * length2 n c <= quad n a c.
Proof.
  intros n a S0 P Z. destruct (kernel_or_onto n a) as [(w & W & k & K & NK)|O].
  { exfalso. apply NK. apply (Z w); auto. rewrite quad_mat. apply rsum_0. intros i I0. rewrite (W i I0). ring. }
  assert (B : forall m, (m <= n)%nat -> exists K, 0 <= K /\ forall c, rsum m (fun i => c i * c i) <= K * quad n a c).
  { induction m as [|m IH]; intros L.
    - exists 0. split; [lra|]. intros c. cbn. lra.
    - destruct (IH ltac:(lia)) as (K & K0 & H). destruct (O (fun r => if Nat.eqb r m then 1 else 0)) as (w & W).
      exists (K + quad n a w). split; [pose proof (P w); lra|]. intros c. cbn [rsum]. specialize (H c).
      assert (E : rsum n (fun i => c i * mat_vec n a w i) = c m).
      { rewrite (rsum_single n m); [rewrite W by lia; rewrite Nat.eqb_refl; ring|lia|]. intros i I0 N. rewrite W by auto. destruct (Nat.eqb_spec i m); [contradiction|ring]. }
      assert (D : c m * c m <= quad n a w * quad n a c). { apply discriminant; auto. intros t. rewrite <- E, <- (quad_shift n a c w t S0). apply P. }
      lra. }
  destruct (B n (le_n n)) as (K & K0 & H). exists (/ (K + 1)). split; [apply Rinv_0_lt_compat; lra|]. intros c. specialize (H c). unfold length2. pose proof (P c).
  apply Rmult_le_reg_l with (K + 1); [lra|]. rewrite <- Rmult_assoc, Rinv_r, Rmult_1_l by lra. lra.
Qed.

(** * Functions with compact support: what is nowhere negative is positive *)
Lemma argmax : forall n (P : nat -> Prop) (g : nat -> R), (forall i, P i \/ ~ P i) -> (exists i, (i < n)%nat /\ P i) ->
  exists j, (j < n)%nat /\ P j /\ forall k, (k < n)%nat -> P k -> g k <= g j.
Proof.
  intros n P g D. induction n as [|n IH]; intros (i & L & Q); [lia|].
  destruct (Classical_Prop.classic (exists i, (i < n)%nat /\ P i)) as [E|E].
  - destruct (IH E) as (j & J & PJ & M). destruct (D n) as [Pn|Pn].
    + destruct (Rle_dec (g n) (g j)) as [C|C].
      * exists j. split; [lia|]. split; auto. intros k K PK. destruct (Nat.eq_dec k n) as [-> |]; auto. apply M; auto. lia.
      * exists n. split; [lia|]. split; auto. intros k K PK. destruct (Nat.eq_dec k n) as [-> |]; [lra|]. specialize (M k ltac:(lia) PK). lra.
    + exists j. split; [lia|]. split; auto. intros k K PK. apply M; auto. assert (k <> n) by (intros ->; auto). lia.
  - exists i. assert (i = n). { destruct (Nat.eq_dec i n); auto. exfalso. apply E. exists i. split; auto. lia. } subst i. split; [lia|]. split; auto.
    intros k K PK. destruct (Nat.eq_dec k n) as [-> |]; [lra|]. exfalso. apply E. exists k. split; auto. lia.
Qed.
Lemma gap : forall n (g : nat -> R) (P : nat -> Prop), (forall k, (k < n)%nat -> P k -> 0 < g k) -> exists m, 0 < m /\ forall k, (k < n)%nat -> P k -> m <= g k.
Proof.
  intros n g P. induction n as [|n IH]; intros H; [exists 1; split; [lra|lia]|]. destruct IH as (m & M & A); [intros; apply H; auto|].
  destruct (Classical_Prop.classic (P n)) as [Pn|Pn].
  - exists (Rmin m (g n)). split; [apply Rmin_glb_lt; auto|]. intros k K PK. destruct (Nat.eq_dec k n) as [-> |]; [apply Rmin_r|]. eapply Rle_trans; [apply Rmin_l|]. apply A; auto. lia.
  - exists m. split; auto. intros k K PK. apply A; auto. assert (k <> n) by (intros ->; auto). lia.
Qed.
(** A point beyond the outermost of some points that is within reach of it only. *)
Lemma outpost : forall n x c j, distinct n 3 x -> (j < n)%nat -> (forall k, (k < n)%nat -> c k <> 0 -> dot 3 (x k) (x k) <= dot 3 (x j) (x j)) ->
  exists y : nat -> R, distance2 3 (x j) y < 1 /\ forall k, (k < n)%nat -> k <> j -> c k <> 0 -> 1 <= distance2 3 (x k) y.
Proof.
  intros n x c j D J M. destruct (gap n (fun k => distance2 3 (x k) (x j)) (fun k => k <> j)) as (m & M0 & G). { intros k K N. apply (distance2_pos n 3 x); auto. }
  set (s2 := Rmax 0 (1 - m)). assert (S0 : 0 <= s2) by apply Rmax_l. assert (S1 : s2 < 1) by (unfold s2; apply Rmax_lub_lt; lra). assert (S2 : 1 <= s2 + m) by (unfold s2; pose proof (Rmax_r 0 (1 - m)); lra).
  set (s := sqrt s2). assert (SS : s * s = s2) by (apply sqrt_sqrt; auto). assert (SP : 0 <= s) by apply sqrt_pos.
  assert (U : exists u : nat -> R, dot 3 u u = 1 /\ forall k, (k < n)%nat -> c k <> 0 -> 0 <= dot 3 (fun e => x j e - x k e) u).
  { set (a := x j) in *. destruct (Req_dec (dot 3 a a) 0) as [Z|Z].
    - exists (fun e => if Nat.eqb e 0 then 1 else 0). split; [unfold dot; cbn; ring|]. intros k K CK. specialize (M k K CK). rewrite Z in M.
      assert (ZV : forall v : nat -> R, dot 3 v v <= 0 -> v 0%nat = 0).
      { intros v V. unfold dot in V. cbn [rsum] in V. pose proof (Rle_0_sqr (v 0%nat)). pose proof (Rle_0_sqr (v 1%nat)). pose proof (Rle_0_sqr (v 2%nat)). unfold Rsqr in *.
        assert (v 0%nat * v 0%nat = 0) by lra. apply Rmult_integral in H2. tauto. }
      unfold dot. cbn [rsum Nat.eqb]. rewrite (ZV (x k) M), (ZV a ltac:(lra)). lra.
    - assert (AP : 0 < dot 3 a a). { assert (0 <= dot 3 a a) by (apply rsum_pos; intros; apply Rle_0_sqr). lra. }
      set (l := sqrt (dot 3 a a)). assert (LP : 0 < l) by (apply sqrt_lt_R0; auto). assert (LL : l * l = dot 3 a a) by (apply sqrt_sqrt; lra).
      exists (fun e => a e * / l). split.
      + replace (dot 3 (fun e => a e * / l) (fun e => a e * / l)) with (dot 3 a a * (/ l * / l)) by (unfold dot; cbn [rsum]; ring). rewrite <- LL. field. lra.
      + intros k K CK. specialize (M k K CK). replace (dot 3 (fun e => a e - x k e) (fun e => a e * / l)) with ((dot 3 a a - dot 3 (x k) (x k) + distance2 3 (x k) a) * (/ 2 * / l)).
        * apply Rmult_le_pos; [pose proof (distance2_nonneg 3 (x k) a); lra|]. apply Rmult_le_pos; [lra|]. left. apply Rinv_0_lt_compat. auto.
        * unfold dot, distance2. cbn [rsum]. field. lra. }
  destruct U as (u & UU & UP). exists (fun e => x j e + s * u e). split.
  - replace (distance2 3 (x j) (fun e => x j e + s * u e)) with (s * s * dot 3 u u) by (unfold distance2, dot; cbn [rsum]; ring). rewrite UU, SS. lra.
  - intros k K N CK. replace (distance2 3 (x k) (fun e => x j e + s * u e)) with (distance2 3 (x k) (x j) + 2 * (s * dot 3 (fun e => x j e - x k e) u) + s * s * dot 3 u u) by (unfold distance2, dot; cbn [rsum]; ring).
    rewrite UU, SS. specialize (G k K N). specialize (UP k K CK). pose proof (Rmult_le_pos _ _ SP UP). lra.
Qed.
Lemma quad_S : forall n a c, quad (S n) a c = quad n a c + c n * rsum n (fun i => c i * (a i n + a n i)) + c n * c n * a n n.
Proof.
  intros n a c. unfold quad. cbn [rsum]. rewrite rsum_plus. rewrite (rsum_ext n (fun i => c i * (a i n + a n i)) (fun i => c i * a i n + c i * a n i)) by (intros; ring).
  rewrite rsum_plus, Rmult_plus_distr_l, <- !rsum_scal. rewrite (rsum_ext n (fun i => c n * (c i * a i n)) (fun i => c i * c n * a i n)) by (intros; ring).
  rewrite (rsum_ext n (fun i => c n * (c i * a n i)) (fun j => c n * c j * a n j)) by (intros; ring). ring.
Qed.
Lemma compact_strict : forall f, (forall n x c, 0 <= quad n (kern 3 x f) c) -> (forall s, 1 <= s -> f s = 0) -> (forall s, 0 <= s < 1 -> f s <> 0) ->
  forall n x c, distinct n 3 x -> quad n (kern 3 x f) c = 0 -> forall i, (i < n)%nat -> c i = 0.
Proof.
  intros f P F1 F2 n x c D Q i I0. destruct (Req_dec (c i) 0) as [|NZ]; auto. exfalso.
  destruct (argmax n (fun k => c k <> 0) (fun k => dot 3 (x k) (x k))) as (j & J & CJ & M); [intros k; destruct (Req_dec (c k) 0); auto|exists i; auto|].
  destruct (outpost n x c j D J M) as (y & Y1 & Y2).
  assert (F : rsum n (fun k => c k * f (distance2 3 (x k) y)) = 0).
  { set (x' := fun k => if Nat.eqb k n then y else x k).
    assert (T : forall t, 0 <= 0 + 2 * t * rsum n (fun k => c k * f (distance2 3 (x k) y)) + t * t * f 0).
    { intros t. pose proof (P (S n) x' (fun k => if Nat.eqb k n then t else c k)) as H. rewrite quad_S in H. rewrite Nat.eqb_refl in H.
      assert (SYM : forall p q, distance2 3 p q = distance2 3 q p) by (intros; unfold distance2; apply rsum_ext; intros; ring).
      replace (quad n (kern 3 x' f) (fun k => if Nat.eqb k n then t else c k)) with 0 in H.
      2:{ rewrite <- Q at 1. unfold quad. apply rsum_ext. intros p PP. apply rsum_ext. intros q QQ. unfold kern, x'. destruct (Nat.eqb_spec p n); [lia|]. destruct (Nat.eqb_spec q n); [lia|]. reflexivity. }
      replace (kern 3 x' f n n) with (f 0) in H. 2:{ unfold kern. rewrite distance2_same. reflexivity. }
      rewrite (rsum_ext n _ (fun k => 2 * (c k * f (distance2 3 (x k) y)))) in H.
      2:{ intros k K. unfold kern, x'. rewrite Nat.eqb_refl. destruct (Nat.eqb_spec k n); [lia|]. rewrite (SYM y). ring. }
      rewrite rsum_scal in H. lra. }
    assert (F0 : 0 <= f 0). { pose proof (P 1%nat (fun _ _ => 0) (fun _ => 1)) as H. unfold quad, kern in H. cbn [rsum] in H. rewrite distance2_same in H. lra. }
    pose proof (discriminant 0 _ _ T F0) as X. rewrite Rmult_0_r in X. set (b := rsum n _) in *. pose proof (Rle_0_sqr b). unfold Rsqr in H. assert (b * b = 0) by lra. apply Rmult_integral in H0. tauto. }
  rewrite (rsum_single n j) in F; auto.
  - apply Rmult_integral in F. destruct F as [F|F]; [auto|]. apply (F2 (distance2 3 (x j) y)); auto. split; [apply distance2_nonneg|auto].
  - intros k K N. destruct (Req_dec (c k) 0) as [Z|Z]; [rewrite Z; ring|]. rewrite F1; [ring|]. apply Y2; auto.
Qed.
Lemma compact_low : forall f, (forall n x c, 0 <= quad n (kern 3 x f) c) -> (forall s, 1 <= s -> f s = 0) -> (forall s, 0 <= s < 1 -> f s <> 0) ->
  forall n x, distinct n 3 x -> exists low, 0 < low /\ forall c, low * length2 n c <= quad n (kern 3 x f) c.
Proof.
  intros f P F1 F2 n x D. apply psd_definite; auto.
  - intros i j _ _. unfold kern. f_equal. unfold distance2. apply rsum_ext. intros; ring.
  - intros c Q. apply (compact_strict f P F1 F2 n x c D Q).
Qed.
