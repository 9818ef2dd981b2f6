From Coq Require Import Reals List Arith Bool Lia Lra.
From Verif Require Import Model.LinAlg Model.RasPreconditioner Model.Gmres Spec.Gmres Proofs.LinAlg Proofs.Orthonormalize Proofs.Gmres.
Import ListNotations.
Local Open Scope R_scope.

Lemma unit_circle : forall x y d, d <> 0 -> d * d = x * x + y * y -> x / d * (x / d) + y / d * (y / d) = 1 /\ x / d * x + y / d * y = d.
Proof.
  intros x y d N E. split.
  - replace (x / d * (x / d) + y / d * (y / d)) with ((x * x + y * y) / (d * d)) by (field; auto). rewrite <- E. field. auto.
  - replace (x / d * x + y / d * y) with ((x * x + y * y) / d) by (field; auto). rewrite <- E. field. auto.
Qed.

Section State.
Variable m max_iter : nat.
Variable op left right : (nat -> R) -> nat -> R.
Variable x0 rhs : nat -> R.
Notation res0 := (residual0 m op left x0 rhs).
Notation beta := (norm m res0).
Notation rots c s k b := (rotations c s 0 k b).
Notation e0 := (upd (fun _ => 0) 0%nat beta).
Notation img j st := (left (op (zs st j))).

(** [H] is the Hessenberg matrix before the rotations. *)
Record inv (H : nat -> nat -> R) (st : state) : Prop := {
  i_arnoldi : forall j q, (j < iter st)%nat -> (q < m)%nat -> img j st q = rsum (S (S j)) (fun i => H i j * vs st i q);
  i_hess : forall i j, (j < iter st)%nat -> (S j < i)%nat -> H i j = 0;
  i_orth : orthonormal_rows m (iter st) (vs st);
  i_orth' : v_ok st = true -> orthonormal_rows m (S (iter st)) (vs st);
  i_break : v_ok st = false -> (iter st = 0%nat -> beta = 0) /\ (forall j, (j < iter st)%nat -> H (iter st) j = 0) /\ g st (iter st) = 0;
  i_r : forall i j, (j < iter st)%nat -> (i <= iter st)%nat -> rots (c st) (s st) (iter st) (fun i => H i j) i = upper_row st i j;
  i_g : forall i, (i <= iter st)%nat -> rots (c st) (s st) (iter st) e0 i = g st i;
  i_cs : forall i, (i < iter st)%nat -> c st i * c st i + s st i * s st i = 1;
  i_diag : forall j, (j < iter st)%nat -> r st j j <> 0;
  i_v0 : forall q, (q < m)%nat -> res0 q = beta * vs st 0%nat q;
  i_z : forall j, (j < iter st)%nat -> zs st j = right (vs st j) }.

Lemma setup_inv : inv (fun _ _ => 0) (setup m op left x0 rhs).
Proof.
  constructor; cbn; intros; try lia.
  - intros i j I. lia.
  - intros i j I J. assert (i = 0%nat) as -> by lia. assert (j = 0%nat) as -> by lia. cbn. apply negb_true_iff, is0_false in H.
    unfold dot. rewrite (rsum_ext m _ (fun q => res0 q * res0 q * (/ beta * / beta))) by (intros; unfold Rdiv; lra).
    rewrite rsum_scal_r. fold (dot m res0 res0). rewrite <- norm_sq. field. auto.
  - apply negb_false_iff, is0_spec in H. split; auto.
  - auto.
  - destruct (Req_EM_T beta 0) as [E|E]; [rewrite (norm_zero _ _ E q H), E; lra|]. field. auto.
Qed.

Section Extend.
Variable H : nat -> nat -> R.
Variable st : state.
Variable lo : nat.
Variable w h : nat -> R.
Notation j := (iter st).
Notation z := (right (vs st j)).
Notation hn := (norm m w).
Notation st' := (extend m lo st z w h).
Hypothesis I : inv H st.
Hypothesis V : v_ok st = true.
Hypothesis SPLIT : forall q, (q < m)%nat -> left (op z) q = rsum (S j) (fun i => h i * vs st i q) + w q.
Hypothesis ORTH : forall i, (i <= j)%nat -> dot m (vs st i) w = 0.
Hypothesis LO : forall i, (i <= S j)%nat -> rotations (c st) (s st) lo j (upd h (S j) hn) i = rots (c st) (s st) j (upd h (S j) hn) i.
Definition H' (i k : nat) : R := if Nat.eqb k j then if (i <=? S j)%nat then upd h (S j) hn i else 0 else H i k.
Notation col := (rotations (c st) (s st) lo j (upd h (S j) hn)).
Notation den := (sqrt (col j * col j + col (S j) * col (S j))).

Lemma col_last : col (S j) = hn.
Proof. rewrite LO by lia. rewrite rots_hi by lia. apply upd_same. Qed.
Lemma H'_old : forall k, (k < j)%nat -> forall i, H' i k = H i k.
Proof. intros k K i. unfold H'. destruct (Nat.eqb_spec k j); [lia|auto]. Qed.
Lemma rots_new : forall b i, (i <= S j)%nat -> rots (c st') (s st') (S j) b i = rotate (c st' j) (s st' j) j (rots (c st) (s st) j b) i.
Proof.
  intros b i IJ. rewrite rots_S. apply (rotate_ext _ _ _ (S (S j))); [lia| |lia]. intros t T. apply (rots_ext _ _ _ _ _ (S (S j))); auto.
  intros u U. cbn. rewrite !upd_other by lia. auto.
Qed.
Lemma rots_H' : forall i, (i <= S j)%nat -> rots (c st) (s st) j (fun i => H' i j) i = col i.
Proof.
  intros i IJ. rewrite LO by auto. apply (rots_ext _ _ _ _ _ (S (S j))); auto; [|lia]. intros t T. unfold H'. rewrite Nat.eqb_refl.
  destruct (Nat.leb_spec t (S j)); [auto|lia].
Qed.
Lemma sq_den : den <> 0 -> den * den = col j * col j + col (S j) * col (S j) /\ 0 < den.
Proof.
  intros D. split; [apply sqrt_sqrt; nra|]. pose proof (sqrt_pos (col j * col j + col (S j) * col (S j))). lra.
Qed.
Lemma new_c : c st' j = col j / den.
Proof. cbn. apply upd_same. Qed.
Lemma new_s : s st' j = col (S j) / den.
Proof. cbn. apply upd_same. Qed.
Lemma new_v : forall i, (i <= j)%nat -> vs st' i = vs st i.
Proof. intros i IJ. cbn. apply upd_other. lia. Qed.
Lemma new_vj : vs st' (S j) = fun q => w q / hn.
Proof. cbn. apply upd_same. Qed.

Lemma extend_inv : den <> 0 -> inv H' st'.
Proof.
  intros D. destruct (sq_den D) as [DD DP]. pose proof (i_orth' _ _ I V) as O. constructor.
  - intros k q K Q. change (iter st') with (S j) in K. destruct (Nat.eq_dec k j) as [-> |N].
    + change (zs st') with (upd (zs st) j z). rewrite upd_same, SPLIT by auto.
      replace (rsum (S (S j)) (fun i => H' i j * vs st' i q)) with (rsum (S j) (fun i => H' i j * vs st' i q) + H' (S j) j * vs st' (S j) q) by reflexivity. f_equal.
      * apply rsum_ext. intros i IJ. rewrite new_v by lia. unfold H'. rewrite Nat.eqb_refl. destruct (Nat.leb_spec i (S j)); [|lia].
        rewrite upd_other by lia. auto.
      * unfold H'. rewrite Nat.eqb_refl, Nat.leb_refl, upd_same, new_vj. destruct (Req_EM_T hn 0) as [E|E]; [rewrite (norm_zero _ _ E q Q), E; lra|].
        field. auto.
    + change (zs st') with (upd (zs st) j z). rewrite upd_other by auto. rewrite (i_arnoldi _ _ I) by lia. apply rsum_ext. intros i IK.
      rewrite H'_old, new_v by lia. auto.
  - intros i k K IK. change (iter st') with (S j) in K. destruct (Nat.eq_dec k j) as [-> |N].
    + unfold H'. rewrite Nat.eqb_refl. destruct (Nat.leb_spec i (S j)); [lia|auto].
    + rewrite H'_old by lia. apply (i_hess _ _ I); lia.
  - intros a b A B. change (iter st') with (S j) in A, B. rewrite !new_v by lia. apply O; auto.
  - intros VO a b A B. change (iter st') with (S j) in A, B. change (v_ok st') with (negb (is0 hn)) in VO. apply negb_true_iff, is0_false in VO.
    assert (forall i, (i <= j)%nat -> dot m (vs st i) (fun q => w q / hn) = 0) as Z.
    { intros i IJ. rewrite (dot_ext m _ _ (vs st i) (fun q => / hn * w q)) by (intros; auto; unfold Rdiv; lra). rewrite dot_scal, ORTH by auto. lra. }
    destruct (Nat.eq_dec a (S j)) as [-> |NA]; destruct (Nat.eq_dec b (S j)) as [-> |NB].
    + rewrite new_vj, Nat.eqb_refl. unfold dot. rewrite (rsum_ext m _ (fun q => w q * w q * (/ hn * / hn))) by (intros; unfold Rdiv; lra).
      rewrite rsum_scal_r. fold (dot m w w). rewrite <- norm_sq. field. auto.
    + rewrite new_vj, new_v, dot_comm, Z by lia. destruct (Nat.eqb_spec (S j) b); [congruence|auto].
    + rewrite new_vj, new_v, Z by lia. destruct (Nat.eqb_spec a (S j)); [congruence|auto].
    + rewrite !new_v by lia. apply O; lia.
  - intros VO. change (v_ok st') with (negb (is0 hn)) in VO. apply negb_false_iff, is0_spec in VO. change (iter st') with (S j). split; [discriminate|]. split.
    + intros k K. destruct (Nat.eq_dec k j) as [-> |N].
      * unfold H'. rewrite Nat.eqb_refl, Nat.leb_refl, upd_same. auto.
      * rewrite H'_old by lia. apply (i_hess _ _ I); lia.
    + cbn. rewrite upd_other, upd_same by lia. rewrite col_last, VO. unfold Rdiv. lra.
  - intros i k K IK. change (iter st') with (S j) in *. rewrite rots_new by auto. rewrite new_c, new_s. unfold upper_row.
    destruct (Nat.eq_dec k j) as [-> |N].
    + assert (r st' i j = upd col j (col j / den * col j + col (S j) / den * col (S j)) i) as -> by (cbn; rewrite Nat.eqb_refl; auto).
      destruct (rotate_cases j i) as [C|[C|[C|C]]]; [| | |lia].
      * rewrite rotate_lo by auto. rewrite rots_H' by lia. destruct (Nat.leb_spec i j); [|lia]. rewrite upd_other by lia. auto.
      * subst i. rewrite rotate_k, !rots_H' by lia. rewrite Nat.leb_refl, upd_same. auto.
      * subst i. rewrite rotate_Sk, !rots_H' by lia. destruct (Nat.leb_spec (S j) j); [lia|]. unfold Rdiv. lra.
    + assert (r st' i k = r st i k) as -> by (cbn; destruct (Nat.eqb_spec k j); [contradiction|auto]).
      assert (forall t, (t <= j)%nat -> rots (c st) (s st) j (fun i => H' i k) t = upper_row st t k) as E.
      { intros t T. rewrite <- (i_r _ _ I) by lia. apply (rots_ext _ _ _ _ _ (S j)); auto; [|lia]. intros. apply H'_old. lia. }
      assert (rots (c st) (s st) j (fun i => H' i k) (S j) = 0) as E0.
      { rewrite rots_hi by lia. rewrite H'_old by lia. apply (i_hess _ _ I); lia. }
      assert (upper_row st j k = 0) as Ej by (unfold upper_row; destruct (Nat.leb_spec j k); [lia|auto]).
      destruct (rotate_cases j i) as [C|[C|[C|C]]]; [| | |lia].
      * rewrite rotate_lo, E by lia. auto.
      * subst i. rewrite rotate_k, E, E0, Ej by lia. destruct (Nat.leb_spec j k); [lia|lra].
      * subst i. rewrite rotate_Sk, E, E0, Ej by lia. destruct (Nat.leb_spec (S j) k); [lia|lra].
  - intros i IK. change (iter st') with (S j) in *. rewrite rots_new by auto. rewrite new_c, new_s.
    assert (rots (c st) (s st) j e0 (S j) = 0) as E0 by (rewrite rots_hi by lia; apply upd_other; lia).
    assert (forall i, g st' i = upd (upd (g st) (S j) (- (col (S j) / den) * g st j)) j (col j / den * g st j) i) as -> by reflexivity.
    destruct (rotate_cases j i) as [C|[C|[C|C]]]; [| | |lia].
    + rewrite rotate_lo by auto. rewrite !upd_other by lia. apply (i_g _ _ I). lia.
    + subst i. rewrite rotate_k, E0, upd_same, (i_g _ _ I) by lia. lra.
    + subst i. rewrite rotate_Sk, E0, upd_other, upd_same, (i_g _ _ I) by lia. lra.
  - intros i IK. change (iter st') with (S j) in *. destruct (Nat.eq_dec i j) as [-> |N].
    + rewrite new_c, new_s. apply unit_circle; auto.
    + cbn. rewrite !upd_other by lia. apply (i_cs _ _ I). lia.
  - intros k K. change (iter st') with (S j) in K. destruct (Nat.eq_dec k j) as [-> |N].
    + assert (r st' j j = den) as ->; [|lra].
      cbn. rewrite Nat.eqb_refl, upd_same. apply unit_circle; auto.
    + assert (r st' k k = r st k k) as -> by (cbn; destruct (Nat.eqb_spec k j); [contradiction|auto]). apply (i_diag _ _ I). lia.
  - intros q Q. rewrite new_v by lia. apply (i_v0 _ _ I). auto.
  - intros k K. change (iter st') with (S j) in K. change (zs st') with (upd (zs st) j z). rewrite new_v by lia. destruct (Nat.eq_dec k j) as [-> |N].
    + apply upd_same.
    + rewrite upd_other by auto. apply (i_z _ _ I). lia.
Qed.
End Extend.

(** ** GMRES *)
Notation step := (gmres_step m max_iter op left right).
Lemma gmres_shape : forall st, (iter st < max_iter)%nat -> exists w h, step st = extend m 0 st (right (vs st (iter st))) w h /\
  (forall i, (i <= iter st)%nat -> h i = dot m (vs st i) (left (op (right (vs st (iter st)))))) /\
  (forall q, w q = left (op (right (vs st (iter st)))) q - rsum (S (iter st)) (fun i => h i * vs st i q)).
Proof.
  intros st L. unfold gmres_step. destruct (Nat.eqb_spec (iter st) max_iter); [lia|]. eexists. eexists. split; [reflexivity|]. split.
  - intros i II. destruct (Nat.leb_spec i (iter st)); [auto|lia].
  - intros q. rewrite fold_sub, lsum_seq. auto.
Qed.
Lemma projection : forall k v w w' h, orthonormal_rows m k v -> (forall i, (i < k)%nat -> h i = dot m (v i) w) ->
  (forall q, (q < m)%nat -> w' q = w q - rsum k (fun i => h i * v i q)) -> forall i, (i < k)%nat -> dot m (v i) w' = 0.
Proof.
  intros k v w w' h O E W i K. rewrite (dot_ext m _ w' (v i) (fun q => w q - rsum k (fun i => h i * v i q))) by auto.
  rewrite dot_minus, combine_dot_one, E by auto. lra.
Qed.
Lemma gmres_inv : forall H st, (iter st < max_iter)%nat -> inv H st -> v_ok st = true -> ok (step st) = true -> exists H', inv H' (step st) /\
  iter (step st) = S (iter st).
Proof.
  intros H st L I V OK. destruct (gmres_shape st L) as (w & h & E & HD & W). rewrite E in *. exists (H' H st w h). split; [|reflexivity]. apply extend_inv; auto.
  - intros q Q. rewrite W. lra.
  - intros i II. apply (projection (S (iter st)) (vs st) (left (op (right (vs st (iter st))))) w h); [apply (i_orth' _ _ I V)|intros; apply HD; lia|auto|lia].
  - cbn in OK. apply andb_true_iff in OK. destruct OK as [_ OK]. apply negb_true_iff, is0_false in OK. auto.
Qed.
Lemma ok_back : forall st, ok (step st) = true -> ok st = true /\ (v_ok st = true \/ iter st = max_iter).
Proof.
  intros st OK. unfold gmres_step in OK. destruct (Nat.eqb_spec (iter st) max_iter); auto. cbn in OK.
  apply andb_true_iff in OK. destruct OK as [OK _]. apply andb_true_iff in OK. tauto.
Qed.
Lemma gmres_reach : forall k, ok (gmres m max_iter op left right x0 rhs k) = true ->
  exists H, inv H (gmres m max_iter op left right x0 rhs k) /\ iter (gmres m max_iter op left right x0 rhs k) = min k max_iter.
Proof.
  induction k as [|k IH]; intros OK.
  - exists (fun _ _ => 0). split; [apply setup_inv|reflexivity].
  - cbn in OK. change (Nat.iter k (step) (setup m op left x0 rhs)) with (gmres m max_iter op left right x0 rhs k) in OK.
    destruct (ok_back _ OK) as [OK' V]. destruct (IH OK') as (H & I & K).
    change (gmres m max_iter op left right x0 rhs (S k)) with (step (gmres m max_iter op left right x0 rhs k)). set (st := gmres m max_iter op left right x0 rhs k) in *.
    destruct (Nat.eq_dec (iter st) max_iter) as [E|E].
    + exists H. unfold gmres_step. rewrite (proj2 (Nat.eqb_eq _ _) E). split; auto. lia.
    + destruct V as [V|V]; [|contradiction]. destruct (gmres_inv H st) as (H2 & I2 & K2); auto; [lia|]. exists H2. split; auto. lia.
Qed.

(** ** Residuals *)
Hypothesis LIN_op : linear_map m op.
Hypothesis LIN_left : linear_map m left.
Hypothesis START : is_zero m x0 = true -> forall i, (i < m)%nat -> x0 i = 0.

Lemma linear_zero : forall f, linear_map m f -> forall x, (forall i, (i < m)%nat -> x i = 0) -> forall i, (i < m)%nat -> f x i = 0.
Proof. intros f L x X i K. rewrite (L 0 0 x x) by (try (intros; rewrite X by auto); auto; lra). lra. Qed.
Lemma residual_comb : forall st y q, (q < m)%nat ->
  left (fun i => rhs i - op (combination x0 (iter st) (zs st) y) i) q = res0 q - rsum (iter st) (fun j => y j * img j st q).
Proof.
  intros st y q Q.
  rewrite (LIN_left 1 (-1) rhs (op (combination x0 (iter st) (zs st) y))) by (auto; intros; lra).
  rewrite (linear_sum m (fun x => left (op x)) (linear_compose m left op LIN_left LIN_op) (iter st) x0 (zs st) y q Q).
  unfold residual0. destruct (is_zero m x0) eqn:E.
  - rewrite (linear_zero (fun x => left (op x)) (linear_compose m left op LIN_left LIN_op) x0) by auto. lra.
  - rewrite (LIN_left 1 (-1) rhs (op x0) (fun i => rhs i - op x0 i)) by (auto; intros; lra). lra.
Qed.
Notation gap st H y := (fun i => e0 i - rsum (iter st) (fun j => H i j * y j)).
Lemma residual_gap : forall H st y q, inv H st -> (q < m)%nat ->
  left (fun i => rhs i - op (combination x0 (iter st) (zs st) y) i) q = rsum (S (iter st)) (fun i => gap st H y i * vs st i q).
Proof.
  intros H st y q I Q. rewrite residual_comb by auto. rewrite (i_v0 _ _ I) by auto.
  rewrite (rsum_ext (S (iter st)) _ (fun i => e0 i * vs st i q - rsum (iter st) (fun j => y j * (H i j * vs st i q)))).
  2:{ intros i II. rewrite Rmult_minus_distr_r. f_equal. rewrite <- rsum_scal_r. apply rsum_ext. intros. lra. }
  rewrite rsum_minus. f_equal.
  - rewrite (rsum_single (S (iter st)) 0); [rewrite upd_same; auto|lia|]. intros i II N. rewrite upd_other by auto. lra.
  - rewrite rsum_swap. apply rsum_ext. intros j J. rewrite (i_arnoldi _ _ I) by auto. rewrite rsum_scal. f_equal.
    replace (S (iter st)) with (S (S j) + (iter st - S j))%nat by lia. rewrite (rsum_app (S (S j))). rewrite (rsum_0 (iter st - S j)); [lra|].
    intros i II. rewrite (i_hess _ _ I) by lia. lra.
Qed.
Lemma residual_square : forall H st y, inv H st ->
  residual_norm m op left rhs (combination x0 (iter st) (zs st) y) * residual_norm m op left rhs (combination x0 (iter st) (zs st) y) =
  rsum (iter st) (fun i => (g st i - rsum (iter st) (fun j => upper_row st i j * y j)) * (g st i - rsum (iter st) (fun j => upper_row st i j * y j))) +
  g st (iter st) * g st (iter st).
Proof.
  intros H st y I. unfold residual_norm. rewrite norm_sq. rewrite (dot_ext m _ _ (fun q => rsum (S (iter st)) (fun i => gap st H y i * vs st i q)) (fun q => rsum (S (iter st)) (fun i => gap st H y i * vs st i q)))
    by (intros; apply residual_gap; auto).
  assert (dot m (fun q => rsum (S (iter st)) (fun i => gap st H y i * vs st i q)) (fun q => rsum (S (iter st)) (fun i => gap st H y i * vs st i q)) =
    rsum (S (iter st)) (fun i => gap st H y i * gap st H y i)) as ->.
  { destruct (v_ok st) eqn:V; [apply combine_dot; apply (i_orth' _ _ I V)|].
    destruct (i_break _ _ I V) as (B1 & B2 & _). assert (gap st H y (iter st) = 0) as Z.
    { cbv beta. rewrite rsum_0 by (intros j J; rewrite B2 by auto; lra). unfold upd. destruct (Nat.eqb_spec (iter st) 0) as [E|E]; [rewrite B1 by auto|]; lra. }
    cbn [rsum]. rewrite Z. rewrite (dot_ext m _ _ (fun q => rsum (iter st) (fun i => gap st H y i * vs st i q)) (fun q => rsum (iter st) (fun i => gap st H y i * vs st i q)))
      by (intros; cbv beta in *; lra).
    rewrite combine_dot by apply (i_orth _ _ I). lra. }
  rewrite <- (rots_norm (c st) (s st)) by apply (i_cs _ _ I). cbn [rsum].
  assert (forall i, (i <= iter st)%nat -> rots (c st) (s st) (iter st) (gap st H y) i = g st i - rsum (iter st) (fun j => upper_row st i j * y j)) as R.
  { intros i II. rewrite (rots_sum (c st) (s st) (iter st) (iter st) y H e0 i), (i_g _ _ I) by auto. f_equal. apply rsum_ext. intros j J. rewrite (i_r _ _ I) by auto. auto. }
  f_equal.
  - apply rsum_ext. intros i II. rewrite R by lia. auto.
  - rewrite R by lia. rewrite (rsum_0 (iter st)); [lra|]. intros j J. unfold upper_row. destruct (Nat.leb_spec (iter st) j); [lia|lra].
Qed.
Lemma residual_exact : forall H st, inv H st ->
  residual_norm m op left rhs (combination x0 (iter st) (zs st) (back_substitution st)) = Rabs (g st (iter st)).
Proof.
  intros H st I. pose proof (residual_square H st (back_substitution st) I) as E. rewrite (rsum_0 (iter st)) in E.
  2:{ intros i II. rewrite (back_spec st (i_diag _ _ I) i II). lra. }
  rewrite <- (Rabs_pos_eq (residual_norm m op left rhs _)) by apply norm_pos. apply Rsqr_eq_abs_0. unfold Rsqr. lra.
Qed.
Lemma residual_least : forall H st y, inv H st -> Rabs (g st (iter st)) <= residual_norm m op left rhs (combination x0 (iter st) (zs st) y).
Proof.
  intros H st y I. pose proof (residual_square H st y I) as E. rewrite <- (Rabs_pos_eq (residual_norm m op left rhs _)) by apply norm_pos. apply Rsqr_le_abs_0. unfold Rsqr.
  rewrite E. pose proof (rsum_pos (iter st) (fun i => (g st i - rsum (iter st) (fun j => upper_row st i j * y j)) * (g st i - rsum (iter st) (fun j => upper_row st i j * y j)))) as P.
  specialize (P ltac:(intros; apply Rle_0_sqr)). lra.
Qed.
Lemma fgmres_comb : forall st q, fgmres_solution x0 st q = combination x0 (iter st) (zs st) (back_substitution st) q.
Proof. intros st q. unfold fgmres_solution. rewrite fold_add, lsum_seq. auto. Qed.
Lemma gmres_comb : forall H st q, inv H st -> linear_map m right -> (q < m)%nat ->
  solution right x0 st q = combination x0 (iter st) (zs st) (back_substitution st) q.
Proof.
  intros H st q I L Q. unfold solution, combination. rewrite Rplus_comm. f_equal.
  rewrite (L 1 0 (combination (fun _ => 0) (iter st) (vs st) (back_substitution st)) (fun _ => 0)); auto.
  - rewrite (linear_sum m right L) by auto. rewrite (linear_zero right L (fun _ => 0)) by auto.
    rewrite (rsum_ext _ _ (fun j => back_substitution st j * zs st j q)); [lra|]. intros j J. rewrite (i_z _ _ I) by auto. auto.
  - intros j J. rewrite fold_add, lsum_seq. unfold combination. lra.
Qed.
Lemma residual_norm_ext : forall x y, (forall i, (i < m)%nat -> x i = y i) -> residual_norm m op left rhs x = residual_norm m op left rhs y.
Proof.
  intros x y E. unfold residual_norm, norm. f_equal.
  assert (forall q, (q < m)%nat -> left (fun i => rhs i - op x i) q = left (fun i => rhs i - op y i) q) as L; [|apply dot_ext; auto].
  intros q Q. rewrite (LIN_left 1 0 (fun i => rhs i - op y i) (fun i => rhs i - op y i)); auto; [lra|].
  intros j J. rewrite (LIN_op 1 0 y y x); auto; [lra|]. intros. rewrite E by auto. lra.
Qed.

(** The theorems for GMRES and flexible GMRES. *)
Notation run := (gmres m max_iter op left right x0 rhs).
Theorem fgmres_residual : forall k, ok (run k) = true ->
  residual_norm m op left rhs (fgmres_solution x0 (run k)) = Rabs (g (run k) (iter (run k))).
Proof.
  intros k OK. destruct (gmres_reach k OK) as (H & I & _). rewrite <- (residual_exact H _ I). apply residual_norm_ext. intros. apply fgmres_comb.
Qed.
Theorem gmres_residual : linear_map m right -> forall k, ok (run k) = true ->
  residual_norm m op left rhs (solution right x0 (run k)) = Rabs (g (run k) (iter (run k))).
Proof.
  intros L k OK. destruct (gmres_reach k OK) as (H & I & _). rewrite <- (residual_exact H _ I). apply residual_norm_ext. intros. apply (gmres_comb H); auto.
Qed.
Theorem gmres_least : forall k y, ok (run k) = true ->
  Rabs (g (run k) (iter (run k))) <= residual_norm m op left rhs (combination x0 (iter (run k)) (zs (run k)) y).
Proof. intros k y OK. destruct (gmres_reach k OK) as (H & I & _). apply (residual_least H); auto. Qed.

(** ** The estimates decrease *)
Lemma extend_decreases : forall lo st z w h, iter (extend m lo st z w h) = S (iter st) /\
  (s (extend m lo st z w h) (iter st) * s (extend m lo st z w h) (iter st) <= 1 ->
   Rabs (g (extend m lo st z w h) (S (iter st))) <= Rabs (g st (iter st))).
Proof.
  intros lo st z w h. split; [reflexivity|]. cbn. rewrite upd_same, upd_other, upd_same by lia. intros L. rewrite Rabs_mult, Rabs_Ropp.
  set (sj := _ / _) in *. assert (Rabs sj <= 1) as A.
  { rewrite <- Rabs_R1. apply Rsqr_le_abs_0. unfold Rsqr. lra. }
  pose proof (Rabs_pos (g st (iter st))). pose proof (Rabs_pos sj). nra.
Qed.
Lemma sine_le : forall H st i, inv H st -> (i < iter st)%nat -> s st i * s st i <= 1.
Proof. intros H st i I L. pose proof (i_cs _ _ I i L). nra. Qed.
Theorem gmres_decreases : forall k, ok (run (S k)) = true -> Rabs (g (run (S k)) (iter (run (S k)))) <= Rabs (g (run k) (iter (run k))).
Proof.
  intros k OK. destruct (gmres_reach _ OK) as (H & I & K). change (run (S k)) with (step (run k)) in *. destruct (Nat.eq_dec (iter (run k)) max_iter) as [E|E].
  - unfold gmres_step. rewrite (proj2 (Nat.eqb_eq _ _) E). lra.
  - assert (iter (run k) < max_iter)%nat as L.
    { destruct (ok_back _ OK) as [OK' _]. destruct (gmres_reach _ OK') as (_ & _ & E'). lia. }
    destruct (gmres_shape (run k) L) as (w & h & E2 & _). rewrite E2 in *. destruct (extend_decreases 0 (run k) (right (vs (run k) (iter (run k)))) w h) as [E3 D]. rewrite E3. apply D.
    apply (sine_le H); auto.
Qed.

(** ** An injective operator does not break down before the solution *)
Lemma hess_sum : forall H st y q, inv H st -> (q < m)%nat ->
  rsum (iter st) (fun j => y j * img j st q) = rsum (S (iter st)) (fun i => rsum (iter st) (fun j => H i j * y j) * vs st i q).
Proof.
  intros H st y q I Q. rewrite (rsum_ext (S (iter st)) _ (fun i => rsum (iter st) (fun j => y j * (H i j * vs st i q)))).
  2:{ intros i II. rewrite <- rsum_scal_r. apply rsum_ext. intros. lra. }
  rewrite rsum_swap. apply rsum_ext. intros j J. rewrite (i_arnoldi _ _ I) by auto. rewrite rsum_scal. f_equal.
  replace (S (iter st)) with (S (S j) + (iter st - S j))%nat by lia. rewrite (rsum_app (S (S j))). rewrite (rsum_0 (iter st - S j)); [lra|].
  intros i II. rewrite (i_hess _ _ I) by lia. lra.
Qed.
Section Injective.
Hypothesis LIN_right : linear_map m right.
Hypothesis INJ : injective_map m (fun x => left (op (right x))).
Lemma squares_zero : forall n b, rsum n (fun i => b i * b i) = 0 -> forall i, (i < n)%nat -> b i = 0.
Proof. intros n b. exact (dot_self_zero n b). Qed.
Lemma no_breakdown : forall H st w h, inv H st -> v_ok st = true ->
  (forall q, (q < m)%nat -> left (op (right (vs st (iter st)))) q = rsum (S (iter st)) (fun i => h i * vs st i q) + w q) ->
  let col := rots (c st) (s st) (iter st) (upd h (S (iter st)) (norm m w)) in
  sqrt (col (iter st) * col (iter st) + col (S (iter st)) * col (S (iter st))) <> 0.
Proof.
  intros H st w h I V SPLIT col E. apply sqrt_eq_0 in E; [|nra]. set (j := iter st) in *.
  assert (col j = 0) as C1 by nra. assert (col (S j) = 0) as C2 by nra.
  assert (norm m w = 0) as HN by (rewrite <- C2; unfold col; rewrite rots_hi, upd_same by lia; auto).
  set (stg := State (vs st) (zs st) (r st) (c st) (s st) col j true true).
  set (y := back_substitution stg). pose proof (back_spec stg (i_diag _ _ I)) as BS. fold y in BS. change (iter stg) with j in BS.
  change (upper_row stg) with (upper_row st) in BS. change (g stg) with col in BS.
  set (h' := upd h (S j) (norm m w)) in *. set (d := fun i => h' i - rsum j (fun t => H i t * y t)).
  assert (forall i, (i < S j)%nat -> d i = 0) as D.
  { apply squares_zero. rewrite <- (rots_norm (c st) (s st)) by apply (i_cs _ _ I). apply rsum_0. intros i II.
    assert (rots (c st) (s st) j d i = 0) as ->; [|lra]. unfold d. rewrite rots_sum. fold col.
    rewrite (rsum_ext j _ (fun t => upper_row st i t * y t)).
    2:{ intros t T. f_equal. apply (i_r _ _ I i t T). fold j. lia. }
    destruct (Nat.eq_dec i j) as [-> |N].
    - rewrite rsum_0; [lra|]. intros t T. unfold upper_row. destruct (Nat.leb_spec j t); [lia|lra].
    - rewrite (BS i) by lia. lra. }
  set (u := combination (vs st j) j (vs st) (fun t => - y t)).
  assert (forall q, (q < m)%nat -> u q = 0) as U.
  { apply INJ. intros q Q. unfold u.
    rewrite (linear_sum m (fun x => left (op (right x))) (linear_compose m left (fun x => op (right x)) LIN_left (linear_compose m op right LIN_op LIN_right))) by auto.
    rewrite SPLIT, (norm_zero _ _ HN q Q) by auto.
    rewrite (rsum_ext j _ (fun t => - y t * img t st q)) by (intros t T; rewrite (i_z _ _ I) by auto; auto).
    unfold j at 2. rewrite (hess_sum H st (fun t => - y t) q I Q). fold j. rewrite Rplus_0_r, <- rsum_plus. apply rsum_0. intros i II.
    specialize (D i II). unfold d, h' in D. rewrite upd_other in D by lia.
    rewrite (rsum_ext j (fun j0 => H i j0 * - y j0) (fun t => - (H i t * y t))) by (intros; lra). rewrite rsum_opp.
    replace (h i) with (rsum j (fun t => H i t * y t)) by lra. lra. }
  pose proof (i_orth' _ _ I V) as O. fold j in O.
  assert (dot m (vs st j) u = 1) as ONE.
  { unfold u. rewrite (dot_ext m _ _ (vs st j) (fun q => vs st j q - rsum j (fun t => y t * vs st t q))); auto.
    2:{ intros q Q. unfold combination. rewrite (rsum_ext j _ (fun t => - (y t * vs st t q))) by (intros; lra). rewrite rsum_opp. lra. }
    rewrite dot_minus. rewrite (O j j) by lia. rewrite Nat.eqb_refl.
    rewrite (dot_ext m _ _ (vs st j) (fun q => rsum (S j) (fun t => (if Nat.eqb t j then 0 else y t) * vs st t q))); auto.
    2:{ intros q Q. cbn [rsum]. rewrite Nat.eqb_refl. rewrite Rmult_0_l, Rplus_0_r. apply rsum_ext. intros t T. destruct (Nat.eqb_spec t j); [lia|auto]. }
    rewrite combine_dot_one by (auto; lia). rewrite Nat.eqb_refl. lra. }
  rewrite (dot_ext m _ _ (vs st j) (fun _ => 0)) in ONE by auto. unfold dot in ONE. rewrite rsum_0 in ONE by (intros; lra). lra.
Qed.
Theorem gmres_ends : (m <= max_iter)%nat -> exists k, (k <= m)%nat /\ absolute_residual (run k) = Some 0 /\
  ((k < max_iter)%nat -> absolute_residual (run (S k)) = None).
Proof.
  intros MM.
  assert (forall k, (k <= m)%nat -> (exists k', (k' <= k)%nat /\ ok (run k') = true /\ v_ok (run k') = false) \/ (ok (run k) = true /\ v_ok (run k) = true)) as G.
  { induction k as [|k IH]; intros K.
    - destruct (v_ok (run 0)) eqn:V; [right; auto|]. left. exists 0%nat. auto.
    - destruct (IH ltac:(lia)) as [(k' & K' & O & V)|[O V]]; [left; exists k'; repeat split; auto; lia|].
      destruct (gmres_reach k O) as (H & I & E). assert (iter (run k) < max_iter)%nat as L by lia.
      destruct (gmres_shape (run k) L) as (w & h & E2 & HD & W).
      assert (ok (run (S k)) = true) as O2.
      { change (run (S k)) with (step (run k)). rewrite E2. cbn [ok extend]. rewrite O, V. cbn [andb]. apply negb_true_iff, is0_false.
        apply (no_breakdown H); auto. intros q Q. rewrite W. lra. }
      destruct (v_ok (run (S k))) eqn:V2; [right; auto|left; exists (S k); auto]. }
  destruct (G m (le_n m)) as [(k & K & O & V)|[O V]].
  - exists k. destruct (gmres_reach k O) as (H & I & E). split; auto. split.
    + unfold absolute_residual. rewrite O. destruct (i_break _ _ I V) as (_ & _ & ->). rewrite Rabs_R0. auto.
    + intros L. destruct (gmres_shape (run k)) as (w & h & E2 & _); [lia|]. change (run (S k)) with (step (run k)). rewrite E2.
      unfold absolute_residual. cbn [ok extend]. rewrite V, andb_false_r. auto.
  - exfalso. destruct (gmres_reach m O) as (H & I & E). pose proof (orthonormal_le m _ _ (i_orth' _ _ I V)). rewrite E in *. lia.
Qed.
End Injective.

(** ** MINRES *)
Lemma rotations_ext : forall cs sn ks b b', (forall i, b i = b' i) -> forall i : nat,
  fold_left (fun col i => rotate (cs i) (sn i) i col) ks b i = fold_left (fun col i => rotate (cs i) (sn i) i col) ks b' i.
Proof.
  intros cs sn. induction ks as [|k ks IH]; intros b b' E i; cbn; auto. apply IH. intros t. unfold rotate, upd. rewrite !E. auto.
Qed.
Lemma rotations_skip : forall cs sn lo j b, (lo <= j)%nat -> (forall i, (i <= lo)%nat -> b i = 0) \/ lo = 0%nat -> forall i, rotations cs sn lo j b i = rots cs sn j b i.
Proof.
  intros cs sn lo j b L [Z| ->] i; auto.
  assert (forall n i, (n <= lo)%nat -> rots cs sn n b i = b i) as S0.
  { induction n as [|n IH]; intros t N; auto. rewrite rots_S. destruct (rotate_cases n t) as [C|[-> |[-> |C]]].
    - rewrite rotate_lo by auto. apply IH. lia.
    - rewrite rotate_k, !IH by lia. rewrite !Z by lia. lra.
    - rewrite rotate_Sk, !IH by lia. rewrite !Z by lia. lra.
    - rewrite rotate_hi by auto. apply IH. lia. }
  unfold rotations. rewrite Nat.sub_0_r. replace j with (lo + (j - lo))%nat at 2 by lia. rewrite seq_app, fold_left_app. cbn [Nat.add].
  apply rotations_ext. intros t. rewrite <- (S0 lo t (le_n lo)). unfold rotations. rewrite Nat.sub_0_r. auto.
Qed.
Section Minres.
Hypothesis ADJ : self_adjoint m (fun x => left (op (right x))).
Notation mstep := (minres_step m max_iter op left right).
Definition mrun (k : nat) := Nat.iter k mstep (0, setup m op left x0 rhs).
Definition minv (H : nat -> nat -> R) (b : R * state) : Prop := inv H (snd b) /\
  (forall i k, (iter (snd b) <= k)%nat -> r (snd b) i k = 0) /\ (forall j, iter (snd b) = S j -> fst b = H (S j) j).
Lemma lanczos : forall H st i, inv H st -> v_ok st = true -> (i < iter st)%nat -> dot m (vs st i) (left (op (right (vs st (iter st))))) = H (iter st) i.
Proof.
  intros H st i I V L. rewrite <- (ADJ (vs st i)). rewrite <- (i_z _ _ I) by auto.
  rewrite (dot_ext m _ _ (fun q => rsum (S (iter st)) (fun t => H t i * vs st t q)) (vs st (iter st))); auto.
  - rewrite dot_comm, combine_dot_one by (auto; apply (i_orth' _ _ I V)). auto.
  - intros q Q. rewrite (i_arnoldi _ _ I) by auto. replace (S (iter st)) with (S (S i) + (iter st - S i))%nat by lia. rewrite (rsum_app (S (S i))).
    rewrite (rsum_0 (iter st - S i)); [lra|]. intros t T. rewrite (i_hess _ _ I) by lia. lra.
Qed.
Lemma minres_shape : forall H b, minv H b -> (iter (snd b) < max_iter)%nat -> v_ok (snd b) = true -> exists w h,
  mstep b = (norm m w, extend m (iter (snd b) - 2) (snd b) (right (vs (snd b) (iter (snd b)))) w h) /\
  (forall i, (i <= iter (snd b))%nat -> h i = dot m (vs (snd b) i) (left (op (right (vs (snd b) (iter (snd b))))))) /\
  (forall q, w q = left (op (right (vs (snd b) (iter (snd b))))) q - rsum (S (iter (snd b))) (fun i => h i * vs (snd b) i q)) /\
  (forall i, (i + 1 < iter (snd b))%nat -> h i = 0).
Proof.
  intros H [beta0 st] (I & RZ & BE) L V. cbn [fst snd] in *. unfold minres_step. destruct (Nat.eqb_spec (iter st) max_iter); [lia|]. eexists. eexists. split; [reflexivity|].
  destruct (Nat.eqb_spec (iter st) 0) as [E|E].
  - split; [|split].
    + intros i II. assert (i = iter st) as -> by lia. apply upd_same.
    + intros q. rewrite E. cbn [rsum]. rewrite upd_same. lra.
    + intros i II. lia.
  - assert (exists j, iter st = S j) as [j J] by (destruct (iter st) as [|j]; [contradiction|exists j; auto]). split; [|split].
    + intros i II. destruct (Nat.eq_dec i (iter st)) as [-> |N]; [rewrite upd_other, upd_same by lia; auto|]. rewrite (lanczos H st i) by (auto; lia).
      destruct (Nat.eq_dec i (iter st - 1)) as [-> |N2].
      * rewrite upd_same. rewrite (BE j J), J. f_equal. lia.
      * rewrite !upd_other by lia. rewrite RZ by lia. symmetry. apply (i_hess _ _ I); lia.
    + intros q. f_equal. rewrite J. cbn [rsum]. replace (S j - 1)%nat with j by lia. rewrite upd_same, upd_other, upd_same by lia. rewrite (rsum_0 j); [lra|].
      intros i II. rewrite !upd_other by lia. rewrite RZ by lia. lra.
    + intros i II. rewrite !upd_other by lia. apply RZ. lia.
Qed.
Lemma minres_inv : forall H b, (iter (snd b) < max_iter)%nat -> minv H b -> v_ok (snd b) = true -> ok (snd (mstep b)) = true ->
  exists H', minv H' (mstep b) /\ iter (snd (mstep b)) = S (iter (snd b)).
Proof.
  intros H b L I V OK. destruct (minres_shape H b I L V) as (w & h & E & HD & W & HZ). rewrite E in *. destruct b as [be st]. destruct I as (I & RZ & BE). cbn [fst snd] in *.
  exists (H' H st w h). split; [|reflexivity]. split; [|split].
  - apply extend_inv; auto.
    + intros q Q. rewrite W. lra.
    + intros i II. apply (projection (S (iter st)) (vs st) (left (op (right (vs st (iter st))))) w h); [apply (i_orth' _ _ I V)|intros; apply HD; lia|auto|lia].
    + intros i II. apply rotations_skip; [lia|]. destruct (Nat.le_gt_cases (iter st) 2); [right; lia|left]. intros t T. rewrite upd_other by lia. apply HZ. lia.
    + cbn in OK. apply andb_true_iff in OK. destruct OK as [_ OK]. apply negb_true_iff, is0_false in OK. auto.
  - cbn [snd iter r extend]. intros i k K. destruct (Nat.eqb_spec k (iter st)); [lia|]. apply RZ. lia.
  - cbn [snd fst iter extend]. intros j J. injection J as <-. unfold H'. rewrite Nat.eqb_refl, Nat.leb_refl, upd_same. auto.
Qed.
Lemma minres_ok_back : forall b, ok (snd (mstep b)) = true -> ok (snd b) = true /\ (v_ok (snd b) = true \/ iter (snd b) = max_iter).
Proof.
  intros [be st] OK. unfold minres_step in OK. cbn [snd]. destruct (Nat.eqb_spec (iter st) max_iter); auto. cbn in OK.
  apply andb_true_iff in OK. destruct OK as [OK _]. apply andb_true_iff in OK. tauto.
Qed.
Lemma minres_reach : forall k, ok (snd (mrun k)) = true -> exists H, minv H (mrun k) /\ iter (snd (mrun k)) = min k max_iter.
Proof.
  induction k as [|k IH]; intros OK.
  - exists (fun _ _ => 0). split; [|reflexivity]. split; [apply setup_inv|]. split; [auto|]. cbn. discriminate.
  - change (mrun (S k)) with (mstep (mrun k)) in *. destruct (minres_ok_back _ OK) as [OK' V]. destruct (IH OK') as (H & I & K).
    destruct (Nat.eq_dec (iter (snd (mrun k))) max_iter) as [E|E].
    + exists H. destruct (mrun k) as [be st]. unfold minres_step. cbn [snd] in *. rewrite (proj2 (Nat.eqb_eq _ _) E). split; auto. cbn [snd]. lia.
    + destruct V as [V|V]; [|contradiction]. destruct (minres_inv H (mrun k)) as (H2 & I2 & K2); auto; [lia|]. exists H2. split; auto. lia.
Qed.
Notation mr := (minres m max_iter op left right x0 rhs).
Theorem minres_residual : linear_map m right -> forall k, ok (mr k) = true ->
  residual_norm m op left rhs (solution right x0 (mr k)) = Rabs (g (mr k) (iter (mr k))).
Proof.
  intros LR k OK. destruct (minres_reach k OK) as (H & (I & _) & _). change (snd (mrun k)) with (mr k) in I.
  rewrite <- (residual_exact H _ I). apply residual_norm_ext. intros. apply (gmres_comb H); auto.
Qed.
Theorem minres_least : forall k y, ok (mr k) = true ->
  Rabs (g (mr k) (iter (mr k))) <= residual_norm m op left rhs (combination x0 (iter (mr k)) (zs (mr k)) y).
Proof. intros k y OK. destruct (minres_reach k OK) as (H & (I & _) & _). apply (residual_least H); auto. Qed.
Theorem minres_decreases : forall k, ok (mr (S k)) = true -> Rabs (g (mr (S k)) (iter (mr (S k)))) <= Rabs (g (mr k) (iter (mr k))).
Proof.
  intros k OK. destruct (minres_reach _ OK) as (H & (I & _) & K). change (mrun (S k)) with (mstep (mrun k)) in *.
  change (mr (S k)) with (snd (mstep (mrun k))) in *. change (mr k) with (snd (mrun k)). destruct (Nat.eq_dec (iter (snd (mrun k))) max_iter) as [E|E].
  - destruct (mrun k) as [be st]. unfold minres_step. cbn [snd] in *. rewrite (proj2 (Nat.eqb_eq _ _) E). cbn [snd]. lra.
  - destruct (minres_ok_back _ OK) as [OK' V]. destruct V as [V|V]; [|contradiction]. destruct (minres_reach _ OK') as (H0 & I0 & K0).
    assert (iter (snd (mrun k)) < max_iter)%nat as L by lia.
    destruct (minres_shape H0 (mrun k) I0 L V) as (w & h & E2 & _). rewrite E2 in *. cbn [snd] in *.
    destruct (extend_decreases (iter (snd (mrun k)) - 2) (snd (mrun k)) (right (vs (snd (mrun k)) (iter (snd (mrun k))))) w h) as [E3 D]. rewrite E3. apply D.
    apply (sine_le H); auto.
Qed.
Theorem minres_ends : linear_map m right -> injective_map m (fun x => left (op (right x))) -> (m <= max_iter)%nat ->
  exists k, (k <= m)%nat /\ absolute_residual (mr k) = Some 0.
Proof.
  intros LR INJ MM.
  assert (forall k, (k <= m)%nat -> (exists k', (k' <= k)%nat /\ ok (mr k') = true /\ v_ok (mr k') = false) \/ (ok (mr k) = true /\ v_ok (mr k) = true)) as G.
  { induction k as [|k IH]; intros K.
    - destruct (v_ok (mr 0)) eqn:V; [right; auto|]. left. exists 0%nat. auto.
    - destruct (IH ltac:(lia)) as [(k' & K' & O & V)|[O V]]; [left; exists k'; repeat split; auto; lia|].
      destruct (minres_reach k O) as (H & I & E). assert (iter (snd (mrun k)) < max_iter)%nat as L by lia.
      destruct (minres_shape H (mrun k) I L V) as (w & h & E2 & HD & W & HZ).
      assert (ok (mr (S k)) = true) as O2.
      { change (mr (S k)) with (snd (mstep (mrun k))). rewrite E2. cbn [ok extend snd]. change (snd (mrun k)) with (mr k) in *. rewrite O, V. cbn [andb]. apply negb_true_iff, is0_false.
        destruct I as (I & _). change (snd (mrun k)) with (mr k) in I.
        assert (forall i, rotations (c (mr k)) (s (mr k)) (iter (mr k) - 2) (iter (mr k)) (upd h (S (iter (mr k))) (norm m w)) i =
          rots (c (mr k)) (s (mr k)) (iter (mr k)) (upd h (S (iter (mr k))) (norm m w)) i) as RS.
        { intros i. apply rotations_skip; [lia|]. destruct (Nat.le_gt_cases (iter (mr k)) 2); [right; lia|left]. intros t T. rewrite upd_other by lia. apply HZ. lia. }
        rewrite !RS. apply (no_breakdown LR INJ H); auto. intros q Q. rewrite W. lra. }
      destruct (v_ok (mr (S k))) eqn:V2; [right; auto|left; exists (S k); auto]. }
  destruct (G m (le_n m)) as [(k & K & O & V)|[O V]].
  - exists k. split; auto. destruct (minres_reach k O) as (H & (I & _) & _). unfold absolute_residual. rewrite O.
    change (snd (mrun k)) with (mr k) in I. destruct (i_break _ _ I V) as (_ & _ & ->). rewrite Rabs_R0. auto.
  - exfalso. destruct (minres_reach m O) as (H & (I & _) & E). pose proof (orthonormal_le m _ _ (i_orth' _ _ I V)). rewrite E in *. lia.
Qed.
End Minres.
End State.

Lemma gmres_0 : forall m max_iter op left right x0 rhs, gmres m max_iter op left right x0 rhs 0 = setup m op left x0 rhs.
Proof. reflexivity. Qed.

(** ** A nearly zero start is taken for zero *)
Lemma tiny_start :
  let x0 := fun _ : nat => / 10 ^ 13 in
  let st := gmres 1 1 (fun x => x) (fun x => x) (fun x => x) x0 (fun _ => 1) 0 in
  absolute_residual st = Some 1 /\ residual_norm 1 (fun x => x) (fun x => x) (fun _ => 1) (fgmres_solution x0 st) = 1 - / 10 ^ 13.
Proof.
  assert (forall x, 0 <= x -> norm 1 (fun _ => x) = x) as N.
  { intros x P. unfold norm, dot. cbn. rewrite Rplus_0_l. apply sqrt_square. auto. }
  cbv zeta. split.
  - unfold absolute_residual. rewrite gmres_0. cbn [setup ok g iter]. rewrite upd_same. unfold residual0, is_zero. cbn [seq forallb].
    destruct (Rle_dec (Rabs (/ 10 ^ 13)) (/ 10 ^ 12)) as [L|L]; cbn [andb].
    + rewrite N by lra. rewrite Rabs_R1. auto.
    + exfalso. apply L. rewrite Rabs_pos_eq by lra. lra.
  - unfold residual_norm, fgmres_solution. rewrite gmres_0. cbn [setup iter seq fold_left]. apply N. lra.
Qed.

(** ** One equation x = 1 *)
Lemma one_equation :
  let st := gmres 1 2 (fun x => x) (fun x => x) (fun x => x) (fun _ => 0) (fun _ => 1) in
  absolute_residual (st 0%nat) = Some 1 /\ absolute_residual (st 1%nat) = Some 0 /\ fgmres_solution (fun _ => 0) (st 1%nat) 0%nat = 1 /\
  absolute_residual (st 2%nat) = None.
Proof.
  cbv zeta. set (run := gmres 1 2 (fun x => x) (fun x => x) (fun x => x) (fun _ => 0) (fun _ => 1)).
  assert (residual0 1 (fun x => x) (fun x => x) (fun _ => 0) (fun _ => 1) = (fun _ => 1)) as R0.
  { unfold residual0, is_zero. cbn [seq forallb]. destruct (Rle_dec (Rabs 0) (/ 10 ^ 12)) as [L|L]; auto. exfalso. apply L. rewrite Rabs_R0. lra. }
  assert (norm 1 (fun _ => 1) = 1) as N1.
  { unfold norm, dot. cbn. rewrite Rplus_0_l. apply sqrt_square. lra. }
  assert (forall w, w 0%nat = 0 -> norm 1 w = 0) as N0.
  { intros w W. unfold norm, dot. cbn. rewrite W, Rmult_0_l, Rplus_0_l. apply sqrt_0. }
  assert (absolute_residual (run 0%nat) = Some 1) as A0.
  { unfold absolute_residual, run. rewrite gmres_0. cbn [setup ok g iter]. rewrite R0, N1, upd_same, Rabs_R1. auto. }
  assert (v_ok (run 0%nat) = true) as V0.
  { unfold run. rewrite gmres_0. cbn [setup v_ok]. rewrite R0, N1. apply negb_true_iff, is0_false. lra. }
  assert (vs (run 0%nat) 0%nat 0%nat = 1) as VS.
  { unfold run. rewrite gmres_0. cbn [setup vs]. rewrite R0, N1. lra. }
  assert (g (run 0%nat) 0%nat = 1) as G0.
  { unfold run. rewrite gmres_0. cbn [setup g]. rewrite R0, N1. apply upd_same. }
  destruct (gmres_shape 1 2 (fun x => x) (fun x => x) (fun x => x) (run 0%nat)) as (w & h & E & HD & W); [cbn; lia|].
  change (iter (run 0%nat)) with 0%nat in *. specialize (HD 0%nat ltac:(lia)). specialize (W 0%nat). cbn [rsum] in W. unfold dot in HD. cbn [rsum] in HD. rewrite VS in HD, W.
  assert (h 0%nat = 1) as H0 by lra. assert (w 0%nat = 0) as W0 by (rewrite W, H0; lra). pose proof (N0 w W0) as HN.
  change (gmres_step 1 2 (fun x => x) (fun x => x) (fun x => x) (run 0%nat)) with (run 1%nat) in E.
  assert (sqrt (1 * 1 + 0 * 0) = 1) as SQ by (replace (1 * 1 + 0 * 0) with (1 * 1) by lra; apply sqrt_square; lra).
  set (zz := vs (run 0%nat) 0%nat) in E.
  assert (forall lo, rotations (c (run 0%nat)) (s (run 0%nat)) lo 0 (upd h 1 (norm 1 w)) = upd h 1 (norm 1 w)) as RN by reflexivity.
  assert (v_ok (run 1%nat) = false) as V1 by (rewrite E; cbn [v_ok extend]; rewrite HN; apply negb_false_iff, is0_spec; auto).
  assert (iter (run 1%nat) = 1%nat) as I1 by (rewrite E; reflexivity).
  assert (ok (run 1%nat) = true) as O1.
  { rewrite E. cbn [ok extend]. change (iter (run 0%nat)) with 0%nat. rewrite V0, RN, upd_same, upd_other, H0, HN, SQ by lia.
    change (ok (run 0%nat)) with true. cbn [andb]. apply negb_true_iff, is0_false. lra. }
  assert (r (run 1%nat) 0%nat 0%nat = 1 /\ g (run 1%nat) 0%nat = 1 /\ g (run 1%nat) 1%nat = 0) as (R1 & G1 & G2).
  { rewrite E. cbn [r g extend]. change (iter (run 0%nat)) with 0%nat. rewrite RN, Nat.eqb_refl, !upd_same. rewrite (upd_other _ _ 0%nat _ 1%nat), upd_same by lia.
    rewrite (upd_other _ h 1%nat _ 0%nat), H0, HN, SQ, G0 by lia. repeat split; lra. }
  split; [auto|]. split; [|split].
  - unfold absolute_residual. rewrite O1, I1, G2, Rabs_R0. auto.
  - unfold fgmres_solution. rewrite I1. cbn [seq fold_left]. unfold back_substitution. rewrite I1. cbn [seq rev app fold_left]. unfold back_step. rewrite upd_same, I1.
    cbn [seq Nat.sub fold_left]. rewrite G1, R1. rewrite E. cbn [zs extend]. change (iter (run 0%nat)) with 0%nat. rewrite upd_same. unfold zz. rewrite VS. lra.
  - destruct (gmres_shape 1 2 (fun x => x) (fun x => x) (fun x => x) (run 1%nat)) as (w2 & h2 & E2 & _); [rewrite I1; lia|].
    change (run 2%nat) with (gmres_step 1 2 (fun x => x) (fun x => x) (fun x => x) (run 1%nat)). rewrite E2. unfold absolute_residual. cbn [ok extend]. rewrite V1, andb_false_r. auto.
Qed.
