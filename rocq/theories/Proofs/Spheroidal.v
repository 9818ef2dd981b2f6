From Coq Require Import Reals List Arith ZArith Lia Lra Permutation.
From Verif Require Import Model.LinAlg Model.Rbfs Spec.Rbfs Proofs.LinAlg Proofs.Rbfs.
Import ListNotations.
Local Open Scope R_scope.

(** ** Sums with what is not a number *)
Lemma plus_assoc_r : forall x y z, plus (plus x y) z = plus x (plus y z).
Proof. intros [a| |] [b| |] [c| |]; cbn; auto. f_equal. lra. Qed.
Lemma plus_comm_r : forall x y, plus x y = plus y x.
Proof. intros [a| |] [b| |]; cbn; auto. f_equal. lra. Qed.
Lemma plus_0_l : forall x, plus (Num 0) x = x.
Proof. intros [a| |]; cbn; auto. f_equal. lra. Qed.
Lemma plus_0_r : forall x, plus x (Num 0) = x.
Proof. intros. rewrite plus_comm_r. apply plus_0_l. Qed.
Lemma plus_swap : forall a b c d, plus (plus a b) (plus c d) = plus (plus a c) (plus b d).
Proof. intros. rewrite !plus_assoc_r. f_equal. rewrite <- !plus_assoc_r. f_equal. apply plus_comm_r. Qed.
Fixpoint total {A : Type} (f : A -> res R) (l : list A) : res R := match l with [] => Num 0 | x :: l => plus (f x) (total f l) end.
Lemma total_fold : forall A (f : A -> res R) l y, fold_left (fun y x => plus y (f x)) l y = plus y (total f l).
Proof. induction l as [|x l IH]; cbn [fold_left total]; intros; [rewrite plus_0_r; auto|]. rewrite IH. apply plus_assoc_r. Qed.
Lemma total_ext : forall A (f g : A -> res R) l, (forall x, In x l -> f x = g x) -> total f l = total g l.
Proof. induction l as [|x l IH]; cbn [total]; intros E; auto. rewrite E by (left; auto). rewrite IH; auto. intros. apply E. right. auto. Qed.
Lemma total_perm : forall A (f : A -> res R) l l', Permutation l l' -> total f l = total f l'.
Proof.
  induction 1; cbn [total]; auto; [rewrite IHPermutation; auto| |rewrite IHPermutation1; auto].
  rewrite <- !plus_assoc_r. f_equal. apply plus_comm_r.
Qed.
Lemma total_app : forall A (f : A -> res R) l l', total f (l ++ l') = plus (total f l) (total f l').
Proof. induction l as [|x l IH]; cbn [total app]; intros; [rewrite plus_0_l; auto|]. rewrite IH, plus_assoc_r. auto. Qed.
Lemma total_0 : forall A (f : A -> res R) l, (forall x, In x l -> f x = Num 0) -> total f l = Num 0.
Proof. induction l as [|x l IH]; cbn [total]; intros E; auto. rewrite E by (left; auto). rewrite IH; [apply plus_0_l|]. intros. apply E. right. auto. Qed.
Lemma total_plus : forall A (f g : A -> res R) l, total (fun x => plus (f x) (g x)) l = plus (total f l) (total g l).
Proof. induction l as [|x l IH]; cbn [total]; [rewrite plus_0_l; auto|]. rewrite IH. apply plus_swap. Qed.
Lemma total_num : forall (f : nat -> R) n, total (fun i => Num (f i)) (seq 0 n) = Num (rsum n f).
Proof. induction n as [|n IH]; auto. rewrite seq_S, total_app, IH. cbn [total Nat.add plus res_map2 rsum]. f_equal. lra. Qed.
Definition term (km : nat) (entry : nat -> res R) (w : nat -> R) (j : nat) : res R := res_map (fun k => w j * k) (entry j).
Lemma add_source_total : forall km entry w y, add_source km entry w y = plus y (total (term km entry w) (seq 0 km)).
Proof. intros. unfold add_source. apply (total_fold _ (term km entry w)). Qed.
Definition source_term (n : nat) (k : kind) (p0 p1 : R) (a : nat -> nat -> R) (kk : kernel_kind) (points : nat -> nat -> R) (w x : nat -> R) (i src : nat) : res R :=
  let km := kernel_inputs n kk in
  total (term km (fun j => kernel_entry n k p0 p1 a kk i j (difference x (points src))) (fun j => w (km * src + j)%nat)) (seq 0 km).
Lemma direct_total : forall n k p0 p1 a kk points w x i l, direct_target n k p0 p1 a kk points w x i l = total (source_term n k p0 p1 a kk points w x i) l.
Proof.
  intros. unfold direct_target. cbv zeta. rewrite <- (plus_0_l (total _ _)), <- total_fold. generalize (@Num R 0) as y. induction l as [|s l IH]; intros y; cbn [fold_left]; auto.
  rewrite add_source_total. apply IH.
Qed.

(** ** The two parts *)
Theorem split_value : forall n sp p0 p1 a x, evaluate n (Sp sp DirectPart) p0 p1 a x + evaluate n (Sp sp FastPart) p0 p1 a x = evaluate n (Sp sp Full) p0 p1 a x.
Proof. intros. unfold evaluate, value_at. cbn [value sp_value]. destruct (lt_dec_b _ _); lra. Qed.
Lemma grad_parts : forall sp p0 p1 s, res_map2 Rplus (gradient (Sp sp DirectPart) p0 p1 s) (gradient (Sp sp FastPart) p0 p1 s) = gradient (Sp sp Full) p0 p1 s.
Proof.
  intros. cbn [gradient sp_gradient]. destruct (lt_dec_b _ _).
  - unfold lin_gradient, imq_gradient. destruct (is_zero (sqrt s)); cbn [res_map2]; auto. f_equal. lra.
  - unfold imq_gradient. cbn [res_map2]. f_equal. lra.
Qed.
Definition hess_plus (x y : hess) : hess := (fst x + fst y, snd x + snd y).
Lemma hess_parts : forall sp p0 p1 s, res_map2 hess_plus (hessian (Sp sp DirectPart) p0 p1 s) (hessian (Sp sp FastPart) p0 p1 s) = hessian (Sp sp Full) p0 p1 s.
Proof.
  intros. cbn [hessian sp_hessian]. destruct (lt_dec_b _ _).
  - unfold lin_hessian, imq_hessian. destruct (is_zero (sqrt s)); cbn [res_map2]; auto. unfold hess_plus, hess_minus. cbn [fst snd]. f_equal. f_equal; lra.
  - unfold imq_hessian. cbn [res_map2]. unfold hess_plus. cbn [fst snd]. f_equal. f_equal; lra.
Qed.
Lemma row_mat_plus : forall n a c c' v e, row_mat n a (fun i => c * v i) e + row_mat n a (fun i => c' * v i) e = row_mat n a (fun i => (c + c') * v i) e.
Proof. intros. unfold row_mat. rewrite <- rsum_plus. apply rsum_ext. intros. ring. Qed.
Definition hmat (v : nat -> R) (h : hess) (c e : nat) : R := fst h * (if Nat.eqb c e then 1 else 0) + snd h * (v c * v e).
Lemma sandwich_plus : forall n a v h h' c e, sandwich n a (hmat v h) c e + sandwich n a (hmat v h') c e = sandwich n a (hmat v (hess_plus h h')) c e.
Proof.
  intros. unfold sandwich. rewrite <- rsum_plus. apply rsum_ext. intros j J. rewrite <- Rmult_plus_distr_r, <- rsum_plus. f_equal. apply rsum_ext. intros i I.
  unfold hmat, hess_plus. cbn [fst snd]. ring.
Qed.
Theorem split_gradient : forall n sp p0 p1 a x,
  plus_vector (evaluate_gradient n (Sp sp DirectPart) p0 p1 a x) (evaluate_gradient n (Sp sp FastPart) p0 p1 a x) = evaluate_gradient n (Sp sp Full) p0 p1 a x.
Proof.
  intros. unfold evaluate_gradient, gradient_at, plus_vector. set (v := mat_vec n a x). rewrite <- grad_parts.
  destruct (gradient (Sp sp DirectPart) p0 p1 (dot n v v)), (gradient (Sp sp FastPart) p0 p1 (dot n v v)); cbn [res_map res_map2]; auto.
  f_equal. apply FunctionalExtensionality.functional_extensionality. intros e. apply row_mat_plus.
Qed.
Theorem split_hessian : forall n sp p0 p1 a x,
  plus_matrix (evaluate_hessian n (Sp sp DirectPart) p0 p1 a x) (evaluate_hessian n (Sp sp FastPart) p0 p1 a x) = evaluate_hessian n (Sp sp Full) p0 p1 a x.
Proof.
  intros. unfold evaluate_hessian, hessian_at, plus_matrix. set (v := mat_vec n a x). rewrite <- hess_parts.
  destruct (hessian (Sp sp DirectPart) p0 p1 (dot n v v)), (hessian (Sp sp FastPart) p0 p1 (dot n v v)); cbn [res_map res_map2]; auto.
  f_equal. apply FunctionalExtensionality.functional_extensionality. intros c. apply FunctionalExtensionality.functional_extensionality. intros e. apply (sandwich_plus n a v).
Qed.
Theorem split_kernel : forall n sp p0 p1 a kk i j x,
  plus (kernel_entry n (Sp sp DirectPart) p0 p1 a kk i j x) (kernel_entry n (Sp sp FastPart) p0 p1 a kk i j x) = kernel_entry n (Sp sp Full) p0 p1 a kk i j x.
Proof.
  intros n sp p0 p1 a kk i j x. destruct kk; cbn [kernel_entry].
  - cbn [plus res_map2]. f_equal. unfold value_at. cbn [value sp_value]. destruct (lt_dec_b _ _); lra.
  - unfold gradient_at. rewrite <- grad_parts. destruct (gradient (Sp sp DirectPart) p0 p1 (dot n x x)), (gradient (Sp sp FastPart) p0 p1 (dot n x x)); cbn [res_map res_map2 plus]; auto. f_equal. rewrite <- row_mat_plus. lra.
  - unfold gradient_at. rewrite <- grad_parts. destruct (gradient (Sp sp DirectPart) p0 p1 (dot n x x)), (gradient (Sp sp FastPart) p0 p1 (dot n x x)); cbn [res_map res_map2 plus]; auto. f_equal. apply row_mat_plus.
  - unfold hessian_at. rewrite <- hess_parts. destruct (hessian (Sp sp DirectPart) p0 p1 (dot n x x)), (hessian (Sp sp FastPart) p0 p1 (dot n x x)); cbn [res_map res_map2 plus]; auto. f_equal.
    pose proof (sandwich_plus n a x a0 a1 i j) as Q. unfold hmat in Q. lra.
Qed.

(** ** Support *)
Lemma beyond_rho : forall c p1 r, 0 < p1 -> c * p1 <= r -> lt_dec_b (r / p1) c = false.
Proof. intros c p1 r P L. apply lt_false. apply (Rmult_le_reg_r p1); auto. unfold Rdiv. rewrite Rmult_assoc, Rinv_l; lra. Qed.
Theorem beyond : forall n k p0 p1 a kk i j x radius, 0 < p1 -> support_radius k p1 = Some radius -> ~ (no_hessian k /\ kk = KHessian) ->
  radius <= sqrt (dot n x x) -> kernel_entry n k p0 p1 a kk i j x = Num 0.
Proof.
  intros n k p0 p1 a kk i j x radius P S NH L.
  assert (V : value k p0 p1 (dot n x x) = 0 /\ gradient k p0 p1 (dot n x x) = Num 0 /\ (~ no_hessian k -> hessian k p0 p1 (dot n x x) = Num (0, 0))).
  { destruct k; try discriminate; cbn [support_radius] in S.
    - injection S as <-. cbn [value gradient hessian no_hessian]. unfold cub_value, cub_gradient. cbv zeta. rewrite lt_false by auto. repeat split; auto. intros N. exfalso. apply N. exact I.
    - injection S as <-. cbn [value gradient hessian no_hessian]. unfold sph_value, sph_gradient. cbv zeta. rewrite lt_false by auto. repeat split; auto. intros N. exfalso. apply N. exact I.
    - destruct p; try discriminate. injection S as <-. cbn [value gradient hessian sp_value sp_gradient sp_hessian]. rewrite beyond_rho by auto. auto. }
  destruct V as (V & G & H). destruct kk; cbn [kernel_entry].
  - unfold value_at. rewrite V. auto.
  - unfold gradient_at. rewrite G. cbn [res_map]. f_equal. unfold row_mat. rewrite rsum_0; [lra|]. intros. lra.
  - unfold gradient_at. rewrite G. cbn [res_map]. f_equal. unfold row_mat. rewrite rsum_0; [lra|]. intros. lra.
  - unfold hessian_at. rewrite H by (intros N; apply NH; auto). cbn [res_map fst snd]. f_equal. unfold sandwich. rewrite rsum_0; [lra|]. intros. rewrite rsum_0; [lra|]. intros. lra.
Qed.

(** ** Sums over the sources found *)
Lemma perm_complement : forall N indices, NoDup indices -> (forall j, In j indices -> (j < N)%nat) ->
  Permutation (seq 0 N) (indices ++ filter (fun j => negb (existsb (Nat.eqb j) indices)) (seq 0 N)).
Proof.
  intros N l ND B. assert (M : forall j, existsb (Nat.eqb j) l = true <-> In j l).
  { intros j. rewrite existsb_exists. split; [intros (y & I & E); apply Nat.eqb_eq in E; subst; auto|intros I; exists j; rewrite Nat.eqb_refl; auto]. }
  apply NoDup_Permutation.
  - apply seq_NoDup.
  - assert (D : forall l', NoDup l' -> (forall j, In j l' -> ~ In j l) -> NoDup (l ++ l')).
    { intros l' N' DJ. clear B M. induction ND as [|y l0 NI ND IH]; cbn [app]; auto. constructor; [|apply IH; intros j J K; apply (DJ j J); right; auto].
      rewrite in_app_iff. intros [K|K]; [auto|]. apply (DJ y K). left. auto. }
    apply D; [apply NoDup_filter, seq_NoDup|]. intros j J K. apply filter_In in J as [_ J]. apply M in K. rewrite K in J. discriminate.
  - intros j. rewrite in_app_iff, filter_In, in_seq. split.
    + intros J. destruct (existsb (Nat.eqb j) l) eqn:E; [left; apply M; auto|right; split; auto].
    + intros [J|[J _]]; [apply B in J; lia|auto].
Qed.
Lemma term_0 : forall n k p0 p1 a kk points w x i src, (forall j, (j < kernel_inputs n kk)%nat -> kernel_entry n k p0 p1 a kk i j (difference x (points src)) = Num 0) ->
  source_term n k p0 p1 a kk points w x i src = Num 0.
Proof. intros n k p0 p1 a kk points w x i src E. apply total_0. intros j J. apply in_seq in J. unfold term. rewrite E by lia. cbn [res_map]. f_equal. lra. Qed.
Theorem near_enough : forall n n_points k p0 p1 a kk points w x i indices radius, 0 < p1 -> support_radius k p1 = Some radius -> ~ (no_hessian k /\ kk = KHessian) ->
  found_near n n_points points x radius indices ->
  direct_target n k p0 p1 a kk points w x i indices = direct_target n k p0 p1 a kk points w x i (seq 0 n_points).
Proof.
  intros n N k p0 p1 a kk points w x i l radius P S NH (ND & B & F). rewrite !direct_total, (total_perm _ _ _ _ (perm_complement N l ND B)), total_app.
  rewrite (total_0 _ _ (filter _ _)); [rewrite plus_0_r; auto|]. intros j J. apply filter_In in J as [J1 J2]. apply in_seq in J1. apply term_0. intros. eapply beyond; eauto.
  destruct (Rlt_dec (sqrt (dot n (difference x (points j)) (difference x (points j)))) radius) as [L|L]; [|lra]. apply F in L; [|lia].
  exfalso. assert (E : existsb (Nat.eqb j) l = true) by (apply existsb_exists; exists j; rewrite Nat.eqb_refl; auto). rewrite E in J2. discriminate.
Qed.
Lemma perm_without : forall t l, NoDup l -> In t l -> Permutation l (t :: filter (fun j => negb (Nat.eqb j t)) l).
Proof.
  intros t l ND I. apply NoDup_Permutation; auto.
  - constructor; [|apply NoDup_filter; auto]. intros J. apply filter_In in J as [_ J]. rewrite Nat.eqb_refl in J. discriminate.
  - intros j. cbn [In]. rewrite filter_In. destruct (Nat.eqb_spec j t); subst; cbn [negb]; split; intuition congruence.
Qed.
Theorem symmetric_sum : forall n n_points k p0 p1 a kk points w trg i indices radius, 0 < p1 -> 0 < radius -> support_radius k p1 = Some radius -> ~ (no_hessian k /\ kk = KHessian) ->
  (trg < n_points)%nat -> found_near n n_points points (points trg) radius indices ->
  direct_symmetric n k p0 p1 a kk points w trg i indices = direct_target n k p0 p1 a kk points w (points trg) i (seq 0 n_points).
Proof.
  intros n N k p0 p1 a kk points w trg i l radius P RP S NH T FN. rewrite <- (near_enough n N k p0 p1 a kk points w (points trg) i l radius P S NH FN). destruct FN as (ND & B & F).
  assert (I : In trg l). { apply F; auto. assert (dot n (difference (points trg) (points trg)) (difference (points trg) (points trg)) = 0) as -> by (unfold dot, difference; apply rsum_0; intros; ring). rewrite sqrt_0. auto. }
  rewrite (direct_total _ _ _ _ _ _ _ _ _ _ l), (total_perm _ _ _ _ (perm_without trg l ND I)). unfold direct_symmetric. cbv zeta. rewrite add_source_total, direct_total. cbn [total]. rewrite plus_comm_r. f_equal.
  unfold source_term. cbv zeta. apply total_ext. intros j J. unfold term. f_equal. f_equal. apply FunctionalExtensionality.functional_extensionality. intros d. unfold difference. lra.
Qed.
Theorem spheroidal_evaluator : forall n n_points sp p0 p1 a kk points w x i indices, 0 < p1 -> found_near n n_points points x (kRho0 sp * p1) indices ->
  spheroidal_sum (direct_target n (Sp sp DirectPart) p0 p1 a kk points w x i indices) (direct_target n (Sp sp FastPart) p0 p1 a kk points w x i (seq 0 n_points)) =
  direct_target n (Sp sp Full) p0 p1 a kk points w x i (seq 0 n_points).
Proof.
  intros n N sp p0 p1 a kk points w x i l P FN. rewrite (near_enough n N (Sp sp DirectPart) p0 p1 a kk points w x i l (kRho0 sp * p1) P eq_refl ltac:(intros [[] _]) FN).
  unfold spheroidal_sum. fold (plus (Num 0) (direct_target n (Sp sp DirectPart) p0 p1 a kk points w x i (seq 0 N))). rewrite plus_0_l. rewrite !direct_total.
  match goal with |- res_map2 Rplus ?u ?v = _ => change (plus u v = total (source_term n (Sp sp Full) p0 p1 a kk points w x i) (seq 0 N)) end. rewrite <- total_plus. apply total_ext.
  intros src _. unfold source_term. cbv zeta. rewrite <- total_plus. apply total_ext. intros j _. unfold term. rewrite <- split_kernel.
  destruct (kernel_entry n (Sp sp DirectPart) p0 p1 a kk i j _), (kernel_entry n (Sp sp FastPart) p0 p1 a kk i j _); cbn [plus res_map res_map2]; auto. f_equal. lra.
Qed.
Theorem sum_meaning : forall n n_points k p0 p1 a kk points w x i f,
  (forall src j, (src < n_points)%nat -> (j < kernel_inputs n kk)%nat -> kernel_entry n k p0 p1 a kk i j (difference x (points src)) = Num (f src j)) ->
  direct_target n k p0 p1 a kk points w x i (seq 0 n_points) = Num (rsum n_points (fun src => rsum (kernel_inputs n kk) (fun j => w (kernel_inputs n kk * src + j)%nat * f src j))).
Proof.
  intros n N k p0 p1 a kk points w x i f E. rewrite direct_total, <- total_num. apply total_ext. intros src I. apply in_seq in I. unfold source_term. cbv zeta.
  rewrite <- total_num. apply total_ext. intros j J. apply in_seq in J. unfold term. rewrite E by lia. auto.
Qed.
