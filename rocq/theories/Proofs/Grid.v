From Coq Require Import Reals List Arith Lia Lra Permutation.
From Verif Require Import Model.LinAlg Model.Grid Proofs.LinAlg Spec.Grid Proofs.LatticeVertices.
Import ListNotations.
Local Open Scope R_scope.

Section Grid.
Variable dim l mu_full : nat.
Variable pidx gidx : list nat.
Notation m := (g_size dim pidx gidx).
Notation row := (row dim mu_full pidx gidx).
Variable a : nat -> nat -> R.
Variable p_full coeffs : nat -> nat -> R.
Variable ldlt lu : nat -> (nat -> nat -> R) -> (nat -> R) -> nat -> R.
Notation lag := (lagrange l p_full coeffs).
Notation p := (fun r k => p_full (row r) k).

(** The Lagrange basis reproduces polynomials from their values at the first rows. *)
Lemma reproduces : left_inverse l coeffs p -> forall q k, (k < l)%nat -> rsum l (fun j => lag q j * p j k) = p_full q k.
Proof.
  intros INV q k K. unfold lagrange. rewrite (rsum_ext _ _ (fun j => rsum l (fun i => p_full q i * (coeffs i j * p j k)))).
  2:{ intros j J. rewrite <- rsum_scal_r. apply rsum_ext. intros. lra. }
  rewrite rsum_swap. rewrite (rsum_ext _ _ (fun i => p_full q i * (if Nat.eqb i k then 1 else 0))).
  2:{ intros i I. rewrite rsum_scal. rewrite INV; auto. }
  rewrite (rsum_single _ k); auto.
  - rewrite Nat.eqb_refl. lra.
  - intros i I N. destruct (Nat.eqb_spec i k); [congruence|lra].
Qed.

Section Correct.
Hypothesis ML : (l <= m)%nat.
Hypothesis INV : left_inverse l coeffs p.
Hypothesis SYM : symmetric m a.
Notation qt := (q_top l lag row).
Notation Q := (qtaq l a lag row).

Lemma q_top_p : forall j k, (l + j < m)%nat -> (k < l)%nat -> rsum l (fun i => qt i j * p i k) = - p (l + j)%nat k.
Proof.
  intros j k J K. unfold q_top. rewrite <- (reproduces INV _ k K), <- rsum_opp. apply rsum_ext. intros. lra.
Qed.
Lemma qtaq_symmetric : symmetric (m - l) Q.
Proof.
  intros i j I J. unfold qtaq. rewrite (SYM (l + i)%nat (l + j)%nat) by lia.
  assert (rsum l (fun k => rsum l (fun k' => qt k i * a k k' * qt k' j)) = rsum l (fun k => rsum l (fun k' => qt k j * a k k' * qt k' i))) as ->.
  { rewrite rsum_swap. apply rsum_ext. intros k K. apply rsum_ext. intros k' K'. rewrite (SYM k' k) by lia. lra. }
  assert (rsum l (fun k => qt k i * a k (l + j)%nat) = rsum l (fun k => a (l + j)%nat k * qt k i)) as ->.
  { apply rsum_ext. intros k K. rewrite (SYM k) by lia. lra. }
  assert (rsum l (fun k => a (l + i)%nat k * qt k j) = rsum l (fun k => qt k j * a k (l + i)%nat)) as ->.
  { apply rsum_ext. intros k K. rewrite (SYM k) by lia. lra. }
  lra.
Qed.
Lemma lower_sym : forall n b, symmetric n b -> forall x i, (i < n)%nat -> mat_vec n (lower b) x i = mat_vec n b x i.
Proof. intros n b S x i I. apply rsum_ext. intros j J. unfold lower. destruct (j <=? i)%nat; auto. rewrite (S i j); auto. Qed.

(** Rows of A Q gamma. *)
Lemma a_lambda : forall gamma i, (l < m)%nat ->
  mat_vec m a (fun r => if (r <? l)%nat then rsum (m - l) (fun j => qt r j * gamma j) else gamma (r - l)%nat) i =
  rsum (m - l) (fun j => (rsum l (fun k => a i k * qt k j) + a i (l + j)%nat) * gamma j).
Proof.
  intros gamma i LM. unfold mat_vec. replace m with (l + (m - l))%nat at 1 by lia. rewrite rsum_app.
  rewrite (rsum_ext l _ (fun k => rsum (m - l) (fun j => a i k * qt k j * gamma j))).
  2:{ intros k K. destruct (Nat.ltb_spec k l); [|lia]. rewrite <- rsum_scal. apply rsum_ext. intros. lra. }
  rewrite rsum_swap, <- rsum_plus. apply rsum_ext. intros j J. destruct (Nat.ltb_spec (l + j) l); [lia|].
  replace (l + j - l)%nat with j by lia. rewrite Rmult_plus_distr_r. f_equal. rewrite <- rsum_scal_r. auto.
Qed.

Theorem weights_orthogonal : forall v, orthogonal m l p (weights dim l mu_full pidx gidx a lag ldlt row v).
Proof.
  intros v k K. unfold weights. destruct (Nat.eqb_spec l 0) as [->|L0]; [lia|]. destruct (Nat.ltb_spec l m) as [LM|LM].
  2:{ apply rsum_0. intros. lra. }
  cbv zeta. set (g := ldlt (m - l)%nat Q _). replace m with (l + (m - l))%nat at 1 by lia. rewrite rsum_app.
  rewrite (rsum_ext l _ (fun i => rsum (m - l) (fun j => qt i j * p i k * g j))).
  2:{ intros i I. destruct (Nat.ltb_spec i l); [|lia]. rewrite <- rsum_scal. apply rsum_ext. intros. lra. }
  rewrite rsum_swap, <- rsum_plus. apply rsum_0. intros j J. destruct (Nat.ltb_spec (l + j) l); [lia|].
  rewrite rsum_scal_r, q_top_p by lia. replace (l + j - l)%nat with j by lia. lra.
Qed.

(** Fine grids: the residual of the RBF part is a polynomial. *)
Lemma residual_bottom : forall v, exact_ldlt ldlt (m - l) Q -> (0 < l < m)%nat -> forall j, (j < m - l)%nat ->
  let lam := weights dim l mu_full pidx gidx a lag ldlt row v in
  v (row (l + j)) - mat_vec m a lam (l + j) = rsum l (fun k => lag (row (l + j)) k * (v (row k) - mat_vec m a lam k)).
Proof.
  intros v EX LM j J. cbv zeta. unfold weights. destruct (Nat.eqb_spec l 0); [lia|]. destruct (Nat.ltb_spec l m); [|lia]. cbv zeta.
  set (d := fun r => v (row r)). set (g := ldlt (m - l)%nat Q (qtd l lag row d)).
  pose proof (EX (qtd l lag row d) j J) as E. fold g in E. rewrite (lower_sym _ _ qtaq_symmetric) in E by auto.
  rewrite a_lambda by lia. rewrite (rsum_ext l _ (fun k => lag (row (l + j)) k * d k - lag (row (l + j)) k * rsum (m - l) (fun j => (rsum l (fun k' => a k k' * qt k' j) + a k (l + j)%nat) * g j))).
  2:{ intros k K. rewrite a_lambda by lia. unfold d. lra. }
  rewrite rsum_minus. unfold qtd in E.
  assert (rsum l (fun k => qt k j * d k) = - rsum l (fun k => lag (row (l + j)) k * d k)) as ED.
  { rewrite <- rsum_opp. apply rsum_ext. intros. unfold q_top. lra. }
  rewrite ED in E. clear ED.
  assert (mat_vec (m - l) Q g j = rsum (m - l) (fun i => (rsum l (fun k => a (l + j)%nat k * qt k i) + a (l + j)%nat (l + i)%nat) * g i)
     - rsum l (fun k => lag (row (l + j)) k * rsum (m - l) (fun i => (rsum l (fun k' => a k k' * qt k' i) + a k (l + i)%nat) * g i))) as EQ.
  { rewrite (rsum_ext l _ (fun k => rsum (m - l) (fun i => lag (row (l + j)) k * (rsum l (fun k' => a k k' * qt k' i) + a k (l + i)%nat) * g i))).
    2:{ intros k K. rewrite <- rsum_scal. apply rsum_ext. intros. lra. }
    rewrite rsum_swap, <- rsum_minus. apply rsum_ext. intros i I. rewrite rsum_scal_r, <- Rmult_minus_distr_r. f_equal. unfold qtaq.
    rewrite (rsum_ext l (fun k => lag (row (l + j)) k * _) (fun k => - rsum l (fun k' => qt k j * a k k' * qt k' i) - qt k j * a k (l + i)%nat)).
    2:{ intros k K. rewrite (rsum_ext l (fun k' => qt k j * _ * _) (fun k' => qt k j * (a k k' * qt k' i))) by (intros; lra). rewrite rsum_scal. unfold q_top. lra. }
    rewrite rsum_minus, rsum_opp. lra. }
  rewrite EQ in E. fold (d (l + j)%nat). lra.
Qed.

Theorem grid_interpolates : forall v, ((0 < l < m)%nat -> exact_ldlt ldlt (m - l) Q) -> (l = 0%nat -> exact_ldlt ldlt m a) -> exact_lu lu l p ->
  interpolates m l a p (fun r => v (row r)) (weights dim l mu_full pidx gidx a lag ldlt row v)
    (coefficients dim l mu_full pidx gidx a p_full lag ldlt lu row v).
Proof.
  intros v EX E0 EL r R. set (lam := weights dim l mu_full pidx gidx a lag ldlt row v).
  assert (forall i, (i < l)%nat -> mat_vec l p (coefficients dim l mu_full pidx gidx a p_full lag ldlt lu row v) i = v (row i) - mat_vec m a lam i) as TOP.
  { intros i I. unfold coefficients. rewrite (EL _ i I). reflexivity. }
  destruct (Nat.lt_ge_cases r l) as [L|L]; [rewrite (TOP r L); lra|].
  destruct (Nat.eq_dec l 0) as [Z|Z].
  - unfold lam, weights. rewrite Z. cbn [Nat.eqb]. pose proof (E0 Z (fun r => v (row r)) r R) as E. rewrite (lower_sym _ _ SYM) in E by auto. rewrite E. cbn. lra.
  - pose proof (residual_bottom v (EX ltac:(lia)) ltac:(lia) (r - l) ltac:(lia)) as B. cbv zeta in B. fold lam in B. replace (l + (r - l))%nat with r in B by lia.
    assert (mat_vec l p (coefficients dim l mu_full pidx gidx a p_full lag ldlt lu row v) r = v (row r) - mat_vec m a lam r) as ->; [|lra].
    rewrite B. rewrite (rsum_ext l _ (fun k => lag (row r) k * mat_vec l p (coefficients dim l mu_full pidx gidx a p_full lag ldlt lu row v) k)) by (intros; rewrite TOP; auto).
    set (c := coefficients _ _ _ _ _ _ _ _ _ _ _ _). unfold mat_vec.
    rewrite (rsum_ext l (fun k => lag (row r) k * _) (fun k => rsum l (fun j => lag (row r) k * p k j * c j))).
    2:{ intros k K. rewrite <- rsum_scal. apply rsum_ext. intros. lra. }
    rewrite rsum_swap. apply rsum_ext. intros j J. rewrite rsum_scal_r, reproduces; auto.
Qed.
End Correct.

(** When the lookup of the Lagrange rows is right. *)
Lemma look_right : g_mu pidx = mu_full \/ gidx = [] -> flat_index dim pidx gidx = row.
Proof. intros [E|E]; unfold flat_index, Grid.row, rows; [rewrite E; reflexivity|rewrite E; reflexivity]. Qed.
Lemma grid_weights_eq : g_mu pidx = mu_full \/ gidx = [] \/ l = 0%nat ->
  grid_weights dim l mu_full pidx gidx a lag ldlt = weights dim l mu_full pidx gidx a lag ldlt row.
Proof.
  intros [E|[E|E]]; unfold grid_weights; [rewrite look_right by auto; reflexivity|rewrite look_right by auto; reflexivity|]. unfold weights. rewrite E. reflexivity.
Qed.
Lemma grid_coefficients_eq : g_mu pidx = mu_full \/ gidx = [] \/ l = 0%nat ->
  grid_coefficients dim l mu_full pidx gidx a p_full lag ldlt lu = coefficients dim l mu_full pidx gidx a p_full lag ldlt lu row.
Proof.
  intros E. unfold grid_coefficients, coefficients. pose proof (grid_weights_eq E) as W. unfold grid_weights in W. rewrite W. reflexivity.
Qed.

Theorem grid_solves : forall v, (l <= m)%nat -> left_inverse l coeffs p -> symmetric m a -> g_mu pidx = mu_full \/ gidx = [] \/ l = 0%nat ->
  ((0 < l < m)%nat -> exact_ldlt ldlt (m - l) (qtaq l a lag (flat_index dim pidx gidx))) -> (l = 0%nat -> exact_ldlt ldlt m a) -> exact_lu lu l p ->
  interpolates m l a p (fun r => v (row r)) (grid_weights dim l mu_full pidx gidx a lag ldlt v)
    (grid_coefficients dim l mu_full pidx gidx a p_full lag ldlt lu v) /\
  orthogonal m l p (grid_weights dim l mu_full pidx gidx a lag ldlt v).
Proof.
  intros v ML INV SYM OK EX E0 EL. rewrite (grid_coefficients_eq OK), (grid_weights_eq OK). split.
  - apply grid_interpolates; auto. intros LM. specialize (EX LM). rewrite look_right in EX; auto. destruct OK as [|[|]]; auto. lia.
  - apply weights_orthogonal; auto.
Qed.

(** ** The solution in the whole problem *)
Lemma rows_length : forall base, length (rows dim pidx gidx base) = m.
Proof.
  intros base. unfold rows, g_size, g_mu. rewrite app_length. f_equal. induction gidx as [|i g IH]; cbn [flat_map length]; [lia|].
  rewrite app_length, IH, map_length, seq_length. lia.
Qed.
Variable sigma_full : nat.
Notation N := (mu_full + dim * sigma_full)%nat.
Hypothesis PR : forall i, In i pidx -> (i < mu_full)%nat.
Hypothesis GR : forall i, In i gidx -> (i < sigma_full)%nat.
Hypothesis PN : NoDup pidx.
Hypothesis GN : NoDup gidx.
Lemma grad_row_unique : forall i j i' j', (j < dim)%nat -> (j' < dim)%nat -> (dim * i + j = dim * i' + j')%nat -> i = i' /\ j = j'.
Proof.
  intros i j i' j' J J' E. assert (i = i'); [|subst; lia]. 
  assert ((dim * i + j) / dim = i)%nat as A by (rewrite Nat.mul_comm, Nat.div_add_l, Nat.div_small by lia; lia).
  assert ((dim * i' + j') / dim = i')%nat as B by (rewrite Nat.mul_comm, Nat.div_add_l, Nat.div_small by lia; lia). congruence.
Qed.
Lemma rows_nodup : NoDup (rows dim pidx gidx mu_full).
Proof.
  unfold rows. apply NoDup_app; auto.
  - clear PR GR PN. induction GN as [|i g NI ND IH]; cbn; [constructor|]. apply NoDup_app; auto.
    + apply FinFun.Injective_map_NoDup; [intros x y E; lia|apply seq_NoDup].
    + intros x X Y. apply in_map_iff in X. destruct X as (j & <- & J). apply in_flat_map in Y. destruct Y as (i' & I' & Y).
      apply in_map_iff in Y. destruct Y as (j' & E & J'). apply in_seq in J. apply in_seq in J'.
      destruct (grad_row_unique i j i' j'); try lia. subst. auto.
  - intros x X Y. apply PR in X. apply in_flat_map in Y. destruct Y as (i' & I' & Y). apply in_map_iff in Y. destruct Y as (j' & E & J'). lia.
Qed.
Lemma rows_range : forall i, In i (rows dim pidx gidx mu_full) -> (i < N)%nat.
Proof.
  intros i I. unfold rows in I. apply in_app_iff in I. destruct I as [I|I]; [apply PR in I; lia|]. apply in_flat_map in I. destruct I as (k & K & I).
  apply in_map_iff in I. destruct I as (j & <- & J). apply in_seq in J. apply GR in K. nia.
Qed.
Notation W := (scatter dim mu_full pidx gidx sigma_full).
Lemma scatter_row : forall lam c r, (r < m)%nat -> W lam c (row r) = lam r.
Proof.
  intros lam c r R. unfold scatter. assert (In (row r) (rows dim pidx gidx mu_full)) as I by (apply nth_In; rewrite rows_length; auto).
  apply rows_range in I. destruct (Nat.leb_spec N (row r)); [lia|].
  assert (forall k n w, (k <= r < k + n)%nat -> (k + n <= m)%nat -> fold_left (fun w r' => if Nat.eqb (row r') (row r) then lam r' else w) (seq k n) w = lam r) as G.
  { intros k n. revert k. induction n as [|n IH]; intros k w H1 H2; [lia|]. rewrite seq_S, fold_left_app. cbn [fold_left].
    destruct (Nat.eqb_spec (row (k + n)) (row r)) as [E|E].
    - f_equal. apply (NoDup_nth (rows dim pidx gidx mu_full) 0%nat); auto; try (rewrite rows_length; lia). apply rows_nodup.
    - apply IH; [|lia]. assert (k + n <> r)%nat by (intros <-; auto). lia. }
  apply G; lia.
Qed.
Lemma scatter_other : forall lam c i, (i < N)%nat -> ~ In i (rows dim pidx gidx mu_full) -> W lam c i = 0.
Proof.
  intros lam c i I NI. unfold scatter. destruct (Nat.leb_spec N i); [lia|].
  assert (forall rs w, (forall r, In r rs -> (r < m)%nat) -> fold_left (fun w r' => if Nat.eqb (row r') i then lam r' else w) rs w = w) as G.
  { induction rs as [|r rs IH]; intros w H1; auto. cbn. destruct (Nat.eqb_spec (row r) i) as [E|E].
    - exfalso. apply NI. rewrite <- E. apply nth_In. rewrite rows_length. apply H1. left. auto.
    - apply IH. intros x X. apply H1. right. auto. }
  apply G. intros r R. apply in_seq in R. lia.
Qed.
Lemma scatter_tail : forall lam c k, W lam c (N + k)%nat = c k.
Proof. intros lam c k. unfold scatter. destruct (Nat.leb_spec N (N + k)); [|lia]. f_equal. lia. Qed.
Lemma split_perm : forall (l0 : list nat) f, Permutation l0 (filter f l0 ++ filter (fun x => negb (f x)) l0).
Proof.
  induction l0 as [|x l0 IH]; intros f; cbn; auto. destruct (f x); cbn; [constructor; auto|]. rewrite IH at 1. apply Permutation_middle.
Qed.
Lemma rsum_scatter : forall f lam c, rsum N (fun i => f i * W lam c i) = rsum m (fun r => f (row r) * lam r).
Proof.
  intros f lam c. rewrite <- lsum_seq. set (h := fun i => existsb (Nat.eqb i) (rows dim pidx gidx mu_full)).
  assert (forall i, h i = true <-> In i (rows dim pidx gidx mu_full)) as H.
  { intros i. unfold h. rewrite existsb_exists. split; [intros (x & X & E); apply Nat.eqb_eq in E; subst; auto|intros I; exists i; rewrite Nat.eqb_refl; auto]. }
  rewrite (lsum_perm _ _ _ _ (split_perm (seq 0 N) h)), lsum_app.
  rewrite (lsum_ext _ (filter (fun x => negb (h x)) _) _ (fun _ => 0)).
  2:{ intros i I. apply filter_In in I. destruct I as [I NH]. apply in_seq in I. rewrite scatter_other; [lra|lia|]. intros X. apply H in X. rewrite X in NH. discriminate. }
  assert (forall (l0 : list nat), lsum l0 (fun _ => 0) = 0) as -> by (induction l0 as [|x l0 IH]; cbn; [auto|rewrite IH; lra]).
  rewrite Rplus_0_r. rewrite (lsum_perm _ _ (rows dim pidx gidx mu_full)).
  - rewrite (lsum_nth _ _ 0%nat), rows_length. apply rsum_ext. intros r R. fold (row r). rewrite scatter_row; auto.
  - apply NoDup_Permutation; [apply NoDup_filter, seq_NoDup|apply rows_nodup|]. intros i. rewrite filter_In, H, in_seq. split; [tauto|].
    intros I. split; auto. pose proof (rows_range i I). lia.
Qed.

(** A grid whose matrix is a part of the matrix of the whole problem, written into a vector of zeros. *)
Theorem coarse_full : forall (A_full : nat -> nat -> R) v, (forall i j, (i < m)%nat -> (j < m)%nat -> a i j = A_full (row i) (row j)) ->
  symmetric N A_full -> (l <= m)%nat -> left_inverse l coeffs p -> g_mu pidx = mu_full \/ gidx = [] \/ l = 0%nat ->
  ((0 < l < m)%nat -> exact_ldlt ldlt (m - l) (qtaq l a lag (flat_index dim pidx gidx))) -> (l = 0%nat -> exact_ldlt ldlt m a) -> exact_lu lu l p ->
  let w := W (grid_weights dim l mu_full pidx gidx a lag ldlt v) (grid_coefficients dim l mu_full pidx gidx a p_full lag ldlt lu v) in
  (forall i, In i (rows dim pidx gidx mu_full) -> mat_vec N A_full w i + mat_vec l p_full (fun k => w (N + k)%nat) i = v i) /\
  orthogonal N l p_full w /\
  (forall i, (i < N)%nat -> ~ In i (rows dim pidx gidx mu_full) -> w i = 0).
Proof.
  intros A_full v EA SY ML INV OK EX E0 EL. cbv zeta.
  assert (symmetric m a) as SA.
  { intros i j I J. rewrite !EA by auto. apply SY; apply rows_range; apply nth_In; rewrite rows_length; auto. }
  destruct (grid_solves v ML INV SA OK EX E0 EL) as [H1 H2].
  set (lam := grid_weights _ _ _ _ _ _ _ _ v) in *. set (c := grid_coefficients _ _ _ _ _ _ _ _ _ _ v) in *. split; [|split].
  - intros i I. destruct (In_nth _ _ 0%nat I) as (r & R & E). rewrite rows_length in R. fold (row r) in E. specialize (H1 r R). rewrite <- E. cbv beta in H1. rewrite <- H1. f_equal.
    + unfold mat_vec. rewrite rsum_scatter. apply rsum_ext. intros j J. rewrite EA; auto.
    + apply rsum_ext. intros k K. rewrite scatter_tail. auto.
  - intros k K. rewrite rsum_scatter. apply (H2 k K).
  - intros i I NI. apply scatter_other; auto.
Qed.
End Grid.

(** ** The wrong rows of the Lagrange basis
    Three points and one gradient point in one dimension, a constant polynomial, and the grid of the points 0 and 1
    and the gradient point: row 2 of the Lagrange basis (a point) is used for the gradient row 3. *)
Definition wrong_p (r k : nat) : R := if (r <? 3)%nat then 1 else 0.
Definition wrong_a (i j : nat) : R := if Nat.eqb i j then 1 else 0.
Definition wrong_v (r : nat) : R := if Nat.eqb r 3 then 3 else 0.
Definition unit (i j : nat) : R := if Nat.eqb i j then 1 else 0.
Definition solve2 (n : nat) (a : nat -> nat -> R) (b : nat -> R) (i : nat) : R :=
  if Nat.eqb i 0 then (2 * b 0%nat - b 1%nat) / 3 else (2 * b 1%nat - b 0%nat) / 3.
Lemma wrong_rows : left_inverse 1 unit (fun r k => wrong_p (row 1 3 [0; 1]%nat [0]%nat r) k) /\ symmetric 3 wrong_a /\
  exact_ldlt solve2 2 (qtaq 1 wrong_a (lagrange 1 wrong_p unit) (flat_index 1 [0; 1]%nat [0]%nat)) /\
  forall ldlt, exact_ldlt ldlt 2 (qtaq 1 wrong_a (lagrange 1 wrong_p unit) (flat_index 1 [0; 1]%nat [0]%nat)) ->
  ~ orthogonal 3 1 (fun r k => wrong_p (row 1 3 [0; 1]%nat [0]%nat r) k)
      (grid_weights 1 1 3 [0; 1]%nat [0]%nat wrong_a (lagrange 1 wrong_p unit) ldlt wrong_v).
Proof.
  split; [|split; [|split]].
  - intros i j I J. replace i with 0%nat by lia. replace j with 0%nat by lia. cbn. unfold unit, wrong_p. cbn. lra.
  - intros i j I J. unfold wrong_a. destruct (Nat.eqb_spec i j); destruct (Nat.eqb_spec j i); lia || lra.
  - intros b i I. destruct i as [|[|i]]; [| |lia]; unfold mat_vec, lower, qtaq, q_top, lagrange, wrong_p, wrong_a, unit, solve2; cbn; lra.
  - intros ldlt EX H. specialize (H 0%nat ltac:(lia)). pose proof (EX (qtd 1 (lagrange 1 wrong_p unit) (flat_index 1 [0; 1]%nat [0]%nat) (fun r => wrong_v (row 1 3 [0; 1]%nat [0]%nat r)))) as E.
    pose proof (E 0%nat ltac:(lia)) as E1. pose proof (E 1%nat ltac:(lia)) as E2. clear E EX.
    unfold grid_weights, weights in H. cbn [Nat.eqb] in H. change (1 <? g_size 1 [0; 1]%nat [0]%nat)%nat with true in H. cbv iota in H.
    change (g_size 1 [0; 1]%nat [0]%nat - 1)%nat with 2%nat in H. cbv zeta in H.
    set (g := ldlt 2%nat _ _) in *. clearbody g.
    unfold mat_vec, lower, qtaq, qtd, q_top, lagrange, wrong_p, wrong_a, wrong_v, unit in *. cbn in *. lra.
Qed.
