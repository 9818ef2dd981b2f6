From Coq Require Import Reals List Arith ZArith Lia Lra.
From Verif Require Import Model.LinAlg Model.MonomialBasis Model.Grid Spec.Grid Spec.MonomialBasis Proofs.LinAlg Proofs.LatticeVertices.
Import ListNotations.
Local Open Scope R_scope.

(** ** Number of exponents *)
Fixpoint exps (n d : nat) : list (list nat) :=
  match n with O => [[]] | S n' => flat_map (fun k => map (cons k) (exps n' (d - k))) (seq 0 (S d)) end.
Lemma exps_all : forall n d, all_exponents n d (exps n d).
Proof.
  induction n as [|n IH]; intros d.
  - split; [repeat constructor; auto|]. intros alpha. unfold exponent_of. cbn. split.
    + intros [<-|[]]. cbn. lia.
    + intros [L _]. destruct alpha; [auto|discriminate].
  - split.
    + cbn [exps]. apply NoDup_flat_map.
      * apply seq_NoDup.
      * intros k K. apply FinFun.Injective_map_NoDup; [intros x y E; injection E; auto|]. apply IH.
      * intros k k' alpha K K' A A'. apply in_map_iff in A. destruct A as (b & <- & _). apply in_map_iff in A'. destruct A' as (b' & E & _). injection E as ->. auto.
    + intros alpha. cbn [exps]. rewrite in_flat_map. split.
      * intros (k & K & A). apply in_seq in K. apply in_map_iff in A. destruct A as (b & <- & B). apply IH in B. destruct B as [L SM]. unfold exponent_of, list_sum in *. cbn. lia.
      * intros [L SM]. destruct alpha as [|k b]; [discriminate|]. unfold list_sum in SM. cbn in L, SM. exists k. split; [apply in_seq; lia|]. apply in_map. apply IH. unfold exponent_of, list_sum. lia.
Qed.
Lemma exps_S : forall n d, length (exps (S n) (S d)) = (length (exps n (S d)) + length (exps (S n) d))%nat.
Proof.
  intros n d. cbn [exps]. change (seq 0 (S (S d))) with (0%nat :: seq 1 (S d)). cbn [flat_map]. rewrite app_length, map_length. f_equal.
  rewrite <- seq_shift. rewrite flat_map_concat_map, map_map, <- flat_map_concat_map.
  generalize (seq 0 (S d)). induction l as [|k l IH]; cbn [flat_map]; auto. rewrite !app_length, IH, !map_length. auto.
Qed.
Lemma exps1 : forall d, length (exps 1 d) = (d + 1)%nat.
Proof. induction d as [|d IH]; auto. rewrite exps_S, IH. cbn. lia. Qed.
Lemma exps2 : forall d, (2 * length (exps 2 d) = (d + 1) * (d + 2))%nat.
Proof. induction d as [|d IH]; auto. rewrite exps_S, exps1. nia. Qed.
Lemma exps3 : forall d, (6 * length (exps 3 d) = (d + 1) * (d + 2) * (d + 3))%nat.
Proof. induction d as [|d IH]; auto. rewrite exps_S. pose proof (exps2 (S d)). nia. Qed.
Lemma size_exps : forall dim d, (1 <= dim <= 3)%nat -> basis_size dim (Z.of_nat d) = length (exps dim d).
Proof.
  intros dim d D. unfold basis_size. destruct (Z.ltb_spec (Z.of_nat d) 0); [lia|]. rewrite Nat2Z.id. cbv zeta.
  destruct dim as [|[|[|[|dim]]]]; try lia.
  - rewrite exps1. auto.
  - symmetry. apply Nat.div_unique_exact; [lia|]. rewrite exps2. nia.
  - symmetry. apply Nat.div_unique_exact; [lia|]. rewrite exps3. nia.
Qed.
Theorem size_counts : forall dim d as_, (1 <= dim <= 3)%nat -> all_exponents dim d as_ -> basis_size dim (Z.of_nat d) = length as_.
Proof.
  intros dim d as_ D [ND IN]. rewrite size_exps by auto. destruct (exps_all dim d) as [ND' IN'].
  apply Nat.le_antisymm; apply NoDup_incl_length; auto; intros a A; [apply IN, IN'|apply IN', IN]; auto.
Qed.

(** ** The columns *)
Definition col_exps (dim degree : nat) : list (list nat) :=
  match dim, degree with
  | 1, 0 => [[0]] | 1, 1 => [[0]; [1]] | 1, 2 => [[0]; [1]; [2]]
  | 2, 0 => [[0; 0]] | 2, 1 => [[0; 0]; [1; 0]; [0; 1]] | 2, 2 => [[0; 0]; [1; 0]; [0; 1]; [2; 0]; [1; 1]; [0; 2]]
  | 3, 0 => [[0; 0; 0]] | 3, 1 => [[0; 0; 0]; [1; 0; 0]; [0; 1; 0]; [0; 0; 1]]
  | 3, 2 => [[0; 0; 0]; [1; 0; 0]; [0; 1; 0]; [0; 0; 1]; [2; 0; 0]; [1; 1; 0]; [1; 0; 1]; [0; 2; 0]; [0; 1; 1]; [0; 0; 2]]
  | _, _ => []
  end%nat.
Ltac dims dim degree := destruct dim as [|[|[|[|dim]]]]; try lia; destruct degree as [|[|[|degree]]]; try lia.
Lemma col_exps_all : forall dim degree, (1 <= dim <= 3)%nat -> (degree <= 2)%nat -> all_exponents dim degree (col_exps dim degree).
Proof.
  intros dim degree D G. assert (NoDup (col_exps dim degree)) as ND.
  { dims dim degree; cbn [col_exps]; repeat (constructor; [cbn; intros X; repeat (destruct X as [X|X]; [discriminate|]); auto|]); constructor. }
  split; auto. destruct (exps_all dim degree) as [ND' IN].
  assert (incl (col_exps dim degree) (exps dim degree)) as I1 by (dims dim degree; intros a A; cbn in A |- *; tauto).
  intros alpha. rewrite <- IN. split; [apply I1|].
  apply (NoDup_length_incl ND); auto. dims dim degree; cbn; lia.
Qed.
Theorem columns_monomials : forall dim degree, (1 <= dim <= 3)%nat -> (degree <= 2)%nat ->
  exists as_, all_exponents dim degree as_ /\ length (columns dim degree) = length as_ /\
  forall k p, (k < length as_)%nat -> fst (nth k (columns dim degree) no_column) p = monomial (nth k as_ []) 0 p.
Proof.
  intros dim degree D G. exists (col_exps dim degree). split; [apply col_exps_all; auto|]. split; [dims dim degree; auto|].
  intros k p K. dims dim degree; cbn [col_exps length] in K; repeat (destruct k as [|k]; [cbn; lra|]); lia.
Qed.

(** ** Derivatives *)
Lemma d_const : forall a x, derivable_pt_lim (fun _ => a) x 0.
Proof. intros. apply derivable_pt_lim_const. Qed.
Lemma d_id : forall x, derivable_pt_lim (fun t => t) x 1.
Proof. intros. apply derivable_pt_lim_id. Qed.
Lemma d_sq : forall x, derivable_pt_lim (fun t => t * t) x (2 * x).
Proof. intros x. replace (2 * x) with (1 * x + x * 1) by lra. apply (derivable_pt_lim_mult (fun t => t) (fun t => t)); apply d_id. Qed.
Lemma d_left : forall a x, derivable_pt_lim (fun t => t * a) x a.
Proof. intros a x. pose proof (derivable_pt_lim_mult (fun t => t) (fun _ => a) x 1 0 (d_id x) (d_const a x)) as D. cbv beta in D. replace (1 * a + x * 0) with a in D by lra. exact D. Qed.
Lemma d_right : forall a x, derivable_pt_lim (fun t => a * t) x a.
Proof. intros a x. pose proof (derivable_pt_lim_mult (fun _ => a) (fun t => t) x 0 1 (d_const a x) (d_id x)) as D. cbv beta in D. replace (0 * x + a * 1) with a in D by lra. exact D. Qed.
Theorem columns_derivatives : forall dim degree, (1 <= dim <= 3)%nat -> (degree <= 2)%nat -> forall k e p,
  (k < length (columns dim degree))%nat -> (e < dim)%nat ->
  partial (fst (nth k (columns dim degree) no_column)) e p (nth e (snd (nth k (columns dim degree) no_column)) (fun _ => 0) p).
Proof.
  intros dim degree D G k e p K E. unfold partial.
  dims dim degree; cbn [columns length] in K;
    repeat first [lia|destruct k as [|k]; [
     destruct e as [|[|[|e]]]; try lia; unfold with_coord; cbn [columns nth fst snd Nat.eqb];
       first [apply d_const|apply d_id|apply d_sq|apply d_left|apply d_right] |]].
Qed.
Theorem matrix_rows : forall dim degree mu points grad_points, (1 <= dim <= 3)%nat -> (degree <= 2)%nat ->
  forall k, (k < length (columns dim degree))%nat ->
  (forall i, (i < mu)%nat -> evaluate dim degree mu points grad_points i k = fst (nth k (columns dim degree) no_column) (points i)) /\
  (forall i e, (e < dim)%nat -> partial (fst (nth k (columns dim degree) no_column)) e (grad_points i)
     (evaluate dim degree mu points grad_points (mu + dim * i + e)%nat k)).
Proof.
  intros dim degree mu points grad_points D G k K. split.
  - intros i I. unfold evaluate. destruct (Nat.ltb_spec i mu); [auto|lia].
  - intros i e E. unfold evaluate. destruct (Nat.ltb_spec (mu + dim * i + e) mu); [lia|]. replace (mu + dim * i + e - mu)%nat with (i * dim + e)%nat by lia.
    rewrite Nat.div_add_l, Nat.div_small, Nat.add_0_r, Nat.add_comm, Nat.mod_add, Nat.mod_small by lia. apply columns_derivatives; auto.
Qed.

(** ** Independence *)
Definition pt3 (x y z : R) (i : nat) : R := match i with O => x | 1%nat => y | _ => z end.
Theorem columns_independent : forall dim degree c, (1 <= dim <= 3)%nat -> (degree <= 2)%nat ->
  (forall p, rsum (length (columns dim degree)) (fun k => c k * fst (nth k (columns dim degree) no_column) p) = 0) ->
  forall k, (k < length (columns dim degree))%nat -> c k = 0.
Proof.
  intros dim degree c D G H k K.
  pose proof (H (pt3 0 0 0)) as H0. pose proof (H (pt3 1 0 0)) as H1. pose proof (H (pt3 (-1) 0 0)) as H2.
  pose proof (H (pt3 0 1 0)) as H3. pose proof (H (pt3 0 (-1) 0)) as H4. pose proof (H (pt3 0 0 1)) as H5. pose proof (H (pt3 0 0 (-1))) as H6.
  pose proof (H (pt3 1 1 0)) as H7. pose proof (H (pt3 1 0 1)) as H8. pose proof (H (pt3 0 1 1)) as H9. clear H.
  dims dim degree; cbn [columns length] in K; cbn in H0, H1, H2, H3, H4, H5, H6, H7, H8, H9;
    repeat (destruct k as [|k]; [lra|]); lia.
Qed.

(** ** The Lagrange basis *)
Theorem lagrange_cardinal : forall dim degree l coeffs mu points grad_points,
  left_inverse l (evaluate dim degree mu points grad_points) coeffs -> forall i k, (i < l)%nat -> (k < l)%nat ->
  lagrange_evaluate dim degree l coeffs mu points grad_points i k = if Nat.eqb i k then 1 else 0.
Proof. intros dim degree l coeffs mu points grad_points INV i k I K. apply INV; auto. Qed.
Theorem lagrange_reproduces : forall dim degree l coeffs mu points grad_points mu' points' grad_points' c,
  left_inverse l coeffs (evaluate dim degree mu points grad_points) -> forall i,
  rsum l (fun k => lagrange_evaluate dim degree l coeffs mu' points' grad_points' i k *
                   mat_vec l (evaluate dim degree mu points grad_points) c k) =
  mat_vec l (evaluate dim degree mu' points' grad_points') c i.
Proof.
  intros dim degree l coeffs mu points grad_points mu' points' grad_points' c INV i.
  set (e := evaluate dim degree mu points grad_points) in *. set (e' := evaluate dim degree mu' points' grad_points'). unfold lagrange_evaluate, mat_vec. fold e'.
  rewrite (rsum_ext l _ (fun k => rsum l (fun j => rsum l (fun t => e' i j * c t * (coeffs j k * e k t))))).
  2:{ intros k K. rewrite <- rsum_scal_r. apply rsum_ext. intros j J. rewrite <- rsum_scal. apply rsum_ext. intros. lra. }
  rewrite rsum_swap. apply rsum_ext. intros j J. rewrite rsum_swap.
  rewrite (rsum_ext l _ (fun t => e' i j * c t * (if Nat.eqb j t then 1 else 0))).
  2:{ intros t T. rewrite rsum_scal. rewrite INV by auto. auto. }
  rewrite (rsum_single l j); auto; [rewrite Nat.eqb_refl; lra|]. intros t T N. destruct (Nat.eqb_spec j t); [congruence|lra].
Qed.
