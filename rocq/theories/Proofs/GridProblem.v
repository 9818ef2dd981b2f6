From Coq Require Import Reals List Arith Lia Lra FunctionalExtensionality.
From Verif Require Import Proofs.LinAlg Proofs.PositiveDefinite Proofs.PositiveSystem Proofs.HermiteSystem Proofs.Operator Proofs.Grid Proofs.Pivots.
From Verif Require Import Model.LinAlg Model.MonomialBasis Model.Rbfs Model.Operator Model.Grid Model.GridProblem.
From Verif Require Import Spec.Rbfs Spec.Operator Spec.PositiveDefinite Spec.Hermite Spec.Grid Spec.GridProblem.
Import ListNotations.
Local Open Scope R_scope.

(** ** The reduced matrix *)
Section Reduced.
Variables (m l : nat) (a p lag : nat -> nat -> R) (look : nat -> nat).
Notation qt := (q_top l lag look).
Notation Q := (qtaq l a lag look).
Definition spread (g : nat -> R) (r : nat) : R := if (r <? l)%nat then rsum (m - l) (fun j => qt r j * g j) else g (r - l)%nat.

Lemma spread_sum : (l <= m)%nat -> forall g y, rsum m (fun i => spread g i * y i) = rsum (m - l) (fun j => g j * (rsum l (fun k => qt k j * y k) + y (l + j)%nat)).
Proof.
  intros LM g y. replace m with (l + (m - l))%nat at 1 by lia. rewrite rsum_app.
  rewrite (rsum_ext l _ (fun k => rsum (m - l) (fun j => g j * (qt k j * y k)))).
  2:{ intros k K. unfold spread. destruct (Nat.ltb_spec k l); [|lia]. rewrite <- rsum_scal_r. apply rsum_ext. intros. ring. }
  rewrite rsum_swap, <- rsum_plus. apply rsum_ext. intros j J. unfold spread. destruct (Nat.ltb_spec (l + j) l); [lia|].
  replace (l + j - l)%nat with j by lia. rewrite rsum_scal. ring.
Qed.
Lemma reduced_row : (l <= m)%nat -> forall g i, mat_vec (m - l) Q g i = rsum l (fun k => qt k i * mat_vec m a (spread g) k) + mat_vec m a (spread g) (l + i)%nat.
Proof.
  intros LM g i.
  assert (A : forall r, mat_vec m a (spread g) r = rsum (m - l) (fun j => g j * (rsum l (fun k => qt k j * a r k) + a r (l + j)%nat))).
  { intros r. rewrite <- (spread_sum LM g (fun j => a r j)). unfold mat_vec. apply rsum_ext. intros. ring. }
  rewrite (rsum_ext l _ (fun k => rsum (m - l) (fun j => g j * (qt k i * (rsum l (fun k' => qt k' j * a k k') + a k (l + j)%nat))))).
  2:{ intros k K. rewrite A, <- rsum_scal. apply rsum_ext. intros. ring. }
  rewrite rsum_swap, A, <- rsum_plus. unfold mat_vec. apply rsum_ext. intros j J. rewrite rsum_scal, <- Rmult_plus_distr_l, Rmult_comm. f_equal.
  unfold qtaq. rewrite (rsum_ext l (fun k => qt k i * (_ + _)) (fun k => rsum l (fun k' => qt k i * a k k' * qt k' j) + qt k i * a k (l + j)%nat)).
  2:{ intros k K. rewrite Rmult_plus_distr_l. f_equal. rewrite <- rsum_scal. apply rsum_ext. intros. ring. }
  rewrite rsum_plus. rewrite (rsum_ext l (fun k => a (l + i)%nat k * qt k j) (fun k => qt k j * a (l + i)%nat k)) by (intros; ring). ring.
Qed.
Lemma quad_rows : forall n b c, quad n b c = rsum n (fun i => c i * mat_vec n b c i).
Proof. intros. unfold quad, mat_vec. apply rsum_ext. intros i _. rewrite <- rsum_scal. apply rsum_ext. intros. ring. Qed.
Lemma reduced_quad : (l <= m)%nat -> forall g, quad (m - l) Q g = quad m a (spread g).
Proof. intros LM g. rewrite !quad_rows, (spread_sum LM). apply rsum_ext. intros i _. rewrite (reduced_row LM). ring. Qed.
Lemma spread_length : (l <= m)%nat -> forall g, length2 (m - l) g <= length2 m (spread g).
Proof.
  intros LM g. unfold length2 at 2. replace m with (l + (m - l))%nat at 2 by lia. rewrite rsum_app.
  pose proof (rsum_pos l (fun i => spread g i * spread g i) ltac:(intros; apply Rle_0_sqr)) as P.
  rewrite (rsum_ext (m - l) (fun j => spread g (l + j)%nat * spread g (l + j)%nat) (fun j => g j * g j)); [unfold length2; lra|].
  intros j J. unfold spread. destruct (Nat.ltb_spec (l + j) l); [lia|]. replace (l + j - l)%nat with j by lia. ring.
Qed.
Lemma spread_orthogonal : (l <= m)%nat -> (forall j k, (j < m - l)%nat -> (k < l)%nat -> rsum l (fun i => qt i j * p i k) = - p (l + j)%nat k) ->
  forall g, orthogonal m l p (spread g).
Proof.
  intros LM H g k K. rewrite (rsum_ext m _ (fun i => spread g i * p i k)) by (intros; ring). rewrite (spread_sum LM g (fun i => p i k)).
  apply rsum_0. intros j J. rewrite H by auto. ring.
Qed.
Lemma reduced_form : (l <= m)%nat -> (forall j k, (j < m - l)%nat -> (k < l)%nat -> rsum l (fun i => qt i j * p i k) = - p (l + j)%nat k) ->
  forall W, definite m W a -> (forall c, orthogonal m l p c -> W c) -> definite (m - l) any Q.
Proof.
  intros LM H W (low & L & B) C. exists low. split; auto. intros g _. rewrite (reduced_quad LM).
  eapply Rle_trans; [|apply B, C, spread_orthogonal; auto]. apply Rmult_le_compat_l; [lra|]. apply (spread_length LM).
Qed.
End Reduced.

(** ** The rows of a grid *)
Lemma nth_blocks : forall d (f : nat -> nat -> nat) g r, (0 < d)%nat -> (r < d * length g)%nat ->
  nth r (flat_map (fun i => map (f i) (seq 0 d)) g) 0%nat = f (nth (r / d) g 0%nat) (r mod d)%nat.
Proof.
  intros d f g. induction g as [|x g IH]; intros r D R; cbn [length] in R; [lia|]. cbn [flat_map]. destruct (Nat.lt_ge_cases r d) as [L|L].
  - rewrite app_nth1 by (rewrite map_length, seq_length; auto). rewrite Nat.div_small, Nat.mod_small by auto. cbn [nth].
    rewrite (nth_indep _ 0%nat (f x 0%nat)) by (rewrite map_length, seq_length; auto). rewrite map_nth, seq_nth by auto. auto.
  - rewrite app_nth2 by (rewrite map_length, seq_length; auto). rewrite map_length, seq_length, IH by lia.
    replace r with (r - d + 1 * d)%nat at 3 4 by lia. rewrite Nat.div_add, Nat.mod_add by lia.
    replace ((r - d) / d + 1)%nat with (S ((r - d) / d)) by lia. auto.
Qed.
Section Rows.
Variable d : nat.
Hypothesis D : (1 <= d)%nat.
Variable n : data.
Variables pidx gidx : list nat.
Hypothesis OK : indices_ok n pidx gidx.
Notation row := (Grid.row d (values n) pidx gidx).
Notation m := (g_size d pidx gidx).

Lemma row_value : forall r, (r < length pidx)%nat -> row r = nth r pidx 0%nat /\ (row r < values n)%nat.
Proof.
  intros r R. assert (E : row r = nth r pidx 0%nat) by (unfold Grid.row, Grid.rows; apply app_nth1; auto). split; auto.
  rewrite E. apply OK. apply nth_In. auto.
Qed.
Lemma row_gradient : forall r, (length pidx <= r < m)%nat ->
  let q := nth ((r - length pidx) / d) gidx 0%nat in row r = (values n + d * q + (r - length pidx) mod d)%nat /\
  ((row r - values n) mod d = (r - length pidx) mod d /\ (row r - values n) / d = q)%nat.
Proof.
  intros r R q. unfold g_size, g_mu in R.
  assert (E : row r = (values n + d * q + (r - length pidx) mod d)%nat).
  { unfold Grid.row, Grid.rows. rewrite app_nth2 by lia. apply (nth_blocks d (fun i j => (values n + d * i + j)%nat)); lia. }
  split; auto. rewrite E. replace (values n + d * q + (r - length pidx) mod d - values n)%nat with ((r - length pidx) mod d + q * d)%nat by lia.
  pose proof (Nat.mod_upper_bound (r - length pidx) d ltac:(lia)). rewrite Nat.mod_add, Nat.div_add by lia. rewrite Nat.mod_small, Nat.div_small by lia. auto.
Qed.
Lemma row_range : forall r, (r < m)%nat -> (row r < rows d n)%nat.
Proof.
  intros r R. destruct OK as (_ & _ & PR & GR). apply (rows_range d (values n) pidx gidx (gradients n) PR GR).
  apply nth_In. rewrite rows_length; auto.
Qed.
Lemma row_injective : forall r s, (r < m)%nat -> (s < m)%nat -> row r = row s -> r = s.
Proof.
  intros r s R0 S0 E. destruct OK as (PN & GN & PR & GR). pose proof (rows_nodup d (values n) pidx gidx PR PN GN) as ND.
  rewrite (NoDup_nth _ 0%nat) in ND. apply ND; auto; rewrite rows_length; auto.
Qed.
Lemma sub_size : rows d (sub_nodes n pidx gidx) = m.
Proof. reflexivity. Qed.
Lemma basis_sub : forall degree r k, (r < m)%nat -> basis d degree n (row r) k = basis d degree (sub_nodes n pidx gidx) r k.
Proof.
  intros [degree|] r k R0; [|reflexivity]. unfold basis, MonomialBasis.evaluate. cbn [sub_nodes mu pt gpt]. fold (values n).
  destruct (Nat.ltb_spec r (length pidx)) as [L|L].
  - destruct (row_value r L) as (E & L'). rewrite E in *. destruct (Nat.ltb_spec (nth r pidx 0%nat) (values n)); [auto|lia].
  - destruct (row_gradient r ltac:(lia)) as (E & M & Q). destruct (Nat.ltb_spec (row r) (values n)); [lia|]. rewrite M, Q. auto.
Qed.
Lemma kernel_sub : forall rbfs i j, (i < m)%nat -> (j < m)%nat ->
  kernel (nat -> R) difference d rbfs (sub_nodes n pidx gidx) (sub_nodes n pidx gidx) i j = kernel (nat -> R) difference d rbfs n n (row i) (row j).
Proof.
  intros rbfs i j I J. unfold kernel. apply lsum_ext. intros f _. cbn [sub_nodes mu pt gpt]. fold (values n).
  destruct (Nat.ltb_spec i (length pidx)) as [L|L]; destruct (Nat.ltb_spec j (length pidx)) as [L'|L'].
  - destruct (row_value i L) as (E & X), (row_value j L') as (E' & X'). rewrite !(proj2 (Nat.ltb_lt _ _)) by auto. rewrite E, E'. auto.
  - destruct (row_value i L) as (E & X), (row_gradient j ltac:(lia)) as (E' & M' & Q'). rewrite (proj2 (Nat.ltb_lt (row i) _)), (proj2 (Nat.ltb_ge (row j) _)) by lia.
    rewrite E, M', Q'. auto.
  - destruct (row_gradient i ltac:(lia)) as (E & M & Q), (row_value j L') as (E' & X'). rewrite (proj2 (Nat.ltb_ge (row i) _)), (proj2 (Nat.ltb_lt (row j) _)) by lia.
    rewrite E', M, Q. auto.
  - destruct (row_gradient i ltac:(lia)) as (E & M & Q), (row_gradient j ltac:(lia)) as (E' & M' & Q'). rewrite !(proj2 (Nat.ltb_ge _ _)) by lia.
    rewrite M, Q, M', Q'. auto.
Qed.
Lemma nugget_sub : forall g i j, (i < m)%nat -> (j < m)%nat ->
  nugget_at (nat -> R) g (sub_nodes n pidx gidx) i j = nugget_at (nat -> R) g n (row i) (row j).
Proof.
  intros g i j I J. unfold nugget_at. cbn [sub_nodes mu]. fold (values n). destruct (Nat.eqb_spec i j) as [-> |NE].
  - rewrite Nat.eqb_refl. destruct (Nat.ltb_spec j (length pidx)) as [L|L].
    + destruct (row_value j L) as (_ & X). rewrite (proj2 (Nat.ltb_lt _ _)); auto.
    + destruct (row_gradient j ltac:(lia)) as (E & _). rewrite (proj2 (Nat.ltb_ge _ _)); auto. lia.
  - destruct (Nat.eqb_spec (row i) (row j)) as [E|]; auto. apply row_injective in E; auto. contradiction.
Qed.
End Rows.

Lemma mat_a_terms : forall d terms nugget (n : data) i j, (1 <= d)%nat -> (i < rows d n)%nat -> (j < rows d n)%nat ->
  mat_a (nat -> R) difference (fun _ => 0) d (map (term_rbf d) terms) nugget n i j =
  kernel (nat -> R) difference d (map (term_rbf d) terms) n n i j + nugget_at (nat -> R) nugget n i j.
Proof.
  intros. apply mat_a_system; auto; [|apply terms_even]. intros x. apply functional_extensionality. intros e. unfold difference. ring.
Qed.
Lemma mat_a_sub : forall d terms nugget (n : data) pidx gidx i j, (1 <= d)%nat -> indices_ok n pidx gidx ->
  (i < g_size d pidx gidx)%nat -> (j < g_size d pidx gidx)%nat ->
  mat_a (nat -> R) difference (fun _ => 0) d (map (term_rbf d) terms) nugget (sub_nodes n pidx gidx) i j =
  mat_a (nat -> R) difference (fun _ => 0) d (map (term_rbf d) terms) nugget n (Grid.row d (values n) pidx gidx i) (Grid.row d (values n) pidx gidx j).
Proof.
  intros d terms nugget n pidx gidx i j D OK I J. rewrite mat_a_terms, mat_a_terms; auto; try (apply row_range; auto).
  rewrite kernel_sub, (nugget_sub d); auto.
Qed.
Lemma mat_a_symmetric : forall d terms nugget (n : data) k, symmetric k (mat_a (nat -> R) difference (fun _ => 0) d (map (term_rbf d) terms) nugget n).
Proof.
  intros d terms nugget n k i j _ _. unfold mat_a. destruct (Nat.leb_spec i j), (Nat.leb_spec j i); auto; try lia. assert (i = j) as -> by lia. auto.
Qed.

(** ** Data of a grid *)
Lemma distinct_sub : forall k d x idx, distinct k d x -> NoDup idx -> (forall i, In i idx -> (i < k)%nat) -> distinct (length idx) d (fun i => x (nth i idx 0%nat)).
Proof.
  intros k d x idx H ND IN i j I J NE. apply H; try (apply IN, nth_In; auto). intros E. apply NE. rewrite (NoDup_nth _ 0%nat) in ND. auto.
Qed.
Lemma posed_sub : forall d m n terms nugget pidx gidx, posed d m n terms nugget -> indices_ok n pidx gidx -> posed d m (sub_nodes n pidx gidx) terms nugget.
Proof.
  intros d m n terms nugget pidx gidx P (PN & GN & PR & GR). destruct P as [(G0 & F & W)|(F & DG & NV & T)].
  - left. split; [|split; auto].
    + destruct gidx as [|g gidx]; auto. specialize (GR g (or_introl eq_refl)). lia.
    + destruct W as [W|(W1 & W2 & W3)]; [left; auto|right]. split; [|split]; auto. apply (distinct_sub (values n)); auto.
  - right. split; [|split; [|split]]; auto.
    + apply Forall_forall. rewrite Forall_forall in F. intros t T0. destruct (F t T0) as (A & B & C). split; [|split]; auto.
      intros i j I J. apply C; apply GR, nth_In; auto.
    + apply (distinct_sub (gradients n)); auto.
    + destruct NV as [NV|(NV1 & NV2)]; [left; auto|right]. split; auto. apply (distinct_sub (values n)); auto.
Qed.
Lemma posed_definite : forall d m n terms nugget, (1 <= d)%nat -> posed d m n terms nugget ->
  definite (rows d n) (hermite_moments d n m) (mat_a (nat -> R) difference (fun _ => 0) d (map (term_rbf d) terms) nugget n).
Proof.
  intros d m n terms nugget D [(G0 & F & W)|(F & SP)]; [|apply hermite_matrix; auto].
  assert (RW : rows d n = values n) by (unfold rows, size; fold (gradients n) (values n); rewrite G0; lia).
  destruct (mat_a_definite (values n) d (pt (nat -> R) n) terms m nugget F W) as (low & L & B). exists low. split; auto. rewrite RW. intros c (A1 & A2 & A3).
  eapply Rle_trans; [apply B|].
  - split; [|split]; auto.
    + intros M e E. specialize (A2 M e E). rewrite G0 in A2. cbn [rsum] in A2. lra.
    + intros M e f E F0. specialize (A3 M e f E F0). rewrite G0 in A3. cbn [rsum] in A3. lra.
  - right. apply quad_ext. intros i j I J. rewrite (mat_a_terms d terms nugget n) by lia. rewrite mat_a_terms; auto; try (unfold rows, size; cbn [points mu sigma]; lia).
    unfold kernel, nugget_at. cbn [points mu pt]. fold (values n). rewrite (proj2 (Nat.ltb_lt i _)), (proj2 (Nat.ltb_lt j _)) by auto. auto.
Qed.
Lemma basis_cover : forall d degree (n : data) c, (1 <= d <= 3)%nat -> degree_ok degree -> orthogonal (rows d n) (basis_size d degree) (basis d degree n) c ->
  hermite_moments d n (order degree) c.
Proof.
  intros d [degree|] n c D G H; [apply (hermite_cover d degree n c D G H)|]. split; [|split]; intros; cbn [order] in *; lia.
Qed.

(** ** The solve of a grid *)
Section Solve.
Variables (d : nat) (degree : option nat) (n : data) (terms : list term) (nugget : R) (pidx gidx : list nat) (coeffs : nat -> nat -> R).
Variables ldlt lu : nat -> (nat -> nat -> R) -> (nat -> R) -> nat -> R.
Notation rbfs := (map (term_rbf d) terms).
Notation g := (sub_nodes n pidx gidx).
Notation m := (rows d g).
Notation l := (basis_size d degree).
Notation a := (grid_matrix d difference rbfs nugget n pidx gidx).
Notation p := (basis d degree g).
Notation red := (reduced d difference rbfs nugget degree coeffs n pidx gidx).
Hypothesis D : (1 <= d <= 3)%nat.
Hypothesis DG : degree_ok degree.
Hypothesis PO : posed d (order degree) n terms nugget.
Hypothesis OK : indices_ok n pidx gidx.
Hypothesis LM : (l <= m)%nat.
Notation top := (top_rows d degree n pidx gidx).
Hypothesis INV : left_inverse l coeffs top.
Hypothesis RF : rows_found l n pidx gidx.

Lemma grid_definite : definite m (hermite_moments d g (order degree)) a.
Proof. apply posed_definite; [lia|]. apply posed_sub; auto. Qed.
Lemma reduced_definite : (0 < l)%nat -> definite (m - l) any red.
Proof.
  intros L0. unfold reduced. assert (E : flat_index d pidx gidx = Grid.row d (values n) pidx gidx).
  { destruct RF as [E|[E|E]]; [|subst gidx; reflexivity|lia]. unfold flat_index, Grid.row. replace (g_mu pidx) with (values n); auto. }
  rewrite E. apply (reduced_form m l a p) with (W := hermite_moments d g (order degree)); auto.
  - intros j k J K. change m with (g_size d pidx gidx) in *. unfold lagrange_full.
    pose proof (q_top_p d l (values n) pidx gidx (basis d degree n) coeffs INV j k ltac:(lia) K) as H. cbv beta in H.
    rewrite basis_sub in H by (auto; lia). rewrite <- H. apply rsum_ext. intros i I. rewrite basis_sub; auto; lia.
  - apply grid_definite.
  - intros c C. apply basis_cover; auto.
Qed.
Lemma plain_definite : l = 0%nat -> definite m any a.
Proof.
  intros L0. destruct grid_definite as (low & L & B). exists low. split; auto. intros c _. apply B. apply basis_cover; auto.
  intros k K. lia.
Qed.
Lemma definite_lower : forall k b, symmetric k b -> definite k any b -> definite k any (lower b).
Proof.
  intros k b SY (low & L & B). exists low. split; auto. intros c C. eapply Rle_trans; [apply B; auto|]. right. apply quad_ext.
  intros i j I J. symmetry. apply (lower_id k); auto.
Qed.
Lemma reduced_symmetric : symmetric (m - l) red.
Proof. unfold reduced. change m with (g_size d pidx gidx). apply qtaq_symmetric; auto. apply mat_a_symmetric. Qed.
Lemma top_sub : forall i k, (i < m)%nat -> top i k = p i k.
Proof. intros i k I. apply basis_sub; auto. lia. Qed.
Lemma square_once : solved_once l top.
Proof.
  apply injective_solved. intros w E r R0. 
  assert (X : rsum l (fun j => (if Nat.eqb r j then 1 else 0) * w j) = w r).
  { rewrite (rsum_single l r); auto; [rewrite Nat.eqb_refl; ring|]. intros i _ NE. destruct (Nat.eqb_spec r i); [congruence|ring]. }
  rewrite <- X. rewrite (rsum_ext l _ (fun j => rsum l (fun k => coeffs r k * (top k j * w j)))).
  2:{ intros j J. rewrite <- (INV r j R0 J), <- rsum_scal_r. apply rsum_ext. intros. ring. }
  rewrite rsum_swap. apply rsum_0. intros k K. rewrite rsum_scal. fold (mat_vec l top w k). rewrite E by auto. ring.
Qed.
Lemma grid_unisolvent : unisolvent m l p.
Proof.
  intros c E k K. destruct (square_once (fun _ => 0)) as [_ U]. apply (U c (fun _ => 0)); auto.
  - intros r R0. rewrite <- (E r ltac:(lia)). apply rsum_ext. intros j J. rewrite top_sub; auto; lia.
  - intros r R0. apply rsum_0. intros. ring.
Qed.

Hypothesis RL : (0 < l < m)%nat -> right_ldlt ldlt (m - l) red.
Hypothesis RP : l = 0%nat -> right_ldlt ldlt m a.
Hypothesis RU : right_lu lu l top.
Notation w := (problem_weights d difference rbfs nugget degree coeffs ldlt n pidx gidx).
Notation c := (problem_coefficients d difference rbfs nugget degree coeffs ldlt lu n pidx gidx).

Lemma solver_facts : ((0 < l < m)%nat -> exact_ldlt ldlt (m - l) red) /\ (l = 0%nat -> exact_ldlt ldlt m a).
Proof.
  split.
  - intros L. apply RL; auto. apply definite_lower; [apply reduced_symmetric|apply reduced_definite]; lia.
  - intros L. apply RP; auto. apply definite_lower; [apply mat_a_symmetric|apply plain_definite; auto].
Qed.
Lemma grid_problem : forall v, let d' := fun r => v (Grid.row d (values n) pidx gidx r) in
  interpolates m l a p d' (w v) (c v) /\ orthogonal m l p (w v) /\
  forall w' c', interpolates m l a p d' w' c' -> orthogonal m l p w' ->
  (forall r, (r < m)%nat -> w' r = w v r) /\ (forall k, (k < l)%nat -> c' k = c v k).
Proof.
  intros v d'. destruct solver_facts as [F1 F2]. unfold reduced in F1. change m with (g_size d pidx gidx) in F1, F2, LM.
  destruct (grid_solves d l (values n) pidx gidx a (basis d degree n) coeffs ldlt lu v LM INV (mat_a_symmetric _ _ _ _ _) RF F1 F2 (RU square_once)) as [H1 H2].
  assert (A1 : interpolates m l a p d' (w v) (c v)).
  { intros r R0. unfold d'. rewrite <- (H1 r R0). unfold problem_weights, problem_coefficients. f_equal. apply rsum_ext. intros k K. rewrite basis_sub; auto; lia. }
  assert (A2 : orthogonal m l p (w v)).
  { intros k K. rewrite <- (H2 k K). apply rsum_ext. intros r R0. rewrite basis_sub; auto; lia. }
  split; [|split]; auto. intros w' c' B1 B2.
  destruct (saddle_injective m l a p _ grid_definite grid_unisolvent ltac:(intros; apply basis_cover; auto) (fun r => w' r - w v r) (fun k => c' k - c v k)) as [X Y].
  - intros r R0. rewrite !mat_vec_minus. specialize (A1 r R0). specialize (B1 r R0). lra.
  - intros k K. rewrite (rsum_ext m _ (fun i => p i k * w' i - p i k * w v i)) by (intros; ring). rewrite rsum_minus, A2, B2; auto. ring.
  - split; intros i I; [specialize (X i I)|specialize (Y i I)]; cbv beta in *; lra.
Qed.
(** In the rows of the whole problem. *)
Notation full := (mat_a (nat -> R) difference (fun _ => 0) d rbfs nugget n).
Notation cc := (coarse_correction d difference rbfs nugget degree coeffs ldlt lu n pidx gidx).
Lemma coarse_problem : forall v,
  (forall i, In i (Grid.rows d pidx gidx (values n)) -> mat_vec (rows d n) full (cc v) i + mat_vec l (basis d degree n) (fun k => cc v (rows d n + k)%nat) i = v i) /\
  orthogonal (rows d n) l (basis d degree n) (cc v) /\
  (forall i, (i < rows d n)%nat -> ~ In i (Grid.rows d pidx gidx (values n)) -> cc v i = 0).
Proof.
  intros v. destruct solver_facts as [F1 F2]. unfold reduced in F1. change m with (g_size d pidx gidx) in F1, F2, LM.
  destruct OK as (PN & GN & PR & GR).
  apply (coarse_full d l (values n) pidx gidx a (basis d degree n) coeffs ldlt lu (gradients n) PR GR PN GN full v); auto.
  - intros i j I J. apply mat_a_sub; auto. lia.
  - apply mat_a_symmetric.
  - apply (RU square_once).
Qed.
End Solve.
