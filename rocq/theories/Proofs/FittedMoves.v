From Coq Require Import Reals List Arith Lia Lra FunctionalExtensionality.
From Verif Require Import Proofs.LinAlg Proofs.Operator Proofs.PositiveDefinite Proofs.PositiveKinds Proofs.CompactSupport Proofs.CompactKinds Proofs.PositiveSystem Proofs.HermiteSystem Proofs.Fitted.
From Verif Require Import Model.LinAlg Model.MonomialBasis Model.Rbfs Model.Operator Spec.Rbfs Spec.Operator Spec.PositiveDefinite Spec.Hermite Spec.Fitted.
Import ListNotations.
Local Open Scope R_scope.

(** * Monomials at moved points *)
(** Coefficients of an affine form and of a product of two, in the order of the columns. *)
Section Table.
Variables (b : nat -> nat -> R) (v : nat -> R).
Definition lin (d a : nat) : list R := v a :: map (b a) (seq 0 d).
Definition pairs (d : nat) : list (nat * nat) := flat_map (fun e => map (fun f => (e, f)) (seq e (d - e))) (seq 0 d).
Definition prod (d a c : nat) : list R :=
  v a * v c :: map (fun e => v a * b c e + v c * b a e) (seq 0 d) ++
  map (fun ef => let '(e, f) := ef in if Nat.eqb e f then b a e * b c e else b a e * b c f + b a f * b c e) (pairs d).
Definition coefficients (d g : nat) (j k : nat) : R :=
  nth j (match k with
         | O => [1]
         | S k => if (k <? d)%nat then lin d k else let '(a, c) := nth (k - d) (pairs d) (0, 0)%nat in prod d a c
         end) 0.
End Table.
Lemma affine_columns : forall d g b v k p, (k < length (columns d g))%nat ->
  fst (nth k (columns d g) no_column) (affine d b v p) =
  rsum (length (columns d g)) (fun j => fst (nth j (columns d g) no_column) p * coefficients b v d g j k).
Proof.
  intros d g b v k p H.
  destruct d as [|[|[|[|d]]]]; destruct g as [|[|[|g]]]; cbn [columns length] in H |- *; try lia;
  repeat (destruct k as [|k]; [vm_compute; ring|]); exfalso; lia.
Qed.
Definition shift (v p : nat -> R) (e : nat) : R := p e + v e.
Lemma shift_columns : forall d g v k p, (k < length (columns d g))%nat ->
  fst (nth k (columns d g) no_column) (shift v p) =
  rsum (length (columns d g)) (fun j => fst (nth j (columns d g) no_column) p * coefficients identity_matrix v d g j k).
Proof.
  intros d g v k p H.
  destruct d as [|[|[|[|d]]]]; destruct g as [|[|[|g]]]; cbn [columns length] in H |- *; try lia;
  repeat (destruct k as [|k]; [vm_compute; ring|]); exfalso; lia.
Qed.
Lemma shift_derivatives : forall d g v k p e, (k < length (columns d g))%nat -> (e < d)%nat ->
  nth e (snd (nth k (columns d g) no_column)) (fun _ => 0) (shift v p) =
  rsum (length (columns d g)) (fun j => nth e (snd (nth j (columns d g) no_column)) (fun _ => 0) p * coefficients identity_matrix v d g j k).
Proof.
  intros d g v k p e H E.
  destruct d as [|[|[|[|d]]]]; destruct g as [|[|[|g]]]; cbn [columns length] in H |- *; try lia;
  repeat first [exfalso; lia | destruct e as [|e]; [repeat first [exfalso; lia | destruct k as [|k]; [vm_compute; ring|]]|]].
Qed.
Lemma moved_space : forall d degree v s r k, (r < rows d s)%nat -> (k < space_size d degree)%nat ->
  space d degree (moved v s) r k =
  rsum (space_size d degree) (fun j => space d degree s r j * match degree with None => 0 | Some g => coefficients identity_matrix v d g j k end).
Proof.
  intros d degree v s r k HR HK. unfold space, space_size in *. destruct degree as [g|]; [|lia]. unfold MonomialBasis.evaluate. cbv zeta.
  change (values (moved v s)) with (values s). destruct (Nat.ltb_spec r (values s)) as [L|L].
  - apply (shift_columns d g v k (pt (nat -> R) s r) HK).
  - apply (shift_derivatives d g v k (gpt (nat -> R) s ((r - values s) / d)) ((r - values s) mod d) HK).
    apply Nat.mod_upper_bound. intros ->. unfold rows, size in HR. unfold values in L. lia.
Qed.
Lemma moved_back : forall v s, moved (fun e => - v e) (moved v s) = s.
Proof.
  intros v [m g p q]. unfold moved. cbn. unfold values, gradients; cbn. f_equal; apply functional_extensionality; intros i; apply functional_extensionality; intros e; ring.
Qed.
Lemma orthogonal_through : forall n l (p p' M : nat -> nat -> R) c, (forall r k, (r < n)%nat -> (k < l)%nat -> p r k = rsum l (fun j => p' r j * M j k)) ->
  (forall k, (k < l)%nat -> rsum n (fun i => p' i k * c i) = 0) -> forall k, (k < l)%nat -> rsum n (fun i => p i k * c i) = 0.
Proof.
  intros n l p p' M c H O k K. rewrite (rsum_ext n _ (fun i => rsum l (fun j => M j k * (p' i j * c i)))).
  2:{ intros i I. rewrite H by auto. rewrite <- rsum_scal_r. apply rsum_ext; intros; ring. }
  rewrite rsum_swap. apply rsum_0. intros j J. rewrite rsum_scal, O by auto. ring.
Qed.
Lemma moved_difference : forall x y v, difference (fun e => x e + v e) (fun e => y e + v e) = difference x y.
Proof. intros. apply functional_extensionality. intros e. unfold difference. ring. Qed.
Lemma moved_kernel : forall d rbfs v s t r c, kernel (nat -> R) difference d rbfs (moved v s) (moved v t) r c = kernel (nat -> R) difference d rbfs s t r c.
Proof.
  intros. unfold kernel. apply lsum_ext. intros f _. cbn [moved mu sigma pt gpt]. rewrite !moved_difference. reflexivity.
Qed.
Lemma fit_moved : forall d degree rbfs nugget ss ss' v s t rhs w w' f f', determined d degree rbfs nugget s ->
  fitted d degree rbfs nugget ss s rhs w -> fitted d degree rbfs nugget ss' (moved v s) rhs w' ->
  surface d degree rbfs s w t f -> surface d degree rbfs (moved v s) w' (moved v t) f' -> forall r, (r < rows d t)%nat -> f' r = f r.
Proof.
  intros d degree rbfs nugget ss ss' v s t rhs w w' f f' D F F' E E'.
  set (M := fun v j k => match degree with None => 0 | Some g => coefficients identity_matrix v d g j k end).
  apply (fit_changed d degree rbfs rbfs nugget ss ss' s (moved v s) t (moved v t) rhs w w' f f' (M v)); auto.
  - intros. apply moved_kernel.
  - intros. apply moved_kernel.
  - intros r k R0 K0. apply (moved_space d degree v s r k R0 K0).
  - intros r k R0 K0. apply (moved_space d degree v t r k R0 K0).
  - intros c. apply (orthogonal_through (rows d s) (space_size d degree) (space d degree s) (space d degree (moved v s)) (M (fun e => - v e))).
    intros r k R0 K0. rewrite <- (moved_back v s) at 1. apply moved_space; auto.
Qed.

(** * Moving points by a matrix and a vector *)
Lemma columns_same : forall d g k p q, (forall e, (e < d)%nat -> p e = q e) -> fst (nth k (columns d g) no_column) p = fst (nth k (columns d g) no_column) q.
Proof.
  intros d g k p q H.
  destruct d as [|[|[|[|d]]]]; destruct g as [|[|[|g]]]; cbn [columns];
  do 11 (try (destruct k as [|k]; [cbn; rewrite ?(H 0%nat), ?(H 1%nat), ?(H 2%nat) by lia; reflexivity|])); destruct k; reflexivity.
Qed.
Lemma affine_space : forall d degree b v n x i k, (i < n)%nat -> (k < space_size d degree)%nat ->
  space d degree (points n (fun i => affine d b v (x i))) i k =
  rsum (space_size d degree) (fun j => space d degree (points n x) i j * match degree with None => 0 | Some g => coefficients b v d g j k end).
Proof.
  intros d degree b v n x i k H HK. unfold space, space_size in *. destruct degree as [g|]; [|lia]. unfold MonomialBasis.evaluate. cbv zeta.
  unfold points, values; cbn [mu pt]. apply Nat.ltb_lt in H. rewrite H. apply (affine_columns d g b v k (x i) HK).
Qed.
Lemma space_same : forall d degree n x y i k, (i < n)%nat -> (forall e, (e < d)%nat -> x i e = y i e) -> space d degree (points n x) i k = space d degree (points n y) i k.
Proof.
  intros d degree n x y i k H E. unfold space. destruct degree as [g|]; auto. unfold MonomialBasis.evaluate. cbv zeta.
  unfold points, values; cbn [mu pt]. apply Nat.ltb_lt in H. rewrite H. apply columns_same. auto.
Qed.
Lemma points_rows : forall d n x, rows d (points n x) = n.
Proof. intros. unfold rows, size. cbn. lia. Qed.
Lemma affine_kernel : forall d b v n n' x y terms terms' r c, Forall2 (same_term d b) terms terms' -> (r < n')%nat -> (c < n)%nat ->
  kernel (nat -> R) difference d (map (term_rbf d) terms') (points n (fun i => affine d b v (x i))) (points n' (fun i => affine d b v (y i))) r c =
  kernel (nat -> R) difference d (map (term_rbf d) terms) (points n x) (points n' y) r c.
Proof.
  intros d b v n n' x y terms terms' r c H R0 C. unfold kernel. rewrite !lsum_map. unfold points; cbn [mu sigma pt gpt].
  apply Nat.ltb_lt in R0, C. rewrite R0, C. induction H as [|t t' ts ts' (A & B & B' & E) F IH]; cbn [lsum]; auto. rewrite IH. f_equal.
  cbn [term_rbf ev]. rewrite A, B, B'. unfold evaluate, value_at. f_equal. unfold dot. apply rsum_ext. intros e L.
  assert (X : mat_vec d (ta t') (difference (affine d b v (y r)) (affine d b v (x c))) e = mat_vec d (ta t) (difference (y r) (x c)) e).
  { rewrite <- E by auto. unfold mat_vec at 1 2. apply rsum_ext. intros j _. f_equal. unfold difference, affine. rewrite mat_vec_minus. ring. }
  rewrite X. reflexivity.
Qed.
Lemma fit_affine : forall d degree terms terms' nugget ss ss' b b' v n n' x y rhs w w' f f',
  (forall p e, (e < d)%nat -> mat_vec d b' (mat_vec d b p) e = p e) -> Forall2 (same_term d b) terms terms' ->
  determined d degree (map (term_rbf d) terms) nugget (points n x) ->
  fitted d degree (map (term_rbf d) terms) nugget ss (points n x) rhs w ->
  fitted d degree (map (term_rbf d) terms') nugget ss' (points n (fun i => affine d b v (x i))) rhs w' ->
  surface d degree (map (term_rbf d) terms) (points n x) w (points n' y) f ->
  surface d degree (map (term_rbf d) terms') (points n (fun i => affine d b v (x i))) w' (points n' (fun i => affine d b v (y i))) f' ->
  forall r, (r < n')%nat -> f' r = f r.
Proof.
  intros d degree terms terms' nugget ss ss' b b' v n n' x y rhs w w' f f' INV ST D F F' E E' r R0.
  set (M := fun b v j k => match degree with None => 0 | Some g => coefficients b v d g j k end).
  apply (fit_changed d degree (map (term_rbf d) terms) (map (term_rbf d) terms') nugget ss ss' (points n x) (points n (fun i => affine d b v (x i)))
    (points n' y) (points n' (fun i => affine d b v (y i))) rhs w w' f f' (M b v)); rewrite ?points_rows; auto.
  - intros. apply affine_kernel; auto.
  - intros. apply affine_kernel; auto.
  - intros i k I HK. apply (affine_space d degree b v n x i k I HK).
  - intros i k I HK. apply (affine_space d degree b v n' y i k I HK).
  - intros c. set (v' := fun e => - mat_vec d b' v e).
    apply (orthogonal_through n (space_size d degree) (space d degree (points n x)) (space d degree (points n (fun i => affine d b v (x i)))) (M b' v')).
    intros i k I HK. etransitivity; [|apply (affine_space d degree b' v' n (fun i => affine d b v (x i)) i k I HK)].
    apply (space_same d degree n x (fun i => affine d b' v' (affine d b v (x i))) i k I). intros e L. unfold affine at 1, v'.
    assert (X : mat_vec d b' (affine d b v (x i)) e = mat_vec d b' (mat_vec d b (x i)) e + mat_vec d b' v e).
    { unfold mat_vec at 1 2 4. rewrite <- rsum_plus. apply rsum_ext. intros j _. unfold affine. ring. }
    rewrite X, INV by auto. ring.
Qed.

(** * A factor on the functions and the nugget *)
Lemma scaled_kernel : forall d c rbfs rbfs' s t r k, Forall2 (scaled c) rbfs rbfs' ->
  kernel (nat -> R) difference d rbfs' s t r k = c * kernel (nat -> R) difference d rbfs s t r k.
Proof.
  intros d c rbfs rbfs' s t r k H. unfold kernel. induction H as [|f f' fs fs' (A & B & C) F IH]; cbn [lsum]; [ring|]. rewrite IH, A, !B, C. 
  destruct (r <? _)%nat; destruct (k <? _)%nat; ring.
Qed.
Lemma fit_scaled : forall d degree rbfs rbfs' nugget c ss ss' s t rhs w w' f f', c <> 0 -> Forall2 (scaled c) rbfs rbfs' -> determined d degree rbfs nugget s ->
  fitted d degree rbfs nugget ss s rhs w -> fitted d degree rbfs' (c * nugget) ss' s rhs w' ->
  surface d degree rbfs s w t f -> surface d degree rbfs' s w' t f' -> forall r, (r < rows d t)%nat -> f' r = f r.
Proof.
  intros d degree rbfs rbfs' nugget c ss ss' s t rhs w w' f f' NZ SC D F F' E E' r R0. set (N := rows d s). set (l := space_size d degree).
  set (u := fun i => if (i <? N)%nat then c * w' i else w' i).
  assert (UL : forall i, (i < N)%nat -> u i = c * w' i) by (intros i I; unfold u; apply Nat.ltb_lt in I; rewrite I; reflexivity).
  assert (UR : forall k, u (N + k)%nat = w' (N + k)%nat) by (intros k; unfold u; destruct (Nat.ltb_spec (N + k) N); [lia|reflexivity]).
  assert (KU : forall t i, mat_vec N (kernel (nat -> R) difference d rbfs s t) u i = mat_vec N (kernel (nat -> R) difference d rbfs' s t) w' i).
  { intros t0 i. unfold mat_vec. apply rsum_ext. intros j J. rewrite UL, (scaled_kernel d c rbfs rbfs') by auto. ring. }
  assert (PU : forall p i, mat_vec l p (fun k => u (N + k)%nat) i = mat_vec l p (fun k => w' (N + k)%nat) i) by (intros; apply rsum_ext; intros; rewrite UR; reflexivity).
  assert (U : forall i, (i < N + l)%nat -> w i = u i).
  { apply (fit_unique d degree rbfs nugget ss ss s rhs w u D F). apply system_fit; [apply F|]. intros i I. rewrite system_rows by auto.
    fold N l. rewrite KU, PU. pose proof (fit_system _ _ _ _ _ _ _ _ F' i I) as G. rewrite system_rows in G by auto. fold N l in G.
    destruct (Nat.ltb_spec i N) as [L|L].
    - rewrite <- G. f_equal. f_equal. rewrite UL by auto. destruct (i <? values s)%nat; ring.
    - rewrite (rsum_ext N _ (fun j => c * (space d degree s j (i - N)%nat * w' j))) by (intros; rewrite UL by auto; ring). rewrite rsum_scal, G. ring. }
  rewrite (surface_entries _ _ _ _ _ _ _ E'), (surface_entries _ _ _ _ _ _ _ E) by auto. fold N l. rewrite <- KU, <- PU.
  f_equal; unfold mat_vec; apply rsum_ext; intros k H; rewrite U; auto; lia.
Qed.
Lemma term_scaled : forall d c k p0 p1 a, scaled c (term_rbf d (Term k p0 p1 a)) (term_rbf d (Term k (c * p0) p1 a)).
Proof.
  intros d c k p0 p1 a. unfold scaled, term_rbf. cbn [ev gr he tk t0 t1 ta]. split; [|split].
  - intros v. unfold evaluate, value_at. generalize (dot d (mat_vec d a v) (mat_vec d a v)). intros s.
    destruct k; cbn [value]; unfold even_value, odd_value, cub_value, exp_value, gau_value, gc_value, sph_value, sp_value, lin_value, imq_value, Rdiv; cbv zeta;
      try destruct p; repeat match goal with |- context [is_zero ?x] => destruct (is_zero x) | |- context [lt_dec_b ?x ?y] => destruct (lt_dec_b x y) end; first [ring | rewrite !Rmult_assoc; reflexivity].
  - intros v e. unfold evaluate_gradient, gradient_at. generalize (dot d (mat_vec d a v) (mat_vec d a v)). intros s. set (u := mat_vec d a v). clearbody u.
    assert (G : gradient k (c * p0) p1 s = res_map (fun g => c * g) (gradient k p0 p1 s)).
    { destruct k; cbn [gradient]; unfold even_gradient, odd_gradient, cub_gradient, exp_gradient, gau_gradient, gc_gradient, sph_gradient, sp_gradient, lin_gradient, imq_gradient,
        even_coeff, odd_coeff, gc_coeff, lin_coeff, imq_coeff, Rdiv; cbv zeta;
      try destruct p; repeat match goal with |- context [is_zero ?x] => destruct (is_zero x) | |- context [lt_dec_b ?x ?y] => destruct (lt_dec_b x y) end;
      cbn [res_map res_map2]; try reflexivity; f_equal; first [ring | rewrite !Rmult_assoc; reflexivity]. }
    rewrite G. destruct (gradient k p0 p1 s); cbn [res_map component]; try ring. unfold row_mat. rewrite <- rsum_scal. apply rsum_ext; intros; ring.
  - intros v x e. unfold evaluate_hessian, hessian_at. generalize (dot d (mat_vec d a v) (mat_vec d a v)). intros s. set (u := mat_vec d a v). clearbody u.
    assert (G : hessian k (c * p0) p1 s = res_map (fun h => (c * fst h, c * snd h)) (hessian k p0 p1 s)).
    { destruct k; cbn [hessian]; unfold even_hessian, odd_hessian, cub_hessian, exp_hessian, gau_hessian, gc_hessian, sph_hessian, sp_hessian, lin_hessian, imq_hessian, hess_minus,
        even_coeff, odd_coeff, gc_coeff, lin_coeff, imq_coeff, Rdiv; cbv zeta;
      try destruct p; repeat match goal with |- context [is_zero ?x] => destruct (is_zero x) | |- context [lt_dec_b ?x ?y] => destruct (lt_dec_b x y) end;
      cbn [res_map res_map2 fst snd]; try reflexivity; f_equal; f_equal; ring. }
    rewrite G. destruct (hessian k p0 p1 s) as [[h1 h2]| |]; cbn [res_map entry fst snd]; try ring. unfold sandwich. rewrite <- rsum_scal. apply rsum_ext. intros j _.
    rewrite <- !rsum_scal_r, <- rsum_scal. apply rsum_ext; intros; ring.
Qed.
Lemma terms_scaled : forall d c terms, Forall2 (scaled c) (map (term_rbf d) terms) (map (term_rbf d) (map (fun t => Term (tk t) (c * t0 t) (t1 t) (ta t)) terms)).
Proof. intros d c terms. induction terms as [|[k p0 p1 a] ts IH]; cbn [map]; constructor; auto. apply term_scaled. Qed.

(** * Energy *)
Lemma terms_nonneg : forall n d x terms m c, Forall (good_term d m) terms -> moments n d x m c -> 0 <= energy d n (map (term_rbf d) terms) x c.
Proof.
  intros n d x terms m c G C. unfold energy. rewrite Forall_forall in G.
  set (K := fun t => kern d (fun i => mat_vec d (ta t) (x i)) (value (tk t) (t0 t) (t1 t))).
  rewrite (quad_ext n _ (fun i j => lsum terms (fun t => K t i j))).
  2:{ intros i j I J. unfold kernel. rewrite lsum_map. apply lsum_ext. intros t _. unfold points; cbn [mu pt]. destruct (Nat.ltb_spec i n); [|lia]. destruct (Nat.ltb_spec j n); [|lia].
      apply term_kern. }
  rewrite quad_lsum. apply lsum_nonneg. intros t I. destruct (G t I) as (k & O & L & T0 & T1 & _). apply (kind_nonneg_in n d _ (tk t) k); auto.
  apply moments_linear. apply (moments_less n d x m); auto.
Qed.
Lemma orthogonal_moments : forall d n degree x c, degree_ok d degree ->
  orthogonal d n degree x c -> moments n d x (order degree) c.
Proof.
  intros d n [g|] x c H O; cbn [order degree_ok] in *.
  - apply (columns_cover n d g x); try lia. exact O.
  - split; [|split]; intros; lia.
Qed.
Lemma points_kernel_same : forall d rbfs n n' m m' x y i j, (i < m)%nat -> (i < m')%nat -> (j < n)%nat -> (j < n')%nat ->
  kernel (nat -> R) difference d rbfs (points n x) (points m y) i j = kernel (nat -> R) difference d rbfs (points n' x) (points m' y) i j.
Proof.
  intros d rbfs n n' m m' x y i j A B C D. unfold kernel, points; cbn [mu pt]. apply Nat.ltb_lt in A, B, C, D. rewrite A, B, C, D. reflexivity.
Qed.
Lemma space_points_same : forall d degree n n' x i k, (i < n)%nat -> (i < n')%nat -> space d degree (points n x) i k = space d degree (points n' x) i k.
Proof.
  intros d degree n n' x i k A B. unfold space. destruct degree; auto. unfold MonomialBasis.evaluate, points, values; cbn [mu pt]. apply Nat.ltb_lt in A, B. rewrite A, B. reflexivity.
Qed.
Lemma rsum_cut : forall n m g, (n <= m)%nat -> rsum m (fun i => if (i <? n)%nat then g i else 0) = rsum n g.
Proof.
  intros n m g L. replace m with (n + (m - n))%nat by lia. rewrite rsum_app. rewrite (rsum_ext n _ g). 2:{ intros i I. apply Nat.ltb_lt in I. rewrite I. reflexivity. }
  rewrite (rsum_0 (m - n)); [ring|]. intros i _. destruct (Nat.ltb_spec (n + i) n); [lia|reflexivity].
Qed.
Section Gap.
Variables (d : nat) (degree : option nat) (terms : list term) (n n' : nat) (x : nat -> nat -> R) (w w' f f' : nat -> R).
Let rbfs := map (term_rbf d) terms.
Hypothesis (DG : degree_ok d degree) (GT : Forall (good_term d (order degree)) terms) (O : orthogonal d n degree x w) (LE : (n <= n')%nat) (O' : orthogonal d n' degree x w')
  (E : surface d degree rbfs (points n x) w (points n x) f) (E' : surface d degree rbfs (points n' x) w' (points n x) f').
Lemma weights_polynomial : forall a, rsum n (fun i => w i * mat_vec (space_size d degree) (space d degree (points n x)) a i) = 0.
Proof using O.
  intros a. unfold mat_vec. rewrite (rsum_ext n _ (fun i => rsum (space_size d degree) (fun k => a k * (space d degree (points n x) i k * w i)))).
  2:{ intros i _. rewrite <- rsum_scal. apply rsum_ext; intros; ring. }
  rewrite rsum_swap. apply rsum_0. intros k HK. rewrite rsum_scal. rewrite (O k HK). ring.
Qed.
Definition weights_gap (i : nat) : R := w' i - (if (i <? n)%nat then w i else 0).
Lemma gap_orthogonal : orthogonal d n' degree x weights_gap.
Proof using O LE O'.
  intros k HK. unfold weights_gap. rewrite (rsum_ext n' _ (fun i => space d degree (points n' x) i k * w' i - (if (i <? n)%nat then space d degree (points n x) i k * w i else 0))).
  2:{ intros i I. destruct (Nat.ltb_spec i n) as [L|L]; [|ring]. rewrite (space_points_same d degree n' n) by auto. ring. }
  rewrite rsum_minus, rsum_cut by auto. rewrite (O' k HK), (O k HK). ring.
Qed.
Lemma energy_split : energy d n' rbfs x w' = energy d n rbfs x w + 2 * rsum n (fun i => w i * (f' i - f i)) + energy d n' rbfs x weights_gap.
Proof using O LE E E'.
  set (K := kernel (nat -> R) difference d rbfs (points n' x) (points n' x)).
  set (W := fun i => if (i <? n)%nat then w i else 0). set (dl := fun i => w' i - W i).
  assert (WQ : quad n' K W = energy d n rbfs x w).
  { unfold energy, quad. rewrite <- (rsum_cut n n') by auto. apply rsum_ext. intros i I. unfold W. destruct (Nat.ltb_spec i n) as [L|L].
    - rewrite <- (rsum_cut n n') by auto. apply rsum_ext. intros j J. destruct (Nat.ltb_spec j n) as [L'|L']; [|ring].
      unfold K. rewrite (points_kernel_same d rbfs n' n n' n) by auto. reflexivity.
    - apply rsum_0. intros; ring. }
  assert (SYM : forall i j, (i < n')%nat -> (j < n')%nat -> K i j = K j i).
  { intros i j I J. apply (kernel_symmetric (nat -> R) difference d rbfs (terms_even d terms) (points n' x)); fold (rows d (points n' x)); rewrite points_rows; auto. }
  assert (C : rsum n' (fun i => W i * mat_vec n' K dl i) = rsum n (fun i => w i * (f' i - f i))).
  { rewrite (rsum_ext n' _ (fun i => if (i <? n)%nat then w i * mat_vec n' K dl i else 0)). 2:{ intros i _. unfold W. destruct (i <? n)%nat; ring. }
    rewrite rsum_cut by auto.
    set (l := space_size d degree). set (p := space d degree (points n x)).
    set (a := fun k => w' (n' + k)%nat - w (n + k)%nat).
    rewrite (rsum_ext n (fun i => w i * (f' i - f i)) (fun i => w i * mat_vec n' K dl i + w i * mat_vec l p a i)).
    2:{ intros i I. rewrite (surface_entries _ _ _ _ _ _ _ E'), (surface_entries _ _ _ _ _ _ _ E) by (rewrite points_rows; auto). rewrite !points_rows.
        assert (A1 : mat_vec n' K dl i = mat_vec n' (kernel (nat -> R) difference d rbfs (points n' x) (points n x)) w' i - mat_vec n (kernel (nat -> R) difference d rbfs (points n x) (points n x)) w i).
        { unfold mat_vec. rewrite <- (rsum_cut n n') by auto. rewrite <- rsum_minus. apply rsum_ext. intros j J. unfold dl, W, K.
          rewrite (points_kernel_same d rbfs n' n' n' n x x i j) by (auto; lia). destruct (Nat.ltb_spec j n); [|ring]. 
          rewrite (points_kernel_same d rbfs n' n n n x x i j) by (auto; lia). ring. }
        assert (A2 : mat_vec l p a i = mat_vec l p (fun k => w' (n' + k)%nat) i - mat_vec l p (fun k => w (n + k)%nat) i).
        { unfold mat_vec. rewrite <- rsum_minus. apply rsum_ext. intros; unfold a; ring. }
        rewrite A1, A2. fold l p. ring. }
    rewrite rsum_plus. unfold l, p. rewrite weights_polynomial. ring. }
  pose proof (quad_shift n' K W dl 1 SYM) as Q. rewrite C, WQ in Q.
  change (energy d n' rbfs x weights_gap) with (quad n' K dl).
  change (energy d n' rbfs x w') with (quad n' K w'). replace (quad n' K w') with (quad n' K (fun i => W i + 1 * dl i)); [lra|].
  unfold quad. apply rsum_ext. intros i _. apply rsum_ext. intros j _. unfold dl. ring.
Qed.
Lemma energy_distance : energy d n rbfs x w + 2 * rsum n (fun i => w i * (f' i - f i)) <= energy d n' rbfs x w'.
Proof using DG GT O LE O' E E'.
  rewrite energy_split. assert (P : 0 <= energy d n' rbfs x weights_gap); [|lra].
  apply (terms_nonneg n' d x terms (order degree) weights_gap GT), orthogonal_moments; auto. apply gap_orthogonal.
Qed.
End Gap.
Section Energy.
Variables (d : nat) (degree : option nat) (terms : list term) (nugget : R) (ss : list (list nat * (nat -> nat))) (n n' : nat) (x : nat -> nat -> R) (rhs w w' f f' : nat -> R).
Let rbfs := map (term_rbf d) terms.
Hypothesis (DG : degree_ok d degree) (GT : Forall (good_term d (order degree)) terms)
  (F : fitted d degree rbfs nugget ss (points n x) rhs w) (LE : (n <= n')%nat) (O' : orthogonal d n' degree x w')
  (E : surface d degree rbfs (points n x) w (points n x) f) (E' : surface d degree rbfs (points n' x) w' (points n x) f').
Lemma fit_orthogonal : orthogonal d n degree x w.
Proof using F LE.
  intros k HK. pose proof (fit_system _ _ _ _ _ _ _ _ F (n + k)%nat) as G. rewrite points_rows in G. specialize (G ltac:(lia)).
  pose proof (system_rows d degree rbfs nugget (points n x) w (n + k)%nat) as G2. rewrite points_rows in G2. rewrite G2 in G by lia.
  destruct (Nat.ltb_spec (n + k) n); [lia|]. replace (n + k - n)%nat with k in G by lia. exact G.
Qed.
Lemma energy_gap : energy d n rbfs x w + 2 * rsum n (fun i => w i * (f' i - f i)) <= energy d n' rbfs x w'.
Proof using DG GT F LE O' E E'. exact (energy_distance d degree terms n n' x w w' f f' DG GT fit_orthogonal LE O' E E'). Qed.
Lemma fit_least : nugget = 0 -> (forall i, (i < n)%nat -> f' i = rhs i) -> energy d n rbfs x w <= energy d n' rbfs x w'.
Proof using DG GT F LE O' E E'.
  intros Z H. pose proof energy_gap as G. assert (X0 : rsum n (fun i => w i * (f' i - f i)) = 0); [|rewrite X0 in G; lra]. apply rsum_0. intros i I.
  pose proof (fit_exact _ _ _ _ _ _ _ _ _ F E i) as X. rewrite points_rows in X. specialize (X I). rewrite H by auto. rewrite <- X, Z. destruct (i <? _)%nat; ring.
Qed.
Lemma fit_smooths : 0 < nugget ->
  energy d n rbfs x w + rsum n (fun i => (rhs i - f i) ^ 2 / nugget) <= energy d n' rbfs x w' + rsum n (fun i => (rhs i - f' i) ^ 2 / nugget).
Proof using DG GT F LE O' E E'.
  intros Z. pose proof energy_gap as G.
  assert (X : forall i, (i < n)%nat -> w i = (rhs i - f i) / nugget).
  { intros i I. pose proof (fit_exact _ _ _ _ _ _ _ _ _ F E i) as X. rewrite points_rows in X. specialize (X I). unfold values, points in X; cbn [mu] in X.
    apply Nat.ltb_lt in I. rewrite I in X. rewrite <- X. field. lra. }
  assert (H : rsum n (fun i => (rhs i - f i) ^ 2 / nugget) <= rsum n (fun i => 2 * (w i * (f' i - f i)) + (rhs i - f' i) ^ 2 / nugget)).
  { apply rsum_le. intros i I. rewrite X by auto. assert (Y : 0 <= (f' i - f i) ^ 2 / nugget). { apply Rmult_le_pos; [apply pow2_ge_0|left; apply Rinv_0_lt_compat; auto]. }
    replace (2 * ((rhs i - f i) / nugget * (f' i - f i)) + (rhs i - f' i) ^ 2 / nugget) with ((rhs i - f i) ^ 2 / nugget + (f' i - f i) ^ 2 / nugget) by (field; lra). lra. }
  rewrite rsum_plus, rsum_scal in H. lra.
Qed.
End Energy.
