From Coq Require Import Reals List Arith Lia Lra.
From Verif Require Import Model.LinAlg Model.Operator Proofs.LinAlg Spec.Operator.
Import ListNotations.

(** Schedules do not matter as soon as adding zero does nothing. *)
Lemma parallel_spec : forall (A : Type) (add : A -> A -> A) (zero : A), (forall x, add x zero = x) ->
  forall order who f y r, NoDup order -> In (who r) order -> parallel A add zero order who f y r = add (y r) (f r).
Proof.
  intros A add zero Z order who f y r ND I. unfold parallel. generalize (y r). intros a. clear y.
  assert (forall o b, ~ In (who r) o -> fold_left (fun acc t => add acc (if Nat.eqb (who r) t then f r else zero)) o b = b) as NONE.
  { induction o as [|t o IH]; intros b N; cbn; auto. destruct (Nat.eqb_spec (who r) t) as [E|E]; [exfalso; apply N; left; auto|].
    rewrite Z. apply IH. intros X. apply N. right. auto. }
  revert a. induction ND as [|t o NI ND IH]; intros a; [destruct I|]. cbn. destruct (Nat.eqb_spec (who r) t) as [E|E].
  - rewrite NONE; auto. rewrite E. auto.
  - rewrite Z. apply IH. destruct I; [congruence|auto].
Qed.

Local Open Scope R_scope.
Section Proofs.
Variable V : Type.
Variable dif : V -> V -> V.
Variable origin : V.
Variable dim : nat.
Variable rbfs : list (rbf V).
Variable nugget : R.
Variable l : nat.
Notation size := (size V dim).
Notation row := (row V dif dim).

Lemma sweep_spec : forall ss s t w y r, schedules_ok V rbfs (size t) ss -> (r < size t)%nat ->
  sweep V dif dim rbfs ss s t w y r = y r + lsum rbfs (fun f => row f s t w r).
Proof.
  intros ss s t w y r [L F] R. unfold sweep. revert ss y L F. induction rbfs as [|f fs IH]; intros ss y L F; [cbn; lra|].
  destruct ss as [|so ss]; [discriminate|]. inversion F as [|? ? [ND O] F']; subst. cbn [combine fold_left lsum fst snd].
  rewrite IH; auto. rewrite parallel_spec; auto; [lra|intros; lra].
Qed.

(** A row is a row of the kernel matrix times the weights. *)
Lemma split_index : forall a b k e, (e < dim)%nat -> k = (dim * b + e)%nat -> ((a + k - a) / dim = b /\ (a + k - a) mod dim = e)%nat.
Proof.
  intros a b k e E ->. replace (a + (dim * b + e) - a)%nat with (e + b * dim)%nat by lia. split.
  - rewrite Nat.div_add, Nat.div_small by lia. lia.
  - rewrite Nat.mod_add, Nat.mod_small by lia. lia.
Qed.
Lemma rsum_lsum : forall (A : Type) (fs : list A) n (h : A -> nat -> R), rsum n (fun i => lsum fs (fun f => h f i)) = lsum fs (fun f => rsum n (h f)).
Proof. induction fs as [|f fs IH]; intros n h; cbn; [apply rsum_0; auto|]. rewrite rsum_plus, IH. reflexivity. Qed.
Lemma lsum_scal : forall (A : Type) (fs : list A) c h, lsum fs (fun f => h f * c) = lsum fs h * c.
Proof. induction fs as [|f fs IH]; intros c h; cbn; [lra|]. rewrite IH. lra. Qed.
Lemma rows_kernel : forall s t w r, lsum rbfs (fun f => row f s t w r) = mat_vec (size s) (kernel V dif dim rbfs s t) w r.
Proof.
  intros s t w r. unfold mat_vec. rewrite (rsum_ext _ _ (fun c => lsum rbfs (fun f =>
    (if (r <? mu V t)%nat then
      if (c <? mu V s)%nat then ev V f (dif (pt V t r) (pt V s c))
      else - gr V f (dif (pt V t r) (gpt V s ((c - mu V s) / dim))) ((c - mu V s) mod dim)
    else
      if (c <? mu V s)%nat then gr V f (dif (gpt V t ((r - mu V t) / dim)) (pt V s c)) ((r - mu V t) mod dim)
      else - he V f (dif (gpt V t ((r - mu V t) / dim)) (gpt V s ((c - mu V s) / dim))) ((c - mu V s) mod dim) ((r - mu V t) mod dim)) * w c)))
    by (intros c _; unfold kernel; rewrite <- lsum_scal; reflexivity).
  rewrite rsum_lsum. apply lsum_ext. intros f _. unfold Operator.row, Operator.size. rewrite rsum_app, rsum_mul.
  destruct (r <? mu V t)%nat; unfold value_row, grad_row; f_equal.
  - apply rsum_ext. intros c C. destruct (Nat.ltb_spec c (mu V s)); [lra|lia].
  - apply rsum_ext. intros j J. apply rsum_ext. intros e E. destruct (Nat.ltb_spec (mu V s + (dim * j + e)) (mu V s)); [lia|].
    destruct (split_index (mu V s) j _ e E eq_refl) as [-> ->]. rewrite Nat.add_assoc. lra.
  - apply rsum_ext. intros c C. destruct (Nat.ltb_spec c (mu V s)); [lra|lia].
  - apply rsum_ext. intros j J. apply rsum_ext. intros e E. destruct (Nat.ltb_spec (mu V s + (dim * j + e)) (mu V s)); [lia|].
    destruct (split_index (mu V s) j _ e E eq_refl) as [-> ->]. rewrite Nat.add_assoc. lra.
Qed.

Lemma nugget_row : forall n w r, (r < size n)%nat -> rsum (size n) (fun c => nugget_at V nugget n r c * w c) = if (r <? mu V n)%nat then w r * nugget else 0.
Proof.
  intros n w r R. rewrite (rsum_single _ r); auto.
  - unfold nugget_at. rewrite Nat.eqb_refl. destruct (r <? mu V n)%nat; lra.
  - intros i I N. unfold nugget_at. destruct (Nat.eqb_spec r i); [congruence|lra].
Qed.

Theorem direct_entries : forall ss n p w r, schedules_ok V rbfs (size n) ss -> (r < size n + l)%nat ->
  direct_operator V dif dim rbfs nugget l ss n p w r = mat_vec (size n + l) (system V dif dim rbfs nugget n p) w r.
Proof.
  intros ss n p w r S R. unfold direct_operator, mat_vec. rewrite rsum_app. unfold system. cbv zeta.
  destruct (Nat.ltb_spec r (size n)) as [L|L].
  - rewrite sweep_spec by auto. rewrite rows_kernel.
    rewrite (rsum_ext (size n) _ (fun c => kernel V dif dim rbfs n n r c * w c + nugget_at V nugget n r c * w c)).
    2:{ intros c C. destruct (Nat.ltb_spec c (size n)); [lra|lia]. }
    rewrite rsum_plus, nugget_row by auto. unfold mat_vec.
    rewrite (rsum_ext l (fun j => (if (size n + j <? size n)%nat then _ else _) * _) (fun k => p r k * w (size n + k)%nat)).
    2:{ intros k K. destruct (Nat.ltb_spec (size n + k) (size n)); [lia|]. replace (size n + k - size n)%nat with k by lia. auto. }
    lra.
  - match goal with |- _ = _ + rsum l ?h => rewrite (rsum_0 l h) end.
    2:{ intros k K. destruct (Nat.ltb_spec (size n + k) (size n)); [lia|]. lra. }
    rewrite Rplus_0_r. apply rsum_ext. intros c C. destruct (Nat.ltb_spec c (size n)); [auto|lia].
Qed.

Lemma divmod : forall n r, (mu V n <= r < size n)%nat -> ((r - mu V n) / dim < sigma V n /\ (r - mu V n) mod dim < dim /\
  r = mu V n + dim * ((r - mu V n) / dim) + (r - mu V n) mod dim)%nat.
Proof.
  intros n r [L U]. unfold Operator.size in U. assert (dim <> 0)%nat as D by (intros ->; lia).
  pose proof (Nat.div_mod (r - mu V n) dim D). pose proof (Nat.mod_upper_bound (r - mu V n) dim D).
  split; [apply Nat.div_lt_upper_bound; lia|]. lia.
Qed.

Lemma kernel_symmetric : Forall (even_rbf V dif dim) rbfs -> forall n r c, (r < size n)%nat -> (c < size n)%nat ->
  kernel V dif dim rbfs n n r c = kernel V dif dim rbfs n n c r.
Proof.
  intros E n r c R C. unfold kernel. apply lsum_ext. intros f F. rewrite Forall_forall in E. specialize (E f F).
  destruct (Nat.ltb_spec r (mu V n)) as [L|L]; destruct (Nat.ltb_spec c (mu V n)) as [K|K].
  - apply (E (pt V n r) (pt V n c)).
  - destruct (divmod n c ltac:(lia)) as (_ & Q & _). destruct (E (pt V n r) (gpt V n ((c - mu V n) / dim))) as (_ & H & _). rewrite H by auto. lra.
  - destruct (divmod n r ltac:(lia)) as (_ & Q & _). destruct (E (gpt V n ((r - mu V n) / dim)) (pt V n c)) as (_ & H & _). rewrite H by auto. lra.
  - destruct (divmod n r ltac:(lia)) as (_ & Q & _). destruct (divmod n c ltac:(lia)) as (_ & Q' & _).
    destruct (E (gpt V n ((r - mu V n) / dim)) (gpt V n ((c - mu V n) / dim))) as (_ & _ & H). destruct (H _ _ Q' Q) as [H1 H2]. rewrite H2, (proj1 (H _ _ Q Q')). auto.
Qed.
Theorem system_symmetric : Forall (even_rbf V dif dim) rbfs -> forall n p r c, (r < size n + l)%nat -> (c < size n + l)%nat ->
  system V dif dim rbfs nugget n p r c = system V dif dim rbfs nugget n p c r.
Proof.
  intros E n p r c R C. unfold system. cbv zeta. destruct (Nat.ltb_spec r (size n)); destruct (Nat.ltb_spec c (size n)); auto.
  rewrite (kernel_symmetric E) by auto. f_equal. unfold nugget_at. destruct (Nat.eq_dec r c) as [->|N]; auto.
  destruct (Nat.eqb_spec r c); destruct (Nat.eqb_spec c r); congruence.
Qed.

Theorem operator_linear : forall ss n p a b w v r, schedules_ok V rbfs (size n) ss -> (r < size n + l)%nat ->
  direct_operator V dif dim rbfs nugget l ss n p (fun i => a * w i + b * v i) r =
  a * direct_operator V dif dim rbfs nugget l ss n p w r + b * direct_operator V dif dim rbfs nugget l ss n p v r.
Proof.
  intros ss n p a b w v r S R. rewrite !direct_entries by auto. unfold mat_vec. rewrite <- !rsum_scal, <- rsum_plus. apply rsum_ext. intros. lra.
Qed.

(** The evaluator at the nodes themselves. *)
Theorem evaluator_entries : forall ss s t p w r, schedules_ok V rbfs (size t) ss -> (r < size t)%nat ->
  direct_evaluator V dif dim rbfs l ss s t p w r = mat_vec (size s) (kernel V dif dim rbfs s t) w r + mat_vec l p (fun k => w (size s + k)%nat) r.
Proof. intros ss s t p w r S R. unfold direct_evaluator. rewrite sweep_spec, rows_kernel by auto. lra. Qed.
Theorem evaluator_operator : forall ss ss' n p w r, schedules_ok V rbfs (size n) ss -> schedules_ok V rbfs (size n) ss' -> (r < size n)%nat ->
  direct_operator V dif dim rbfs nugget l ss n p w r =
  direct_evaluator V dif dim rbfs l ss' n n p w r + (if (r <? mu V n)%nat then nugget * w r else 0).
Proof.
  intros ss ss' n p w r S S' R. unfold direct_operator, direct_evaluator. destruct (Nat.ltb_spec r (size n)); [|lia]. rewrite !sweep_spec by auto.
  destruct (r <? mu V n)%nat; lra.
Qed.

(** The operator with fast evaluators. *)
Theorem fast_direct : forall ss fs n p w r, schedules_ok V rbfs (size n) ss -> Forall2 (exact_fast V dif dim n) rbfs fs -> (r < size n + l)%nat ->
  fast_operator V dim nugget l fs n p w r = direct_operator V dif dim rbfs nugget l ss n p w r.
Proof.
  intros ss fs n p w r S E R. unfold fast_operator, direct_operator. destruct (Nat.ltb_spec r (size n)) as [L|L]; auto.
  rewrite sweep_spec by auto. f_equal. set (y0 := fun r0 => if (r0 <? mu V n)%nat then w r0 * nugget else 0).
  change (if (r <? mu V n)%nat then w r * nugget else 0) with (y0 r). generalize y0. clear S y0.
  induction E as [|f e fs' es EX E IH]; intros y; [cbn; lra|]. cbn [fold_left lsum]. rewrite IH.
  assert (forall a b c d, a = b + c -> a + d = b + (c + d)) as ADD by (intros; lra). apply ADD. clear IH ADD.
  unfold Operator.row. destruct (Nat.ltb_spec r (mu V n)) as [K|K].
  - destruct (proj1 (EX w) r K) as [E1 _]. destruct (proj1 (EX (fun k => w (mu V n + k)%nat)) r K) as [_ E2]. rewrite E1, E2. unfold value_row.
    rewrite Rplus_assoc. f_equal. f_equal. apply rsum_ext. intros j J. apply rsum_ext. intros c C. rewrite Nat.add_assoc. auto.
  - destruct (divmod n r ltac:(lia)) as (Q1 & Q2 & Q3).
    set (i := ((r - mu V n) / dim)%nat) in *. set (c := ((r - mu V n) mod dim)%nat) in *. replace (r - mu V n)%nat with (dim * i + c)%nat by lia.
    destruct (proj2 (EX w) i c Q1 Q2) as [E1 _]. destruct (proj2 (EX (fun k => w (mu V n + k)%nat)) i c Q1 Q2) as [_ E2]. rewrite E1, E2. unfold grad_row.
    rewrite Rplus_assoc. f_equal. f_equal. apply rsum_ext. intros j J. apply rsum_ext. intros b B. rewrite Nat.add_assoc. auto.
Qed.

(** The matrix of the preconditioner. *)
Lemma fold_lsum : forall (A : Type) (fs : list A) (h : A -> R) a, fold_left (fun a f => a + h f) fs a = a + lsum fs h.
Proof. induction fs as [|f fs IH]; intros h a; cbn; [lra|]. rewrite IH. lra. Qed.
Lemma upper_kernel : (forall x, dif x x = origin) -> forall n i j, (i <= j)%nat -> (j < size n)%nat -> Forall (even_rbf V dif dim) rbfs ->
  upper V dif origin dim rbfs nugget n i j = kernel V dif dim rbfs n n i j + nugget_at V nugget n i j.
Proof.
  intros D n i j L U EV. unfold upper, kernel, nugget_at. rewrite !fold_lsum.
  destruct (Nat.ltb_spec j (mu V n)) as [K|K].
  - destruct (Nat.ltb_spec i (mu V n)); [|lia]. destruct (Nat.eqb_spec i j) as [->|N]; [rewrite D; lra|lra].
  - destruct (Nat.ltb_spec i (mu V n)) as [K'|K'].
    + destruct (Nat.eqb_spec i j); [lia|]. lra.
    + destruct (divmod n i ltac:(lia)) as (_ & Qi & _). destruct (divmod n j ltac:(lia)) as (_ & Qj & _).
      replace (if Nat.eqb i j then 0 else 0) with 0 by (destruct (Nat.eqb i j); auto).
      set (a := ((i - mu V n) / dim)%nat) in *. set (b := ((j - mu V n) / dim)%nat) in *.
      set (c := ((i - mu V n) mod dim)%nat) in *. set (e := ((j - mu V n) mod dim)%nat) in *.
      destruct (Nat.eqb_spec a b) as [E|E]; rewrite Rplus_0_l, Rplus_0_r; apply lsum_ext; intros f F; rewrite Forall_forall in EV; destruct (EV f F (gpt V n a) (gpt V n b)) as (_ & _ & H).
      * destruct (H c e Qi Qj) as [_ H2]. rewrite <- E, D in H2 |- *. rewrite H2. auto.
      * destruct (H c e Qi Qj) as [_ H2]. rewrite H2. auto.
Qed.
Theorem mat_a_system : (forall x, dif x x = origin) -> Forall (even_rbf V dif dim) rbfs -> forall n i j, (i < size n)%nat -> (j < size n)%nat ->
  mat_a V dif origin dim rbfs nugget n i j = kernel V dif dim rbfs n n i j + nugget_at V nugget n i j.
Proof.
  intros D EV n i j I J. unfold mat_a. destruct (Nat.leb_spec i j) as [L|L].
  - apply upper_kernel; auto.
  - rewrite upper_kernel by (auto; lia). rewrite (kernel_symmetric EV) by auto. f_equal. unfold nugget_at.
    destruct (Nat.eqb_spec j i); destruct (Nat.eqb_spec i j); try lia. auto.
Qed.
End Proofs.
