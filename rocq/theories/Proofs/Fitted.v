From Coq Require Import Reals List Arith Lia Lra FinFun FunctionalExtensionality Permutation.
From Verif Require Import Proofs.LinAlg Proofs.Operator Proofs.PositiveSystem Proofs.HermiteSystem.
From Verif Require Import Model.LinAlg Model.MonomialBasis Model.Rbfs Model.Operator Spec.Rbfs Spec.Operator Spec.PositiveDefinite Spec.Hermite Spec.Fitted.
Import ListNotations.
Local Open Scope R_scope.

Lemma permutes_sum : forall n f h, permutes n f -> rsum n (fun i => h (f i)) = rsum n h.
Proof.
  intros n f h [B J]. rewrite <- !lsum_seq. rewrite <- (lsum_map _ _ f). apply lsum_perm. apply NoDup_Permutation_bis.
  -
    assert (G : forall l, NoDup l -> (forall i, In i l -> (i < n)%nat) -> NoDup (map f l)).
    { induction l as [|a l IH]; intros ND L; cbn; [constructor|]. inversion ND; subst. constructor.
      - intros I. apply in_map_iff in I. destruct I as (b & E & I). assert (b = a) by (apply J; auto; apply L; [right|left]; auto). subst. contradiction.
      - apply IH; auto. intros; apply L; right; auto. }
    apply G; [apply seq_NoDup|]. intros i I. apply in_seq in I. lia.
  - rewrite map_length. auto.
  - intros y Y. apply in_map_iff in Y. destruct Y as (i & <- & I). apply in_seq in I. apply in_seq. specialize (B i ltac:(lia)). lia.
Qed.
Lemma permutes_inverse : forall n f, permutes n f -> exists g, (forall i, (i < n)%nat -> (g i < n)%nat) /\ forall i, (i < n)%nat -> g (f i) = i /\ f (g i) = i.
Proof.
  intros n f [B J]. destruct (bSurjective_bBijective (n := n) (f := f)) as (g & G & H); [exact B| |exists g; auto].
  apply (bInjective_bSurjective B). exact J.
Qed.
Lemma reindexed : forall n a a' f w w' b, permutes n f -> (forall r c, (r < n)%nat -> (c < n)%nat -> a' r c = a (f r) (f c)) -> solved_once n a ->
  (forall r, (r < n)%nat -> mat_vec n a w r = b r) -> (forall r, (r < n)%nat -> mat_vec n a' w' r = b (f r)) ->
  forall r, (r < n)%nat -> w' r = w (f r).
Proof.
  intros n a a' f w w' b P A S W W' r R0. destruct (permutes_inverse n f P) as (g & G & H). destruct (S b) as [_ U].
  rewrite <- (U (fun c => w' (g c)) w); auto.
  - destruct (H r R0) as [-> _]. reflexivity.
  - intros i I. destruct (H i I) as [_ E]. rewrite <- E at 2. rewrite <- W' by auto. unfold mat_vec.
    rewrite <- (permutes_sum n f (fun c => a i c * w' (g c))) by auto. apply rsum_ext. intros c C. destruct (H c C) as [-> _].
    rewrite A, E by auto. reflexivity.
  - apply P. auto.
Qed.

Section Fit.
Variables (d : nat) (degree : option nat) (rbfs : list (rbf (nat -> R))) (nugget : R).
Notation l := (space_size d degree).
Notation sp := (space d degree).
Notation K := (kernel (nat -> R) difference d rbfs).
Lemma fit_system : forall ss s rhs w, fitted d degree rbfs nugget ss s rhs w ->
  forall r, (r < rows d s + l)%nat -> mat_vec (rows d s + l) (system (nat -> R) difference d rbfs nugget s (sp s)) w r = if (r <? rows d s)%nat then rhs r else 0.
Proof. intros ss s rhs w [S H] r R0. rewrite <- H by auto. symmetry. apply direct_entries; auto. Qed.
Lemma system_fit : forall ss s rhs w, schedules_ok (nat -> R) rbfs (rows d s) ss ->
  (forall r, (r < rows d s + l)%nat -> mat_vec (rows d s + l) (system (nat -> R) difference d rbfs nugget s (sp s)) w r = if (r <? rows d s)%nat then rhs r else 0) ->
  fitted d degree rbfs nugget ss s rhs w.
Proof. intros ss s rhs w S H. split; auto. intros r R0. rewrite <- H by auto. apply direct_entries; auto. Qed.
Lemma surface_entries : forall s w t f, surface d degree rbfs s w t f -> forall r, (r < rows d t)%nat ->
  f r = mat_vec (rows d s) (K s t) w r + mat_vec l (sp t) (fun k => w (rows d s + k)%nat) r.
Proof. intros s w t f (ss & S & H) r R0. rewrite H by auto. apply evaluator_entries; auto. Qed.
Lemma system_rows : forall s w r, (r < rows d s + l)%nat ->
  mat_vec (rows d s + l) (system (nat -> R) difference d rbfs nugget s (sp s)) w r =
  if (r <? rows d s)%nat then mat_vec (rows d s) (K s s) w r + (if (r <? values s)%nat then w r * nugget else 0) + mat_vec l (sp s) (fun k => w (rows d s + k)%nat) r
  else rsum (rows d s) (fun i => sp s i (r - rows d s)%nat * w i).
Proof.
  intros s w r R0. unfold mat_vec. rewrite rsum_app. unfold system. cbv zeta. fold (rows d s). destruct (Nat.ltb_spec r (rows d s)) as [L|L].
  - f_equal.
    + unfold values. rewrite <- (nugget_row (nat -> R) d nugget s w r) by auto. fold (rows d s). rewrite <- rsum_plus. apply rsum_ext. intros c C.
      apply Nat.ltb_lt in C. rewrite C. ring.
    + apply rsum_ext. intros k _. destruct (Nat.ltb_spec (rows d s + k) (rows d s)); [lia|]. replace (rows d s + k - rows d s)%nat with k by lia. reflexivity.
  - rewrite (rsum_0 l). 2:{ intros k _. destruct (Nat.ltb_spec (rows d s + k) (rows d s)); [lia|]. ring. }
    rewrite Rplus_0_r. apply rsum_ext. intros c C. apply Nat.ltb_lt in C. rewrite C. reflexivity.
Qed.
Lemma fit_unique : forall ss ss' s rhs w w', determined d degree rbfs nugget s -> fitted d degree rbfs nugget ss s rhs w -> fitted d degree rbfs nugget ss' s rhs w' ->
  forall r, (r < rows d s + l)%nat -> w r = w' r.
Proof.
  intros ss ss' s rhs w w' D F F'. destruct (D (fun r => if (r <? rows d s)%nat then rhs r else 0)) as [_ U]. apply U; eapply fit_system; eauto.
Qed.
Lemma fit_exists : forall ss s rhs, determined d degree rbfs nugget s -> schedules_ok (nat -> R) rbfs (rows d s) ss -> exists w, fitted d degree rbfs nugget ss s rhs w.
Proof. intros ss s rhs D S. destruct (D (fun r => if (r <? rows d s)%nat then rhs r else 0)) as [[w W] _]. exists w. apply system_fit; auto. Qed.
Lemma surface_same : forall s w w' t f f', surface d degree rbfs s w t f -> surface d degree rbfs s w' t f' ->
  (forall r, (r < rows d s + l)%nat -> w r = w' r) -> forall r, (r < rows d t)%nat -> f r = f' r.
Proof.
  intros s w w' t f f' F F' E r R0. rewrite (surface_entries _ _ _ _ F), (surface_entries _ _ _ _ F') by auto. f_equal; unfold mat_vec; apply rsum_ext; intros k H; rewrite E; auto; lia.
Qed.

(** The data are met. *)
Lemma fit_exact : forall ss s rhs w f, fitted d degree rbfs nugget ss s rhs w -> surface d degree rbfs s w s f ->
  forall r, (r < rows d s)%nat -> f r + (if (r <? values s)%nat then nugget * w r else 0) = rhs r.
Proof.
  intros ss s rhs w f F (ss' & S & H) r R0. rewrite H by auto. destruct F as [S0 F]. unfold values.
  rewrite <- (evaluator_operator (nat -> R) difference d rbfs nugget l ss ss') by auto. rewrite F by lia. apply Nat.ltb_lt in R0. rewrite R0. reflexivity.
Qed.
(** Polynomials are reproduced. *)
Lemma fit_polynomial : forall ss s w t f a, determined d degree rbfs nugget s -> fitted d degree rbfs nugget ss s (mat_vec l (sp s) a) w ->
  surface d degree rbfs s w t f -> forall r, (r < rows d t)%nat -> f r = mat_vec l (sp t) a r.
Proof.
  intros ss s w t f a D F E r R0. set (u := fun i => if (i <? rows d s)%nat then 0 else a (i - rows d s)%nat).
  assert (Z : forall A i, mat_vec (rows d s) A u i = 0).
  { intros A i. apply rsum_0. intros c C. unfold u. apply Nat.ltb_lt in C. rewrite C. ring. }
  assert (P : forall p i, mat_vec l p (fun k => u (rows d s + k)%nat) i = mat_vec l p a i).
  { intros p i. apply rsum_ext. intros k _. unfold u. destruct (Nat.ltb_spec (rows d s + k) (rows d s)); [lia|]. do 2 f_equal. lia. }
  assert (U : forall i, (i < rows d s + l)%nat -> w i = u i).
  { apply (fit_unique ss ss s (mat_vec l (sp s) a) w u D F). apply system_fit; [apply F|]. intros i I. rewrite system_rows by auto.
    destruct (Nat.ltb_spec i (rows d s)) as [L|L].
    - rewrite Z, P. replace (if (i <? values s)%nat then u i * nugget else 0) with 0; [ring|]. unfold u. apply Nat.ltb_lt in L. rewrite L. destruct (i <? values s)%nat; ring.
    - apply rsum_0. intros c C. unfold u. apply Nat.ltb_lt in C. rewrite C. ring. }
  rewrite (surface_entries _ _ _ _ E) by auto. rewrite <- (P (sp t)). rewrite <- (Rplus_0_l (mat_vec l (sp t) (fun k => u (rows d s + k)%nat) r)). rewrite <- (Z (K s t) r).
  f_equal; unfold mat_vec; apply rsum_ext; intros k H; rewrite U; auto; lia.
Qed.
(** Linear in the data. *)
Lemma mat_vec_lin : forall n (A : nat -> nat -> R) a b u v i, mat_vec n A (fun k => a * u k + b * v k) i = a * mat_vec n A u i + b * mat_vec n A v i.
Proof. intros. unfold mat_vec. rewrite <- !rsum_scal, <- rsum_plus. apply rsum_ext; intros; ring. Qed.
Lemma fit_linear : forall ss1 ss2 ss3 s rhs1 rhs2 a b w1 w2 w3 t f1 f2 f3, determined d degree rbfs nugget s ->
  fitted d degree rbfs nugget ss1 s rhs1 w1 -> fitted d degree rbfs nugget ss2 s rhs2 w2 ->
  fitted d degree rbfs nugget ss3 s (fun r => a * rhs1 r + b * rhs2 r) w3 ->
  surface d degree rbfs s w1 t f1 -> surface d degree rbfs s w2 t f2 -> surface d degree rbfs s w3 t f3 ->
  forall r, (r < rows d t)%nat -> f3 r = a * f1 r + b * f2 r.
Proof.
  intros ss1 ss2 ss3 s rhs1 rhs2 a b w1 w2 w3 t f1 f2 f3 D F1 F2 F3 E1 E2 E3 r R0.
  assert (U : forall i, (i < rows d s + l)%nat -> w3 i = a * w1 i + b * w2 i).
  { apply (fit_unique ss3 ss1 s (fun r => a * rhs1 r + b * rhs2 r) w3 (fun i => a * w1 i + b * w2 i) D F3). apply system_fit; [apply F1|]. intros i I. rewrite mat_vec_lin.
    rewrite (fit_system _ _ _ _ F1), (fit_system _ _ _ _ F2) by auto. destruct (i <? rows d s)%nat; ring. }
  rewrite (surface_entries _ _ _ _ E1), (surface_entries _ _ _ _ E2), (surface_entries _ _ _ _ E3) by auto.
  replace (mat_vec (rows d s) (K s t) w3 r) with (mat_vec (rows d s) (K s t) (fun i => a * w1 i + b * w2 i) r).
  2:{ unfold mat_vec. apply rsum_ext. intros k H. rewrite U; auto; lia. }
  replace (mat_vec l (sp t) (fun k => w3 (rows d s + k)%nat) r) with (mat_vec l (sp t) (fun k => a * w1 (rows d s + k)%nat + b * w2 (rows d s + k)%nat) r).
  2:{ unfold mat_vec. apply rsum_ext. intros k H. rewrite U; auto; lia. }
  rewrite !mat_vec_lin. ring.
Qed.

(** One more value where the surface is. *)
Definition skip (m r : nat) : nat := if (r <? m)%nat then r else S r.
Lemma rsum_skip : forall m n h, (m <= n)%nat -> rsum (S n) h = rsum n (fun i => h (skip m i)) + h m.
Proof.
  intros m n h L. induction n as [|n IH].
  - replace m with 0%nat by lia. cbn. ring.
  - destruct (Nat.eq_dec m (S n)) as [-> |N].
    + cbn [rsum]. f_equal. unfold skip. rewrite (rsum_ext n (fun i => h (if (i <? S n)%nat then i else S i)) h). 2:{ intros i I. destruct (Nat.ltb_spec i (S n)); [reflexivity|lia]. }
      destruct (Nat.ltb_spec n (S n)); [reflexivity|lia].
    + change (rsum (S n) h + h (S n) = rsum n (fun i => h (skip m i)) + h (skip m n) + h m). rewrite IH by lia. unfold skip at 3.
      destruct (Nat.ltb_spec n m); [lia|]. ring.
Qed.
Lemma with_row_skip : forall m rhs z r, with_row m rhs z (skip m r) = rhs r.
Proof.
  intros m rhs z r. unfold with_row, skip. destruct (Nat.ltb_spec r m) as [L|L].
  - destruct (Nat.eqb_spec r m); [lia|]. apply Nat.ltb_lt in L. rewrite L. reflexivity.
  - destruct (Nat.eqb_spec (S r) m); [lia|]. destruct (Nat.ltb_spec (S r) m); [lia|]. reflexivity.
Qed.
Lemma with_row_at : forall m rhs z, with_row m rhs z m = z.
Proof. intros. unfold with_row. rewrite Nat.eqb_refl. reflexivity. Qed.
Lemma skip_cases : forall m n r, (m <= n)%nat -> (r < S n)%nat -> r = m \/ exists i, (i < n)%nat /\ r = skip m i.
Proof.
  intros m n r L R0. destruct (Nat.lt_trichotomy r m) as [H|[H|H]]; auto; right.
  - exists r. split; [lia|]. unfold skip. apply Nat.ltb_lt in H. rewrite H. reflexivity.
  - exists (pred r). split; [lia|]. unfold skip. destruct (Nat.ltb_spec (pred r) m); lia.
Qed.
Section With.
Variables (y : nat -> R) (s : data).
Notation s' := (with_value y s).
Notation m := (values s).
Lemma with_rows : rows d s' = S (rows d s).
Proof. reflexivity. Qed.
Lemma m_le : (m <= rows d s)%nat.
Proof. unfold rows, size, values. lia. Qed.
Lemma kernel_cols : forall t r c, K s' t r (skip m c) = K s t r c.
Proof.
  intros t r c. unfold kernel. apply lsum_ext. intros f _. unfold skip, values. cbn [mu sigma pt gpt with_value].
  destruct (Nat.ltb_spec c (mu (nat -> R) s)) as [L|L].
  - unfold values. destruct (Nat.ltb_spec c (S (mu (nat -> R) s))); [|lia]. destruct (Nat.eqb_spec c (mu (nat -> R) s)); [lia|]. reflexivity.
  - unfold values. destruct (Nat.ltb_spec (S c) (S (mu (nat -> R) s))); [lia|]. reflexivity.
Qed.
Lemma kernel_at : forall a r c, K a s' (skip m r) c = K a s r c.
Proof.
  intros t r c. unfold kernel. apply lsum_ext. intros f _. unfold skip, values. cbn [mu sigma pt gpt with_value].
  destruct (Nat.ltb_spec r (mu (nat -> R) s)) as [L|L].
  - unfold values. destruct (Nat.ltb_spec r (S (mu (nat -> R) s))); [|lia]. destruct (Nat.eqb_spec r (mu (nat -> R) s)); [lia|]. reflexivity.
  - unfold values. destruct (Nat.ltb_spec (S r) (S (mu (nat -> R) s))); [lia|]. reflexivity.
Qed.
Lemma kernel_new : forall a c, K a s' m c = K a (one_value y) 0%nat c.
Proof.
  intros a c. unfold kernel. apply lsum_ext. intros f _. unfold values. cbn [mu sigma pt gpt with_value one_value]. unfold values.
  destruct (Nat.ltb_spec (mu (nat -> R) s) (S (mu (nat -> R) s))); [|lia]. rewrite Nat.eqb_refl. reflexivity.
Qed.
Lemma space_at : forall r k, sp s' (skip m r) k = sp s r k.
Proof.
  intros r k. unfold space. destruct degree as [g|]; auto. unfold MonomialBasis.evaluate. cbv zeta. unfold skip, values. cbn [mu sigma pt gpt with_value].
  destruct (Nat.ltb_spec r (mu (nat -> R) s)) as [L|L].
  - unfold values. destruct (Nat.ltb_spec r (S (mu (nat -> R) s))); [|lia]. destruct (Nat.eqb_spec r (mu (nat -> R) s)); [lia|]. reflexivity.
  - unfold values. destruct (Nat.ltb_spec (S r) (S (mu (nat -> R) s))); [lia|]. reflexivity.
Qed.
Lemma space_new : forall k, sp s' m k = sp (one_value y) 0%nat k.
Proof.
  intros k. unfold space. destruct degree as [g|]; auto. unfold MonomialBasis.evaluate. cbv zeta. unfold values. cbn [mu sigma pt gpt with_value one_value]. unfold values.
  destruct (Nat.ltb_spec (mu (nat -> R) s) (S (mu (nat -> R) s))); [|lia]. rewrite Nat.eqb_refl. reflexivity.
Qed.
Variable w : nat -> R.
Notation u := (with_row m w 0).
Lemma with_kernel : forall t r, mat_vec (rows d s') (K s' t) u r = mat_vec (rows d s) (K s t) w r.
Proof.
  intros t r. unfold mat_vec. rewrite with_rows, (rsum_skip m) by apply m_le. rewrite with_row_at. rewrite Rmult_0_r, Rplus_0_r. apply rsum_ext. intros c _.
  rewrite with_row_skip, kernel_cols. reflexivity.
Qed.
Lemma with_space : forall t r, mat_vec l (sp t) (fun k => u (rows d s' + k)%nat) r = mat_vec l (sp t) (fun k => w (rows d s + k)%nat) r.
Proof.
  intros t r. unfold mat_vec. apply rsum_ext. intros k _. rewrite with_rows. f_equal. replace (S (rows d s) + k)%nat with (skip m (rows d s + k)); [apply with_row_skip|].
  unfold skip. pose proof m_le. destruct (Nat.ltb_spec (rows d s + k) m); lia.
Qed.
End With.
Lemma fit_more : forall ss ss' y s rhs w z w' t f f', determined d degree rbfs nugget (with_value y s) ->
  fitted d degree rbfs nugget ss s rhs w -> surface d degree rbfs s w (one_value y) z ->
  fitted d degree rbfs nugget ss' (with_value y s) (with_row (values s) rhs (z 0%nat)) w' ->
  surface d degree rbfs s w t f -> surface d degree rbfs (with_value y s) w' t f' -> forall r, (r < rows d t)%nat -> f' r = f r.
Proof.
  intros ss ss' y s rhs w z w' t f f' D F Z F' E E' r R0. set (u := with_row (values s) w 0).
  assert (ML := m_le s).
  assert (U : forall i, (i < rows d (with_value y s) + l)%nat -> w' i = u i).
  { apply (fit_unique ss' ss' _ _ w' u D F'). apply system_fit; [apply F'|]. intros i I. rewrite system_rows by auto.
    unfold u. rewrite with_kernel, with_space. destruct (Nat.ltb_spec i (rows d (with_value y s))) as [L|L].
    - rewrite with_rows in L. destruct (skip_cases (values s) (rows d s) i ML L) as [-> |(j & J & ->)].
      + rewrite !with_row_at. unfold mat_vec. rewrite (surface_entries _ _ _ _ Z) by (unfold rows, size; cbn; lia). unfold mat_vec.
        rewrite (rsum_ext (rows d s) (fun j => K s (with_value y s) (values s) j * w j) (fun j => K s (one_value y) 0%nat j * w j)) by (intros; rewrite kernel_new; reflexivity).
        rewrite (rsum_ext l (fun k => sp (with_value y s) (values s) k * w (rows d s + k)%nat) (fun k => sp (one_value y) 0%nat k * w (rows d s + k)%nat)) by (intros; rewrite space_new; reflexivity).
        destruct (_ <? _)%nat; ring.
      + rewrite !with_row_skip. assert (V : (skip (values s) j <? values (with_value y s))%nat = (j <? values s)%nat).
        { unfold skip. change (values (with_value y s)) with (S (values s)). destruct (Nat.ltb_spec j (values s)); [apply Nat.ltb_lt|apply Nat.ltb_ge]; lia. }
        rewrite V. pose proof (fit_system _ _ _ _ F j ltac:(lia)) as G. rewrite system_rows in G by lia. apply Nat.ltb_lt in J. rewrite J in G. rewrite <- G.
        unfold mat_vec. f_equal; [f_equal|]; apply rsum_ext; intros; rewrite ?kernel_at, ?space_at; reflexivity.
    - rewrite with_rows in I, L |- *. rewrite (rsum_skip (values s)) by auto. rewrite with_row_at, Rmult_0_r, Rplus_0_r.
      pose proof (fit_system _ _ _ _ F (pred i) ltac:(lia)) as G. rewrite system_rows in G by lia. destruct (Nat.ltb_spec (pred i) (rows d s)); [lia|].
      rewrite <- G. apply rsum_ext. intros c C. rewrite with_row_skip, space_at. do 2 f_equal. lia. }
  assert (E2 : f' r = mat_vec (rows d (with_value y s)) (K (with_value y s) t) u r + mat_vec l (sp t) (fun k => u (rows d (with_value y s) + k)%nat) r).
  { rewrite (surface_entries _ _ _ _ E') by auto. f_equal; unfold mat_vec; apply rsum_ext; intros k H; rewrite U; auto; lia. }
  rewrite E2. unfold u. rewrite with_kernel, with_space. symmetry. apply (surface_entries _ _ _ _ E). auto.
Qed.

(** The order of the data. *)
Section Reorder.
Variables (f g : nat -> nat) (s : data).
Hypothesis (PF : permutes (values s) f) (PG : permutes (gradients s) g).
Notation s' := (reordered f g s).
Notation rho := (reordered_row d f g s).
Lemma rho_value : forall r, (r < values s)%nat -> rho r = f r /\ (f r < values s)%nat.
Proof using PF. intros r H. split; [|apply PF; auto]. unfold reordered_row. apply Nat.ltb_lt in H. rewrite H. reflexivity. Qed.
Lemma rho_gradient : forall r, (values s <= r < rows d s)%nat ->
  rho r = (values s + d * g ((r - values s) / d) + (r - values s) mod d)%nat /\ (values s <= rho r < rows d s)%nat /\
  ((rho r - values s) / d = g ((r - values s) / d) /\ (rho r - values s) mod d = (r - values s) mod d)%nat.
Proof using PG.
  intros r H. destruct (divmod (nat -> R) d s r H) as (A & B & C). destruct PG as [G _]. specialize (G _ A).
  assert (E : rho r = (values s + d * g ((r - values s) / d) + (r - values s) mod d)%nat).
  { unfold reordered_row. destruct (Nat.ltb_spec r (values s)); [lia|]. destruct (Nat.ltb_spec r (rows d s)); [reflexivity|lia]. }
  fold (values s) in A, B, C, G. fold (gradients s) in A. set (q := ((r - values s) / d)%nat) in *. set (e := ((r - values s) mod d)%nat) in *.
  split; auto. rewrite E. split.
  - change (rows d s) with (values s + d * gradients s)%nat. nia.
  - replace (values s + d * g q + e - values s)%nat with (e + g q * d)%nat by lia. split.
    + rewrite Nat.div_add, Nat.div_small by lia. lia.
    + rewrite Nat.mod_add, Nat.mod_small by lia. lia.
Qed.
Lemma rho_rest : forall r, (rows d s <= r)%nat -> rho r = r.
Proof using. intros r H. unfold reordered_row. pose proof (m_le s). destruct (Nat.ltb_spec r (values s)); [lia|]. destruct (Nat.ltb_spec r (rows d s)); [lia|reflexivity]. Qed.
Lemma rho_permutes : forall k, permutes (rows d s + k) rho.
Proof using PF PG.
  intros k. assert (ML := m_le s).
  assert (C : forall r, (r < values s /\ rho r < values s)%nat \/ (values s <= r < rows d s /\ values s <= rho r < rows d s)%nat \/ (rows d s <= r /\ rho r = r)%nat).
  { intros r. destruct (Nat.ltb_spec r (values s)) as [H|H]; [left; split; auto; destruct (rho_value r H) as [-> ?]; auto|right].
    destruct (Nat.ltb_spec r (rows d s)) as [H'|H']; [left|right; split; auto; apply rho_rest; auto]. split; [lia|]. apply rho_gradient. lia. }
  split.
  - intros i I. destruct (C i) as [?|[?|?]]; lia.
  - intros i j I J E. destruct (C i) as [Hi|[Hi|Hi]]; destruct (C j) as [Hj|[Hj|Hj]]; try lia.
    + destruct (rho_value i ltac:(lia)) as [Ei _]. destruct (rho_value j ltac:(lia)) as [Ej _]. apply PF; lia.
    + destruct (rho_gradient i ltac:(lia)) as (_ & _ & Di & Mi). destruct (rho_gradient j ltac:(lia)) as (_ & _ & Dj & Mj).
      destruct (divmod (nat -> R) d s i ltac:(fold (values s) (rows d s); lia)) as (Ai & _ & Xi). destruct (divmod (nat -> R) d s j ltac:(fold (values s) (rows d s); lia)) as (Aj & _ & Xj).
      fold (values s) (gradients s) in Ai, Aj, Xi, Xj. rewrite E in Di, Mi.
      assert (Q : ((i - values s) / d = (j - values s) / d)%nat) by (apply PG; auto; congruence).
      assert (M : ((i - values s) mod d = (j - values s) mod d)%nat) by congruence. rewrite Xi, Xj, Q, M. reflexivity.
Qed.
Lemma kernel_reordered_cols : forall t r c, (c < rows d s)%nat -> K s' t r c = K s t r (rho c).
Proof using PF PG.
  intros t r c C. unfold kernel. apply lsum_ext. intros h _. change (mu (nat -> R) s') with (values s). change (mu (nat -> R) s) with (values s).
  destruct (Nat.ltb_spec c (values s)) as [L|L].
  - destruct (rho_value c L) as [-> B]. apply Nat.ltb_lt in B. rewrite B. reflexivity.
  - destruct (rho_gradient c ltac:(lia)) as (_ & B & -> & ->). destruct (Nat.ltb_spec (rho c) (values s)); [lia|]. reflexivity.
Qed.
Lemma kernel_reordered_rows : forall a r c, (r < rows d s)%nat -> K a s' r c = K a s (rho r) c.
Proof using PF PG.
  intros t r c C. unfold kernel. apply lsum_ext. intros h _. change (mu (nat -> R) s') with (values s). change (mu (nat -> R) s) with (values s).
  destruct (Nat.ltb_spec r (values s)) as [L|L].
  - destruct (rho_value r L) as [-> B]. apply Nat.ltb_lt in B. rewrite B. reflexivity.
  - destruct (rho_gradient r ltac:(lia)) as (_ & B & -> & ->). destruct (Nat.ltb_spec (rho r) (values s)); [lia|]. reflexivity.
Qed.
Lemma space_reordered : forall r k, (r < rows d s)%nat -> sp s' r k = sp s (rho r) k.
Proof using PF PG.
  intros r k H. unfold space. destruct degree as [q|]; auto. unfold MonomialBasis.evaluate. cbv zeta. change (values s') with (values s).
  destruct (Nat.ltb_spec r (values s)) as [L|L].
  - destruct (rho_value r L) as [-> B]. apply Nat.ltb_lt in B. rewrite B. reflexivity.
  - destruct (rho_gradient r ltac:(lia)) as (_ & B & -> & ->). destruct (Nat.ltb_spec (rho r) (values s)); [lia|]. reflexivity.
Qed.
Lemma rho_range : forall r, (r < rows d s)%nat -> (rho r < rows d s)%nat.
Proof using PF PG. intros r H. destruct (rho_permutes 0) as [B _]. specialize (B r). lia. Qed.
Lemma rho_kind : forall r, (r < rows d s)%nat -> (rho r <? values s)%nat = (r <? values s)%nat.
Proof using PF PG.
  intros r H. destruct (Nat.ltb_spec r (values s)) as [L|L].
  - destruct (rho_value r L) as [-> B]. apply Nat.ltb_lt. auto.
  - apply Nat.ltb_ge. apply rho_gradient. lia.
Qed.
Lemma system_reordered : forall r c, (r < rows d s + l)%nat -> (c < rows d s + l)%nat ->
  system (nat -> R) difference d rbfs nugget s' (sp s') r c = system (nat -> R) difference d rbfs nugget s (sp s) (rho r) (rho c).
Proof using PF PG.
  intros r c HR HC. unfold system. cbv zeta. change (size (nat -> R) d s') with (rows d s). change (size (nat -> R) d s) with (rows d s).
  assert (X : forall i, (rho i <? rows d s)%nat = (i <? rows d s)%nat).
  { intros i. destruct (Nat.ltb_spec i (rows d s)); [apply Nat.ltb_lt, rho_range; auto|apply Nat.ltb_ge; rewrite rho_rest; lia]. }
  rewrite !X. destruct (Nat.ltb_spec r (rows d s)) as [L|L]; destruct (Nat.ltb_spec c (rows d s)) as [M|M]; auto.
  - f_equal; [rewrite kernel_reordered_cols, kernel_reordered_rows by auto; reflexivity|]. unfold nugget_at.
    change (mu (nat -> R) s') with (values s). change (mu (nat -> R) s) with (values s). rewrite rho_kind by auto.
    destruct (Nat.eqb_spec r c) as [->|N]; [rewrite Nat.eqb_refl; reflexivity|]. destruct (Nat.eqb_spec (rho r) (rho c)) as [E|E]; auto.
    exfalso. apply N. destruct (rho_permutes 0) as [_ J]. apply J; auto; lia.
  - rewrite space_reordered by auto. rewrite (rho_rest c) by auto. reflexivity.
  - rewrite space_reordered by auto. rewrite (rho_rest r) by auto. reflexivity.
Qed.
End Reorder.
Lemma fit_order : forall ss ss' f g s rhs w w' t h h', permutes (values s) f -> permutes (gradients s) g -> determined d degree rbfs nugget s ->
  fitted d degree rbfs nugget ss s rhs w -> fitted d degree rbfs nugget ss' (reordered f g s) (fun r => rhs (reordered_row d f g s r)) w' ->
  surface d degree rbfs s w t h -> surface d degree rbfs (reordered f g s) w' t h' -> forall r, (r < rows d t)%nat -> h' r = h r.
Proof.
  intros ss ss' f g s rhs w w' t h h' PF PG D F F' E E' r R0. set (rho := reordered_row d f g s).
  assert (U : forall i, (i < rows d s + l)%nat -> w' i = w (rho i)).
  { apply (reindexed _ _ _ rho w w' (fun r => if (r <? rows d s)%nat then rhs r else 0) (rho_permutes f g s PF PG l) (system_reordered f g s PF PG) D).
    - intros i I. apply (fit_system _ _ _ _ F). auto.
    - intros i I. etransitivity; [apply (fit_system _ _ _ _ F'); exact I|]. change (rows d (reordered f g s)) with (rows d s). fold rho.
      destruct (Nat.ltb_spec i (rows d s)) as [L|L].
      + pose proof (rho_range f g s PF PG i L) as X. apply Nat.ltb_lt in X. unfold rho. rewrite X. reflexivity.
      + unfold rho. rewrite rho_rest by auto. apply Nat.ltb_ge in L. rewrite L. reflexivity. }
  rewrite (surface_entries _ _ _ _ E'), (surface_entries _ _ _ _ E) by auto. change (rows d (reordered f g s)) with (rows d s). f_equal; unfold mat_vec.
  - pose proof (rho_permutes f g s PF PG 0) as P. rewrite Nat.add_0_r in P. rewrite <- (permutes_sum _ _ (fun c => K s t r c * w c) P). apply rsum_ext. intros c C.
    rewrite kernel_reordered_cols, U by (auto; lia). reflexivity.
  - apply rsum_ext. intros k C. rewrite U by lia. unfold rho. rewrite rho_rest by lia. reflexivity.
Qed.

End Fit.

(** A change of the polynomials: the kernel is the same and the polynomials of [s'] are combinations of those of [s]. *)
Lemma fit_changed : forall d degree rbfs rbfs' nugget ss ss' s s' t t' rhs w w' f f' M, rows d s' = rows d s -> values s' = values s -> rows d t' = rows d t ->
  (forall r c, (r < rows d s)%nat -> (c < rows d s)%nat -> kernel (nat -> R) difference d rbfs' s' s' r c = kernel (nat -> R) difference d rbfs s s r c) ->
  (forall r c, (r < rows d t)%nat -> (c < rows d s)%nat -> kernel (nat -> R) difference d rbfs' s' t' r c = kernel (nat -> R) difference d rbfs s t r c) ->
  (forall r k, (r < rows d s)%nat -> (k < (space_size d degree))%nat -> space d degree s' r k = rsum (space_size d degree) (fun j => space d degree s r j * M j k)) ->
  (forall r k, (r < rows d t)%nat -> (k < (space_size d degree))%nat -> space d degree t' r k = rsum (space_size d degree) (fun j => space d degree t r j * M j k)) ->
  (forall c, (forall k, (k < (space_size d degree))%nat -> rsum (rows d s) (fun i => space d degree s' i k * c i) = 0) -> forall k, (k < (space_size d degree))%nat -> rsum (rows d s) (fun i => space d degree s i k * c i) = 0) ->
  determined d degree rbfs nugget s -> fitted d degree rbfs nugget ss s rhs w -> fitted d degree rbfs' nugget ss' s' rhs w' ->
  surface d degree rbfs s w t f -> surface d degree rbfs' s' w' t' f' -> forall r, (r < rows d t)%nat -> f' r = f r.
Proof.
  intros d degree rbfs rbfs' nugget ss ss' s s' t t' rhs w w' f f' M RS VS RT KS KT PS PT OR D F F' E E' r R0.
  set (a := fun j => rsum (space_size d degree) (fun k => M j k * w' (rows d s + k)%nat)).
  set (u := fun i => if (i <? rows d s)%nat then w' i else a (i - rows d s)%nat).
  assert (A : forall q q' i, (forall k, (k < (space_size d degree))%nat -> q' i k = rsum (space_size d degree) (fun j => q i j * M j k)) -> mat_vec (space_size d degree) q' (fun k => w' (rows d s + k)%nat) i = mat_vec (space_size d degree) q a i).
  { intros q q' i Q. unfold mat_vec, a. rewrite (rsum_ext (space_size d degree) _ (fun k => rsum (space_size d degree) (fun j => q i j * (M j k * w' (rows d s + k)%nat)))).
    2:{ intros k H. rewrite Q by auto. rewrite <- rsum_scal_r. apply rsum_ext; intros; ring. }
    rewrite rsum_swap. apply rsum_ext. intros j _. rewrite rsum_scal. reflexivity. }
  assert (UL : forall i, (i < rows d s)%nat -> u i = w' i) by (intros i I; unfold u; apply Nat.ltb_lt in I; rewrite I; reflexivity).
  assert (UR : forall k, u (rows d s + k)%nat = a k).
  { intros k. unfold u. destruct (Nat.ltb_spec (rows d s + k) (rows d s)); [lia|]. f_equal. lia. }
  assert (UA : forall q i, mat_vec (space_size d degree) q (fun k => u (rows d s + k)%nat) i = mat_vec (space_size d degree) q a i) by (intros; unfold mat_vec; apply rsum_ext; intros; rewrite UR; reflexivity).
  assert (G : forall i, (i < rows d s + (space_size d degree))%nat -> mat_vec (rows d s + (space_size d degree)) (system (nat -> R) difference d rbfs' nugget s' (space d degree s')) w' i = if (i <? rows d s)%nat then rhs i else 0).
  { intros i I. pose proof (fit_system _ _ _ _ _ _ _ _ F' i) as G. rewrite RS in G. apply G. auto. }
  assert (G2 := fun i I => system_rows d degree rbfs' nugget s' w' i I). rewrite RS, VS in G2.
  assert (U : forall i, (i < rows d s + (space_size d degree))%nat -> w i = u i).
  { apply (fit_unique d degree rbfs nugget ss ss s rhs w u D F). apply system_fit; [apply F|]. intros i I. rewrite system_rows by auto. rewrite UA.
    destruct (Nat.ltb_spec i (rows d s)) as [L|L].
    - specialize (G i I). rewrite (G2 i I) in G. apply Nat.ltb_lt in L. rewrite L in G. apply Nat.ltb_lt in L. rewrite <- G. rewrite UL by auto.
      rewrite <- (A (space d degree s) (space d degree s') i) by (intros; apply PS; auto). f_equal. f_equal. unfold mat_vec. apply rsum_ext. intros c C. rewrite KS, UL by auto. reflexivity.
    - rewrite (rsum_ext (rows d s) _ (fun c => space d degree s c (i - rows d s) * w' c)) by (intros; rewrite UL by auto; reflexivity).
      apply OR; [|lia]. intros k H. specialize (G (rows d s + k)%nat ltac:(lia)). rewrite (G2 (rows d s + k)%nat ltac:(lia)) in G.
      destruct (Nat.ltb_spec (rows d s + k) (rows d s)); [lia|]. replace (rows d s + k - rows d s)%nat with k in G by lia. exact G. }
  rewrite (surface_entries _ _ _ _ _ _ _ E'), (surface_entries _ _ _ _ _ _ _ E) by lia. rewrite RS.
  rewrite (A (space d degree t) (space d degree t') r) by (intros; apply PT; auto). f_equal; unfold mat_vec; apply rsum_ext; intros k H.
  - rewrite KT, U, UL by (auto; lia). reflexivity.
  - rewrite U, UR by lia. reflexivity.
Qed.
