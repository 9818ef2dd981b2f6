From Coq Require Import Reals List Arith Lia Lra FunctionalExtensionality.
From Verif Require Import Proofs.LinAlg Proofs.Operator Proofs.MonomialBasis Proofs.Rbfs Proofs.PositiveSystem Proofs.HermiteSystem Proofs.Fitted Proofs.FittedMoves.
From Verif Require Import Model.LinAlg Model.MonomialBasis Model.Rbfs Model.Operator Spec.MonomialBasis Spec.Rbfs Spec.Operator Spec.PositiveDefinite Spec.Hermite Spec.Fitted.
Import ListNotations.
Local Open Scope R_scope.

(** * The gradient that is returned *)
Lemma partial_rsum : forall n (f : nat -> (nat -> R) -> R) e y l, (forall i, (i < n)%nat -> partial (f i) e y (l i)) -> partial (fun x => rsum n (fun i => f i x)) e y (rsum n l).
Proof.
  intros n f e y l. unfold partial. induction n as [|n IH]; intros H; cbn [rsum]; [apply derivable_pt_lim_const|].
  apply (derivable_pt_lim_plus (fun t => rsum n (fun i => f i (with_coord y e t))) (fun t => f n (with_coord y e t))); [apply IH; auto|apply H; lia].
Qed.
Lemma partial_lsum : forall (A : Type) (ts : list A) (f : A -> (nat -> R) -> R) e y l, (forall t, In t ts -> partial (f t) e y (l t)) -> partial (fun x => lsum ts (fun t => f t x)) e y (lsum ts l).
Proof.
  intros A ts f e y l. unfold partial. induction ts as [|t ts IH]; intros H; cbn [lsum]; [apply derivable_pt_lim_const|].
  apply (derivable_pt_lim_plus (fun u => f t (with_coord y e u)) (fun u => lsum ts (fun t => f t (with_coord y e u)))); [apply H; left; auto|apply IH; intros; apply H; right; auto].
Qed.
Lemma partial_times : forall f e y l c, partial f e y l -> partial (fun x => f x * c) e y (l * c).
Proof.
  intros f e y l c H. unfold partial in *. replace (l * c) with (l * c + f (with_coord y e (y e)) * 0) by ring.
  apply (derivable_pt_lim_mult (fun t => f (with_coord y e t)) (fun _ => c)); [exact H|apply derivable_pt_lim_const].
Qed.
Lemma partial_opp : forall f e y l, partial f e y l -> partial (fun x => - f x) e y (- l).
Proof. intros f e y l H. unfold partial in *. apply (derivable_pt_lim_opp (fun t => f (with_coord y e t))). exact H. Qed.
Lemma partial_sum : forall f g e y l k, partial f e y l -> partial g e y k -> partial (fun x => f x + g x) e y (l + k).
Proof. intros f g e y l k H G. unfold partial in *. apply (derivable_pt_lim_plus (fun t => f (with_coord y e t)) (fun t => g (with_coord y e t))); auto. Qed.
Lemma partial_from : forall f e y p l, partial f e (difference y p) l -> partial (fun x => f (difference x p)) e y l.
Proof.
  intros f e y p l H eps EP. destruct (H eps EP) as (dl & D). exists dl. intros h H0 H1. specialize (D h H0 H1).
  assert (X : forall u, difference (with_coord y e (y e + u)) p = with_coord (difference y p) e (difference y p e + u)).
  { intros u. apply functional_extensionality. intros i. unfold difference, with_coord. destruct (Nat.eqb_spec i e); subst; ring. }
  rewrite X. pose proof (X 0) as X0. rewrite !Rplus_0_r in X0. rewrite X0. exact D.
Qed.
Lemma partial_ext : forall f g e y l, (forall x, f x = g x) -> partial f e y l -> partial g e y l.
Proof. intros f g e y l H P. assert (f = g) as <- by (apply functional_extensionality; auto). exact P. Qed.

Lemma kernel_gradient : forall d terms s y e c, (c < rows d s)%nat -> (e < d)%nat -> Forall (regular_at d s y) terms ->
  partial (fun x => kernel (nat -> R) difference d (map (term_rbf d) terms) s (one_value x) 0%nat c) e y
    (kernel (nat -> R) difference d (map (term_rbf d) terms) s (one_gradient y) e c).
Proof.
  intros d terms s y e c C E RG. rewrite Forall_forall in RG. unfold kernel. cbn [one_value one_gradient mu pt gpt]. change (0 <? 1)%nat with true. change (e <? 0)%nat with false. cbv iota.
  rewrite lsum_map. rewrite Nat.sub_0_r, (Nat.mod_small e) by auto. change (mu (nat -> R) s) with (values s).
  apply (partial_ext (fun x => lsum terms (fun t => if (c <? values s)%nat then ev (nat -> R) (term_rbf d t) (difference x (pt (nat -> R) s c))
    else - gr (nat -> R) (term_rbf d t) (difference x (gpt (nat -> R) s ((c - values s) / d))) ((c - values s) mod d)))).
  { intros x. rewrite lsum_map. reflexivity. }
  apply partial_lsum. intros t I. destruct (RG t I) as (EX & RO & GV & HV). destruct (Nat.ltb_spec c (values s)) as [L|L].
  - destruct (GV c L) as (GR & g & G). cbn [term_rbf ev gr]. apply (partial_from (evaluate d (tk t) (t0 t) (t1 t) (ta t))).
    rewrite G. cbn [component]. apply (gradient_correct d (tk t) (t0 t) (t1 t) (ta t) _ g EX RO GR G e E).
  - destruct (divmod (nat -> R) d s c (conj L C)) as (A & B & _). fold (values s) (gradients s) in A, B. destruct (HV _ A) as (HR & h & H). cbn [term_rbf gr he].
    apply partial_opp. apply (partial_from (fun z => component (evaluate_gradient d (tk t) (t0 t) (t1 t) (ta t) z) ((c - values s) mod d))).
    rewrite H. cbn [entry]. apply (hessian_correct d (tk t) (t0 t) (t1 t) (ta t) _ h EX RO HR H); auto.
Qed.
Lemma surface_gradient : forall d degree terms s w y F g, degree_ok d degree -> Forall (regular_at d s y) terms ->
  (forall x, surface d degree (map (term_rbf d) terms) s w (one_value x) (fun _ => F x)) ->
  surface d degree (map (term_rbf d) terms) s w (one_gradient y) g ->
  forall e, (e < d)%nat -> partial F e y (g e).
Proof.
  intros d degree terms s w y F g DG RG HF HG e E.
  apply (partial_ext (fun x => mat_vec (rows d s) (kernel (nat -> R) difference d (map (term_rbf d) terms) s (one_value x)) w 0%nat +
    mat_vec (space_size d degree) (space d degree (one_value x)) (fun k => w (rows d s + k)%nat) 0%nat)).
  { intros x. symmetry. apply (surface_entries _ _ _ _ _ _ _ (HF x) 0%nat). unfold rows, size; cbn; lia. }
  rewrite (surface_entries _ _ _ _ _ _ _ HG e) by (unfold rows, size; cbn; lia). unfold mat_vec. apply partial_sum; apply partial_rsum.
  - intros c C. apply (partial_times (fun x => kernel (nat -> R) difference d (map (term_rbf d) terms) s (one_value x) 0%nat c)). apply kernel_gradient; auto.
  - intros k HK. apply (partial_times (fun x => space d degree (one_value x) 0%nat k)). unfold space, space_size in *. destruct degree as [q|]; [|lia]. cbn [degree_ok] in DG.
    destruct (matrix_rows d q 0 (fun _ _ => 0) (fun _ => y) ltac:(lia) ltac:(lia) k HK) as [_ M]. specialize (M 0%nat e E). rewrite Nat.mul_0_r in M. exact M.
Qed.

(** * When there is one surface *)
Lemma determined_points : forall d degree terms nugget n x, degree_ok d degree -> Forall (good_term d (order degree)) terms -> has_weight n d x terms nugget ->
  unisolvent n (space_size d degree) (space d degree (points n x)) -> determined d degree (map (term_rbf d) terms) nugget (points n x).
Proof.
  intros d degree terms nugget n x DG G W U. unfold determined. rewrite points_rows. apply (system_solved n d x terms nugget (order degree)); auto.
  intros c H. apply (orthogonal_moments d n degree x c DG). exact H.
Qed.
Lemma determined_data : forall d degree terms nugget s, degree_ok d degree -> Forall (usable d (order degree) s) terms -> separated d s terms nugget ->
  unisolvent (rows d s) (space_size d degree) (space d degree s) -> determined d degree (map (term_rbf d) terms) nugget s.
Proof.
  intros d degree terms nugget s DG G W U. unfold determined. apply (hermite_system d s terms (order degree)); auto.
  intros c H. unfold space, space_size, order in *. destruct degree as [g|]; cbn [degree_ok] in DG.
  - apply (hermite_cover d g s c); try lia. exact H.
  - split; [|split]; intros; lia.
Qed.
