From Coq Require Import List Arith Bool Lia Permutation.
From Verif Require Import Model.Outcome Model.DomainDivider Spec.DomainDivider Proofs.DomainDivider Proofs.LatticeVertices.
Import ListNotations.

Section Writes.
Variable A : Type.
Variable dim : nat.
Hypothesis DIM : 1 <= dim.

Lemma store_other : forall ws (w : nat -> A) i, ~ In i (map fst ws) -> store_all A ws w i = w i.
Proof.
  induction ws as [|[j v] ws IH]; intros w i NI; cbn [store_all fold_left]; auto. cbn in NI. fold (store_all A ws (store A w (j, v))).
  rewrite IH by tauto. unfold store. cbn. destruct (Nat.eqb_spec i j) as [->|]; [tauto|auto].
Qed.
Lemma store_hit : forall ws (w : nat -> A) i v, NoDup (map fst ws) -> In (i, v) ws -> store_all A ws w i = v.
Proof.
  induction ws as [|[j u] ws IH]; intros w i v ND I; [destruct I|]. cbn in ND. inversion ND as [|? ? N1 N2]; subst.
  cbn [store_all fold_left]. fold (store_all A ws (store A w (j, u))). destruct I as [E|I].
  - injection E as <- <-. rewrite store_other by auto. unfold store. cbn. rewrite Nat.eqb_refl. auto.
  - apply IH; auto.
Qed.
Lemma store_perm : forall ws ws' (w : nat -> A) i, NoDup (map fst ws) -> Permutation ws' ws -> store_all A ws' w i = store_all A ws w i.
Proof.
  intros ws ws' w i ND P. pose proof (Permutation_map fst P) as PM. pose proof (Permutation_NoDup (Permutation_sym PM) ND) as ND'.
  destruct (in_dec Nat.eq_dec i (map fst ws)) as [I|I].
  - apply in_map_iff in I. destruct I as ([j v] & <- & I). cbn. rewrite (store_hit ws w j v ND I). apply store_hit; auto. apply (Permutation_in _ (Permutation_sym P)). auto.
  - rewrite !store_other; auto. intros X. apply I. apply (Permutation_in _ PM). auto.
Qed.

Lemma flat_nth : forall (X Y : Type) (f : X -> nat -> list Y) (l : list X) s,
  flat_map (fun k => match nth_error l (k - s) with Some x => f x k | None => [] end) (seq s (length l)) =
  flat_map (fun p => f (fst p) (snd p)) (combine l (seq s (length l))).
Proof.
  intros X Y f l. induction l as [|x l IH]; intros s; [reflexivity|]. cbn [length seq flat_map combine fst snd]. rewrite Nat.sub_diag. cbn [nth_error].
  f_equal. rewrite <- IH. rewrite !flat_map_concat_map. f_equal. apply map_ext_in. intros k K. apply in_seq in K.
  replace (k - s) with (S (k - S s)) by lia. reflexivity.
Qed.
Lemma point_targets : forall d (lambda : nat -> A), map fst (point_writes A d lambda) = owned (d_points d).
Proof.
  intros d lambda. unfold point_writes. set (l := d_points d).
  assert (forall s, map fst (flat_map (fun k => match nth_error l (k - s) with Some p => (if snd p then [(fst p, lambda k)] else []) | None => [] end) (seq s (length l))) = owned l) as H.
  { intros s. rewrite (flat_nth _ _ (fun (p : nat * bool) k => if snd p then [(fst p, lambda k)] else [])). revert s. clearbody l. unfold owned.
    induction l as [|[i b] l IH]; intros s; [reflexivity|]. cbn [length seq combine flat_map fst snd filter]. rewrite map_app, IH. destruct b; reflexivity. }
  rewrite <- (H 0). f_equal. rewrite !flat_map_concat_map. f_equal. apply map_ext. intros k. rewrite Nat.sub_0_r.
  destruct (nth_error l k) as [[i []]|]; reflexivity.
Qed.
Lemma grad_targets : forall mu d (lambda : nat -> A), map fst (grad_writes A dim mu d lambda) = flat_map (fun i => map (fun j => mu + dim * i + j) (seq 0 dim)) (owned (d_grads d)).
Proof.
  intros mu d lambda. unfold grad_writes. set (l := d_grads d). set (n := length (d_points d)).
  assert (forall s, map fst (flat_map (fun k => match nth_error l (k - s) with
     Some p => (if snd p then map (fun j => (mu + dim * fst p + j, lambda (n + dim * k + j))) (seq 0 dim) else []) | None => [] end) (seq s (length l))) =
     flat_map (fun i => map (fun j => mu + dim * i + j) (seq 0 dim)) (owned l)) as H.
  { intros s. rewrite (flat_nth _ _ (fun (p : nat * bool) k => if snd p then map (fun j => (mu + dim * fst p + j, lambda (n + dim * k + j))) (seq 0 dim) else [])).
    revert s. clearbody l. unfold owned.
    induction l as [|[i b] l IH]; intros s; [reflexivity|]. cbn [length seq combine flat_map fst snd filter]. rewrite map_app, IH. destruct b; [|reflexivity].
    cbn [map flat_map fst]. rewrite map_map. reflexivity. }
  rewrite <- (H 0). f_equal. rewrite !flat_map_concat_map. f_equal. apply map_ext. intros k. rewrite Nat.sub_0_r.
  destruct (nth_error l k) as [[i []]|]; reflexivity.
Qed.

Lemma flat_app : forall (X Y : Type) (f g : X -> list Y) l, Permutation (flat_map (fun x => f x ++ g x) l) (flat_map f l ++ flat_map g l).
Proof.
  intros X Y f g l. induction l as [|x l IH]; cbn; auto. rewrite IH, <- !app_assoc. apply Permutation_app_head.
  rewrite !app_assoc. apply Permutation_app_tail, Permutation_app_comm.
Qed.
Lemma flat_flat : forall (X Y Z : Type) (f : X -> list Y) (g : Y -> list Z) l, flat_map (fun x => flat_map g (f x)) l = flat_map g (flat_map f l).
Proof. intros X Y Z f g l. induction l as [|x l IH]; cbn; auto. rewrite IH, flat_map_app. reflexivity. Qed.
Lemma perm_flat : forall (X Y : Type) (f : X -> list Y) l l', Permutation l l' -> Permutation (flat_map f l) (flat_map f l').
Proof. intros X Y f l l' P. apply Permutation_flat_map. auto. Qed.

Lemma level_targets : forall mu ds lam pts grads poly, division dim pts grads poly ds ->
  Permutation (map fst (level_writes A dim mu ds lam)) (pts ++ flat_map (fun i => map (fun j => mu + dim * i + j) (seq 0 dim)) grads).
Proof.
  intros mu ds lam pts grads poly (P1 & P2 & _). unfold level_writes. generalize 0 at 1. intros s.
  assert (map fst (flat_map (fun p => writes A dim mu (fst p) (lam (snd p))) (combine ds (seq s (length ds)))) =
    flat_map (fun d => owned (d_points d) ++ flat_map (fun i => map (fun j => mu + dim * i + j) (seq 0 dim)) (owned (d_grads d))) ds) as ->.
  { clear - DIM. revert s. induction ds as [|d ds IH]; intros s; [reflexivity|]. cbn [length seq combine flat_map fst snd]. rewrite map_app, IH. f_equal.
    unfold writes. rewrite map_app, point_targets, grad_targets. reflexivity. }
  rewrite flat_app, (flat_flat _ _ _ (fun d => owned (d_grads d))). apply Permutation_app; auto. apply perm_flat. auto.
Qed.

Lemma flat_unique : forall mu pts grads, NoDup pts -> NoDup grads -> (forall i, In i pts -> i < mu) ->
  NoDup (pts ++ flat_map (fun i => map (fun j => mu + dim * i + j) (seq 0 dim)) grads).
Proof.
  intros mu pts grads N1 N2 L. apply NoDup_app; auto.
  - apply NoDup_flat_map; auto.
    + intros i _. apply FinFun.Injective_map_NoDup; [intros a b E; lia|apply seq_NoDup].
    + intros i i' b _ _ I I'. apply in_map_iff in I. apply in_map_iff in I'. destruct I as (j & <- & J), I' as (j' & E & J').
      apply in_seq in J. apply in_seq in J'. nia.
  - intros x X Y. apply L in X. apply in_flat_map in Y. destruct Y as (i & _ & Y). apply in_map_iff in Y. destruct Y as (j & <- & _). lia.
Qed.

Theorem level_spec : forall mu ds lam pts grads poly ws (w : nat -> A), division dim pts grads poly ds -> NoDup pts -> NoDup grads ->
  (forall i, In i pts -> i < mu) -> Permutation ws (level_writes A dim mu ds lam) ->
  NoDup (map fst ws) /\
  (forall k d p i, nth_error ds k = Some d -> nth_error (d_points d) p = Some (i, true) -> store_all A ws w i = lam k p) /\
  (forall k d p i j, nth_error ds k = Some d -> nth_error (d_grads d) p = Some (i, true) -> j < dim ->
     store_all A ws w (mu + dim * i + j) = lam k (length (d_points d) + dim * p + j)) /\
  (forall i, ~ In i pts -> ~ (exists g j, In g grads /\ j < dim /\ i = mu + dim * g + j) -> store_all A ws w i = w i) /\
  (forall i, In i pts -> exists k d p, nth_error ds k = Some d /\ nth_error (d_points d) p = Some (i, true)) /\
  (forall i, In i grads -> exists k d p, nth_error ds k = Some d /\ nth_error (d_grads d) p = Some (i, true)).
Proof.
  intros mu ds lam pts grads poly ws w DV N1 N2 L P. pose proof (level_targets mu ds lam pts grads poly DV) as T.
  pose proof (Permutation_map fst P) as PM.
  assert (NoDup (map fst ws)) as ND.
  { apply (Permutation_NoDup (Permutation_sym PM)). apply (Permutation_NoDup (Permutation_sym T)). apply flat_unique; auto. }
  assert (forall k d x, nth_error ds k = Some d -> In x (writes A dim mu d (lam k)) -> In x ws) as IN.
  { intros k d x K X. apply (Permutation_in _ (Permutation_sym P)). unfold level_writes. apply in_flat_map. exists (d, k). split; auto.
    assert (forall (l : list domain) s k, nth_error l k = Some d -> In (d, s + k) (combine l (seq s (length l)))) as G.
    { induction l as [|y l IH]; intros s k' K'; [destruct k'; discriminate|]. destruct k' as [|k']; cbn [length seq combine].
      - injection K' as ->. left. f_equal. lia.
      - right. replace (s + S k') with (S s + k') by lia. apply IH. auto. }
    apply (G ds 0 k K). }
  assert (forall rows i, In i (owned rows) -> exists p, nth_error rows p = Some (i, true)) as OW.
  { intros rows i I. unfold owned in I. apply in_map_iff in I. destruct I as ([j b] & <- & I). apply filter_In in I. destruct I as [I B]. cbn in *. subst.
    apply In_nth_error in I. auto. }
  split; [auto|]. split; [|split; [|split; [|split]]].
  - intros k d p i K I. apply store_hit; auto. apply (IN k d); auto. unfold writes. apply in_app_iff. left. unfold point_writes. apply in_flat_map.
    exists p. split; [apply in_seq; split; [lia|]; apply nth_error_Some; congruence|]. rewrite I. left. auto.
  - intros k d p i j K I J. apply store_hit; auto. apply (IN k d); auto. unfold writes. apply in_app_iff. right. unfold grad_writes. apply in_flat_map.
    exists p. split; [apply in_seq; split; [lia|]; apply nth_error_Some; congruence|]. rewrite I. apply in_map_iff. exists j. split; [auto|apply in_seq; lia].
  - intros i NP NG. apply store_other. intros X. apply (Permutation_in _ PM) in X. apply (Permutation_in _ T) in X. apply in_app_iff in X. destruct X as [X|X]; auto.
    apply NG. apply in_flat_map in X. destruct X as (g & G & X). apply in_map_iff in X. destruct X as (j & <- & J). apply in_seq in J. exists g, j. repeat split; auto; lia.
  - intros i I. destruct DV as (P1 & _). apply (Permutation_in _ (Permutation_sym P1)) in I. apply in_flat_map in I. destruct I as (d & D & I).
    destruct (OW _ _ I) as (p & Q). apply In_nth_error in D. destruct D as (k & K). eauto 6.
  - intros i I. destruct DV as (_ & P2 & _). apply (Permutation_in _ (Permutation_sym P2)) in I. apply in_flat_map in I. destruct I as (d & D & I).
    destruct (OW _ _ I) as (p & Q). apply In_nth_error in D. destruct D as (k & K). eauto 6.
Qed.
End Writes.
