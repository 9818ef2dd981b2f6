From Coq Require Import Reals List Arith Bool Lia Lra.
From Verif Require Import Proofs.LinAlg Proofs.PositiveSystem Proofs.Operator Proofs.Fitted Proofs.FittedMoves Proofs.DataFit Proofs.InequalityFitter.
From Verif Require Import Model.Outcome Model.LinAlg Model.MonomialBasis Model.Rbfs Model.Operator Model.InequalityFitter.
From Verif Require Import Spec.Rbfs Spec.Operator Spec.PositiveDefinite Spec.Hermite Spec.SolverRun Spec.IncrementalFitter Spec.InequalityFitter Spec.Fitted Spec.DataFit Spec.BoundedFit.
Import ListNotations.
Local Open Scope R_scope.

(** ** The weights of the centers as weights of all points *)
Definition spread (c : list nat) (w : nat -> R) (m : nat) (r : nat) : R :=
  if (r <? m)%nat then rsum (length c) (fun k => if Nat.eqb (nth k c 0%nat) r then w k else 0) else w (length c + (r - m))%nat.
Lemma rsum_one : forall m i (g : R), (i < m)%nat -> rsum m (fun j => if Nat.eqb i j then g else 0) = g.
Proof.
  induction m as [|m IH]; intros i g I0; [lia|]. replace (S m) with (m + 1)%nat by lia. rewrite rsum_app. cbn [rsum].
  destruct (Nat.eq_dec i m) as [->|N].
  - rewrite (rsum_0 m). 2:{ intros j J. destruct (Nat.eqb_spec m j); [lia|reflexivity]. }
    rewrite Nat.add_0_r, Nat.eqb_refl. ring.
  - rewrite IH by lia. rewrite Nat.add_0_r. destruct (Nat.eqb_spec i m); [lia|]. ring.
Qed.
Lemma spread_sum : forall c w m g, (forall i, In i c -> (i < m)%nat) -> rsum m (fun i => g i * spread c w m i) = rsum (length c) (fun k => g (nth k c 0%nat) * w k).
Proof.
  intros c w m g B. rewrite (rsum_ext m _ (fun i => rsum (length c) (fun k => if Nat.eqb (nth k c 0%nat) i then g (nth k c 0%nat) * w k else 0))).
  2:{ intros i I0. unfold spread. rewrite (proj2 (Nat.ltb_lt _ _) I0), <- rsum_scal. apply rsum_ext. intros k _.
      destruct (Nat.eqb_spec (nth k c 0%nat) i) as [->|]; ring. }
  rewrite rsum_swap. apply rsum_ext. intros k K. apply rsum_one. apply B, nth_In. exact K.
Qed.

Section BoundedFit.
Variables (Pt : Type) (d : nat) (degree : option nat) (rbfs : list (rbf (nat -> R))).
Notation kern := (kernel (nat -> R) difference d rbfs).

Lemma kernel_picked : forall x c m m' i k, (i < m)%nat -> (i < m')%nat -> (k < length c)%nat -> (nth k c 0 < m)%nat ->
  kern (points (length c) (picked x c)) (points m' x) i k = kern (points m x) (points m x) i (nth k c 0%nat).
Proof.
  intros x c m m' i k I0 I1 K B. unfold kernel. cbn [points mu pt picked]. apply Nat.ltb_lt in I0, I1, K, B. rewrite I0, I1, K, B. reflexivity.
Qed.
Lemma kernel_both : forall x c m i k, (i < length c)%nat -> (k < length c)%nat -> (nth i c 0 < m)%nat -> (nth k c 0 < m)%nat ->
  kern (points (length c) (picked x c)) (points (length c) (picked x c)) i k = kern (points m x) (points m x) (nth i c 0%nat) (nth k c 0%nat).
Proof.
  intros x c m i k I0 K B0 B. unfold kernel. cbn [points mu pt picked]. apply Nat.ltb_lt in I0, B0, K, B. rewrite I0, B0, K, B. reflexivity.
Qed.
Lemma space_picked : forall x c m i k, (i < length c)%nat -> (nth i c 0 < m)%nat ->
  space d degree (points (length c) (picked x c)) i k = space d degree (points m x) (nth i c 0%nat) k.
Proof.
  intros x c m i k A B. unfold space. destruct degree; auto. unfold MonomialBasis.evaluate, values; cbn [points mu pt picked]. apply Nat.ltb_lt in A, B. rewrite A, B. reflexivity.
Qed.
Lemma spread_whole : forall x c w m i, distinct_rows c m -> (i < m)%nat ->
  whole d degree rbfs (points m x) (points m x) (spread c w m) i = whole d degree rbfs (points (length c) (picked x c)) (points m x) w i.
Proof.
  intros x c w m i [_ B] I0. unfold whole. rewrite !points_rows. f_equal.
  - unfold mat_vec. rewrite spread_sum by exact B. apply rsum_ext. intros k K. f_equal. symmetry. apply kernel_picked; auto. apply B, nth_In. exact K.
  - unfold mat_vec. apply rsum_ext. intros k K. f_equal. unfold spread. destruct (Nat.ltb_spec (m + k) m); [lia|]. f_equal. lia.
Qed.
Lemma spread_surface : forall x c w m f, distinct_rows c m -> surface d degree rbfs (points (length c) (picked x c)) w (points m x) f ->
  surface d degree rbfs (points m x) (spread c w m) (points m x) f.
Proof.
  intros x c w m f DR S0. destruct (whole_surface d degree rbfs (points m x) (points m x) (spread c w m)) as (ss & SC & H).
  exists ss. split; [exact SC|]. intros r L. rewrite <- H by exact L. rewrite points_rows in L. rewrite spread_whole by auto.
  apply surface_whole; [exact S0|rewrite points_rows; exact L].
Qed.
Lemma spread_orthogonal : forall x c w m, distinct_rows c m -> orthogonal d (length c) degree (picked x c) w -> orthogonal d m degree x (spread c w m).
Proof.
  intros x c w m [_ B] O k K. rewrite spread_sum by exact B. rewrite <- (O k K). apply rsum_ext. intros i I0.
  rewrite (space_picked x c m) by (auto; apply B, nth_In; exact I0). reflexivity.
Qed.
Lemma spread_energy : forall x c w m, distinct_rows c m -> energy d m rbfs x (spread c w m) = energy d (length c) rbfs (picked x c) w.
Proof.
  intros x c w m [_ B]. unfold energy, quad.
  rewrite (rsum_ext m _ (fun i => rsum (length c) (fun k => kern (points m x) (points m x) i (nth k c 0%nat) * w k) * spread c w m i)).
  2:{ intros i I0. rewrite <- (spread_sum c w m (fun j => kern (points m x) (points m x) i j)) by exact B. rewrite Rmult_comm, <- rsum_scal. apply rsum_ext. intros; ring. }
  rewrite spread_sum by exact B. apply rsum_ext. intros i I0. rewrite Rmult_comm, <- rsum_scal. apply rsum_ext. intros k K.
  rewrite (kernel_both x c m) by (auto; apply B, nth_In; assumption). ring.
Qed.

Section On.
Variables (x : nat -> nat -> R) (tol : R) (E : ienv Pt R).
Hypothesis W : bounded_on d degree rbfs x tol E.

Lemma false_iff : forall (b : bool) (P : Prop), (b = true <-> P) -> b = false -> ~ P.
Proof. intros b P H F Q. apply H in Q. congruence. Qed.

Lemma bounded_fit : forall n c w, irun E n (iinit E) = Ok (IFinished c w) -> (space_size d degree <= length c)%nat ->
  distinct_rows c (n_points E) /\ length w = (length c + space_size d degree)%nat /\ orthogonal d (length c) degree (picked x c) (weight w) /\
  exists f, surface d degree rbfs (points (length c) (picked x c)) (weight w) (points (n_points E) x) f /\ meets E tol f /\ pushes E tol c w f.
Proof.
  intros n c w H LE. rewrite <- (bo_size _ _ _ _ _ _ W) in LE.
  destruct (ineq_returned E (bo_ok _ _ _ _ _ _ W) n c w H LE) as (r & lb & ub & cv & w0 & DR & CI & LBS & UBS & SV & LV & LW & TG & BH).
  destruct (bo_solve _ _ _ _ _ _ W _ _ _ _ _ DR SV) as ((ss & SC & F) & O). split; [exact DR|]. rewrite <- (bo_size _ _ _ _ _ _ W).
  split; [exact LW|]. split; [exact O|].
  set (s := points (length c) (picked x c)) in *. exists (whole d degree rbfs s (points (n_points E) x) (weight w)).
  set (f := whole d degree rbfs s (points (n_points E) x) (weight w)). split; [apply whole_surface|].
  pose proof (bo_ok _ _ _ _ _ _ W) as OK.
  assert (CT : forall k, (k < length c)%nat -> exists v, target E lb ub (nth k c 0%nat) v /\ Rabs (f (nth k c 0%nat) - v) <= tol).
  { intros k K. pose proof (nth_error_nth' c 0%nat K) as NC. pose proof (nth_error_nth' cv 0 ltac:(rewrite LV; exact K)) as NV.
    exists (nth k cv 0). split; [apply (TG k); auto|]. specialize (F k K).
    assert (KS : (k < rows d s)%nat) by (unfold s; rewrite points_rows; exact K).
    assert (SCS : schedules_ok (nat -> R) rbfs (rows d s) ss) by (unfold s; rewrite points_rows; exact SC).
    rewrite (evaluator_operator (nat -> R) difference d rbfs 0 _ ss ss s _ _ k SCS SCS) in F by exact KS.
    rewrite (evaluator_entries (nat -> R) difference d rbfs (space_size d degree) ss s s _ _ k SCS KS) in F.
    replace (f (nth k c 0%nat)) with (whole d degree rbfs s (chosen (points (n_points E) x) c []) (weight w) k).
    2:{ apply whole_value; [exact K|]. apply (proj2 DR), nth_In. exact K. }
    change (chosen (points (n_points E) x) c []) with s. change (weight cv k) with (nth k cv 0) in F.
    unfold whole. destruct (k <? _)%nat in F; rewrite ?Rmult_0_l, Rplus_0_r in F; exact F. }
  assert (IB : forall i, In i (ineq_idcs E) -> exists k y, nth_error (ineq_idcs E) k = Some i /\
     nth_error (ievaluate E r c w (ineq_idcs E)) k = Some y /\ y = f i).
  { intros i II. apply In_nth_error in II. destruct II as (k & II). destruct (BH k i II) as (y & Y & _). exists k, y. split; auto. split; auto.
    assert (DI : distinct_rows (ineq_idcs E) (n_points E)) by (split; [apply (ineq_NoDup E)|apply (ineq_lt E)]).
    pose proof (bo_evaluate _ _ _ _ _ _ W r c w _ DR DI) as S0.
    assert (K : (k < length (ineq_idcs E))%nat) by (apply nth_error_Some; congruence).
    pose proof (surface_whole _ _ _ _ _ _ _ k S0 ltac:(rewrite points_rows; exact K)) as Q.
    unfold weight at 1 in Q. rewrite (nth_error_nth _ _ 0 Y) in Q. rewrite Q. fold s.
    change (points (length (ineq_idcs E)) (picked x (ineq_idcs E))) with (chosen (points (n_points E) x) (ineq_idcs E) []).
    rewrite whole_value; [|exact K|apply (proj2 DI), nth_In; exact K]. rewrite (nth_error_nth _ _ 0%nat II). reflexivity. }
  assert (VN : forall i v, nth_error (Model.InequalityFitter.values E) i = Some (Some v) -> has (Model.InequalityFitter.values E) i = true) by (intros i v Q; unfold has; rewrite Q; reflexivity).
  assert (TV : forall i v v', target E lb ub i v -> nth_error (Model.InequalityFitter.values E) i = Some (Some v') -> v = v') by (intros i v v' [T|[(T & _)|(T & _)]] Q; congruence).
  assert (TL : forall i v b, target E lb ub i v -> In i lb -> nth_error (values_lb E) i = Some (Some b) -> v = b).
  { intros i v b T IL Q. destruct (LBS i IL) as [_ NO]. destruct T as [T|[(_ & _ & T)|(_ & T & _)]]; [|congruence|tauto]. apply VN in T. congruence. }
  assert (TU : forall i v b, target E lb ub i v -> In i ub -> ~ In i lb -> nth_error (values_ub E) i = Some (Some b) -> v = b).
  { intros i v b T IU NL Q. destruct (UBS i IU) as [_ NO]. destruct T as [T|[(_ & T & _)|(_ & _ & _ & T)]]; [|tauto|congruence]. apply VN in T. congruence. }
  assert (CK : forall i, In i c -> exists k, (k < length c)%nat /\ nth k c 0%nat = i).
  { intros i IC. apply (In_nth _ _ 0%nat) in IC. destruct IC as (k & K & Q). eauto. }
  assert (WO : forall i k y, (k < length c)%nat -> nth k c 0%nat = i -> weight_of c w i y -> weight w k = y).
  { intros i k y K Q (j & J & Y). assert (j = k) as ->; [|unfold weight; apply nth_error_nth; exact Y].
    assert (JL : (j < length c)%nat) by (apply nth_error_Some; congruence).
    apply (proj1 (NoDup_nth c 0%nat) (proj1 DR)); auto. rewrite (nth_error_nth _ _ 0%nat J). congruence. }
  assert (II : forall i, In i lb \/ In i ub -> In i (ineq_idcs E)).
  { intros i [Q|Q]; apply (ineq_In E OK); [left; apply (LBS i Q)|right; apply (UBS i Q)]. }
  assert (LP : forall i k, In i lb -> (k < length c)%nat -> nth k c 0%nat = i -> 0 < weight w k).
  { intros i k IL K Q. destruct (IB i (II i (or_introl IL))) as (j & y & J & Y & ->). destruct (BH j i J) as (y & Y' & BL & _).
    destruct (LBS i IL) as [HB _]. apply has_spec in HB. destruct HB as (b & HB). destruct (BL b HB) as [(_ & z & Z & NP)|[NI _]]; [|tauto].
    rewrite (WO i k z K Q Z). pose proof (false_iff _ _ (bo_nonpositive _ _ _ _ _ _ W z) NP). lra. }
  assert (UN : forall i k, In i ub -> (k < length c)%nat -> nth k c 0%nat = i -> weight w k < 0).
  { intros i k IU K Q. destruct (IB i (II i (or_intror IU))) as (j & y & J & Y & ->). destruct (BH j i J) as (y & Y' & _ & BU).
    destruct (UBS i IU) as [HB _]. apply has_spec in HB. destruct HB as (b & HB). destruct (BU b HB) as [(_ & z & Z & NP)|[NI _]]; [|tauto].
    rewrite (WO i k z K Q Z). pose proof (false_iff _ _ (bo_nonnegative _ _ _ _ _ _ W z) NP). lra. }
  assert (NB : forall i, In i lb -> In i ub -> False).
  { intros i A B. destruct (CK i) as (k & K & Q); [apply CI; auto|]. pose proof (LP i k A K Q). pose proof (UN i k B K Q). lra. }
  split; [split; [|split]|].
  - intros i v HV. destruct (CK i) as (k & K & Q). { apply CI. left. apply (eq_In E). apply (VN i v HV). }
    destruct (CT k K) as (v' & T & A). rewrite Q in *. rewrite <- (TV i v' v T HV). exact A.
  - intros i b HB. destruct (IB i) as (j & y & J & Y & EY). { apply (ineq_In E OK). left. unfold has. rewrite HB. reflexivity. }
    destruct (BH j i J) as (y' & Y' & BL & _). destruct (BL b HB) as [(IL & _)|[NI NB']].
    + destruct (CK i) as (k & K & Q); [apply CI; auto|]. destruct (CT k K) as (v & T & A). rewrite Q in *. rewrite (TL i v b T IL HB) in A.
      unfold Rabs in A. destruct (Rcase_abs _); lra.
    + pose proof (false_iff _ _ (bo_below _ _ _ _ _ _ W y' b) NB'). assert (y' = f i) by congruence. lra.
  - intros i b HB. destruct (IB i) as (j & y & J & Y & EY). { apply (ineq_In E OK). right. unfold has. rewrite HB. reflexivity. }
    destruct (BH j i J) as (y' & Y' & _ & BU). destruct (BU b HB) as [(IU & _)|[NI NB']].
    + destruct (CK i) as (k & K & Q); [apply CI; auto|]. destruct (CT k K) as (v & T & A). rewrite Q in *.
      rewrite (TU i v b T IU (fun L => NB i L IU) HB) in A. unfold Rabs in A. destruct (Rcase_abs _); lra.
    + pose proof (false_iff _ _ (bo_above _ _ _ _ _ _ W y' b) NB'). assert (y' = f i) by congruence. lra.
  - intros k K i. destruct (CT k K) as (v & T & A). fold i in T, A. destruct T as [T|[(_ & IL & T)|(_ & NL & IU & T)]]; [left|right; left|right; right].
    + eauto.
    + exists v. split; auto. split; auto. apply (LP i); auto.
    + exists v. split; auto. split; auto. apply (UN i); auto.
Qed.
End On.
End BoundedFit.

(** ** Least energy *)
Lemma bounded_least : forall Pt d degree terms x tol (E : ienv Pt R), degree_ok d degree -> Forall (good_term d (order degree)) terms ->
  bounded_on d degree (map (term_rbf d) terms) x tol E ->
  forall n c w, irun E n (iinit E) = Ok (IFinished c w) -> (space_size d degree <= length c)%nat ->
  forall m w' f' t, (n_points E <= m)%nat -> orthogonal d m degree x w' -> surface d degree (map (term_rbf d) terms) (points m x) w' (points (n_points E) x) f' ->
  meets E t f' -> energy d (length c) (map (term_rbf d) terms) (picked x c) (weight w) <=
    energy d m (map (term_rbf d) terms) x w' + 2 * (tol + t) * rsum (length c) (fun k => Rabs (weight w k)).
Proof.
  intros Pt d degree terms x tol E DG GT W n c w H LE m w' f' t LM O' S' (MV & ML & MU).
  destruct (bounded_fit Pt d degree _ x tol E W n c w H LE) as (DR & LW & O & f & S0 & _ & PU).
  pose proof (energy_distance d degree terms (n_points E) m x (spread c (weight w) (n_points E)) w' f f' DG GT
    (spread_orthogonal d degree x c (weight w) _ DR O) LM O' (spread_surface d degree _ x c (weight w) _ f DR S0) S') as G.
  rewrite (spread_energy d _ x c (weight w) _ DR) in G.
  rewrite (rsum_ext (n_points E) (fun i => spread c (weight w) (n_points E) i * (f' i - f i)) (fun i => (f' i - f i) * spread c (weight w) (n_points E) i)) in G by (intros; ring).
  rewrite (spread_sum c (weight w) (n_points E) (fun i => f' i - f i) (proj2 DR)) in G.
  assert (B : - ((tol + t) * rsum (length c) (fun k => Rabs (weight w k))) <= rsum (length c) (fun k => (f' (nth k c 0%nat) - f (nth k c 0%nat)) * weight w k)).
  { replace (- ((tol + t) * rsum (length c) (fun k => Rabs (weight w k)))) with (rsum (length c) (fun k => - (tol + t) * Rabs (weight w k))) by (rewrite rsum_scal; ring).
    apply rsum_le. intros k K. specialize (PU k K). cbv zeta in PU. set (i := nth k c 0%nat) in *. clearbody i.
    destruct PU as [(v & V & A)|[(b & V & A & P)|(b & V & A & P)]].
    - specialize (MV i v V). assert (X : Rabs (f' i - f i) <= tol + t).
      { replace (f' i - f i) with ((f' i - v) + (v - f i)) by ring. pose proof (Rabs_triang (f' i - v) (v - f i)). rewrite (Rabs_minus_sym v) in *. lra. }
      assert (Y : Rabs ((f' i - f i) * weight w k) <= (tol + t) * Rabs (weight w k)). { rewrite Rabs_mult. apply Rmult_le_compat_r; [apply Rabs_pos|exact X]. }
      pose proof (Rle_abs (- ((f' i - f i) * weight w k))) as Z. rewrite Rabs_Ropp in Z. lra.
    - specialize (ML i b V). rewrite (Rabs_right (weight w k)) by lra. apply Rmult_le_compat_r; [lra|].
      unfold Rabs in A. destruct (Rcase_abs _) in A; lra.
    - specialize (MU i b V). rewrite (Rabs_left (weight w k)) by lra. 
      assert (Q : f' i - f i <= tol + t) by (unfold Rabs in A; destruct (Rcase_abs _) in A; lra).
      clear - Q P. nra. }
  lra.
Qed.

(** ** And no other *)
Lemma source_picked : forall d rbfs x c m t r k, (k < length c)%nat -> (nth k c 0 < m)%nat ->
  kernel (nat -> R) difference d rbfs (points (length c) (picked x c)) t r k = kernel (nat -> R) difference d rbfs (points m x) t r (nth k c 0%nat).
Proof.
  intros d rbfs x c m t r k K B. unfold kernel. cbn [points mu pt picked]. apply Nat.ltb_lt in K, B. rewrite K, B. reflexivity.
Qed.
Lemma rsum_nonneg_0 : forall n f, (forall i, (i < n)%nat -> 0 <= f i) -> rsum n f <= 0 -> forall i, (i < n)%nat -> f i = 0.
Proof.
  induction n as [|n IH]; intros f P H i I0; [lia|]. replace (S n) with (n + 1)%nat in H by lia. rewrite rsum_app in H. cbn [rsum] in H. rewrite Nat.add_0_r in H.
  assert (Q : 0 <= rsum n f). { rewrite <- (rsum_0 n (fun _ => 0)) by auto. apply rsum_le. intros j J. apply P. lia. }
  pose proof (P n ltac:(lia)). destruct (Nat.eq_dec i n) as [->|N]; [lra|]. apply IH; [intros; apply P; lia|lra|lia].
Qed.
Lemma bounded_unique : forall Pt d degree terms x (E : ienv Pt R), degree_ok d degree -> Forall (good_term d (order degree)) terms ->
  bounded_on d degree (map (term_rbf d) terms) x 0 E ->
  forall n c w, irun E n (iinit E) = Ok (IFinished c w) -> (space_size d degree <= length c)%nat ->
  unisolvent (length c) (space_size d degree) (space d degree (points (length c) (picked x c))) ->
  forall m w' f', (n_points E <= m)%nat -> has_weight m d x terms 0 -> orthogonal d m degree x w' ->
  surface d degree (map (term_rbf d) terms) (points m x) w' (points (n_points E) x) f' -> meets E 0 f' ->
  energy d m (map (term_rbf d) terms) x w' <= energy d (length c) (map (term_rbf d) terms) (picked x c) (weight w) ->
  forall t g g', surface d degree (map (term_rbf d) terms) (points (length c) (picked x c)) (weight w) t g ->
  surface d degree (map (term_rbf d) terms) (points m x) w' t g' -> forall r, (r < rows d t)%nat -> g' r = g r.
Proof.
  intros Pt d degree terms x E DG GT W n c w H LE UN m w' f' LM HW O' S' (MV & ML & MU) EN t g g' G G' r R0.
  destruct (bounded_fit Pt d degree _ x 0 E W n c w H LE) as (DR & LW & O & f & S0 & _ & PU).
  set (rbfs := map (term_rbf d) terms) in *. set (N := n_points E) in *.
  pose proof (spread_orthogonal d degree x c (weight w) _ DR O) as SO. pose proof (spread_surface d degree rbfs x c (weight w) _ f DR S0) as SS.
  pose proof (energy_split d degree terms N m x (spread c (weight w) N) w' f f' SO LM SS S') as EQ. fold rbfs in EQ.
  pose proof (gap_orthogonal d degree N m x (spread c (weight w) N) w' SO LM O') as GO.
  set (gap := weights_gap N (spread c (weight w) N) w') in *.
  rewrite (spread_energy d rbfs x c (weight w) _ DR) in EQ.
  rewrite (rsum_ext N (fun i => spread c (weight w) N i * (f' i - f i)) (fun i => (f' i - f i) * spread c (weight w) N i)) in EQ by (intros; ring).
  rewrite (spread_sum c (weight w) N (fun i => f' i - f i) (proj2 DR)) in EQ.
  assert (PT : forall k, (k < length c)%nat -> 0 <= (f' (nth k c 0%nat) - f (nth k c 0%nat)) * weight w k /\
    ((f' (nth k c 0%nat) - f (nth k c 0%nat)) * weight w k = 0 -> f' (nth k c 0%nat) = f (nth k c 0%nat))).
  { intros k K. specialize (PU k K). cbv zeta in PU. set (i := nth k c 0%nat) in *. clearbody i.
    assert (AB : forall a b, Rabs (a - b) <= 0 -> a = b). { intros a b Q. pose proof (Rabs_pos (a - b)). assert (a - b = 0); [|lra]. destruct (Req_dec (a - b) 0) as [|Z]; auto. apply Rabs_no_R0 in Z. lra. }
    destruct PU as [(v & V & A)|[(b & V & A & P)|(b & V & A & P)]].
    - specialize (MV i v V). apply AB in MV, A. rewrite MV, A. split; [lra|auto].
    - specialize (ML i b V). apply AB in A. rewrite A. split; [|intros Z; clear - Z P; nra]. apply Rmult_le_pos; lra.
    - specialize (MU i b V). apply AB in A. rewrite A. split; [|intros Z; clear - Z P; nra]. clear - MU P. nra. }
  pose proof (orthogonal_moments d m degree x gap DG GO) as MO.
  destruct (terms_definite m d x terms (order degree) 0 GT HW) as (low & LP & DF). specialize (DF gap MO).
  assert (QE : quad m (fun i j => kernel (nat -> R) difference d rbfs (points m x) (points m x) i j + nugget_at (nat -> R) 0 (points m x) i j) gap = energy d m rbfs x gap).
  { unfold energy, quad. apply rsum_ext. intros i _. apply rsum_ext. intros j _. f_equal. unfold nugget_at. repeat match goal with |- context [if ?b then _ else _] => destruct b end; ring. }
  fold rbfs in DF. rewrite QE in DF.
  assert (L2 : 0 <= length2 m gap). { unfold length2. rewrite <- (rsum_0 m (fun _ => 0)) by auto. apply rsum_le. intros i _. apply (Rle_0_sqr (gap i)). }
  assert (TS : 0 <= rsum (length c) (fun k => (f' (nth k c 0%nat) - f (nth k c 0%nat)) * weight w k)).
  { rewrite <- (rsum_0 (length c) (fun _ => 0)) by auto. apply rsum_le. intros k K. apply PT. exact K. }
  assert (LL : 0 <= low * length2 m gap) by (apply Rmult_le_pos; lra).
  assert (Z2 : length2 m gap <= 0) by (clear - EQ EN DF TS LL LP L2; nra).
  assert (GZ : forall i, (i < m)%nat -> gap i = 0).
  { intros i I0. pose proof (rsum_nonneg_0 m (fun i => gap i * gap i) (fun i _ => Rle_0_sqr (gap i)) Z2 i I0) as Q. cbv beta in Q. apply Rmult_integral in Q. tauto. }
  assert (FC : forall k, (k < length c)%nat -> f' (nth k c 0%nat) = f (nth k c 0%nat)).
  { intros k K. apply (PT k K). apply (rsum_nonneg_0 (length c) (fun k => (f' (nth k c 0%nat) - f (nth k c 0%nat)) * weight w k)); [intros; apply PT; auto|lra|exact K]. }
  assert (WS : forall i, (i < m)%nat -> w' i = spread c (weight w) m i).
  { intros i I0. specialize (GZ i I0). unfold gap, weights_gap in GZ. unfold spread in *. rewrite (proj2 (Nat.ltb_lt _ _) I0).
    destruct (Nat.ltb_spec i N) as [L|L]; [lra|]. rewrite (rsum_0 (length c)); [lra|]. intros k K.
    destruct (Nat.eqb_spec (nth k c 0%nat) i) as [Q|]; [|reflexivity]. pose proof (proj2 DR _ (nth_In c 0%nat K)) as X. fold N in X. lia. }
  assert (CM : forall i, In i c -> (i < m)%nat) by (intros i Q; apply (proj2 DR) in Q; fold N in Q; lia).
  assert (WH : forall t r, whole d degree rbfs (points m x) t w' r - whole d degree rbfs (points (length c) (picked x c)) t (weight w) r =
    mat_vec (space_size d degree) (space d degree t) (fun k => w' (m + k)%nat - weight w (length c + k)) r).
  { clear r R0 t g g' G G'. intros t r. unfold whole. rewrite !points_rows. unfold mat_vec at 1.
    rewrite (rsum_ext m _ (fun j => kernel (nat -> R) difference d rbfs (points m x) t r j * spread c (weight w) m j)) by (intros j J; rewrite WS by exact J; reflexivity).
    rewrite spread_sum by exact CM. unfold mat_vec at 2.
    rewrite (rsum_ext (length c) (fun j => kernel (nat -> R) difference d rbfs (points (length c) (picked x c)) t r j * weight w j)
      (fun k => kernel (nat -> R) difference d rbfs (points m x) t r (nth k c 0%nat) * weight w k)).
    2:{ intros k K. rewrite (source_picked d rbfs x c m) by (auto; apply CM, nth_In; exact K). reflexivity. }
    unfold mat_vec. rewrite (rsum_ext (space_size d degree) (fun c0 => space d degree t r c0 * (w' (m + c0)%nat - weight w (length c + c0)))
      (fun c0 => space d degree t r c0 * w' (m + c0)%nat - space d degree t r c0 * weight w (length c + c0))) by (intros; ring).
    rewrite rsum_minus. ring. }
  assert (AZ : forall k, (k < space_size d degree)%nat -> w' (m + k)%nat - weight w (length c + k) = 0).
  { apply (UN (fun k => w' (m + k)%nat - weight w (length c + k))). intros i I0.
    assert (IN : (nth i c 0 < N)%nat) by (apply (proj2 DR), nth_In; exact I0).
    unfold mat_vec. rewrite (rsum_ext (space_size d degree) _ (fun k => space d degree (points N x) (nth i c 0%nat) k * (w' (m + k)%nat - weight w (length c + k)))).
    2:{ intros k _. rewrite (space_picked d degree x c N) by auto. reflexivity. }
    change (mat_vec (space_size d degree) (space d degree (points N x)) (fun k => w' (m + k)%nat - weight w (length c + k)) (nth i c 0%nat) = 0).
    rewrite <- WH. rewrite <- (surface_whole d degree rbfs _ _ _ _ _ S') by (rewrite points_rows; exact IN).
    rewrite <- (surface_whole d degree rbfs _ _ _ _ _ S0) by (rewrite points_rows; exact IN). rewrite (FC i I0). ring. }
  pose proof (WH t r) as X. rewrite <- (surface_whole d degree rbfs _ _ _ _ _ G' R0), <- (surface_whole d degree rbfs _ _ _ _ _ G R0) in X.
  unfold mat_vec in X. rewrite (rsum_0 (space_size d degree)) in X; [lra|]. intros k K. rewrite AZ by exact K. ring.
Qed.
