From Coq Require Import List Arith Bool Lia.
From Verif Require Import Model.Outcome Model.DistanceFilter Spec.DistanceFilter.
Import ListNotations.

Section Proofs.

Context {Pt D : Type}.
Variable valid_distance : D -> bool.
Variable near : D -> Pt -> Pt -> Prop.
Variable search : list Pt -> Pt -> D -> list nat.
Hypothesis OK : search_ok near search.
Hypothesis SYM : forall d p q, near d p q -> near d q p.

Lemma memb_In : forall i l, memb i l = true <-> In i l.
Proof.
  intros. unfold memb. rewrite existsb_exists. split.
  - intros (x & I & E). apply Nat.eqb_eq in E. subst. auto.
  - intros I. exists i. split; auto. apply Nat.eqb_refl.
Qed.

Lemma memb_false : forall i l, memb i l = false <-> ~ In i l.
Proof. intros. rewrite <- memb_In. destruct (memb i l); split; congruence. Qed.

(** What one run of the marking loop knows: [done_] are the indices already visited, [removed] is exactly
    the set of different indices near a visited survivor. *)
Definition inv (ps : list Pt) (d : D) (done_ removed : list nat) : Prop :=
  (forall j, In j removed -> exists i, In i done_ /\ ~ In i removed /\ i <> j /\ near_at (near d) ps i j) /\
  (forall i j, In i done_ -> ~ In i removed -> i <> j -> near_at (near d) ps i j -> In j removed) /\
  (forall j, In j done_ -> In j removed ->
     exists i, In i done_ /\ ~ In i removed /\ earlier done_ i j /\ near_at (near d) ps i j).

Lemma near_at_sym : forall d ps i j, near_at (near d) ps i j -> near_at (near d) ps j i.
Proof. intros d ps i j (p & q & A & B & C). exists q, p. auto. Qed.

Lemma earlier_snoc : forall {A} (l : list A) z x y, earlier l x y -> earlier (l ++ [z]) x y.
Proof.
  intros A l z x y (a & b & -> & I). exists a, (b ++ [z]). rewrite <- app_assoc. auto.
Qed.
Lemma earlier_last : forall {A} (l : list A) x y, In x l -> earlier (l ++ [y]) x y.
Proof. intros A l x y I. exists l, []. auto. Qed.

Lemma mark_spec : forall ps d order done_ removed removed',
  inv ps d done_ removed -> mark search ps d order removed = Ok removed' ->
  inv ps d (done_ ++ order) removed'.
Proof.
  intros ps d. induction order as [|i rest IH]; intros done_ removed removed' I M; cbn in M.
  - injection M as <-. rewrite app_nil_r. auto.
  - replace (done_ ++ i :: rest) with ((done_ ++ [i]) ++ rest) by (rewrite <- app_assoc; auto).
    destruct (memb i removed) eqn:E.
    + apply IH with removed; auto. apply memb_In in E. destruct I as (I1 & I2 & I3).
      split; [|split].
      * intros j J. destruct (I1 j J) as (k & K & R). exists k. rewrite in_app_iff. tauto.
      * intros k j K R. apply in_app_iff in K. destruct K as [K|[<-|[]]]; [|contradiction].
        apply I2; auto.
      * intros j J R. destruct (I1 j R) as (k & K & NR & NE & N).
        apply in_app_iff in J. destruct J as [J|[<-|[]]].
        -- destruct (I3 j J R) as (k' & K' & NR' & EA & N'). exists k'.
           rewrite in_app_iff. split; [auto|]. split; [auto|]. split; auto. apply earlier_snoc; auto.
        -- exists k. rewrite in_app_iff. split; [auto|]. split; [auto|]. split; auto.
           apply earlier_last; auto.
    + apply memb_false in E. destruct (nth_error ps i) as [p|] eqn:P; cbn in M; [|discriminate].
      remember (filter (fun j => negb (Nat.eqb j i)) (search ps p d)) as new eqn:NEW.
      assert (forall j, In j new <-> j <> i /\ near_at (near d) ps i j) as N.
      { intros j. subst new. rewrite filter_In, (OK ps p d j), negb_true_iff, Nat.eqb_neq.
        unfold near_at. split.
        - intros [(q & Q & C) NE]. split; auto. exists p, q. auto.
        - intros [NE (p' & q & A & B & C)]. rewrite P in A. injection A as <-.
          split; auto. exists q. auto. }
      apply IH with (new ++ removed); auto. destruct I as (I1 & I2 & I3).
      (* a visited survivor is never hit by the new search *)
      assert (forall k, In k done_ -> ~ In k removed -> ~ In k new) as SAFE.
      { intros k K R C. apply N in C. destruct C as [NE C].
        apply E. apply (I2 k i); auto. apply near_at_sym. auto. }
      assert (~ In i new) as SELF by (rewrite N; tauto).
      split; [|split].
      * intros j J. apply in_app_iff in J. destruct J as [J|J].
        -- apply N in J. exists i. rewrite !in_app_iff. cbn. intuition.
        -- destruct (I1 j J) as (k & K & NR & NE & A). exists k. rewrite !in_app_iff.
           split; [auto|]. split; auto. intros [C|C]; [revert C; apply SAFE; auto|auto].
      * intros k j K R NE A. rewrite in_app_iff in *. destruct K as [K|[<-|[]]].
        -- right. apply (I2 k j); auto.
        -- left. apply N. auto.
      * intros j J R. apply in_app_iff in R.
        apply in_app_iff in J. destruct J as [J|[<-|[]]]; [|destruct R; contradiction].
        destruct (in_dec Nat.eq_dec j removed) as [R'|R'].
        -- destruct (I3 j J R') as (k & K & NR & EA & A). exists k. rewrite !in_app_iff.
           split; [auto|]. split; [intros [C|C]; [revert C; apply SAFE; auto|auto]|].
           split; auto. apply earlier_snoc; auto.
        -- destruct R as [R|R]; [|contradiction]. exfalso. revert R. apply SAFE; auto.
Qed.

Lemma sublist_filter : forall (f : nat -> bool) l, sublist (filter f l) l.
Proof. induction l; cbn; [constructor|]. destruct (f a); constructor; auto. Qed.

Lemma filter_thinning : forall s d order s',
  filter_indices valid_distance search s d order = Ok (Ok tt, s') ->
  points s' = points s /\ filtered s' = true /\
  thinning (near_at (near d) (points s)) order (filtered_indices_ s').
Proof.
  intros s d order s' H. unfold filter_indices in H.
  destruct (valid_distance d); cbn [negb] in H; [|discriminate].
  destruct (mark search (points s) d order []) as [removed| |] eqn:M; cbn in H; try discriminate.
  injection H as <-. cbn [points filtered filtered_indices_]. split; [auto|]. split; [auto|].
  assert (inv (points s) d [] []) as I0 by (repeat split; intros; contradiction).
  pose proof (mark_spec (points s) d order [] [] removed I0 M) as (I1 & I2 & I3). cbn [app] in *.
  assert (forall i, In i (filter (fun i => negb (memb i removed)) order)
                    <-> In i order /\ ~ In i removed) as K.
  { intros i. rewrite filter_In, negb_true_iff, memb_false. tauto. }
  split.
  - apply sublist_filter.
  - intros i j I J NE N. apply K in I, J. destruct I as [I NI], J as [J NJ].
    apply NJ. apply (I2 i j); auto.
  - intros j J NK. rewrite K in NK.
    destruct (in_dec Nat.eq_dec j removed) as [R|R]; [|tauto].
    destruct (I3 j J R) as (i & I & NR & E & A). exists i. rewrite K. auto.
Qed.

(** A valid distance and existing rows: the filter succeeds. *)
Lemma mark_defined : forall ps d order removed, Forall (fun i => i < length ps) order ->
  exists r, mark search ps d order removed = Ok r.
Proof.
  induction order as [|i rest IH]; intros removed F; cbn; [eexists; eauto|]. inversion F; subst.
  destruct (memb i removed); auto.
  destruct (nth_error ps i) eqn:E; [cbn; auto|]. apply nth_error_None in E. lia.
Qed.

Lemma filter_defined : forall s d order, valid_distance d = true ->
  Forall (fun i => i < length (points s)) order ->
  exists s', filter_indices valid_distance search s d order = Ok (Ok tt, s').
Proof.
  intros s d order V F. unfold filter_indices. rewrite V. cbn [negb].
  destruct (mark_defined (points s) d order [] F) as (r & ->). cbn. eexists; reflexivity.
Qed.

Lemma filter_rejects : forall s d order, valid_distance d = false ->
  filter_indices valid_distance search s d order = Ok (Throw ExInvalidArgument, s).
Proof. intros s d order V. unfold filter_indices. rewrite V. reflexivity. Qed.

(** ** Consequences for filter(distance) *)

Lemma sublist_In : forall (k l : list nat), sublist k l -> forall x, In x k -> In x l.
Proof.
  intros k l S. induction S; intros y I; auto; [destruct I; [left|right]; auto|right; auto].
Qed.

Lemma seq_increasing : forall n a, increasing (seq a n).
Proof.
  induction n; intros a; cbn; constructor; auto. intros y I. apply in_seq in I. lia.
Qed.
Lemma sublist_increasing : forall k l, sublist k l -> increasing l -> increasing k.
Proof.
  intros k l S. induction S; intros I; auto; inversion I; subst.
  - constructor; auto. intros y Y. apply H1. eapply sublist_In; eauto.
  - auto.
Qed.

Lemma earlier_increasing : forall l x y, increasing l -> earlier l x y -> x < y.
Proof.
  intros l x y I (a & b & -> & H). induction a as [|z a IH]; [destruct H|].
  cbn in I. inversion I; subst. destruct H as [<-|H]; auto. apply H2. apply in_app_iff. right. left; auto.
Qed.

Lemma filter_all_spec : forall s d s',
  filter_all valid_distance search s d = Ok (Ok tt, s') ->
  let kept := filtered_indices_ s' in
  points s' = points s /\
  increasing kept /\
  (forall i, In i kept -> i < length (points s)) /\
  (forall i j, In i kept -> In j kept -> i <> j -> ~ near_at (near d) (points s) i j) /\
  (forall j, j < length (points s) -> ~ In j kept ->
     exists i, In i kept /\ i < j /\ near_at (near d) (points s) i j) /\
  (points s <> [] -> In 0 kept).
Proof.
  intros s d s' H kept. apply filter_thinning in H. destruct H as (P & F & [T1 T2 T3]).
  fold kept in T1, T2, T3. set (order := seq 0 (length (points s))) in *.
  pose proof (seq_increasing (length (points s)) 0) as INC. fold order in INC.
  assert (forall j, j < length (points s) -> ~ In j kept ->
     exists i, In i kept /\ i < j /\ near_at (near d) (points s) i j) as COV.
  { intros j J N. destruct (T3 j) as (i & I & E & A); auto; [apply in_seq; lia|].
    exists i. split; auto. split; auto. eapply earlier_increasing; eauto. }
  repeat split; auto.
  - eapply sublist_increasing; eauto.
  - intros i I. eapply sublist_In in I; eauto. apply in_seq in I. lia.
  - intros NE. destruct (in_dec Nat.eq_dec 0 kept) as [I|I]; auto.
    destruct (COV 0) as (i & _ & L & _); auto; [|lia]. destruct (points s); [congruence|cbn; lia].
Qed.

(** ** operator() *)

Lemma rows_spec : forall {A} (m : list A) is, Forall (fun i => i < length m) is ->
  exists r, rows m is = Ok r /\ length r = length is /\
    forall k i, nth_error is k = Some i -> nth_error r k = nth_error m i.
Proof.
  induction is as [|i is IH]; intros F; cbn [rows].
  - exists []. repeat split; auto. intros [|k] i; discriminate.
  - inversion F; subst. destruct (nth_error m i) as [x|] eqn:E; [|apply nth_error_None in E; lia].
    destruct (IH H2) as (r & R & L & N). cbn [of_option bind]. rewrite R. cbn [bind].
    exists (x :: r). split; auto. split; [cbn; auto|].
    intros [|k] j K; cbn in K |- *; [injection K as ->; auto|auto].
Qed.

Lemma apply_spec : forall {A} s d s' (m : list A),
  filter_all valid_distance search s d = Ok (Ok tt, s') -> length m = length (points s) ->
  exists r, apply s' m = Ok r /\ length r = length (filtered_indices_ s') /\
    forall k i, nth_error (filtered_indices_ s') k = Some i -> nth_error r k = nth_error m i.
Proof.
  intros A s d s' m H L. pose proof (filter_thinning s d _ s' H) as (P & F & _).
  pose proof (filter_all_spec s d s' H) as (_ & _ & B & _). unfold apply.
  rewrite F, P, L, Nat.eqb_refl. cbn [negb]. apply rows_spec.
  apply Forall_forall. intros i I. rewrite L. auto.
Qed.

Lemma apply_rejects : forall {A} s d s' (m : list A),
  filter_all valid_distance search s d = Ok (Ok tt, s') -> length m <> length (points s) ->
  apply s' m = Throw ExInvalidArgument.
Proof.
  intros A s d s' m H L. apply filter_thinning in H. destruct H as (P & F & _).
  unfold apply. rewrite F, P. destruct (Nat.eqb_spec (length m) (length (points s))); [congruence|auto].
Qed.

Lemma unfiltered : forall {A} (ps : list Pt) (m : list A),
  apply (init ps) m = Throw ExRuntimeError /\ filtered_indices (init ps) = Throw ExRuntimeError.
Proof. split; reflexivity. Qed.

(** ** Filtering again *)

Lemma sublist_all : forall (k l : list nat), sublist k l -> (forall x, In x l -> In x k) ->
  NoDup l -> k = l.
Proof.
  intros k l S. induction S; intros H N; auto; inversion N; subst.
  - f_equal. apply IHS; auto. intros y I. destruct (H y); [right; auto|subst; contradiction|auto].
  - exfalso. apply H2. eapply sublist_In; eauto. apply H. left; auto.
Qed.

Lemma nth_error_ext : forall {A} (l m : list A), length l = length m ->
  (forall k, k < length l -> nth_error l k = nth_error m k) -> l = m.
Proof.
  induction l as [|x l IH]; intros [|y m] L H; try discriminate; auto.
  pose proof (H 0 (Nat.lt_0_succ _)) as E. injection E as ->. f_equal. apply IH; [cbn in L; lia|].
  intros k K. apply (H (S k)). cbn. lia.
Qed.

Lemma filter_idempotent : forall s d s' ps' s'',
  filter_all valid_distance search s d = Ok (Ok tt, s') ->
  apply s' (points s) = Ok ps' ->
  filter_all valid_distance search (init ps') d = Ok (Ok tt, s'') ->
  filtered_indices_ s'' = seq 0 (length ps') /\ apply s'' ps' = Ok ps'.
Proof.
  intros s d s' ps' s'' H A H2.
  pose proof (filter_all_spec s d s' H) as (P & INC & B & SEP & COV & _).
  destruct (apply_spec s d s' (points s) H eq_refl) as (r & R & LR & NR).
  rewrite A in R. injection R as <-.
  pose proof (filter_thinning _ _ _ _ H2) as (P2 & F2 & [T1 _ T3]). cbn [init points] in *.
  assert (NoDup (filtered_indices_ s')) as ND.
  { clear - INC. induction INC; constructor; auto. intros I. apply H in I. lia. }
  assert (filtered_indices_ s'' = seq 0 (length ps')) as E.
  { apply sublist_all; auto; [|apply seq_NoDup].
    intros j J. destruct (in_dec Nat.eq_dec j (filtered_indices_ s'')) as [I|I]; auto. exfalso.
    destruct (T3 j J I) as (i & _ & EA & (p & q & PI & QJ & N)).
    apply earlier_increasing in EA; [|apply seq_increasing]. apply in_seq in J.
    destruct (nth_error (filtered_indices_ s') j) as [j0|] eqn:J0; [|apply nth_error_None in J0; lia].
    destruct (nth_error (filtered_indices_ s') i) as [i0|] eqn:I0; [|apply nth_error_None in I0; lia].
    apply (SEP i0 j0).
    - eapply nth_error_In; eauto.
    - eapply nth_error_In; eauto.
    - intros ->. rewrite NoDup_nth_error in ND. apply (Nat.lt_irrefl i).
      replace i with j at 2; auto. symmetry. apply ND; [lia|congruence].
    - exists p, q. rewrite <- (NR _ _ I0), <- (NR _ _ J0). auto. }
  split; auto.
  unfold apply. rewrite F2, P2, Nat.eqb_refl. cbn [negb]. rewrite E.
  destruct (rows_spec ps' (seq 0 (length ps'))) as (r & R & L & N).
  { apply Forall_forall. intros x X. apply in_seq in X. lia. }
  rewrite R. f_equal. rewrite seq_length in L. apply nth_error_ext; auto.
  intros k K. rewrite L in K. apply N. rewrite nth_error_nth' with (d := 0) by (rewrite seq_length; auto).
  rewrite seq_nth; auto.
Qed.

End Proofs.
