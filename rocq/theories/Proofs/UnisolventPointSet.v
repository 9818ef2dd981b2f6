From Coq Require Import List Arith ZArith QArith Bool Sorting.Sorted Lia.
From Verif Require Import Model.Outcome Model.UnisolventPointSet Model.MonomialBasis Spec.UnisolventPointSet.
Import ListNotations.

Section U.
Variable dim n_points : nat.
Variable stream : nat -> nat.
Variable lagrange : list nat -> option (option Q).
Hypothesis RANGE : forall p, (stream p < n_points)%nat.

Lemma insert_In : forall x l y, In y (insert x l) <-> x = y \/ In y l.
Proof.
  intros x l y. induction l as [|z l IH]; cbn [insert length In]; [tauto|]. destruct (x <? z)%nat; cbn [insert length In]; [tauto|].
  destruct (Nat.eqb_spec x z) as [->|N]; cbn [insert length In]; [tauto|]. rewrite IH. tauto.
Qed.
Lemma insert_sorted : forall x l, StronglySorted lt l -> StronglySorted lt (insert x l).
Proof.
  intros x l SS. induction SS as [|z l SS IH F]; cbn [insert length In]; [repeat constructor|].
  destruct (Nat.ltb_spec x z).
  - constructor; [constructor; auto|]. constructor; auto. eapply Forall_impl; [|exact F]. cbn. intros; lia.
  - destruct (Nat.eqb_spec x z) as [->|N]; [constructor; auto|]. constructor; auto. apply Forall_forall. intros y Y. apply insert_In in Y.
    destruct Y as [<-|Y]; [lia|]. rewrite Forall_forall in F. auto.
Qed.
Lemma insert_length : forall x l, (length (insert x l) <= S (length l))%nat.
Proof. intros x l. induction l as [|z l IH]; cbn [insert length In]; [lia|]. destruct (x <? z)%nat; cbn [insert length In]; [lia|]. destruct (Nat.eqb x z); cbn [insert length In]; lia. Qed.
Lemma insert_new : forall x l, ~ In x l -> length (insert x l) = S (length l).
Proof.
  intros x l N. induction l as [|z l IH]; cbn [insert length In]; auto. destruct (x <? z)%nat; cbn [insert length In]; auto. destruct (Nat.eqb_spec x z) as [->|E]; [exfalso; apply N; left; auto|].
  cbn [length]. rewrite IH; auto. intros I. apply N. right. auto.
Qed.
Definition good_set (size : nat) (set : list nat) : Prop := StronglySorted lt set /\ (forall i, In i set -> (i < n_points)%nat) /\ (length set <= size)%nat.
Lemma sorted_nodup : forall l, StronglySorted lt l -> NoDup l.
Proof.
  intros l SS. induction SS as [|z l SS IH F]; constructor; auto. intros I. rewrite Forall_forall in F. specialize (F z I). lia.
Qed.
Lemma set_small : forall size set, good_set size set -> (length set <= n_points)%nat.
Proof.
  intros size set (SS & R & _). rewrite <- (seq_length n_points 0). apply NoDup_incl_length; [apply sorted_nodup; auto|].
  intros i I. apply in_seq. specialize (R i I). lia.
Qed.
Lemma draw_spec : forall size fuel pos set out, good_set size set -> draw stream fuel size pos set = Some out ->
  good_set size (fst out) /\ length (fst out) = size /\ (pos <= snd out)%nat.
Proof.
  intros size. induction fuel as [|fuel IH]; intros pos set out G E; cbn in E; destruct (Nat.leb_spec size (length set)) as [L|L]; try discriminate.
  - injection E as <-. destruct G as (G1 & G2 & G3). cbn. repeat split; auto. lia.
  - injection E as <-. destruct G as (G1 & G2 & G3). cbn. repeat split; auto. lia.
  - apply IH in E; [destruct E as (E1 & E2 & E3); repeat split; auto; try apply E1; lia|].
    destruct G as (G1 & G2 & G3). split; [apply insert_sorted; auto|]. split.
    + intros i I. apply insert_In in I. destruct I as [<-|I]; auto.
    + pose proof (insert_length (stream pos) set). lia.
Qed.
Lemma good_nil : forall size, good_set size [].
Proof. intros size. split; [constructor|]. split; [intros i []|cbn; lia]. Qed.
Lemma draw_sets_spec : forall size fuel trials pos sets, draw_sets stream fuel size trials pos = Some sets ->
  length sets = trials /\ forall set, In set sets -> good_set size set /\ length set = size.
Proof.
  intros size fuel. induction trials as [|t IH]; intros pos sets E; cbn in E; [injection E as <-; split; auto; intros set []|].
  destruct (draw stream fuel size pos []) as [[set pos']|] eqn:D; [|discriminate].
  destruct (draw_sets stream fuel size t pos') as [sets'|] eqn:D'; [|discriminate]. injection E as <-. apply IH in D'. destruct D' as [L A].
  apply draw_spec in D; [|apply good_nil]. split; [cbn; lia|]. intros s [<-|I]; [tauto|auto].
Qed.

(** ** The best set *)
Section Best.
Hypothesis POS : positive_rcond lagrange.
Definition best_ok (seen : list (list nat)) (st : list nat * Q * bool) : Prop :=
  let '(best, rc, found) := st in
  (found = true <-> exists s, In s seen /\ lagrange s <> None) /\
  (found = true -> In best seen /\ lagrange best = Some (Some rc)) /\
  (forall s q, In s seen -> lagrange s = Some (Some q) -> (q <= rc)%Q) /\ (found = false -> rc = 0%Q).
Lemma consider_ok : forall seen st set, best_ok seen st -> best_ok (seen ++ [set]) (consider lagrange st set).
Proof.
  intros seen [[best rc] found] set (B1 & B2 & B3 & B4). unfold consider. destruct (lagrange set) as [[q|]|] eqn:E.
  - destruct (Qle_bool q rc) eqn:Q; cbn [negb].
    + apply Qle_bool_iff in Q. destruct found eqn:F.
      * split; [|split; [|split]].
        -- split; auto. intros _. exists set. split; [apply in_app_iff; right; left; auto|congruence].
        -- intros _. destruct (B2 eq_refl). split; auto. apply in_app_iff. auto.
        -- intros s q' I E'. apply in_app_iff in I. destruct I as [I|[<-|[]]]; [eauto|]. rewrite E in E'. injection E' as <-. auto.
        -- discriminate.
      * exfalso. destruct (POS set _ E) as (q' & Eq & P). injection Eq as <-. rewrite (B4 eq_refl) in Q. apply (Qlt_not_le _ _ P Q).
    + assert (rc < q)%Q as L. { apply Qnot_le_lt. intros L. apply Qle_bool_iff in L. congruence. }
      split; [|split; [|split]].
      * split; auto. intros _. exists set. split; [apply in_app_iff; right; left; auto|congruence].
      * intros _. split; auto. apply in_app_iff. right. left. auto.
      * intros s q' I E'. apply in_app_iff in I. destruct I as [I|[<-|[]]].
        -- apply Qle_trans with rc; [eauto|apply Qlt_le_weak; auto].
        -- rewrite E in E'. injection E' as <-. apply Qle_refl.
      * discriminate.
  - exfalso. destruct (POS set _ E) as (q' & Eq & _). discriminate.
  - split; [|split; [|split]]; auto.
    + rewrite B1. split; intros (s & I & N); exists s; (split; [|auto]).
      * apply in_app_iff. auto.
      * apply in_app_iff in I. destruct I as [I|[<-|[]]]; [auto|contradiction].
    + intros F. destruct (B2 F). split; auto. apply in_app_iff. auto.
    + intros s q' I E'. apply in_app_iff in I. destruct I as [I|[<-|[]]]; [eauto|congruence].
Qed.
Lemma best_fold : forall sets seen st, best_ok seen st -> best_ok (seen ++ sets) (fold_left (consider lagrange) sets st).
Proof.
  induction sets as [|s sets IH]; intros seen st B; cbn; [rewrite app_nil_r; auto|].
  replace (seen ++ s :: sets) with ((seen ++ [s]) ++ sets) by (rewrite <- app_assoc; auto). apply IH, consider_ok, B.
Qed.
Lemma best_start : best_ok [] ([], 0%Q, false).
Proof.
  split; [|split; [|split]]; try discriminate; auto.
  - split; [discriminate|]. intros (s & [] & _).
  - intros s q [].
Qed.
Theorem found_spec : forall fuel degree idcs, (0 <= degree)%Z -> construct dim n_points stream lagrange fuel degree = Some (Ok idcs) ->
  unisolvent_indices dim n_points degree lagrange idcs /\
  exists sets q, draw_sets stream fuel (basis_size dim degree) 100 0 = Some sets /\ lagrange idcs = Some (Some q) /\ In idcs sets /\
    forall s q', In s sets -> lagrange s = Some (Some q') -> (q' <= q)%Q.
Proof.
  intros fuel degree idcs D E. unfold construct in E. destruct (Z.ltb_spec degree 0); [lia|]. destruct (Nat.eqb n_points 0); [discriminate|].
  fold num_trials in *. destruct (draw_sets stream fuel (basis_size dim degree) num_trials 0) as [sets|] eqn:DS; [|discriminate].
  pose proof (best_fold sets [] _ best_start) as B. cbn [app] in B. destruct (fold_left (consider lagrange) sets ([], 0%Q, false)) as [[best rc] found].
  destruct found; [|discriminate]. injection E as ->. destruct B as (_ & B2 & B3 & _). destruct (B2 eq_refl) as [I L].
  destruct (draw_sets_spec _ _ _ _ _ DS) as [_ A]. destruct (A _ I) as ((A1 & A2 & _) & A3). split.
  - repeat split; auto. exists rc. auto.
  - exists sets, rc. repeat split; auto.
Qed.
Theorem throw_spec : forall fuel degree, (0 <= degree)%Z -> (0 < n_points)%nat -> forall sets,
  draw_sets stream fuel (basis_size dim degree) 100 0 = Some sets ->
  (construct dim n_points stream lagrange fuel degree = Some (Throw ExRuntimeError) <-> forall s, In s sets -> lagrange s = None).
Proof.
  intros fuel degree D N sets DS. unfold construct. destruct (Z.ltb_spec degree 0); [lia|]. destruct (Nat.eqb_spec n_points 0); [lia|]. unfold num_trials.
  rewrite DS.
  pose proof (best_fold sets [] _ best_start) as B. cbn [app] in B. destruct (fold_left (consider lagrange) sets ([], 0%Q, false)) as [[best rc] found].
  destruct B as (B1 & _). split.
  - intros E s I. destruct found; [discriminate|]. destruct (lagrange s) eqn:L; auto. exfalso. assert (false = true) by (apply B1; exists s; split; auto; congruence). discriminate.
  - intros A. destruct found; auto. exfalso. destruct (proj1 B1 eq_refl) as (s & I & NN). apply NN, A, I.
Qed.
End Best.

(** ** The loop *)
Theorem endless : forall fuel degree, (0 <= degree)%Z -> (0 < n_points < basis_size dim degree)%nat -> construct dim n_points stream lagrange fuel degree = None.
Proof.
  intros fuel degree D N. unfold construct. destruct (Z.ltb_spec degree 0); [lia|]. destruct (Nat.eqb_spec n_points 0); [lia|].
  unfold num_trials. change 100%nat with (S 99). cbn [draw_sets]. destruct (draw stream fuel (basis_size dim degree) 0 []) as [out|] eqn:E; auto.
  exfalso. apply draw_spec in E; [|apply good_nil]. destruct E as (G & L & _). apply set_small in G. lia.
Qed.
Lemma missing : forall set, good_set n_points set -> (length set < n_points)%nat -> exists v, (v < n_points)%nat /\ ~ In v set.
Proof.
  intros set (SS & R & _) L. destruct (existsb (fun v => negb (existsb (Nat.eqb v) set)) (seq 0 n_points)) eqn:E.
  - apply existsb_exists in E. destruct E as (v & V & NV). apply in_seq in V. exists v. split; [lia|]. intros I.
    apply negb_true_iff in NV. assert (existsb (Nat.eqb v) set = true) by (apply existsb_exists; exists v; rewrite Nat.eqb_refl; auto). congruence.
  - exfalso. assert (incl (seq 0 n_points) set) as IN.
    { intros v V. destruct (existsb (Nat.eqb v) set) eqn:X.
      - apply existsb_exists in X. destruct X as (w & W & EQ). apply Nat.eqb_eq in EQ. subst. auto.
      - assert (existsb (fun v => negb (existsb (Nat.eqb v) set)) (seq 0 n_points) = true) by (apply existsb_exists; exists v; rewrite X; auto). congruence. }
    apply NoDup_incl_length in IN; [|apply seq_NoDup]. rewrite seq_length in IN. lia.
Qed.
Lemma draw_more : forall size fuel pos set out, draw stream fuel size pos set = Some out -> forall fuel', (fuel <= fuel')%nat -> draw stream fuel' size pos set = Some out.
Proof.
  intros size. induction fuel as [|fuel IH]; intros pos set out E fuel' L; cbn in E.
  - destruct (Nat.leb_spec size (length set)); [|discriminate]. destruct fuel'; cbn; destruct (Nat.leb_spec size (length set)); try lia; auto.
  - destruct fuel' as [|fuel']; [lia|]. cbn. destruct (size <=? length set)%nat; auto. apply IH; auto. lia.
Qed.
Lemma draw_until : forall size n pos set, (exists f, draw stream f size (n + pos) (fold_left (fun s p => insert (stream p) s) (seq pos n) set) <> None) ->
  exists f, draw stream f size pos set <> None.
Proof.
  intros size. induction n as [|n IH]; intros pos set (f & H); [exists f; auto|].
  cbn [seq fold_left] in H. replace (S n + pos)%nat with (n + S pos)%nat in H by lia.
  destruct (IH (S pos) (insert (stream pos) set)) as [f' H']; [exists f; auto|]. exists (S f'). cbn. destruct (size <=? length set)%nat; [discriminate|auto].
Qed.
Lemma fold_insert_keeps : forall ps set, StronglySorted lt set -> 
  let s := fold_left (fun s p => insert (stream p) s) ps set in StronglySorted lt s /\ incl set s /\ (forall i, In i s -> In i set \/ (i < n_points)%nat) /\
  (forall p, In p ps -> In (stream p) s).
Proof.
  induction ps as [|p ps IH]; intros set SS; cbn.
  - repeat split; auto; [apply incl_refl|intros p []].
  - destruct (IH (insert (stream p) set) (insert_sorted _ _ SS)) as (A & B & C & D). split; auto. split; [|split].
    + intros i I. apply B. apply insert_In. auto.
    + intros i I. destruct (C i I) as [X|X]; auto. apply insert_In in X. destruct X as [<-|X]; auto.
    + intros q [<-|I]; auto. apply B, insert_In. auto.
Qed.
Lemma draw_ends : fair n_points stream -> forall size, (size <= n_points)%nat -> forall k pos set, StronglySorted lt set ->
  (forall i, In i set -> (i < n_points)%nat) -> (size <= length set + k)%nat -> exists f, draw stream f size pos set <> None.
Proof.
  intros FAIR size SZ. induction k as [|k IH]; intros pos set SS R K.
  - exists 0%nat. cbn. destruct (Nat.leb_spec size (length set)); [discriminate|lia].
  - destruct (Nat.le_gt_cases size (length set)) as [L|L]; [exists 0%nat; cbn; destruct (Nat.leb_spec size (length set)); [discriminate|lia]|].
    destruct (missing set) as (v & V & NV); [repeat split; auto; lia|lia|]. destruct (FAIR pos v V) as (p & P & E).
    apply (draw_until size (S (p - pos)) pos set). set (s := fold_left _ _ _).
    destruct (fold_insert_keeps (seq pos (S (p - pos))) set SS) as (A & B & C & D). fold s in A, B, C, D.
    apply IH; auto.
    + intros i I. destruct (C i I); auto.
    + assert (S (length set) <= length s)%nat; [|lia]. change (S (length set)) with (length (v :: set)). apply NoDup_incl_length.
      * constructor; auto. apply sorted_nodup. auto.
      * intros i [<-|I]; auto. rewrite <- E. apply D. apply in_seq. lia.
Qed.
Lemma draw_sets_more : forall size trials fuel pos sets, draw_sets stream fuel size trials pos = Some sets ->
  forall fuel', (fuel <= fuel')%nat -> draw_sets stream fuel' size trials pos = Some sets.
Proof.
  intros size. induction trials as [|t IH]; intros fuel pos sets E fuel' L; cbn in *; auto.
  destruct (draw stream fuel size pos []) as [[set pos']|] eqn:D; [|discriminate]. rewrite (draw_more _ _ _ _ _ D fuel' L).
  destruct (draw_sets stream fuel size t pos') as [sets'|] eqn:D'; [|discriminate]. rewrite (IH _ _ _ D' fuel' L). auto.
Qed.
Theorem ends : fair n_points stream -> forall degree, (basis_size dim degree <= n_points)%nat ->
  exists fuel, construct dim n_points stream lagrange fuel degree <> None.
Proof.
  intros FAIR degree SZ. assert (forall trials pos, exists fuel, draw_sets stream fuel (basis_size dim degree) trials pos <> None) as G.
  { induction trials as [|t IH]; intros pos; [exists 0%nat; discriminate|].
    destruct (draw_ends FAIR _ SZ (basis_size dim degree) pos []) as [f F]; [constructor|intros i []|cbn; lia|].
    destruct (draw stream f (basis_size dim degree) pos []) as [[set pos']|] eqn:D; [|contradiction]. destruct (IH pos') as [f' F'].
    destruct (draw_sets stream f' (basis_size dim degree) t pos') as [sets|] eqn:D'; [|contradiction]. exists (max f f'). cbn.
    rewrite (draw_more _ _ _ _ _ D) by lia. rewrite (draw_sets_more _ _ _ _ _ D') by lia. discriminate. }
  destruct (G num_trials 0%nat) as [f F]. exists f. unfold construct. destruct (degree <? 0)%Z; [discriminate|]. destruct (Nat.eqb n_points 0); [discriminate|].
  destruct (draw_sets stream f (basis_size dim degree) num_trials 0) as [sets|]; [|contradiction].
  destruct (fold_left (consider lagrange) sets ([], 0%Q, false)) as [[best rc] found]. destruct found; discriminate.
Qed.
End U.
