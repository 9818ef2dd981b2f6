(** Snapping a mesh to points: statistics, termination, emitted mesh. *)
From Coq Require Import List Arith Bool Lia Permutation FunctionalExtensionality.
From Verif.Model Require Import Outcome Snapper.
From Verif.Spec Require Import Snapper.
Import ListNotations.

Ltac inv_bind H :=
  match type of H with
  | bind ?x _ = _ => let Q := fresh "EQ" in destruct x eqn:Q; cbn [bind] in H; try discriminate H
  end.

Section Proofs.
Context {P A T : Type}.
Variable E : env P A T.
Notation cand := (candidate A T).
Notation st := (state P A T).

(** ** Reading the faces of patches *)

Lemma triangulate_fields : forall (s s' : st) fi, s_aq s = s_aq s' -> s_chain s = s_chain s' ->
  s_interior s = s_interior s' -> triangulate E s fi = triangulate E s' fi.
Proof.
  intros [p q c i f] [p' q' c' i' f'] fi. cbn [s_aq s_chain s_interior]. intros -> -> ->. reflexivity.
Qed.

Record fills (s s' : st) : Prop := {
  fills_p : s_p s' = s_p s; fills_aq : s_aq s' = s_aq s; fills_chain : s_chain s' = s_chain s;
  fills_interior : s_interior s' = s_interior s;
  fills_faces : forall fi, s_faces s' fi = s_faces s fi \/
    (s_faces s fi = [] /\ exists b, triangulate E s fi = Ok (b, s_faces s' fi)) }.

Lemma fills_triangulate : forall s s' fi, fills s s' -> triangulate E s' fi = triangulate E s fi.
Proof. intros s s' fi F. apply triangulate_fields; apply F. Qed.

Lemma fills_refl : forall s, fills s s.
Proof. intros s. constructor; auto. Qed.

Lemma fills_trans : forall s1 s2 s3, fills s1 s2 -> fills s2 s3 -> fills s1 s3.
Proof.
  intros s1 s2 s3 F G. constructor.
  - rewrite (fills_p _ _ G). apply F.
  - rewrite (fills_aq _ _ G). apply F.
  - rewrite (fills_chain _ _ G). apply F.
  - rewrite (fills_interior _ _ G). apply F.
  - intros fi. destruct (fills_faces _ _ G fi) as [G1|(G1 & b & G2)].
    + rewrite G1. apply F.
    + rewrite (fills_triangulate _ _ _ F) in G2.
      destruct (fills_faces _ _ F fi) as [F1|(F1 & _)]; right.
      * rewrite <- F1. eauto.
      * eauto.
Qed.

Lemma patch_faces_spec : forall s fi fs s', patch_faces E s fi = Ok (fs, s') ->
  fi < num_faces E /\ fills s s' /\ s_faces s' fi = fs /\
  (forall fj, fj <> fi -> s_faces s' fj = s_faces s fj) /\
  ((s_faces s fi = fs /\ fs <> []) \/ (s_faces s fi = [] /\ exists b, triangulate E s fi = Ok (b, fs))).
Proof.
  intros s fi fs s' H. unfold patch_faces in H. destruct (num_faces E <=? fi) eqn:L; [discriminate|].
  apply Nat.leb_gt in L. destruct (s_faces s fi) as [|f l] eqn:F.
  - inv_bind H. destruct p as [b gs]. cbn [fst snd] in H. inversion H. subst. clear H.
    assert (X : s_faces (with_faces s fi fs) fi = fs).
    { cbn [s_faces with_faces]. unfold set. rewrite Nat.eqb_refl. reflexivity. }
    split; [exact L|]. split; [|split; [exact X|split; [|right; eauto]]].
    + constructor; try reflexivity. intros fj. destruct (Nat.eq_dec fj fi) as [->|N].
      * right. rewrite X. eauto.
      * left. cbn [s_faces with_faces]. unfold set. destruct (Nat.eqb_spec fj fi); [contradiction|reflexivity].
    + intros fj N. cbn [s_faces with_faces]. unfold set. destruct (Nat.eqb_spec fj fi); [contradiction|reflexivity].
  - inversion H. subst. split; [exact L|]. split; [apply fills_refl|]. split; [exact F|]. split; [reflexivity|].
    left. split; [reflexivity|discriminate].
Qed.

Lemma read_spec : forall l s r s', read E s l = Ok (r, s') ->
  fills s s' /\ map fst r = l /\ (forall fi, In fi l -> fi < num_faces E) /\
  (forall fj, ~ In fj l -> s_faces s' fj = s_faces s fj) /\
  Forall (fun x => (s_faces s (fst x) = snd x /\ snd x <> []) \/
                   (s_faces s (fst x) = [] /\ exists b, triangulate E s (fst x) = Ok (b, snd x))) r.
Proof.
  induction l as [|fi l IH]; intros s r s' H; cbn [read] in H.
  - inversion H. subst. split; [apply fills_refl|]. split; [reflexivity|]. split; [intros ? []|]. split; [reflexivity|constructor].
  - inv_bind H. destruct p as [fs t]. cbn [fst snd] in H. inv_bind H. destruct p as [q t']. cbn [fst snd] in H.
    inversion H. subst. clear H. apply patch_faces_spec in EQ. destruct EQ as (L & F & X & O & C).
    apply IH in EQ0. destruct EQ0 as (F' & M & R & O' & A').
    split; [eapply fills_trans; eassumption|]. split; [cbn [map fst]; rewrite M; reflexivity|].
    split; [intros fj [<-|I]; auto|]. split.
    + intros fj N. rewrite O'; [|intros I; apply N; right; exact I]. apply O. intros ->. apply N. left. reflexivity.
    + constructor; [exact C|]. eapply Forall_impl; [|exact A']. intros [fj gs]. cbn [fst snd].
      intros [(B & D)|(B & b & D)].
      * destruct (fills_faces _ _ F fj) as [G|(G & b & G')].
        -- left. rewrite <- G. auto.
        -- right. split; [exact G|]. exists b. rewrite G', B. reflexivity.
      * right. split.
        -- destruct (fills_faces _ _ F fj) as [G|(G & _)]; [rewrite <- G; exact B|exact G].
        -- exists b. rewrite <- (fills_triangulate _ _ _ F). exact D.
Qed.

Lemma look_fills : forall s k s', look E s k = Ok s' -> fills s s'.
Proof.
  intros s k s' H. unfold look in H. inv_bind H. inversion H. subst. destruct p as [r t].
  apply read_spec in EQ. apply EQ.
Qed.

Lemma look_outside_fills : forall s k l s', look_outside E s k l = Ok s' ->
  fills s s' /\ forall fi, In fi l -> s_faces s' fi = s_faces s fi.
Proof.
  intros s k l s' H. unfold look_outside in H. inv_bind H. inversion H. subst. destruct p as [r t].
  apply read_spec in EQ. cbn [snd]. destruct EQ as (F & _ & _ & O & _). split; [exact F|].
  intros fi I. apply O. rewrite filter_In. intros (_ & N). apply negb_true_iff in N.
  enough (existsb (Nat.eqb fi) l = true) by congruence. apply existsb_exists. exists fi. split; [exact I|apply Nat.eqb_refl].
Qed.

(** ** Positions *)

Definition pos_inv (s : st) : Prop :=
  (forall i, i < np E -> s_p s i = points E i) /\
  (forall v, s_p s (np E + v) = vertices E v \/ exists i, i < np E /\ s_p s (np E + v) = points E i).

Lemma corner_face : forall fi k, np E <= corner (face E fi) k.
Proof.
  intros fi k. unfold face, shift, corner. destruct k as [|[|k]]; cbn [fst snd]; lia.
Qed.

Lemma pos_eq : forall s s', s_p s' = s_p s -> pos_inv s -> pos_inv s'.
Proof. intros s s' H (I & J). unfold pos_inv. rewrite H. auto. Qed.

Lemma pos_start : pos_inv (start E).
Proof.
  split; cbn [start s_p].
  - intros i L. apply Nat.ltb_lt in L. rewrite L. reflexivity.
  - intros v. left. replace (np E + v <? np E) with false by (symmetry; apply Nat.ltb_ge; lia).
    f_equal. lia.
Qed.

Lemma try_vertex_spec : forall s c v b d s', try_vertex E s c v = Ok (b, d, s') ->
  s_aq s' = s_aq s /\ s_chain s' = s_chain s /\ s_interior s' = s_interior s /\
  s_p s' = (if b then set (s_p s) v (s_p s (c_point c)) else s_p s) /\
  (forall fi, s_faces s' fi = s_faces s fi \/ (s_faces s fi = [] /\ exists b, triangulate E s fi = Ok (b, s_faces s' fi))).
Proof.
  intros s c v b d s' H. unfold try_vertex in H. inv_bind H. rename s0 into t. apply look_fills in EQ.
  inv_bind H. destruct p as [r u]. cbn [fst snd] in H. inv_bind H. rename s0 into w.
  apply read_spec in EQ0. destruct EQ0 as (F & _). apply look_outside_fills in EQ1. destruct EQ1 as (G & _).
  pose proof (fills_trans _ _ _ F G) as H1.
  assert (K : forall w', fills (with_p t (set (s_p t) v (s_p t (c_point c)))) w' ->
     s_aq w' = s_aq s /\ s_chain w' = s_chain s /\ s_interior w' = s_interior s /\
     s_p w' = set (s_p s) v (s_p s (c_point c)) /\
     (forall fi, s_faces w' fi = s_faces s fi \/ (s_faces s fi = [] /\ exists b, triangulate E s fi = Ok (b, s_faces w' fi)))).
  { intros w' W. assert (W1 := fills_aq _ _ W). assert (W2 := fills_chain _ _ W).
    assert (W3 := fills_interior _ _ W). assert (W4 := fills_p _ _ W).
    cbn [s_aq s_chain s_interior s_p with_p] in W1, W2, W3, W4.
    rewrite (fills_aq _ _ EQ) in W1. rewrite (fills_chain _ _ EQ) in W2.
    rewrite (fills_interior _ _ EQ) in W3. rewrite (fills_p _ _ EQ) in W4.
    repeat (split; [assumption|]). intros fi.
    assert (W5 := fills_faces _ _ W fi). cbn [s_faces with_p] in W5.
    assert (TT : triangulate E (with_p t (set (s_p t) v (s_p t (c_point c)))) fi = triangulate E s fi).
    { rewrite <- (fills_triangulate _ _ fi EQ). apply triangulate_fields; reflexivity. }
    rewrite TT in W5. destruct W5 as [W5|(W5 & W6)].
    - rewrite W5. apply EQ.
    - right. split; [|exact W6]. destruct (fills_faces _ _ EQ fi) as [X|(X & _)]; [rewrite <- X; exact W5|exact X]. }
  destruct (accept E w r).
  - inv_bind H. rename s0 into z. inversion H. subst. apply look_fills in EQ0.
    apply K. eapply fills_trans; eassumption.
  - inversion H. subst. destruct (K _ H1) as (K1 & K2 & K3 & K4 & K5).
    cbn [with_p s_aq s_chain s_interior s_p s_faces]. rewrite K1, K2, K3, K4.
    repeat (split; [reflexivity|]). split; [|exact K5].
    apply functional_extensionality. intros x. unfold set. rewrite (fills_p _ _ EQ).
    destruct (Nat.eqb_spec x v); subst; reflexivity.
Qed.

Lemma fills_store : forall l (s : st), s_p (store s l) = s_p s /\ s_aq (store s l) = s_aq s /\
  s_chain (store s l) = s_chain s /\ s_interior (store s l) = s_interior s.
Proof.
  induction l as [|x l IH]; intros s; cbn [store fold_left]; [auto|].
  destruct (IH (with_faces s (fst x) (snd x))) as (I1 & I2 & I3 & I4). unfold store in *.
  rewrite I1, I2, I3, I4. auto.
Qed.

Lemma try_edge_p : forall s c k b d s', try_edge E s c k = Ok (b, d, s') -> s_p s' = s_p s.
Proof.
  intros s c k b d s' H. unfold try_edge in H. destruct (lt E _ _); [|inversion H; reflexivity].
  destruct (_ <? 2); [inversion H; reflexivity|]. inv_bind H. rename s0 into t. apply look_fills in EQ.
  inv_bind H. destruct p as [ok r]. cbn [fst snd] in H. destruct ok.
  - inv_bind H. rename s0 into u. apply look_outside_fills in EQ1. destruct EQ1 as (F & _).
    apply fills_p in F. cbn [with_chain with_anchor s_p] in F. rewrite (fills_p _ _ EQ) in F.
    destruct (accept E u r).
    + inv_bind H. inversion H. subst. apply look_fills in EQ1. rewrite (fills_p _ _ EQ1).
      destruct (fills_store r u) as (-> & _). exact F.
    + inversion H. subst. cbn [with_chain s_p]. exact F.
  - inversion H. subst. cbn [with_chain with_anchor s_p]. apply EQ.
Qed.

Lemma try_face_p : forall s c b d s', try_face E s c = Ok (b, d, s') -> s_p s' = s_p s.
Proof.
  intros s c b d s' H. unfold try_face in H. inv_bind H. rename s0 into t. apply look_fills in EQ.
  inv_bind H. destruct p as [ok r]. cbn [fst snd] in H. destruct (ok && _).
  - inv_bind H. rename s0 into u. apply look_outside_fills in EQ1. destruct EQ1 as (F & _).
    apply fills_p in F. cbn [with_interior with_anchor s_p] in F. rewrite (fills_p _ _ EQ) in F.
    destruct (accept E u _).
    + inv_bind H. inversion H. subst. apply look_fills in EQ1. rewrite (fills_p _ _ EQ1). exact F.
    + inversion H. subst. exact F.
  - inversion H. subst. cbn [with_interior with_anchor s_p]. apply EQ.
Qed.

Lemma try_vertex_pos : forall s c fi k b d s', c_point c < np E -> pos_inv s ->
  try_vertex E s c (corner (face E fi) k) = Ok (b, d, s') -> pos_inv s'.
Proof.
  intros s c fi k b d s' L (I & J) H. apply try_vertex_spec in H. destruct H as (_ & _ & _ & H & _).
  pose proof (corner_face fi k) as G. unfold pos_inv. rewrite H. destruct b; [|auto].
  split.
  - intros i Li. unfold set. destruct (Nat.eqb_spec i (corner (face E fi) k)); [lia|auto].
  - intros v. unfold set. destruct (Nat.eqb_spec (np E + v) (corner (face E fi) k)); [|auto].
    right. exists (c_point c). auto.
Qed.

Lemma try_simplex_pos : forall s c x b d s', c_point c < np E -> pos_inv s ->
  try_simplex E s c x = Ok (b, d, s') -> pos_inv s'.
Proof.
  intros s c [k|k|] b d s' L I H; cbn [try_simplex] in H.
  - eapply try_vertex_pos; eassumption.
  - eapply pos_eq; [eapply try_edge_p; eassumption|assumption].
  - eapply pos_eq; [eapply try_face_p; eassumption|assumption].
Qed.

Lemma cascade_pos : forall l s c b d s', c_point c < np E -> pos_inv s ->
  cascade E s c l = Ok (b, d, s') -> pos_inv s'.
Proof.
  induction l as [|x l IH]; intros s c b d s' L I H; cbn [cascade] in H; [inversion H; subst; exact I|].
  inv_bind H. destruct p as [[ok d0] t]. cbn [fst snd] in H.
  pose proof (try_simplex_pos _ _ _ _ _ _ L I EQ). destruct ok; [inversion H; subst; assumption|eauto].
Qed.

Lemma place_pos : forall s c b d s', c_point c < np E -> pos_inv s -> place E s c = Ok (b, d, s') -> pos_inv s'.
Proof.
  intros s c b d s' L I H. unfold place in H. inv_bind H. destruct p as [[ok d0] t]. cbn [fst snd] in H.
  assert (pos_inv t).
  { unfold try_nearby in EQ. destruct (nearest _); [|inversion EQ; subst; exact I].
    destruct (near E _ _ _); [|inversion EQ; subst; exact I]. eapply try_vertex_pos; eassumption. }
  destruct ok; [inversion H; subst; assumption|]. inv_bind H. apply look_fills in EQ0.
  assert (pos_inv s0) by (eapply pos_eq; [apply EQ0|assumption]).
  destruct (satisfied E _ _); [inversion H; subst; assumption|]. eapply cascade_pos; eassumption.
Qed.

(** ** The loop keeps every property that placing keeps *)

Lemma loop_inv : forall (I : st -> Prop) cs of_point,
  (forall s c b d s', In c cs -> I s -> place E s c = Ok (b, d, s') -> I s') ->
  forall fuel s q b s', I s -> loop E fuel cs of_point s q b = Ok (Some s') -> I s'.
Proof.
  intros I cs of_point Pl. induction fuel as [|fuel IH]; intros s q b s' Is H; destruct q as [|x l]; cbn [loop] in H.
  - inversion H. subst. exact Is.
  - discriminate.
  - inversion H. subst. exact Is.
  - destruct (nth_error cs (snd (fst (pop E x l)))) as [c|] eqn:N; [|discriminate].
    apply nth_error_In in N. inv_bind H. destruct p as [[ok d] t]. cbn [fst snd] in H.
    pose proof (Pl _ _ _ _ _ N Is EQ) as It. destruct ok.
    + inv_bind H. eapply IH; eassumption.
    + eapply IH; eassumption.
Qed.

(** ** Candidates *)

Lemma classified_point : forall c, In c (classified E) <->
  exists i c0, i < np E /\ classify E i = Some c0 /\
    c = Candidate i (c_face c0) (c_anchor c0) (c_d2 c0) (c_l c0) (c_order c0).
Proof.
  intros c. unfold classified. rewrite in_flat_map. split.
  - intros (i & I & H). rewrite in_seq in I. destruct (classify E i) as [c0|] eqn:Q; [|destruct H].
    destruct H as [<-|[]]. exists i, c0. split; [lia|auto].
  - intros (i & c0 & L & Q & ->). exists i. split; [apply in_seq; lia|]. rewrite Q. left. reflexivity.
Qed.

Lemma classified_points : map c_point (classified E) =
  filter (fun i => match classify E i with Some _ => true | None => false end) (seq 0 (np E)).
Proof.
  unfold classified. generalize (seq 0 (np E)). induction l as [|i l IH]; [reflexivity|].
  cbn [flat_map filter]. rewrite map_app, IH. destruct (classify E i); reflexivity.
Qed.

Lemma nodup_points : arranged E -> NoDup (map c_point (candidates E)).
Proof.
  intros Pm. eapply Permutation_NoDup; [apply Permutation_map; exact Pm|].
  rewrite classified_points. apply NoDup_filter, seq_NoDup.
Qed.

Lemma points_below : arranged E -> forall c, In c (candidates E) -> c_point c < np E.
Proof.
  intros Pm c I. eapply Permutation_in in I; [|apply Permutation_sym; exact Pm].
  apply classified_point in I. destruct I as (i & c0 & L & _ & ->). exact L.
Qed.

Lemma snap_pos : arranged E -> forall fuel s, snap E fuel = Ok (Some s) -> pos_inv s.
Proof.
  intros Pm fuel s H. unfold snap in H. revert H. apply (loop_inv pos_inv); [|apply pos_start].
  intros s0 c b d s' I Q H. eapply place_pos; [|exact Q|exact H]. apply points_below; assumption.
Qed.

(** ** The candidate of a point *)

Lemma candidate_of_spec : forall cs k (f : nat -> option nat) p,
  (forall j, f p = Some j -> j < k) ->
  match fold_left (fun f (ic : nat * cand) => set f (c_point (snd ic)) (Some (fst ic))) (combine (seq k (length cs)) cs) f p with
  | None => f p = None /\ ~ In p (map c_point cs)
  | Some j => (f p = Some j /\ ~ In p (map c_point cs)) \/ (k <= j < k + length cs /\ In p (map c_point cs))
  end.
Proof.
  induction cs as [|c cs IH]; intros k f p Lt; cbn [length seq combine fold_left map].
  - destruct (f p); auto.
  - cbn [fst snd]. specialize (IH (S k) (set f (c_point c) (Some k)) p).
    destruct (fold_left _ _ _ _) as [j|].
    + destruct IH as [(X & Y)|(X & Y)].
      * intros j'. unfold set. destruct (Nat.eqb_spec p (c_point c)); [intros X; inversion X; lia|intros X; apply Lt in X; lia].
      * unfold set in X. destruct (Nat.eqb_spec p (c_point c)) as [->|N].
        -- inversion X. subst. right. split; [lia|left; reflexivity].
        -- left. split; [exact X|]. intros [Z|Z]; [congruence|contradiction].
      * right. split; [lia|right; exact Y].
    + destruct IH as (X & Y).
      * intros j'. unfold set. destruct (Nat.eqb_spec p (c_point c)); [intros X; inversion X; lia|intros X; apply Lt in X; lia].
      * unfold set in X. destruct (Nat.eqb_spec p (c_point c)) as [->|N]; [discriminate|].
        split; [exact X|]. intros [Z|Z]; [congruence|contradiction].
Qed.

Lemma candidate_of_none : forall (cs : list cand) p, candidate_of cs p = None <-> ~ In p (map c_point cs).
Proof.
  intros cs p. pose proof (candidate_of_spec cs 0 (fun _ => None) p) as H. fold (candidate_of cs) in H.
  destruct (candidate_of cs p) as [j|].
  - destruct H as [(X & _)|(_ & X)]; try discriminate. split; [discriminate|contradiction].
  - destruct H as (_ & X); [discriminate|]. tauto.
Qed.

Lemma candidate_of_some : forall (cs : list cand) p j, candidate_of cs p = Some j -> j < length cs.
Proof.
  intros cs p j Q. pose proof (candidate_of_spec cs 0 (fun _ => None) p) as H. fold (candidate_of cs) in H.
  rewrite Q in H. destruct H as [(X & _)|(X & _)]; try discriminate. lia.
Qed.

Lemma has_candidate_spec : arranged E -> forall i, i < np E ->
  has_candidate E i = match classify E i with Some _ => true | None => false end.
Proof.
  intros Pm i L. unfold has_candidate.
  assert (X : In i (map c_point (candidates E)) <-> (exists c, classify E i = Some c)).
  { split.
    - intros I. eapply Permutation_in in I; [|apply Permutation_sym, Permutation_map; exact Pm].
      rewrite classified_points, filter_In in I. destruct I as (_ & I). destruct (classify E i); [eauto|discriminate].
    - intros (c & Q). eapply Permutation_in; [apply Permutation_map; exact Pm|].
      rewrite classified_points, filter_In. split; [apply in_seq; lia|]. rewrite Q. reflexivity. }
  destruct (candidate_of (candidates E) i) eqn:C; destruct (classify E i) eqn:Q; try reflexivity.
  - exfalso. assert (Z : candidate_of (candidates E) i = None).
    { apply candidate_of_none. rewrite X. intros (c & ?). discriminate. }
    congruence.
  - exfalso. apply candidate_of_none in C. apply C, X. eauto.
Qed.

(** ** Statistics *)

Lemma count_spec : forall l s h d h' d' s', count E s l h d = Ok (h', d', s') ->
  h' + d' = h + d + length (filter (has_candidate E) l) /\ fills s s'.
Proof.
  induction l as [|i l IH]; intros s h d h' d' s' H; cbn [count] in H.
  - inversion H. subst. cbn [filter length]. split; [lia|apply fills_refl].
  - cbn [filter]. destruct (has_candidate E i); [|eauto].
    inv_bind H. apply look_fills in EQ. cbn [length]. destruct (honored E s0 i); apply IH in H; destruct H as (H & F);
      (split; [lia|eapply fills_trans; eassumption]).
Qed.

Lemma filter_split : forall {B} (g : B -> bool) l, length (filter g l) + length (filter (fun x => negb (g x)) l) = length l.
Proof.
  intros B g. induction l as [|x l IH]; [reflexivity|]. cbn [filter]. destruct (g x); cbn [negb length]; lia.
Qed.

Lemma stats : arranged E -> forall fuel r, snapper E fuel = Ok (Some r) -> partition E r.
Proof.
  intros Pm fuel r H. unfold snapper in H. inv_bind H. destruct o as [s|]; [|discriminate].
  inv_bind H. destruct p as [[h d] t]. cbn [fst snd] in H. inv_bind H. inversion H. subst. clear H.
  unfold partition. cbn [r_skipped r_honored r_dishonored]. apply count_spec in EQ0. destruct EQ0 as (C & _).
  unfold skipped. pose proof (filter_split (has_candidate E) (seq 0 (np E))) as F. rewrite seq_length in F.
  rewrite (filter_ext_in (fun i => match classify E i with Some _ => false | None => true end) (fun i => negb (has_candidate E i))).
  - lia.
  - intros i I. apply in_seq in I. rewrite has_candidate_spec by (assumption || lia). destruct (classify E i); reflexivity.
Qed.

(** ** Termination *)

Definition total (n : nat) (b : nat -> nat) : nat := list_sum (map b (seq 0 n)).

Lemma total_set : forall n b i x, i < n -> b i = S x -> S (total n (set b i x)) = total n b.
Proof.
  intros n b i x L B. unfold total.
  assert (G : forall l, NoDup l -> list_sum (map (set b i x) l) + (if in_dec Nat.eq_dec i l then 1 else 0) = list_sum (map b l)).
  { induction l as [|j l IH]; intros ND; [reflexivity|]. inversion ND as [|? ? N ND']. subst. specialize (IH ND').
    cbn [map list_sum fold_right]. change (fold_right Nat.add 0) with list_sum. unfold set at 1. destruct (Nat.eqb_spec j i) as [->|Ne].
    - destruct (in_dec Nat.eq_dec i (i :: l)) as [_|Z]; [|exfalso; apply Z; left; reflexivity].
      destruct (in_dec Nat.eq_dec i l); [contradiction|]. cbn [list_sum fold_right] in *. lia.
    - destruct (in_dec Nat.eq_dec i (j :: l)) as [[Z|Z]|Z]; [contradiction| |];
        destruct (in_dec Nat.eq_dec i l) as [W|W]; try contradiction; try lia.
      exfalso. apply Z. right. exact W. }
  specialize (G (seq 0 n) (seq_NoDup n 0)). destruct (in_dec Nat.eq_dec i (seq 0 n)) as [_|N]; [lia|].
  exfalso. apply N. apply in_seq. lia.
Qed.

Lemma requeue_total : forall (cs : list cand) of_point dis q b q' b', requeue E cs of_point dis q b = Ok (q', b') ->
  length q' + total (length cs) b' = length q + total (length cs) b.
Proof.
  intros cs of_point. induction dis as [|p dis IH]; intros q b q' b' H; cbn [requeue] in H; [inversion H; reflexivity|].
  destruct (np E <=? p); [discriminate|]. destruct (of_point p) as [ci|]; [|eauto].
  destruct (nth_error cs ci) as [c|] eqn:N; [|discriminate].
  assert (L : ci < length cs) by (apply nth_error_Some; congruence).
  destruct (b ci) as [|x] eqn:B; [eauto|]. apply IH in H. cbn [length] in H.
  pose proof (total_set _ b ci x L B). lia.
Qed.

Lemma pop_length : forall l x, length (snd (pop E x l)) = length l.
Proof.
  induction l as [|y l IH]; intros x; [reflexivity|]. cbn [pop]. destruct (sooner E y x); cbn [fst snd length]; rewrite IH; reflexivity.
Qed.

Lemma pop_perm : forall l x, Permutation (x :: l) (fst (pop E x l) :: snd (pop E x l)).
Proof.
  induction l as [|y l IH]; intros x; [reflexivity|]. cbn [pop]. destruct (sooner E y x); cbn [fst snd].
  - eapply perm_trans; [apply perm_skip, IH|apply perm_swap].
  - eapply perm_trans; [apply perm_swap|]. eapply perm_trans; [apply perm_skip, IH|apply perm_swap].
Qed.

Lemma loop_ends : forall fuel cs of_point s q b, length q + total (length cs) b <= fuel ->
  loop E fuel cs of_point s q b <> Ok None.
Proof.
  induction fuel as [|fuel IH]; intros cs of_point s q b L; destruct q as [|x l]; cbn [loop]; try discriminate.
  - cbn [length] in L. lia.
  - cbn [length] in L. destruct (nth_error cs _); [|discriminate].
    destruct (place E s c) as [[[ok d] t]| |]; cbn [bind fst snd]; try discriminate. destruct ok.
    + destruct (requeue E cs of_point d _ b) as [[q' b']| |] eqn:R; cbn [bind fst snd]; try discriminate.
      apply requeue_total in R. rewrite pop_length in R. apply IH. lia.
    + apply IH. rewrite pop_length. lia.
Qed.

Lemma loop_more : forall fuel fuel' cs of_point s q b, fuel <= fuel' -> loop E fuel cs of_point s q b <> Ok None ->
  loop E fuel' cs of_point s q b = loop E fuel cs of_point s q b.
Proof.
  induction fuel as [|fuel IH]; intros fuel' cs of_point s q b L N; destruct q as [|x l].
  - destruct fuel'; reflexivity.
  - cbn [loop] in N. contradiction.
  - destruct fuel'; reflexivity.
  - destruct fuel' as [|fuel']; [lia|]. cbn [loop] in *. destruct (nth_error cs _); [|reflexivity].
    destruct (place E s c) as [[[ok d] t]| |]; cbn [bind fst snd] in *; try reflexivity. destruct ok.
    + destruct (requeue E cs of_point d _ b) as [[q' b']| |]; cbn [bind fst snd] in *; try reflexivity. apply IH; [lia|exact N].
    + apply IH; [lia|exact N].
Qed.

Lemma candidates_length : arranged E -> length (candidates E) + skipped E = np E.
Proof.
  intros Pm. rewrite <- (Permutation_length Pm), <- (map_length c_point), classified_points.
  unfold skipped. rewrite <- (seq_length (np E) 0) at 3.
  rewrite <- (filter_split (fun i => match classify E i with Some _ => true | None => false end) (seq 0 (np E))).
  f_equal. f_equal. apply filter_ext. intros i. destruct (classify E i); reflexivity.
Qed.

Lemma start_total : forall n, total n (fun _ => kSnapBudget) = 8 * n.
Proof.
  intros n. unfold total. assert (G : forall l : list nat, list_sum (map (fun _ => kSnapBudget) l) = 8 * length l).
  { induction l as [|x l IH]; [reflexivity|]. cbn [map length].
    change (list_sum (kSnapBudget :: map (fun _ => kSnapBudget) l)) with (kSnapBudget + list_sum (map (fun _ : nat => kSnapBudget) l)).
    rewrite IH. unfold kSnapBudget. lia. }
  rewrite G, seq_length. reflexivity.
Qed.

Lemma snap_ends : arranged E -> snap E (9 * np E) <> Ok None.
Proof.
  intros Pm. unfold snap. apply loop_ends. unfold first_queue. rewrite combine_length, map_length, seq_length, Nat.min_id, start_total.
  pose proof (candidates_length Pm). lia.
Qed.

Lemma terminates : arranged E -> (forall r, snapper E (9 * np E) = Ok r -> r <> None) /\
  forall fuel, 9 * np E <= fuel -> snapper E fuel = snapper E (9 * np E).
Proof.
  intros Pm. pose proof (snap_ends Pm) as N. split.
  - intros r H ->. unfold snapper in H. inv_bind H. destruct o as [s|]; [|contradiction].
    inv_bind H. inv_bind H.
  - intros fuel L. unfold snapper. replace (snap E fuel) with (snap E (9 * np E)); [reflexivity|].
    symmetry. unfold snap in *. apply loop_more; assumption.
Qed.

(** ** The emitted mesh *)

Lemma position_spec : forall r vv, match position r vv with
  | Some k => k < length vv /\ nth k vv 0 = r | None => ~ In r vv end.
Proof.
  intros r. induction vv as [|x vv IH]; cbn [position]; [intros []|].
  destruct (Nat.eqb_spec x r) as [->|N]; [cbn [length nth]; split; [lia|reflexivity]|].
  destruct (position r vv) as [k|]; cbn [option_map].
  - cbn [length nth]. destruct IH. split; [lia|assumption].
  - intros [Z|Z]; contradiction.
Qed.

Lemma NoDup_snoc' : forall {B} (l : list B) x, NoDup l -> ~ In x l -> NoDup (l ++ [x]).
Proof.
  intros B l x N I. apply NoDup_rev in N. rewrite <- (rev_involutive (l ++ [x])). apply NoDup_rev.
  rewrite rev_app_distr. cbn [rev app]. constructor; [rewrite <- in_rev; exact I|exact N].
Qed.

Lemma number_spec : forall vv r k vv', NoDup vv -> number E vv r = Ok (k, vv') ->
  NoDup vv' /\ (exists ext, vv' = vv ++ ext /\ (length vv <= k \/ ext = []) /\ (ext = [] \/ (ext = [r] /\ k = length vv))) /\
  k < length vv' /\ nth k vv' 0 = r /\ r < np E + nv E.
Proof.
  intros vv r k vv' ND H. unfold number in H. destruct (np E + nv E <=? r) eqn:L; [discriminate|]. apply Nat.leb_gt in L.
  pose proof (position_spec r vv) as S0. destruct (position r vv) as [j|]; inversion H; subst.
  - destruct S0 as (S1 & S2). split; [exact ND|]. split; [exists []; rewrite app_nil_r; auto|]. auto.
  - split; [apply NoDup_snoc'; assumption|]. split; [exists [r]; split; [reflexivity|]; split; [left; lia|right; auto]|].
    rewrite app_length. cbn [length]. split; [lia|]. split; [|exact L].
    rewrite app_nth2 by lia. rewrite Nat.sub_diag. reflexivity.
Qed.

Lemma renumber_spec : forall fs vv vv' gs, NoDup vv -> (forall r, In r vv -> r < np E + nv E) ->
  renumber E vv fs = Ok (vv', gs) ->
  NoDup vv' /\ (forall r, In r vv' -> r < np E + nv E) /\ (exists ext, vv' = vv ++ ext) /\
  map (renamed vv') gs = fs /\ (forall f k, In f gs -> In k (corners f) -> k < length vv') /\
  (forall k, length vv <= k < length vv' -> exists f, In f gs /\ In k (corners f)).
Proof.
  induction fs as [|[[a b] c] fs IH]; intros vv vv' gs ND B H; cbn [renumber] in H.
  - inversion H. subst. split; [exact ND|]. split; [exact B|]. split; [exists []; symmetry; apply app_nil_r|].
    split; [reflexivity|]. split; [intros ? ? []|]. intros k K. lia.
  - cbn [fst snd] in H. inv_bind H. destruct p as [x v1]. cbn [fst snd] in H. inv_bind H. destruct p as [y v2].
    cbn [fst snd] in H. inv_bind H. destruct p as [z v3]. cbn [fst snd] in H. inv_bind H. destruct p as [v4 hs].
    cbn [fst snd] in H. inversion H. subst. clear H.
    apply number_spec in EQ; [|exact ND]. destruct EQ as (N1 & (e1 & X1 & _ & Y1) & L1 & G1 & R1).
    apply number_spec in EQ0; [|exact N1]. destruct EQ0 as (N2 & (e2 & X2 & _ & Y2) & L2 & G2 & R2).
    apply number_spec in EQ1; [|exact N2]. destruct EQ1 as (N3 & (e3 & X3 & _ & Y3) & L3 & G3 & R3).
    assert (B3 : forall r, In r v3 -> r < np E + nv E).
    { subst v3 v2 v1. intros r I. rewrite !in_app_iff in I. destruct I as [[[I|I]|I]|I]; auto.
      - destruct Y1 as [->|(-> & _)]; [destruct I|]. destruct I as [<-|[]]. exact R1.
      - destruct Y2 as [->|(-> & _)]; [destruct I|]. destruct I as [<-|[]]. exact R2.
      - destruct Y3 as [->|(-> & _)]; [destruct I|]. destruct I as [<-|[]]. exact R3. }
    apply IH in EQ2; [|exact N3|exact B3]. destruct EQ2 as (N4 & B4 & (e4 & X4) & M4 & U4 & V4).
    split; [exact N4|]. split; [exact B4|].
    assert (Hx : x < length vv' /\ nth x vv' 0 = a).
    { subst vv' v3 v2. rewrite !app_length, !app_nth1 by (rewrite ?app_length; lia). split; [lia|exact G1]. }
    assert (Hy : y < length vv' /\ nth y vv' 0 = b).
    { subst vv' v3. rewrite !app_length, !app_nth1 by (rewrite ?app_length; lia). split; [lia|exact G2]. }
    assert (Hz : z < length vv' /\ nth z vv' 0 = c).
    { subst vv'. rewrite !app_length, !app_nth1 by (rewrite ?app_length; lia). split; [lia|exact G3]. }
    split; [exists (e1 ++ e2 ++ e3 ++ e4); subst; rewrite <- !app_assoc; reflexivity|].
    split; [cbn [map]; rewrite M4; unfold renamed; cbn [fst snd]; destruct Hx as (_ & ->), Hy as (_ & ->), Hz as (_ & ->); reflexivity|].
    split.
    + intros f k [<-|I] K; [|eauto]. cbn [corners fst snd In] in K. destruct K as [<-|[<-|[<-|[]]]]; tauto.
    + intros k K. destruct (le_lt_dec (length v3) k) as [G|G].
      * destruct (V4 k) as (f & I & J); [lia|]. exists f. split; [right; exact I|exact J].
      * exists (x, y, z). split; [left; reflexivity|]. cbn [corners fst snd In]. subst v3 v2 v1.
        rewrite !app_length in G. rewrite !app_length in Y3. rewrite app_length in Y2.
        destruct Y1 as [->|(-> & ->)], Y2 as [->|(-> & ->)], Y3 as [->|(-> & ->)]; cbn [length] in *; lia.
Qed.

(** The faces of all patches, as they are emitted. *)
Lemma emit_spec : forall s vs fs, emit E s = Ok (vs, fs) ->
  exists rows s' patches, fills s s' /\ NoDup rows /\ (forall r, In r rows -> r < np E + nv E) /\
    vs = map (s_p s) rows /\ well_indexed (length vs) fs /\
    map (renamed rows) fs = flat_map snd patches /\ map fst patches = seq 0 (num_faces E) /\
    Forall (fun x => (s_faces s' (fst x) = snd x /\ snd x <> []) \/
                     (s_faces s' (fst x) = [] /\ exists b, triangulate E s (fst x) = Ok (b, snd x))) patches.
Proof.
  intros s vs fs H. unfold emit in H. inv_bind H. destruct p as [r1 s1]. cbn [fst snd] in H. inv_bind H.
  destruct p as [r2 s2]. cbn [fst snd] in H. inv_bind H. destruct p as [rows gs]. cbn [fst snd] in H. inversion H. subst. clear H.
  apply read_spec in EQ. destruct EQ as (F1 & _). apply read_spec in EQ0. destruct EQ0 as (F2 & M & _ & _ & A2).
  apply renumber_spec in EQ1; [|constructor|intros ? []]. destruct EQ1 as (N & B & _ & MM & U & V).
  exists rows, s1, r2. split; [exact F1|]. split; [exact N|]. split; [exact B|].
  assert (PP : s_p s2 = s_p s) by (rewrite (fills_p _ _ F2); apply F1). rewrite PP. split; [reflexivity|].
  split.
  - intros k. rewrite map_length. split.
    + intros L. apply V. cbn [length]. lia.
    + intros (f & I & J). eauto.
  - split; [exact MM|]. split; [exact M|]. eapply Forall_impl; [|exact A2].
    intros x [X|(X & b & Y)]; [left; exact X|right]. split; [exact X|]. exists b. rewrite <- (fills_triangulate _ _ _ F1). exact Y.
Qed.

Lemma indexed : forall fuel r, snapper E fuel = Ok (Some r) -> well_indexed (length (r_vertices r)) (r_faces r).
Proof.
  intros fuel r H. unfold snapper in H. inv_bind H. destruct o as [s|]; [|discriminate].
  inv_bind H. inv_bind H. destruct p0 as [vs fs]. inversion H. subst. cbn [r_vertices r_faces fst snd].
  apply emit_spec in EQ1. destruct EQ1 as (? & ? & ? & _ & _ & _ & _ & W & _). exact W.
Qed.

Lemma positions : arranged E -> forall fuel r, snapper E fuel = Ok (Some r) -> Forall (given E) (r_vertices r).
Proof.
  intros Pm fuel r H. unfold snapper in H. inv_bind H. destruct o as [s|]; [|discriminate].
  inv_bind H. destruct p as [[h d] t]. cbn [fst snd] in H. inv_bind H. destruct p as [vs fs]. inversion H. subst. cbn [r_vertices fst snd].
  apply snap_pos in EQ; [|exact Pm]. apply count_spec in EQ0. destruct EQ0 as (_ & F).
  apply (pos_eq _ _ (fills_p _ _ F)) in EQ. destruct EQ as (I & J).
  apply emit_spec in EQ1. destruct EQ1 as (rows & ? & ? & _ & _ & B & -> & _).
  apply Forall_map, Forall_forall. intros q Iq. apply B in Iq.
  destruct (lt_dec q (np E)) as [L|L]; [left; exists q; auto|].
  replace q with (np E + (q - np E)) by lia. destruct (J (q - np E)) as [->|(i & Li & ->)].
  - right. exists (q - np E). split; [lia|reflexivity].
  - left. exists i. auto.
Qed.

End Proofs.
