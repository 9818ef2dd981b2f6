(** Snapping a mesh to points succeeds when the tests stay in range. *)
From Coq Require Import List Arith Bool Lia Permutation.
From Verif.Model Require Import Outcome Snapper.
From Verif.Spec Require Import Snapper.
From Verif.Proofs Require Import Snapper SnapperPatches.
Import ListNotations.

Section Proofs.
Context {P A T : Type}.
Variable E : env P A T.
Notation cand := (candidate A T).
Notation st := (state P A T).
Hypothesis RG : in_range E.
Hypothesis VF : valid_faces E.
Hypothesis AR : arranged E.

Definition low (fs : list tri3) : Prop := forall f k, In f fs -> In k (corners f) -> k < np E + nv E.

Record fine (s : st) : Prop := {
  fine_in : forall r, inserted s r -> r < np E;
  fine_faces : forall fi, low (s_faces s fi) }.

Lemma each_ok : forall {B C : Type} (g : B -> outcome C) (Q : C -> Prop) l,
  (forall x, In x l -> exists y, g x = Ok y /\ Q y) -> exists ys, each g l = Ok ys /\ Forall Q ys.
Proof.
  intros B C g Q. induction l as [|x l IH]; intros H; cbn [each]; [eauto|].
  destruct (H x) as (y & -> & Qy); [left; reflexivity|]. cbn [bind].
  destruct IH as (ys & -> & F); [intros z I; apply H; right; exact I|]. cbn [bind]. eauto.
Qed.

Lemma row_of_ok : forall b i k, k < length b + length i -> exists r, row_of b i k = Ok r /\ In r (b ++ i).
Proof.
  intros b i k L. unfold row_of. destruct (Nat.ltb_spec k (length b)) as [H|H].
  - destruct (nth_error b k) as [r|] eqn:Q; [|apply nth_error_None in Q; lia]. exists r. split; [reflexivity|].
    apply in_app_iff. left. eapply nth_error_In; exact Q.
  - destruct (nth_error i (k - length b)) as [r|] eqn:Q; [|apply nth_error_None in Q; lia]. exists r. split; [reflexivity|].
    apply in_app_iff. right. eapply nth_error_In; exact Q.
Qed.

Lemma corner_low : forall fi k, fi < num_faces E -> corner (face E fi) k < np E + nv E.
Proof.
  intros fi k L. unfold face. assert (I : In (nth fi (faces E) (0, 0, 0)) (faces E)) by (apply nth_In; exact L).
  pose proof (VF _ I) as V. unfold shift. destruct (nth fi (faces E) (0, 0, 0)) as [[a b] c]. cbn [corners fst snd In] in *.
  assert (a < nv E) by auto. assert (b < nv E) by auto. assert (c < nv E) by auto.
  destruct k as [|[|k]]; cbn [corner fst snd]; lia.
Qed.

Lemma patch_low : forall s fi r, fine s -> fi < num_faces E -> In r (patch_rows E s fi) -> r < np E + nv E.
Proof.
  intros s fi r F L I. unfold patch_rows in I. apply in_app_iff in I. destruct I as [I|I].
  - apply boundary_in in I. destruct I as [(k & _ & ->)|(e & t & _ & I)]; [apply corner_low; exact L|].
    assert (r < np E) by (apply (fine_in _ F); left; eauto). lia.
  - assert (r < np E) by (apply (fine_in _ F); right; eauto). lia.
Qed.

Lemma triangulate_ok : forall s fi, fine s -> fi < num_faces E -> exists b fs, triangulate E s fi = Ok (b, fs) /\ low fs.
Proof.
  intros s fi F L. unfold triangulate. destruct (unsplit E s fi).
  - exists true, [face E fi]. split; [reflexivity|]. intros f k [<-|[]] K. cbn [corners In] in K.
    destruct K as [<-|[<-|[<-|[]]]].
    + apply (corner_low fi 0 L).
    + apply (corner_low fi 1 L).
    + apply (corner_low fi 2 L).
  - destruct (range_tri _ RG fi (map (s_aq s) (boundary s (face E fi))) (boundary_edges s (face E fi)) (map (s_aq s) (s_interior s fi)) L) as (ok & fs & -> & B).
    cbn [bind snd fst]. rewrite !map_length in B.
    destruct (each_ok (rows_of (boundary s (face E fi)) (s_interior s fi)) (fun f => forall k, In k (corners f) -> k < np E + nv E) fs) as (gs & -> & FG).
    { intros [[a b] c] I. unfold rows_of. cbn [fst snd].
      destruct (row_of_ok (boundary s (face E fi)) (s_interior s fi) a) as (x & -> & Ix); [apply (B _ a I); cbn [corners fst snd In]; auto|].
      destruct (row_of_ok (boundary s (face E fi)) (s_interior s fi) b) as (y & -> & Iy); [apply (B _ b I); cbn [corners fst snd In]; auto|].
      destruct (row_of_ok (boundary s (face E fi)) (s_interior s fi) c) as (z & -> & Iz); [apply (B _ c I); cbn [corners fst snd In]; auto|].
      cbn [bind]. eexists. split; [reflexivity|]. intros k K. cbn [corners fst snd In] in K.
      destruct K as [<-|[<-|[<-|[]]]]; (eapply patch_low; [exact F|exact L|assumption]). }
    cbn [bind]. do 2 eexists. split; [reflexivity|]. intros f k I K. rewrite Forall_forall in FG. eapply FG; eassumption.
Qed.

Lemma fine_with_faces : forall s fi fs, fine s -> low fs -> fine (with_faces s fi fs).
Proof.
  intros s fi fs F L. constructor.
  - intros r I. apply (fine_in _ F). exact I.
  - intros fj. cbn [with_faces s_faces]. unfold set. destruct (fj =? fi); [exact L|apply F].
Qed.

Lemma read_ok : forall l s, fine s -> (forall fi, In fi l -> fi < num_faces E) ->
  exists r s', read E s l = Ok (r, s') /\ fine s' /\ Forall (fun x => low (snd x)) r.
Proof.
  induction l as [|fi l IH]; intros s F L; cbn [read]; [eauto|].
  assert (X : exists fs t, patch_faces E s fi = Ok (fs, t) /\ fine t /\ low fs).
  { unfold patch_faces. assert (Lf : fi < num_faces E) by (apply L; left; reflexivity).
    replace (num_faces E <=? fi) with false by (symmetry; apply Nat.leb_gt; exact Lf).
    destruct (s_faces s fi) as [|f0 l0] eqn:Q.
    - destruct (triangulate_ok s fi F Lf) as (b & fs & -> & Lo). cbn [bind snd]. do 2 eexists. split; [reflexivity|].
      split; [apply fine_with_faces; assumption|exact Lo].
    - do 2 eexists. split; [reflexivity|]. split; [exact F|]. rewrite <- Q. apply F. }
  destruct X as (fs & t & -> & Ft & Lo). cbn [bind snd fst].
  destruct (IH t Ft) as (r & u & -> & Fu & Lr); [intros fj I; apply L; right; exact I|]. cbn [bind snd fst].
  do 2 eexists. split; [reflexivity|]. split; [exact Fu|constructor; assumption].
Qed.

Lemma look_ok : forall s k, fine s -> exists s', look E s k = Ok s' /\ fine s'.
Proof.
  intros s k F. unfold look. destruct (read_ok (looks E s k) s F) as (r & t & -> & Ft & _).
  - intros fi I. eapply range_looks; eassumption.
  - cbn [bind snd]. eauto.
Qed.

Lemma look_outside_ok : forall s k l, fine s -> exists s', look_outside E s k l = Ok s' /\ fine s'.
Proof.
  intros s k l F. unfold look_outside.
  match goal with |- context [read E s ?l0] => destruct (read_ok l0 s F) as (r & t & -> & Ft & _) end.
  - intros fi I. apply filter_In in I. destruct I as (I & _). eapply range_looks; eassumption.
  - cbn [bind snd]. eauto.
Qed.

Lemma fine_p : forall s p, fine s -> fine (with_p s p).
Proof. intros s p F. constructor; [intros r I; apply (fine_in _ F); exact I|intros fi; apply F]. Qed.
Lemma fine_anchor : forall s r a, fine s -> fine (with_anchor s r a).
Proof. intros s p a F. constructor; [intros r I; apply (fine_in _ F); exact I|intros fi; apply F]. Qed.
Lemma fine_chain : forall s e l, fine s -> (forall t r, In (t, r) l -> r < np E) -> fine (with_chain s e l).
Proof.
  intros s e l F H. constructor; [|intros fi; apply F]. intros r [(e' & t & I)|(fi & I)].
  - cbn [with_chain s_chain] in I. unfold set_edge in I. destruct (edge_eqb e' e); [eauto|]. apply (fine_in _ F). left. eauto.
  - apply (fine_in _ F). right. exists fi. exact I.
Qed.
Lemma fine_interior : forall s fi l, fine s -> (forall r, In r l -> r < np E) -> fine (with_interior s fi l).
Proof.
  intros s fi l F H. constructor; [|intros fj; apply F]. intros r [(e' & t & I)|(fj & I)].
  - apply (fine_in _ F). left. exists e', t. exact I.
  - cbn [with_interior s_interior] in I. unfold set in I. destruct (fj =? fi); [eauto|]. apply (fine_in _ F). right. eauto.
Qed.
Lemma fine_store : forall l s, fine s -> Forall (fun x => low (snd x)) l -> fine (store s l).
Proof.
  induction l as [|x l IH]; intros s F H; [exact F|]. inversion H. subst. unfold store. cbn [fold_left].
  apply IH; [apply fine_with_faces; assumption|assumption].
Qed.

Definition goes_well (a : @attempt P A T) : Prop :=
  exists b d s, a = Ok (b, d, s) /\ fine s /\ forall i, In i d -> i < np E.

Lemma well_true : forall s, fine s -> goes_well (Ok (true, knocked E s, s)).
Proof. intros s F. do 3 eexists. split; [reflexivity|]. split; [exact F|]. intros i I. eapply range_knocked; eassumption. Qed.
Lemma well_false : forall s, fine s -> goes_well (Ok (false, [], s)).
Proof. intros s F. do 3 eexists. split; [reflexivity|]. split; [exact F|]. intros i []. Qed.

Lemma try_vertex_ok : forall s c v, fine s -> goes_well (try_vertex E s c v).
Proof.
  intros s c v F. unfold try_vertex. destruct (look_ok s 0 F) as (t & -> & Ft). cbn [bind].
  match goal with |- context [read E ?t0 ?l0] => destruct (read_ok l0 t0) as (r & u & -> & Fu & _) end.
  - apply fine_p. exact Ft.
  - intros fi I. unfold vertex_faces in I. apply filter_In in I. destruct I as (I & _). apply in_seq in I. lia.
  - cbn [bind snd fst]. destruct (look_outside_ok u 1 (vertex_faces E v) Fu) as (w & -> & Fw). cbn [bind].
    destruct (accept E w r).
    + destruct (look_ok w 2 Fw) as (z & -> & Fz). cbn [bind]. apply well_true. exact Fz.
    + apply well_false. apply fine_p. exact Fw.
Qed.

Lemma retriangulate_ok : forall l s, fine s -> (forall fi, In fi l -> fi < num_faces E) ->
  exists b r, retriangulate E s l = Ok (b, r) /\ Forall (fun x => low (snd x)) r.
Proof.
  induction l as [|fi l IH]; intros s F L; cbn [retriangulate]; [eauto|].
  destruct (triangulate_ok s fi F) as (b & fs & -> & Lo); [apply L; left; reflexivity|]. cbn [bind fst snd].
  destruct b; [|eauto]. destruct (IH s F) as (b & r & -> & Fr); [intros fj I; apply L; right; exact I|]. cbn [bind fst snd].
  do 2 eexists. split; [reflexivity|]. constructor; assumption.
Qed.

Lemma erase_in : forall v (l : list (T * nat)) x, In x (erase v l) -> In x l.
Proof. intros v l x I. unfold erase in I. apply filter_In in I. apply I. Qed.

Lemma chain_low : forall s e t r, fine s -> In (t, r) (s_chain s e) -> r < np E.
Proof. intros s e t r F I. apply (fine_in _ F). left. eauto. Qed.

Lemma try_edge_ok : forall s c k, fine s -> c_point c < np E -> goes_well (try_edge E s c k).
Proof.
  intros s c k F Lc. unfold try_edge. destruct (lt E _ _); [|apply well_false; exact F].
  match goal with |- context [insert_at E ?t0] => set (t := t0) end. clearbody t.
  match goal with |- context [faces_of E ?e0] => set (e := e0) end. clearbody e.
  destruct (_ <? 2); [apply well_false; exact F|]. destruct (look_ok s 3 F) as (u & -> & Fu). cbn [bind].
  match goal with |- context [retriangulate E ?w0] => set (w := w0) end.
  assert (Fw : fine w).
  { apply fine_chain; [apply fine_anchor; exact Fu|]. intros t' r I. apply insert_at_in in I. destruct I as [I|I].
    - inversion I. subst. exact Lc.
    - eapply chain_low; [|exact I]. apply fine_anchor. exact Fu. }
  clearbody w. destruct (retriangulate_ok (faces_of E e) w Fw) as (b & r & -> & Fr); [intros fi I; eapply faces_of_below; exact I|].
  cbn [bind fst snd]. destruct b.
  - destruct (look_outside_ok w 4 (faces_of E e) Fw) as (z & -> & Fz). cbn [bind]. destruct (accept E z r).
    + destruct (look_ok (store z r) 5) as (y & -> & Fy); [apply fine_store; assumption|]. cbn [bind]. apply well_true. exact Fy.
    + apply well_false. apply fine_chain; [exact Fz|]. intros t' r' I. apply erase_in in I. eapply chain_low; eassumption.
  - apply well_false. apply fine_chain; [exact Fw|]. intros t' r' I. apply erase_in in I. eapply chain_low; eassumption.
Qed.

Lemma removelast_in : forall {B} (l : list B) x, In x (removelast l) -> In x l.
Proof.
  intros B. induction l as [|y l IH]; intros x I; [exact I|]. cbn [removelast] in I. destruct l; [destruct I|].
  destruct I as [<-|I]; [left; reflexivity|right; apply IH; exact I].
Qed.

Lemma interior_low : forall s fi r, fine s -> In r (s_interior s fi) -> r < np E.
Proof. intros s fi r F I. apply (fine_in _ F). right. eauto. Qed.

Lemma try_face_ok : forall s c, fine s -> c_point c < np E -> c_face c < num_faces E -> goes_well (try_face E s c).
Proof.
  intros s c F Lc Lf. unfold try_face. destruct (look_ok s 6 F) as (u & -> & Fu). cbn [bind].
  match goal with |- context [triangulate E ?w0] => set (w := w0) end.
  assert (Fw : fine w).
  { apply fine_interior; [apply fine_anchor; exact Fu|]. intros r I. apply in_app_iff in I. destruct I as [I|[<-|[]]].
    - eapply interior_low; [|exact I]. apply fine_anchor. exact Fu.
    - exact Lc. }
  clearbody w. destruct (triangulate_ok w (c_face c) Fw Lf) as (b & fs & -> & Lo). cbn [bind fst snd].
  destruct (b && uses fs (c_point c)).
  - destruct (look_outside_ok w 7 [c_face c] Fw) as (z & -> & Fz). cbn [bind]. destruct (accept E z _).
    + destruct (look_ok (with_faces z (c_face c) fs) 8) as (y & -> & Fy); [apply fine_with_faces; assumption|]. cbn [bind]. apply well_true. exact Fy.
    + apply well_false. apply fine_interior; [exact Fz|]. intros r I. apply removelast_in in I. eapply interior_low; eassumption.
  - apply well_false. apply fine_interior; [exact Fw|]. intros r I. apply removelast_in in I. eapply interior_low; eassumption.
Qed.

Lemma cascade_ok : forall l s c, fine s -> c_point c < np E -> c_face c < num_faces E -> goes_well (cascade E s c l).
Proof.
  induction l as [|x l IH]; intros s c F Lc Lf; cbn [cascade]; [apply well_false; exact F|].
  assert (X : goes_well (try_simplex E s c x)).
  { destruct x; cbn [try_simplex]; [apply try_vertex_ok|apply try_edge_ok|apply try_face_ok]; assumption. }
  destruct X as (b & d & t & -> & Ft & D). cbn [bind fst snd]. destruct b; [|apply IH; assumption].
  do 3 eexists. split; [reflexivity|]. split; assumption.
Qed.

Lemma place_ok : forall s c, fine s -> c_point c < np E -> c_face c < num_faces E -> goes_well (place E s c).
Proof.
  intros s c F Lc Lf. unfold place. assert (X : goes_well (try_nearby E s c)).
  { unfold try_nearby. destruct (nearest _); [|apply well_false; exact F]. destruct (near E _ _ _); [apply try_vertex_ok|apply well_false]; exact F. }
  destruct X as (b & d & t & -> & Ft & D). cbn [bind fst snd]. destruct b; [do 3 eexists; split; [reflexivity|]; split; assumption|].
  destruct (look_ok t 9 Ft) as (u & -> & Fu). cbn [bind]. destruct (satisfied E u c); [apply well_false; exact Fu|apply cascade_ok; assumption].
Qed.

Definition queue_ok (n : nat) (q : list (T * nat)) : Prop := forall x, In x q -> snd x < n.

Lemma requeue_ok : forall dis q b, (forall i, In i dis -> i < np E) -> queue_ok (length (candidates E)) q ->
  exists q' b', requeue E (candidates E) (candidate_of (candidates E)) dis q b = Ok (q', b') /\ queue_ok (length (candidates E)) q'.
Proof.
  induction dis as [|p dis IH]; intros q b L Q; cbn [requeue]; [eauto|].
  assert (Ld : forall i, In i dis -> i < np E) by (intros i I; apply L; right; exact I).
  replace (np E <=? p) with false by (symmetry; apply Nat.leb_gt, L; left; reflexivity).
  destruct (candidate_of (candidates E) p) as [ci|] eqn:C; [|auto]. apply candidate_of_some in C.
  destruct (nth_error (candidates E) ci) as [c|] eqn:N; [|apply nth_error_None in N; lia].
  destruct (b ci); [auto|]. apply IH; [exact Ld|]. intros x [<-|I]; [exact C|auto].
Qed.

Lemma loop_ok : forall fuel s q b, fine s -> queue_ok (length (candidates E)) q ->
  exists o, loop E fuel (candidates E) (candidate_of (candidates E)) s q b = Ok o /\ (forall s', o = Some s' -> fine s').
Proof.
  induction fuel as [|fuel IH]; intros s q b F Q; destruct q as [|x l]; cbn [loop].
  1,3: eexists; split; [reflexivity|]; intros s' Z; inversion Z; subst; exact F.
  - eexists. split; [reflexivity|]. discriminate.
  - pose proof (pop_perm E l x) as Pp.
    assert (Q' : queue_ok (length (candidates E)) (fst (pop E x l) :: snd (pop E x l))).
    { intros y I. apply Q. eapply Permutation_in; [apply Permutation_sym; exact Pp|exact I]. }
    destruct (nth_error (candidates E) (snd (fst (pop E x l)))) as [c|] eqn:N.
    2:{ apply nth_error_None in N. specialize (Q' _ (or_introl eq_refl)). lia. }
    apply nth_error_In in N.
    assert (Lf : c_face c < num_faces E).
    { eapply Permutation_in in N; [|apply Permutation_sym; exact AR]. apply classified_point in N.
      destruct N as (i & c0 & _ & Z & ->). cbn [c_face]. eapply range_classify; eassumption. }
    destruct (place_ok s c F (points_below E AR c N) Lf) as (ok & d & t & -> & Ft & D). cbn [bind fst snd].
    assert (Q2 : queue_ok (length (candidates E)) (snd (pop E x l))) by (intros y I; apply Q'; right; exact I).
    destruct ok; [|apply IH; assumption].
    destruct (requeue_ok d (snd (pop E x l)) b D Q2) as (q' & b' & -> & Q3). cbn [bind fst snd]. apply IH; assumption.
Qed.

Lemma count_ok : forall l s h d, fine s -> exists n, count E s l h d = Ok n /\ fine (snd n).
Proof.
  induction l as [|i l IH]; intros s h d F; cbn [count]; [eexists; split; [reflexivity|exact F]|].
  destruct (has_candidate E i); [|auto]. destruct (look_ok s (10 + i) F) as (t & -> & Ft). cbn [bind].
  destruct (honored E t i); apply IH; exact Ft.
Qed.

Lemma number_ok : forall vv r, r < np E + nv E -> exists x, number E vv r = Ok x.
Proof.
  intros vv r L. unfold number. replace (np E + nv E <=? r) with false by (symmetry; apply Nat.leb_gt; exact L).
  destruct (position r vv); eauto.
Qed.

Lemma renumber_ok : forall fs vv, low fs -> exists r, renumber E vv fs = Ok r.
Proof.
  induction fs as [|f fs IH]; intros vv L; cbn [renumber]; [eauto|].
  assert (Lf : forall k, In k (corners f) -> k < np E + nv E) by (intros k I; eapply L; [left; reflexivity|exact I]).
  destruct (number_ok vv (fst (fst f))) as (x & ->); [apply Lf; left; reflexivity|]. cbn [bind].
  destruct (number_ok (snd x) (snd (fst f))) as (y & ->); [apply Lf; right; left; reflexivity|]. cbn [bind].
  destruct (number_ok (snd y) (snd f)) as (z & ->); [apply Lf; right; right; left; reflexivity|]. cbn [bind].
  destruct (IH (snd z)) as (r & ->); [intros g k I; apply L; right; exact I|]. cbn [bind]. eauto.
Qed.

Lemma emit_ok : forall s, fine s -> exists m, emit E s = Ok m.
Proof.
  intros s F. unfold emit. assert (L : forall fi, In fi (seq 0 (num_faces E)) -> fi < num_faces E) by (intros fi I; apply in_seq in I; lia).
  destruct (read_ok _ s F L) as (r & t & -> & Ft & _). cbn [bind snd]. destruct (read_ok _ t Ft L) as (q & u & -> & Fu & Lo). cbn [bind snd fst].
  destruct (renumber_ok (flat_map snd q) []) as (z & ->).
  - intros f k I K. apply in_flat_map in I. destruct I as (x & I & J). rewrite Forall_forall in Lo. eapply Lo; eassumption.
  - cbn [bind]. eauto.
Qed.

Lemma total : exists r, snapper E (9 * np E) = Ok (Some r).
Proof.
  pose proof (snap_ends E AR) as NE. unfold snapper, snap in *.
  destruct (loop_ok (9 * np E) (start E) (first_queue (candidates E)) (fun _ => kSnapBudget)) as (o & Q & G).
  - constructor; cbn [start s_faces].
    + intros r [(e & t & [])|(fi & [])].
    + intros fi f k [].
  - intros x I. unfold first_queue in I. destruct x as [d ci]. apply in_combine_r in I. apply in_seq in I. cbn [snd]. lia.
  - rewrite Q in *. cbn [bind]. destruct o as [s|]; [|contradiction]. specialize (G s eq_refl).
    destruct (count_ok (seq 0 (np E)) s 0 0 G) as (n & -> & Fn). cbn [bind]. destruct (emit_ok _ Fn) as (m & ->). cbn [bind]. eauto.
Qed.

End Proofs.
