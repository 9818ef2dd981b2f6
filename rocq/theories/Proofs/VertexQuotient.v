From Coq Require Import List Arith Bool Lia Permutation.
From Verif Require Import Model.Outcome Model.DisjointSets Model.MeshDefects Model.VertexClusterer
  Spec.DisjointSets Spec.VertexClusterer Proofs.MeshDefects Proofs.DisjointSets Proofs.VertexClusterer.
Import ListNotations.

(** ** Clusters *)

Definition alive (s : state) (ci : nat) (c : cluster) : Prop :=
  nth_error (s_clusters s) ci = Some c /\ c_deleted c = false.

Definition inv (s : state) : Prop :=
  (forall v ci, s_of s v = Some ci <-> exists c, alive s ci c /\ In v (c_vertices c)) /\
  (forall ci c, nth_error (s_clusters s) ci = Some c -> In (c_rep c) (c_vertices c)) /\
  (forall ci cj c c' v, nth_error (s_clusters s) ci = Some c -> nth_error (s_clusters s) cj = Some c' ->
     In v (c_vertices c) -> In v (c_vertices c') -> ci = cj).

Definition src (s : state) (u : nat) : source := match s_of s u with None => inl u | Some ci => inr ci end.
Definition rep (s : state) (u : nat) : nat :=
  match s_of s u with None => u | Some ci => c_rep (nth ci (s_clusters s) no_cluster) end.

Lemma alive_rep : forall s ci c, inv s -> alive s ci c -> s_of s (c_rep c) = Some ci.
Proof. intros s ci c (H1 & H2 & _) A. apply H1. exists c. split; auto. apply (H2 ci). apply A. Qed.

Lemma of_alive : forall s u ci, inv s -> s_of s u = Some ci -> exists c, alive s ci c /\ In u (c_vertices c) /\ rep s u = c_rep c.
Proof.
  intros s u ci (H1 & _) E. destruct (proj1 (H1 u ci) E) as (c & A & I). exists c. split; auto. split; auto.
  unfold rep. rewrite E. destruct A as [A _]. rewrite (nth_error_nth _ _ _ A). auto.
Qed.

Lemma rep_of : forall s u, inv s -> s_of s (rep s u) = s_of s u.
Proof.
  intros s u H. destruct (s_of s u) as [ci|] eqn:E.
  - destruct (of_alive s u ci H E) as (c & A & I & ->). apply alive_rep; auto.
  - unfold rep. rewrite E. auto.
Qed.

Lemma rep_src : forall s u w, inv s -> (rep s u = rep s w <-> src s u = src s w).
Proof.
  intros s u w H. split.
  - intros E. pose proof (rep_of s u H) as Eu. pose proof (rep_of s w H) as Ew. rewrite E in Eu.
    assert (s_of s u = s_of s w) as Q by congruence. unfold src. rewrite <- Q. destruct (s_of s u) eqn:X; auto.
    f_equal. unfold rep in E. rewrite X, <- Q in E. auto.
  - unfold src, rep. destruct (s_of s u), (s_of s w); intros E; inversion E; auto.
Qed.

Definition kept (s : state) : list (list nat) := map c_vertices (filter (fun c => negb (c_deleted c)) (s_clusters s)).

Lemma kept_alive : forall s g, In g (kept s) <-> exists ci c, alive s ci c /\ c_vertices c = g.
Proof.
  intros s g. unfold kept. rewrite in_map_iff. split.
  - intros (c & E & I). apply filter_In in I. destruct I as [I D]. apply negb_true_iff in D.
    apply In_nth_error in I. destruct I as (ci & I). exists ci, c. repeat split; auto.
  - intros (ci & c & [A D] & E). exists c. split; auto. apply filter_In. split; [eapply nth_error_In; eauto|]. rewrite D. auto.
Qed.

Lemma src_merges : forall s, inv s -> merges source (src s) (kept s).
Proof.
  intros s H u w. split.
  - unfold src. destruct (s_of s u) as [ci|] eqn:Eu, (s_of s w) as [cj|] eqn:Ew; intros E; inversion E; subst; auto.
    right. destruct (of_alive s u cj H Eu) as (c & A & I & _). destruct (of_alive s w cj H Ew) as (c' & A' & I' & _).
    assert (c = c') by (destruct A, A'; congruence). subst c'. exists (c_vertices c). split; auto.
    apply kept_alive. eauto.
  - intros [->|(g & G & U & W)]; auto. apply kept_alive in G. destruct G as (ci & c & A & <-). destruct H as (H1 & _).
    assert (s_of s u = Some ci) as Eu by (apply H1; eauto). assert (s_of s w = Some ci) as Ew by (apply H1; eauto).
    unfold src. rewrite Eu, Ew. auto.
Qed.

(** ** clustered_mesh *)

Definition vmap := ((nat -> option nat) * list source)%type.
Definition good (s : state) (st : vmap) : Prop :=
  (forall v i, fst st v = Some i -> exists u, rep s u = v /\ nth_error (snd st) i = Some (src s u)) /\
  (forall i x, nth_error (snd st) i = Some x -> exists u, x = src s u /\ fst st (rep s u) = Some i).

Lemma good_NoDup : forall s st, inv s -> good s st -> NoDup (snd st).
Proof.
  intros s st H (G1 & G2). apply NoDup_nth_error. intros i j L E.
  destruct (nth_error (snd st) i) as [x|] eqn:X; [|apply nth_error_None in X; lia].
  destruct (G2 i x X) as (u & Eu & Vu). destruct (G2 j x (eq_sym E)) as (w & Ew & Vw).
  assert (rep s u = rep s w) as Q by (apply rep_src; congruence). rewrite Q in Vu. congruence.
Qed.

Lemma put_corner_spec : forall s st u, inv s -> good s st -> exists st' i t,
  put_corner s st u = (st', i) /\ good s st' /\ snd st' = snd st ++ t /\ nth_error (snd st') i = Some (src s u) /\
  (forall x, In x (snd st') <-> In x (snd st) \/ x = src s u).
Proof.
  intros s [vv vs] u H (G1 & G2). unfold put_corner. fold (rep s u). fold (src s u). cbn [fst snd] in *.
  destruct (vv (rep s u)) as [i|] eqn:E.
  - exists (vv, vs), i, []. split; [reflexivity|]. split; [split; auto|]. cbn [snd]. split; [rewrite app_nil_r; auto|].
    destruct (G1 _ _ E) as (w & Ew & N). apply rep_src in Ew; auto. rewrite Ew in N. split; auto.
    intros x. split; auto. intros [I| ->]; auto. eapply nth_error_In; eauto.
  - exists (upd vv (rep s u) (Some (length vs)), vs ++ [src s u]), (length vs), [src s u].
    split; [reflexivity|]. cbn [fst snd].
    assert (nth_error (vs ++ [src s u]) (length vs) = Some (src s u)) as NL
      by (rewrite nth_error_app2, Nat.sub_diag; auto).
    split; [split|split; [auto|split; [auto|]]]; cbn [fst snd].
    + intros v i. unfold upd. destruct (Nat.eqb_spec v (rep s u)) as [Q|Q].
      * intros X. injection X as <-. exists u. auto.
      * intros X. destruct (G1 v i X) as (w & Ew & N). exists w. split; auto. rewrite nth_error_app1; auto.
        apply nth_error_Some. congruence.
    + intros i x X. destruct (Nat.lt_ge_cases i (length vs)) as [L|L].
      * rewrite nth_error_app1 in X by auto. destruct (G2 i x X) as (w & Ew & V). exists w. split; auto.
        rewrite upd_other; auto. congruence.
      * assert (i = length vs).
        { assert (i < length (vs ++ [src s u])) by (apply nth_error_Some; congruence). rewrite app_length in *. cbn in *. lia. }
        subst i. exists u. rewrite upd_same. split; auto. congruence.
    + intros x. rewrite in_app_iff. cbn. intuition auto.
Qed.

Lemma quotient_mono : forall N (f : nat -> N) vs t fs out,
  quotient_faces N f vs fs out -> quotient_faces N f (vs ++ t) fs out.
Proof.
  intros N f vs t fs out H.
  assert (forall i x, nth_error vs i = Some x -> nth_error (vs ++ t) i = Some x) as M.
  { intros i x E. rewrite nth_error_app1; auto. apply nth_error_Some. congruence. }
  induction H; [apply QNil|apply QDrop; auto|apply QKeep; auto].
Qed.

Lemma quotient_app : forall N (f : nat -> N) vs fs out fs' out',
  quotient_faces N f vs fs out -> quotient_faces N f vs fs' out' -> quotient_faces N f vs (fs ++ fs') (out ++ out').
Proof. intros N f vs fs out fs' out' H H'. induction H; cbn; auto; [apply QDrop; auto|apply QKeep; auto]. Qed.

Definition corner_sources (s : state) (fs : list face) (x : source) : Prop :=
  exists f, In f fs /\ (let '(a, b, c) := f in x = src s a \/ x = src s b \/ x = src s c).

Lemma put_faces_spec : forall s fs st out, inv s -> good s st -> exists st' o t,
  put_faces s fs st out = (st', out ++ o) /\ good s st' /\ snd st' = snd st ++ t /\
  quotient_faces source (src s) (snd st') fs o /\
  (forall x, In x (snd st') <-> In x (snd st) \/ corner_sources s fs x).
Proof.
  intros s fs. induction fs as [|[[a b] c] fs IH]; intros st out H G.
  - exists st, [], []. cbn. rewrite !app_nil_r. repeat split; auto; try apply G. constructor.
    intros [I|(f & [] & _)]; auto.
  - cbn [put_faces].
    destruct (put_corner_spec s st a H G) as (s1 & i & t1 & -> & G1 & E1 & N1 & M1).
    destruct (put_corner_spec s s1 b H G1) as (s2 & j & t2 & -> & G2 & E2 & N2 & M2).
    destruct (put_corner_spec s s2 c H G2) as (s3 & k & t3 & -> & G3 & E3 & N3 & M3).
    set (o1 := if degenerate (i, j, k) then [] else [(i, j, k)]).
    destruct (IH s3 (out ++ o1) H G3) as (s4 & o & t4 & P & G4 & E4 & Q & M4).
    replace (if degenerate (i, j, k) then out else out ++ [(i, j, k)]) with (out ++ o1)
      by (unfold o1; destruct (degenerate (i, j, k)); rewrite ?app_nil_r; auto).
    exists s4, (o1 ++ o), (t1 ++ t2 ++ t3 ++ t4). rewrite P. rewrite app_assoc. split; [auto|]. split; [auto|].
    split; [rewrite E4, E3, E2, E1, <- !app_assoc; auto|].
    assert (forall n x l t, nth_error l n = Some x -> nth_error (l ++ t) n = Some (x : source)) as MO.
    { intros n x l t E. rewrite nth_error_app1; auto. apply nth_error_Some. congruence. }
    assert (nth_error (snd s4) i = Some (src s a)) as Ni by (rewrite E4, E3, E2; auto).
    assert (nth_error (snd s4) j = Some (src s b)) as Nj by (rewrite E4, E3; auto).
    assert (nth_error (snd s4) k = Some (src s c)) as Nk by (rewrite E4; auto).
    pose proof (good_NoDup s s4 H G4) as ND. split.
    + assert (forall m n u w, nth_error (snd s4) m = Some (src s u) -> nth_error (snd s4) n = Some (src s w) ->
        (m = n <-> src s u = src s w)) as EQ.
      { intros m n u w Em En. split; [intros ->; congruence|]. intros X.
        apply (proj1 (NoDup_nth_error _) ND); [apply nth_error_Some; congruence|congruence]. }
      pose proof (EQ i j a b Ni Nj) as Q1. pose proof (EQ j k b c Nj Nk) as Q2. pose proof (EQ k i c a Nk Ni) as Q3.
      unfold o1, degenerate. destruct (Nat.eqb_spec i j) as [D|D]; [|destruct (Nat.eqb_spec j k) as [D'|D']; [|destruct (Nat.eqb_spec k i) as [D''|D'']]];
        cbn [orb app]; first [apply QKeep; auto; cbn; tauto|apply QDrop; auto; cbn; tauto].
    + intros x. rewrite M4, M3, M2, M1. unfold corner_sources. split.
      * intros [[[[I|I]|I]|I]|(f & I & X)]; auto; right; [exists (a, b, c)|exists (a, b, c)|exists (a, b, c)|exists f]; cbn; auto.
      * intros [I|(f & [<-|I] & X)]; auto; [tauto|]. right. eauto.
Qed.

Lemma vertex_ci_sound : forall vv cs k m i ci, vertex_ci_from vv k cs m i = Some ci ->
  m i = Some ci \/ exists j c, ci = k + j /\ nth_error cs j = Some c /\ c_deleted c = false /\ vv (c_rep c) = Some i.
Proof.
  intros vv cs. induction cs as [|c cs IH]; intros k m i ci E; cbn in E; auto.
  destruct (IH _ _ _ _ E) as [X|(j & c' & -> & N & D & V)].
  - destruct (c_deleted c) eqn:D; auto. destruct (vv (c_rep c)) as [i'|] eqn:V; auto.
    unfold upd in X. destruct (Nat.eqb_spec i i') as [Q|Q]; auto. injection X as <-. subst i'.
    right. exists 0, c. repeat split; auto.
  - right. exists (S j), c'. repeat split; auto. lia.
Qed.

Lemma vertex_ci_complete : forall vv cs k m i,
  (m i <> None \/ exists j c, nth_error cs j = Some c /\ c_deleted c = false /\ vv (c_rep c) = Some i) ->
  vertex_ci_from vv k cs m i <> None.
Proof.
  intros vv cs. induction cs as [|c cs IH]; intros k m i H.
  - cbn. destruct H as [H|(j & c & N & _)]; auto. destruct j; discriminate.
  - cbn [vertex_ci_from]. apply IH. destruct H as [H|(j & c' & N & D & V)].
    + left. destruct (c_deleted c); auto. destruct (vv (c_rep c)); auto. unfold upd. destruct (Nat.eqb_spec i n); auto. discriminate.
    + destruct j as [|j].
      * injection N as ->. left. rewrite D, V, upd_same. discriminate.
      * right. exists j, c'. auto.
Qed.

Lemma clustered_mesh_spec : forall s fs vs mid vci, inv s -> clustered_mesh s fs = (vs, mid, vci) ->
  is_quotient source (src s) fs vs mid /\ (forall i ci, vci i = Some ci <-> nth_error vs i = Some (inr ci)).
Proof.
  intros s fs vs mid vci H E. unfold clustered_mesh in E.
  assert (good s (fun _ => None, [])) as G0 by (split; cbn; [discriminate|intros [|i]; discriminate]).
  destruct (put_faces_spec s fs _ [] H G0) as ([vv vs'] & o & t & P & G & _ & Q & M). rewrite P in E. cbn [app] in E.
  injection E as <- <- <-. cbn [snd] in *. pose proof (good_NoDup _ _ H G) as ND. cbn [snd] in ND.
  split; [split; [auto|split; [auto|]]|].
  - intros x. rewrite M. cbn. unfold corner_sources. tauto.
  - destruct G as [G1 G2]. cbn [fst snd] in *.
    assert (forall ci c i, alive s ci c -> (vv (c_rep c) = Some i <-> nth_error vs' i = Some (inr ci))) as K.
    { intros ci c i A. pose proof (alive_rep s ci c H A) as R.
      assert (rep s (c_rep c) = c_rep c) as RR.
      { unfold rep. rewrite R. destruct A as [A _]. rewrite (nth_error_nth _ _ _ A). auto. }
      split.
      - intros V. destruct (G1 _ _ V) as (u & Eu & N). rewrite N. f_equal. rewrite <- RR in Eu.
        apply rep_src in Eu; auto. rewrite Eu. unfold src. rewrite R. auto.
      - intros N. destruct (G2 _ _ N) as (u & Eu & V).
        assert (src s u = src s (c_rep c)) as X by (unfold src at 2; rewrite R; auto).
        apply rep_src in X; auto. congruence. }
    intros i ci. split.
    + intros V. destruct (vertex_ci_sound _ _ _ _ _ _ V) as [X|(j & c & -> & N & D & X)]; [discriminate|].
      apply (K j c); [split; auto|auto].
    + intros N. destruct (G2 _ _ N) as (u & Eu & V).
      assert (s_of s u = Some ci) as O by (unfold src in Eu; destruct (s_of s u); congruence).
      destruct (of_alive s u ci H O) as (c & A & _ & R). rewrite R in V.
      assert (vertex_ci_from vv 0 (s_clusters s) (fun _ => None) i <> None) as NN.
      { apply vertex_ci_complete. right. exists ci, c. destruct A. auto. }
      destruct (vertex_ci_from vv 0 (s_clusters s) (fun _ => None) i) as [cj|] eqn:Z; [|congruence].
      destruct (vertex_ci_sound _ _ _ _ _ _ Z) as [X|(j & c' & E & N' & D & X)]; [discriminate|]. cbn in E. subst j.
      apply (K cj c') in X; [|split; auto]. congruence.
Qed.

Lemma quotient_distinct : forall N (f : nat -> N) vs fs out, quotient_faces N f vs fs out -> Forall distinct3 out.
Proof.
  intros N f vs fs out H. induction H; auto. constructor; auto. destruct H as (Q1 & Q2 & Q3). cbn.
  repeat split; intros ->; congruence.
Qed.

(** ** rollback *)

Lemma register_spec : forall vs of x v, register of vs x v = if in_dec Nat.eq_dec v vs then x else of v.
Proof.
  intros vs. unfold register. induction vs as [|a vs IH]; intros of x v; [reflexivity|]. cbn [fold_left]. rewrite IH.
  destruct (in_dec Nat.eq_dec v vs) as [I|I], (in_dec Nat.eq_dec v (a :: vs)) as [J|J]; auto.
  - exfalso. apply J. right. auto.
  - destruct J as [->|J]; [apply upd_same|contradiction].
  - apply upd_other. intros ->. apply J. left. auto.
Qed.

Definition delete (c : cluster) : cluster := Cluster (c_vertices c) (c_rep c) true.

Lemma replaced : forall A (l : list A) i x j, i < length l ->
  nth_error (firstn i l ++ x :: skipn (S i) l) j = if Nat.eqb j i then Some x else nth_error l j.
Proof.
  intros A l. induction l as [|a l IH]; intros i x j L; [cbn in L; lia|].
  destruct i as [|i]; [destruct j; auto|]. cbn in L. destruct j as [|j]; auto. cbn [firstn app nth_error]. 
  change (skipn (S (S i)) (a :: l)) with (skipn (S i) l). rewrite IH by lia. auto.
Qed.

Lemma skipn_at : forall A (l : list A) i x, nth_error l i = Some x -> skipn i l = x :: skipn (S i) l.
Proof.
  intros A l. induction l as [|a l IH]; intros [|i] x N; try discriminate.
  - injection N as ->. auto.
  - cbn [nth_error] in N. change (skipn (S (S i)) (a :: l)) with (skipn (S i) l). rewrite <- (IH i x N). auto.
Qed.

Definition n_alive (s : state) : nat := length (filter (fun c => negb (c_deleted c)) (s_clusters s)).

Lemma rollback_spec : forall s changed ci s' changed', inv s -> rollback s changed ci = (s', changed') ->
  inv s' /\ (forall g, In g (kept s') -> In g (kept s)) /\
  ((s' = s /\ changed' = changed /\ c_deleted (nth ci (s_clusters s) no_cluster) = true) \/
   (changed' = true /\ n_alive s' < n_alive s)).
Proof.
  intros s changed ci s' changed' H E. unfold rollback in E. set (c := nth ci (s_clusters s) no_cluster) in *.
  destruct (c_deleted c) eqn:D.
  - injection E as <- <-. split; [auto|]. split; [auto|]. left. auto.
  - assert (ci < length (s_clusters s)) as L.
    { destruct (Nat.lt_ge_cases ci (length (s_clusters s))) as [L|L]; auto. unfold c in D. rewrite nth_overflow in D by auto. discriminate. }
    assert (nth_error (s_clusters s) ci = Some c) as N by (apply nth_error_nth'; auto).
    injection E as <- <-. fold (delete c).
    pose proof (fun j => replaced _ (s_clusters s) ci (delete c) j L) as R.
    set (cs := firstn ci (s_clusters s) ++ delete c :: skipn (S ci) (s_clusters s)) in *.
    set (s' := State cs (register (s_of s) (c_vertices c) None)).
    assert (forall cj d, alive s' cj d <-> cj <> ci /\ alive s cj d) as AL.
    { intros cj d. unfold alive. cbn [s' s_clusters]. rewrite R. destruct (Nat.eqb_spec cj ci) as [Q|Q]; [|tauto].
      split; [intros [X Y]; injection X as <-; discriminate|tauto]. }
    assert (forall cj d, nth_error cs cj = Some d -> exists d', nth_error (s_clusters s) cj = Some d' /\ c_vertices d' = c_vertices d /\ c_rep d' = c_rep d) as OLD.
    { intros cj d X. rewrite R in X. destruct (Nat.eqb_spec cj ci) as [Q|Q]; [|exists d; auto]. subst. injection X as <-. exists c. auto. }
    destruct H as (H1 & H2 & H3).
    split; [split; [|split]|split].
    + intros v cj. cbn [s' s_of]. rewrite register_spec. destruct (in_dec Nat.eq_dec v (c_vertices c)) as [I|I].
      * split; [discriminate|]. intros (d & A & J). apply AL in A. destruct A as [NE [A _]]. exfalso. apply NE. eauto.
      * rewrite H1. split; intros (d & A & J); exists d; split; auto.
        -- apply AL. split; auto. intros ->. destruct A as [A _]. congruence.
        -- apply AL in A. tauto.
    + intros cj d X. destruct (OLD _ _ X) as (d' & Y & <- & <-). eauto.
    + intros ci' cj d d' v X X' I I'. destruct (OLD _ _ X) as (e & Y & Ee & _). destruct (OLD _ _ X') as (e' & Y' & Ee' & _).
      rewrite <- Ee in I. rewrite <- Ee' in I'. eauto.
    + intros g G. apply kept_alive in G. destruct G as (cj & d & A & Eg). apply AL in A. apply kept_alive. exists cj, d. tauto.
    + right. split; auto. unfold n_alive. cbn [s' s_clusters]. unfold cs.
      rewrite <- (firstn_skipn ci (s_clusters s)) at 3.
      assert (skipn ci (s_clusters s) = c :: skipn (S ci) (s_clusters s)) as ->.
      { apply skipn_at. auto. }
      rewrite !filter_app, !app_length. cbn [filter delete c_deleted negb]. rewrite D. cbn. lia.
Qed.

Lemma rollbacks_spec : forall cis s changed s' changed', inv s -> rollbacks s changed cis = (s', changed') ->
  inv s' /\ (forall g, In g (kept s') -> In g (kept s)) /\
  ((s' = s /\ changed' = changed /\ forall ci, In ci cis -> c_deleted (nth ci (s_clusters s) no_cluster) = true) \/
   (changed' = true /\ n_alive s' < n_alive s)).
Proof.
  induction cis as [|ci cis IH]; intros s changed s' changed' H E.
  - injection E as <- <-. split; [auto|]. split; [auto|]. left. split; [auto|]. split; [auto|]. intros ci [].
  - unfold rollbacks in E. cbn [fold_left fst snd] in E. destruct (rollback s changed ci) as [s1 ch1] eqn:E1.
    fold (rollbacks s1 ch1 cis) in E. destruct (rollback_spec _ _ _ _ _ H E1) as (H1 & K1 & C1).
    destruct (IH _ _ _ _ H1 E) as (H2 & K2 & C2). split; [auto|]. split; [auto|].
    destruct C1 as [(-> & -> & D)|(-> & L)], C2 as [(-> & -> & D')|(-> & L')].
    + left. split; [auto|]. split; [auto|]. intros x [<-|I]; auto.
    + right. auto.
    + right. auto.
    + right. split; auto. lia.
Qed.

(** ** The loop *)

Definition shares (fs : list face) (v w : nat) : Prop := exists f, In f fs /\ In v (corners f) /\ In w (corners f).

Definition settled (detect : finder) (vs : list source) (out : list face) : Prop :=
  forall v, In v (flagged_of detect vs out) -> forall w, w = v \/ shares out v w ->
  forall ci, nth_error vs w <> Some (inr ci).

Lemma incident_in : forall vci fs v ci, (exists f w, In f fs /\ In v (corners f) /\ In w (corners f) /\ v <> w /\ vci w = Some ci) ->
  In ci (incident_clusters vci fs v).
Proof.
  intros vci fs v ci (f & w & I & V & W & NE & E). unfold incident_clusters. apply in_flat_map. exists f. split; auto.
  destruct f as [[a b] c]. apply in_flat_map. cbn in V, W.
  assert (forall k k1 k2, w = k -> v = k1 \/ v = k2 -> In ci match vci k with
      | Some ci => (if Nat.eqb k1 v then [ci] else []) ++ (if Nat.eqb k2 v then [ci] else []) | None => [] end) as F.
  { intros k k1 k2 <- Q. rewrite E. apply in_app_iff. destruct Q as [<-|<-]; [left|right]; rewrite Nat.eqb_refl; left; auto. }
  destruct W as [<-|[<-|[<-|[]]]].
  - exists (a, b, c). split; [left; auto|]. apply F; auto. intuition congruence.
  - exists (b, c, a). split; [right; left; auto|]. apply F; auto. intuition congruence.
  - exists (c, a, b). split; [right; right; left; auto|]. apply F; auto. intuition congruence.
Qed.

Lemma loop_spec : forall fuel detect fs s, inv s -> n_alive s < fuel ->
  exists vs mid s', cluster_loop fuel detect fs s = Some (vs, remove_back_to_back mid, s') /\ inv s' /\
    (forall g, In g (kept s') -> In g (kept s)) /\ is_quotient source (src s') fs vs mid /\
    settled detect vs (remove_back_to_back mid).
Proof.
  induction fuel as [|fuel IH]; intros detect fs s H L; [lia|]. cbn [cluster_loop].
  destruct (clustered_mesh s fs) as [[vs mid] vci] eqn:E. destruct (clustered_mesh_spec _ _ _ _ _ H E) as (Q & V).
  set (out := remove_back_to_back mid).
  destruct (rollbacks s false (blamed vci out (flagged_of detect vs out))) as [s' changed] eqn:R.
  destruct (rollbacks_spec _ _ _ _ _ H R) as (H' & K & [(-> & -> & D)|(-> & A)]).
  - exists vs, mid, s. split; [auto|]. split; [auto|]. split; [auto|]. split; [auto|].
    assert (forall ci i, nth_error vs i = Some (inr ci) -> c_deleted (nth ci (s_clusters s) no_cluster) = false) as AL.
    { intros ci i N. destruct Q as (_ & _ & M). destruct (proj1 (M (inr ci)) (nth_error_In _ _ N)) as ([[a b] c] & _ & X).
      assert (exists u, s_of s u = Some ci) as (u & O).
      { destruct X as [X|[X|X]]; unfold src in X; [exists a|exists b|exists c]; destruct (s_of s _); congruence. }
      destruct (of_alive _ _ _ H O) as (c' & [A B] & _). rewrite (nth_error_nth _ _ _ A). auto. }
    intros v F w W ci N.
    assert (In ci (blamed vci out (flagged_of detect vs out)) \/ exists cj, vci v = Some cj) as X.
    { destruct (vci v) as [cj|] eqn:Vv; [right; eauto|left]. unfold blamed. apply in_flat_map. exists v. split; auto. rewrite Vv.
      apply V in N. destruct W as [->|(f & I & Iv & Iw)]; [congruence|].
      apply incident_in. exists f, w. repeat split; auto. congruence. }
    destruct X as [X|(cj & X)].
    + specialize (D ci X). rewrite (AL ci w N) in D. discriminate.
    + assert (In cj (blamed vci out (flagged_of detect vs out))) as I.
      { unfold blamed. apply in_flat_map. exists v. split; auto. rewrite X. left. auto. }
      specialize (D cj I). apply V in X. rewrite (AL cj v X) in D. discriminate.
  - destruct (IH detect fs s' H') as (vs' & mid' & s'' & E' & H'' & K'' & Q'' & S''); [lia|].
    exists vs', mid', s''. split; [exact E'|]. split; [auto|]. split; [auto|]. auto.
Qed.

(** ** The constructor *)

Lemma list_min_in : forall l, l <> [] -> In (list_min l) l.
Proof.
  intros [|a l] NE; [congruence|]. cbn [list_min]. clear NE. revert a. induction l as [|b l IH]; intros a; [left; auto|].
  cbn [fold_left]. destruct (IH (Nat.min a b)) as [E|I].
  - destruct (Nat.min_spec a b) as [[_ M]|[_ M]]; rewrite M in E |- *; rewrite <- E; cbn; auto.
  - right. right. auto.
Qed.

Lemma NoDup_concat_tail : forall (g : list nat) gs, NoDup (concat (g :: gs)) -> NoDup (concat gs) /\
  forall v g', In g' gs -> In v g -> In v g' -> False.
Proof.
  intros g gs H. cbn in H. split.
  - clear - H. induction g as [|a g IH]; auto. inversion H; auto.
  - intros v g' G I I'. assert (In v (concat gs)) as J by (apply in_concat; eauto). clear - H I J.
    induction g as [|a g IH]; [destruct I|]. inversion H as [|? ? N1 N2]; subst. destruct I as [->|I]; auto.
    apply N1, in_app_iff. auto.
Qed.

Lemma make_clusters_spec : forall skip gs s, inv s -> NoDup (concat gs) -> Forall (fun g => g <> []) gs ->
  (forall ci c g v, nth_error (s_clusters s) ci = Some c -> In g gs -> In v (c_vertices c) -> In v g -> False) ->
  let s' := make_clusters skip gs s in
  inv s' /\ forall g, In g (kept s') <-> In g (kept s) \/ (In g gs /\ 2 <= length g /\ skip g = false).
Proof.
  intros skip gs. induction gs as [|g gs IH]; intros s H ND NE DJ; cbn [make_clusters].
  - cbn. split; auto. intros g. tauto.
  - destruct (NoDup_concat_tail _ _ ND) as [ND' DG]. inversion NE as [|? ? NE1 NE2]; subst.
    assert (forall s0 : state, (forall x, In x (kept s0) <-> In x (kept s) \/ (x = g /\ 2 <= length g /\ skip g = false)) ->
      forall x, (In x (kept s0) \/ (In x gs /\ 2 <= length x /\ skip x = false)) <->
                (In x (kept s) \/ (In x (g :: gs) /\ 2 <= length x /\ skip x = false))) as FIN.
    { intros s0 HK x. rewrite HK. cbn. split.
      - intros [[I|(-> & L & Q)]|(I & L & Q)]; auto.
      - intros [I|([<-|I] & L & Q)]; auto. }
    destruct ((length g <? 2) || skip g) eqn:C.
    + destruct (IH s H ND' NE2) as [H' K].
      { intros ci c g' v N G. apply (DJ ci c g' v N). right. auto. }
      split; auto. intros x. rewrite K. apply (FIN s). intros y. split; auto. intros [I|(_ & L & Q)]; auto.
      exfalso. rewrite Q, orb_false_r in C. apply Nat.ltb_lt in C. lia.
    + apply orb_false_iff in C. destruct C as [L Q]. apply Nat.ltb_ge in L.
      set (new := Cluster g (list_min g) false). set (n := length (s_clusters s)).
      set (s1 := State (s_clusters s ++ [new]) (register (s_of s) g (Some n))).
      assert (forall ci c, nth_error (s_clusters s1) ci = Some c <-> nth_error (s_clusters s) ci = Some c \/ (ci = n /\ c = new)) as NT.
      { intros ci c. cbn [s1 s_clusters]. destruct (Nat.lt_ge_cases ci n) as [Lc|Lc].
        - rewrite nth_error_app1 by auto. split; auto. intros [X|[-> _]]; auto. lia.
        - rewrite nth_error_app2 by auto. assert (nth_error (s_clusters s) ci = None) as -> by (apply nth_error_None; auto).
          destruct (ci - length (s_clusters s)) as [|d] eqn:Ed; cbn.
          + split; [intros X; injection X as <-; right; split; auto; unfold n in *; lia|]. intros [X|[_ ->]]; [discriminate|auto].
          + split; [destruct d; discriminate|]. intros [X|[-> _]]; [discriminate|]. unfold n in Ed. lia. }
      assert (forall ci c v, nth_error (s_clusters s) ci = Some c -> In v (c_vertices c) -> In v g -> False) as DN.
      { intros ci c v N I J. apply (DJ ci c g v N); auto. left. auto. }
      assert (inv s1) as HI.
      { destruct H as (H1 & H2 & H3). split; [|split].
        - intros v ci. cbn [s1 s_of]. rewrite register_spec. destruct (in_dec Nat.eq_dec v g) as [I|I].
          + split.
            * intros X. injection X as <-. exists new. split; [split; [apply NT; auto|auto]|auto].
            * intros (c & [A D] & J). apply NT in A. destruct A as [A|[-> ->]]; auto. exfalso. eauto.
          + rewrite H1. split; intros (c & [A D] & J); exists c; (split; [split; auto|auto]).
            * apply NT. auto.
            * apply NT in A. destruct A as [A|[-> ->]]; auto. contradiction.
        - intros ci c N. apply NT in N. destruct N as [N|[-> ->]]; [eauto|]. apply list_min_in. auto.
        - intros ci cj c c' v N N' I I'. apply NT in N. apply NT in N'.
          destruct N as [N|[-> ->]], N' as [N'|[-> ->]]; auto; [eauto|exfalso; eauto|exfalso; eauto]. }
      destruct (IH s1 HI ND' NE2) as [H' K].
      { intros ci c g' v N G I J. apply NT in N. destruct N as [N|[-> ->]]; [apply (DJ ci c g' v N); auto; right; auto|]. eauto. }
      split; auto. intros x. rewrite K. apply (FIN s1). intros y. unfold kept. cbn [s1 s_clusters].
      rewrite filter_app, map_app, in_app_iff. cbn. intuition auto.
Qed.

Lemma unions_bound : forall nv node fs i j, faces_ok nv fs = true -> In (i, j) (unions node fs) -> i < nv /\ j < nv.
Proof.
  intros nv node fs i j F I. unfold unions in I. apply filter_In in I. destruct I as [I _].
  apply in_flat_map in I. destruct I as ([[a b] c] & I & E). unfold faces_ok in F. rewrite forallb_forall in F.
  specialize (F _ I). cbv beta iota in F. rewrite !andb_true_iff, !Nat.ltb_lt in F. cbn in E.
  destruct E as [E|[E|[E|[]]]]; injection E as <- <-; tauto.
Qed.

Theorem clusterer : forall nv fs node skip detect,
  if faces_ok nv fs then
    exists components kept vs mid s, classes (unions node fs) nv components /\
      vertex_clusterer nv fs node skip detect = Ok (Some (vs, remove_back_to_back mid, s)) /\
      (forall g, In g kept -> In g components /\ 2 <= length g /\ skip g = false) /\
      merges source (src s) kept /\ is_quotient source (src s) fs vs mid /\
      (forall u, src s u = inl u \/ exists g, In g kept /\ In u g) /\
      settled detect vs (remove_back_to_back mid)
  else vertex_clusterer nv fs node skip detect = Throw ExOutOfRange.
Proof.
  intros nv fs node skip detect. unfold vertex_clusterer. destruct (faces_ok nv fs) eqn:F; auto.
  destruct (union_find (unions node fs) nv) as (p & gs & p' & -> & G & C).
  { intros i j. apply unions_bound. auto. }
  cbn [bind]. rewrite G. cbn [bind].
  set (s := make_clusters skip gs (State [] (fun _ => None))).
  assert (inv s /\ forall g, In g (kept s) <-> In g (kept (State [] (fun _ => None))) \/ (In g gs /\ 2 <= length g /\ skip g = false)) as [H K].
  { destruct C as (PE & NE & _). apply make_clusters_spec; auto.
    - split; [|split]; cbn.
      + intros v ci. split; [discriminate|]. intros (c & [A _] & _). destruct ci; discriminate.
      + intros [|ci] c; discriminate.
      + intros [|ci] cj c c' v X; discriminate.
    - eapply Permutation_NoDup; [symmetry; eauto|apply seq_NoDup].
    - intros [|ci] c g v X; discriminate. }
  destruct (loop_spec (S (length (s_clusters s))) detect fs s H) as (vs & mid & s' & E & H' & K' & Q & S).
  { unfold n_alive. apply le_n_S. clear. induction (s_clusters s) as [|c l IH]; auto. cbn. destruct (negb (c_deleted c)); cbn; lia. }
  exists gs, (kept s'), vs, mid, s'. split; [auto|]. split; [rewrite E; auto|].
  split; [intros g I; apply K', K in I; destruct I as [[]|I]; auto|].
  split; [apply src_merges; auto|]. split; [auto|]. split; [|auto].
  intros u. unfold src. destruct (s_of s' u) as [ci|] eqn:O; auto. right.
  destruct (of_alive _ _ _ H' O) as (c & A & I & _). exists (c_vertices c). split; auto. apply kept_alive. eauto.
Qed.

(** ** In terms of the specification *)

Lemma has_corner_in : forall f v, has_corner f v <-> In v (corners f).
Proof. intros [[a b] c] v. cbn. intuition auto. Qed.

Lemma in_range_ok : forall nv fs, in_range nv fs <-> faces_ok nv fs = true.
Proof.
  intros nv fs. unfold in_range, faces_ok. rewrite forallb_forall. split.
  - intros H [[a b] c] I. rewrite !andb_true_iff, !Nat.ltb_lt. pose proof (fun v => H _ v I) as K. cbn in K. auto 6.
  - intros H [[a b] c] v I C. specialize (H _ I). cbv beta iota in H. rewrite !andb_true_iff, !Nat.ltb_lt in H.
    destruct H as [[? ?] ?]. cbn in C. destruct C as [->|[->| ->]]; auto.
Qed.

Lemma remove_incl : forall fs f, In f (remove_back_to_back fs) -> In f fs.
Proof.
  intros fs f I. unfold remove_back_to_back in I. apply in_map_iff in I. destruct I as (i & <- & I).
  apply filter_In in I. destruct I as [I _]. apply in_seq in I. apply nth_In. lia.
Qed.

Theorem clustering : forall nv fs node skip detect, in_range nv fs ->
  exists components kept src vs mid s, classes (unions node fs) nv components /\
    vertex_clusterer nv fs node skip detect = Ok (Some (vs, remove_back_to_back mid, s)) /\
    (forall g, In g kept -> In g components /\ 2 <= length g /\ skip g = false) /\
    merges source src kept /\ is_quotient source src fs vs mid /\
    (forall u, (forall g, In g kept -> ~ In u g) -> src u = inl u) /\
    Forall distinct3 (remove_back_to_back mid) /\
    forall v w u g, In v (flagged_of detect vs (remove_back_to_back mid)) ->
      w = v \/ share_face (remove_back_to_back mid) v w -> In g kept -> In u g -> nth_error vs w <> Some (src u).
Proof.
  intros nv fs node skip detect R. apply in_range_ok in R. pose proof (clusterer nv fs node skip detect) as C. rewrite R in C.
  destruct C as (gs & ks & vs & mid & s & C & E & K & M & Q & O & S).
  exists gs, ks, (src s), vs, mid, s. split; [auto|]. split; [auto|]. split; [auto|]. split; [auto|]. split; [auto|].
  split; [intros u NG; destruct (O u) as [X|(g & G & I)]; auto; exfalso; eapply NG; eauto|]. split.
  - apply Forall_forall. intros f I. apply remove_incl in I. destruct Q as (_ & Q & _).
    pose proof (quotient_distinct _ _ _ _ _ Q) as D. rewrite Forall_forall in D. auto.
  - intros v w u g F W G I. 
    assert (exists ci, src s u = inr ci) as (ci & ->).
    { destruct (K g G) as (_ & L & _). unfold src. destruct (s_of s u) as [ci|] eqn:X; [eauto|]. exfalso.
      assert (forall x, In x g -> x = u) as ALL.
      { intros x Ix. assert (src s u = src s x) as Y by (apply M; right; eauto).
        unfold src in Y. rewrite X in Y. destruct (s_of s x); congruence. }
      assert (NoDup g) as ND.
      { destruct C as (PE & _). assert (NoDup (concat gs)) as N by (eapply Permutation_NoDup; [symmetry; eauto|apply seq_NoDup]).
        destruct (K g G) as (G' & _). clear - N G'. induction gs as [|h gs IH]; [destruct G'|]. cbn in N.
        destruct G' as [->|G']; [clear IH|].
        - induction g as [|a g IH]; [constructor|]. inversion N as [|? ? N1 N2]; subst. constructor; auto.
          intros J. apply N1, in_app_iff. auto.
        - apply IH; auto. apply (NoDup_concat_tail h). auto. }
      destruct g as [|a [|b g]]; cbn in L; try lia. inversion ND as [|? ? N1 N2]; subst. apply N1.
      rewrite (ALL a), (ALL b); cbn; auto. }
    apply (S v F). destruct W as [->|(f & If & Cv & Cw)]; auto. right. exists f.
    rewrite <- !has_corner_in. auto.
Qed.

Theorem out_of_range_throws : forall nv fs node skip detect, ~ in_range nv fs ->
  vertex_clusterer nv fs node skip detect = Throw ExOutOfRange.
Proof.
  intros nv fs node skip detect R. pose proof (clusterer nv fs node skip detect) as C.
  destruct (faces_ok nv fs) eqn:F; auto. exfalso. apply R, in_range_ok. auto.
Qed.

Lemma unions_spec : forall node fs i j, In (i, j) (unions node fs) <-> In (i, j) (flat_map sides fs) /\ node i = node j.
Proof. intros. unfold unions. rewrite filter_In. cbn [fst snd]. rewrite Nat.eqb_eq. reflexivity. Qed.

Lemma joined_one_node : forall node fs a b, joined (unions node fs) a b -> node a = node b.
Proof. intros node fs a b K. induction K as [a b K| | |]; auto; try congruence. apply unions_spec in K. apply K. Qed.

Lemma one_node : forall node fs nv gs g u w, classes (unions node fs) nv gs -> In g gs -> In u g -> In w g -> node u = node w.
Proof.
  intros node fs nv gs g u w (P & _ & J) G U W.
  assert (forall v, In v g -> v < nv) as L.
  { intros v V. apply (in_seq nv 0). apply (Permutation_in v P). apply in_concat. exists g. auto. }
  apply (joined_one_node node fs). apply J; [apply L; auto|apply L; auto|exists g; auto].
Qed.
