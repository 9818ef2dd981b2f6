From Coq Require Import List Arith Bool Lia.
From Verif Require Import Proofs.LatticeTets Proofs.MeshDefects Proofs.AbstractMesh Proofs.MeshEditing Proofs.MeshHistory.
From Verif Require Import Model.Outcome Model.MeshDefects Model.AbstractMesh Spec.VertexClusterer Spec.AbstractMesh.
Import ListNotations.

(** * Sides of the live faces *)
Definition dir (m : mesh) (u v : nat) : Prop := exists fi, live m fi /\ in3 (m_face m fi) u v.

Lemma dir_side : forall m u v, dir m u v <-> has_side m u v.
Proof.
  intros m u v. split.
  - intros (fi & L & I). apply in3_iff in I. destruct I as (k & K & A & B). exists (fi, k). split; [split; auto|auto].
  - intros (h & [L K] & A & B). exists (fst h). split; [auto|]. apply in3_iff. exists (snd h). auto.
Qed.
Lemma ccw_inj : forall j k, j < 3 -> k < 3 -> ccw j = ccw k -> j = k.
Proof. intros j k J K E. destruct (three j J) as [->|[->| ->]], (three k K) as [->|[->| ->]]; cbn in E; congruence. Qed.
Lemma in3_corner : forall f u v, in3 f u v -> has_corner f u /\ has_corner f v.
Proof. intros [[a b] c] u v I. cbn in *. intuition. Qed.
Lemma in3_distinct : forall f u v, distinct3 f -> in3 f u v -> u <> v.
Proof. intros [[a b] c] u v D I. cbn in *. intuition congruence. Qed.
Lemma two_corners : forall f u v, distinct3 f -> has_corner f u -> has_corner f v -> u <> v -> in3 f u v \/ in3 f v u.
Proof. intros [[a b] c] u v D A B N. cbn in *. intuition (subst; auto 10; congruence). Qed.
Lemma corner_side : forall f v, has_corner f v -> exists u, in3 f v u.
Proof. intros [[a b] c] v [->|[->| ->]]; [exists b|exists c|exists a]; cbn; auto. Qed.

Section Star.
Variable m : mesh.
Hypothesis CO : consistent m.

Lemma dir_unique : forall j j' u v, live m j -> live m j' -> in3 (m_face m j) u v -> in3 (m_face m j') u v -> j = j'.
Proof using CO.
  intros j j' u v L L' I I'. destruct CO as [D _]. apply in3_iff in I, I'. destruct I as (k & K & A & B), I' as (k' & K' & A' & B').
  enough ((j, k) = (j', k')) as X by (injection X; auto). apply (unique_side m (live m)); auto; [split; auto|split; auto| |]; unfold tail, head; cbn [fst snd]; congruence.
Qed.
Lemma live_distinct : forall j, live m j -> distinct3 (m_face m j).
Proof using CO. intros j L. destruct CO as [(D & _) _]. apply D. auto. Qed.

(** A vertex all of whose outgoing sides have an opposite has the opposites of its incoming sides as well. *)
Lemma interior : forall a, (forall h, In h (m_vh m a) -> m_opp m h <> None) -> forall u, dir m u a <-> dir m a u.
Proof using CO.
  intros a OP u. pose proof CO as [D _]. pose proof D as (DF & NC & OS & ND & VH & NV).
  set (phi := fun h => match m_opp m h with Some o => (fst o, ccw (snd o)) | None => h end).
  assert (OPP : forall h, In h (m_vh m a) -> exists o, m_opp m h = Some o /\ phi h = (fst o, ccw (snd o)) /\ side (live m) o /\ tail (m_face m) o = head (m_face m) h /\ head (m_face m) o = a).
  { intros h I. destruct (m_opp m h) as [o|] eqn:E; [|destruct (OP h I E)]. exists o. split; auto. unfold phi. rewrite E. split; auto.
    apply OS in E. destruct E as (SH & SO & T & H). apply VH in I. destruct I as (_ & TH). split; auto. split; congruence. }
  assert (INTO : forall h, In h (m_vh m a) -> In (phi h) (m_vh m a)).
  { intros h I. destruct (OPP h I) as (o & E & -> & [LO KO] & T & H). apply VH. split; [split; [auto|apply ccw_lt; auto]|exact H]. }
  assert (INJ : forall h h', In h (m_vh m a) -> In h' (m_vh m a) -> phi h = phi h' -> h = h').
  { intros h h' I I' E. destruct (OPP h I) as (o & EO & P & [LO KO] & T & H). destruct (OPP h' I') as (o' & EO' & P' & [LO' KO'] & T' & H').
    rewrite P, P' in E. injection E as E1 E2. apply ccw_inj in E2; auto. assert (o = o') by (destruct o, o'; cbn in *; congruence). subst o'.
    apply VH in I, I'. apply (unique_side m (live m)); try tauto; [destruct I, I'; congruence|congruence]. }
  assert (ONTO : forall g, In g (m_vh m a) -> exists h, In h (m_vh m a) /\ phi h = g).
  { intros g I. assert (X : incl (m_vh m a) (map phi (m_vh m a))).
    { apply NoDup_length_incl; [apply NoDup_map_in; auto|rewrite map_length; lia|]. intros x X. apply in_map_iff in X. destruct X as (h & <- & X). auto. }
    specialize (X g I). apply in_map_iff in X. destruct X as (h & E & X). eauto. }
  split.
  - intros (fi & L & I). apply in3_iff in I. destruct I as (k & K & A & B).
    destruct (ONTO (fi, ccw k)) as (h & IH & EH). { apply VH. split; [split; [auto|apply ccw_lt; auto]|exact B]. }
    destruct (OPP h IH) as (o & EO & P & [LO KO] & T & H). rewrite P in EH. injection EH as E1 E2. apply ccw_inj in E2; auto.
    apply VH in IH. destruct IH as ([LH KH] & TH). exists (fst h). split; auto. apply in3_iff. exists (snd h). split; auto. split; [exact TH|].
    change (head (m_face m) h = u). rewrite <- T. unfold tail. rewrite E1, E2. exact A.
  - intros (fi & L & I). apply in3_iff in I. destruct I as (k & K & A & B).
    destruct (OPP (fi, k)) as (o & EO & P & [LO KO] & T & H). { apply VH. split; [split; auto|exact A]. }
    exists (fst o). split; auto. apply in3_iff. exists (snd o). split; auto. split; [|exact H]. etransitivity; [exact T|exact B].
Qed.

(** * Collapsing the edge a-b *)
Variables (a b c d : nat) (h o : halfedge).
Hypothesis SH : side (live m) h.
Hypothesis TH : tail (m_face m) h = a.
Hypothesis HH : head (m_face m) h = b.
Hypothesis CH : third (m_face m) h = c.
Hypothesis OH : m_opp m h = Some o.
Hypothesis DO : third (m_face m) o = d.
Hypothesis IN : forall u, dir m u a <-> dir m a u.
Hypothesis LK : forall u, dir m a u -> u <> b -> u <> c -> u <> d -> ~ dir m u b /\ ~ dir m b u.
Notation P := (fst h). Notation Q := (fst o).

Lemma in3_P : forall u v, in3 (m_face m P) u v <-> in3 (a, b, c) u v.
Proof using SH TH HH CH.
  intros u v. rewrite (in3_rotate _ (snd h)) by apply SH. fold (tail (m_face m) h) (head (m_face m) h) (third (m_face m) h). rewrite TH, HH, CH. tauto.
Qed.
Lemma opp_side : side (live m) o /\ tail (m_face m) o = b /\ head (m_face m) o = a.
Proof using CO SH TH HH OH. destruct CO as [(_ & _ & OS & _) _]. apply OS in OH. destruct OH as (_ & SO & T & H). split; auto. split; congruence. Qed.
Lemma in3_Q : forall u v, in3 (m_face m Q) u v <-> in3 (b, a, d) u v.
Proof using CO SH TH HH OH DO.
  intros u v. destruct opp_side as ([LO KO] & T & H). rewrite (in3_rotate _ (snd o)) by auto.
  fold (tail (m_face m) o) (head (m_face m) o) (third (m_face m) o). rewrite T, H, DO. tauto.
Qed.
Lemma live_P : live m P. Proof using SH. apply SH. Qed.
Lemma live_Q : live m Q. Proof using CO SH TH HH OH. apply opp_side. Qed.
Lemma neq_abc : a <> b /\ b <> c /\ a <> c /\ a <> d /\ b <> d.
Proof using CO SH TH HH CH OH DO.
  pose proof (live_distinct P live_P) as D1. pose proof (live_distinct Q live_Q) as D2.
  assert (a <> b) by (apply (in3_distinct (m_face m P)); auto; apply in3_P; cbn; auto).
  assert (b <> c) by (apply (in3_distinct (m_face m P)); auto; apply in3_P; cbn; auto).
  assert (c <> a) by (apply (in3_distinct (m_face m P)); auto; apply in3_P; cbn; auto).
  assert (a <> d) by (apply (in3_distinct (m_face m Q)); auto; apply in3_Q; cbn; auto).
  assert (d <> b) by (apply (in3_distinct (m_face m Q)); auto; apply in3_Q; cbn; auto 6). auto.
Qed.
Lemma both : forall j, live m j -> (has_corner (m_face m j) a /\ has_corner (m_face m j) b <-> j = P \/ j = Q).
Proof using CO SH TH HH CH OH DO.
  intros j L. destruct neq_abc as (N & _). split.
  - intros [A B]. destruct (two_corners _ a b (live_distinct j L) A B N) as [I|I].
    + left. apply (dir_unique j P a b); auto; [apply live_P|apply in3_P; cbn; auto].
    + right. apply (dir_unique j Q b a); auto; [apply live_Q|apply in3_Q; cbn; auto].
  - intros [-> | ->]; [apply in3_corner, in3_P; cbn; auto|]. apply and_comm, in3_corner, in3_Q. cbn. auto.
Qed.

Definition r (x : nat) : nat := if Nat.eqb x a then b else x.
Lemma in3_retarget : forall f u v, in3 (retarget f a b) u v <-> exists u0 v0, in3 f u0 v0 /\ u = r u0 /\ v = r v0.
Proof using Type.
  intros [[x y] z] u v. unfold retarget. fold (r x) (r y) (r z). cbn. split.
  - intros [[-> ->]|[[-> ->]|[-> ->]]]; eauto 10.
  - intros (u0 & v0 & [[-> ->]|[[-> ->]|[-> ->]]] & -> & ->); auto.
Qed.
Lemma r_eq : forall x y, r x = y -> (x = a /\ y = b) \/ (x <> a /\ x = y).
Proof using Type. intros x y E. unfold r in E. destruct (Nat.eqb_spec x a); auto. Qed.
Definition rest (fi : nat) : Prop := live m fi /\ ~ (has_corner (m_face m fi) a /\ has_corner (m_face m fi) b).

Lemma rest_sides : forall j u v, rest j -> in3 (m_face m j) u v -> (u = a -> v <> b) /\ (v = a -> u <> b) /\ u <> v.
Proof using CO.
  intros j u v [L R] I. destruct (in3_corner _ _ _ I) as [A B]. split; [|split; [|apply (in3_distinct _ _ _ (live_distinct j L) I)]].
  - intros -> ->. auto.
  - intros -> ->. auto.
Qed.

Lemma no_clash_after : ~ clash (fun fi => retarget (m_face m fi) a b) rest.
Proof using CO SH TH HH CH OH DO IN LK.
  destruct neq_abc as (Nab & Nbc & Nac & Nad & Nbd).
  (* two sides of remaining faces, one from a, one from b *)
  assert (X : forall i j v, rest i -> rest j -> in3 (m_face m i) a v -> in3 (m_face m j) b v -> False).
  { intros i j v [LI RI] [LJ RJ] I J. assert (A : dir m a v) by (exists i; auto). assert (B : dir m b v) by (exists j; auto).
    destruct (Nat.eq_dec v b) as [->|Nb]; [apply RI, in3_corner; auto|].
    destruct (Nat.eq_dec v c) as [->|Nc].
    { apply RJ. replace j with P; [apply both; auto; apply live_P|]. apply (dir_unique P j b c); auto; [apply live_P|apply in3_P; cbn; auto]. }
    destruct (Nat.eq_dec v d) as [->|Nd].
    { apply RI. replace i with Q; [apply both; auto; apply live_Q|]. apply (dir_unique Q i a d); auto; [apply live_Q|apply in3_Q; cbn; auto]. }
    destruct (LK v A Nb Nc Nd). auto. }
  assert (Y : forall i j u, rest i -> rest j -> in3 (m_face m i) u a -> in3 (m_face m j) u b -> False).
  { intros i j v [LI RI] [LJ RJ] I J. assert (A : dir m a v) by (apply IN; exists i; auto). assert (B : dir m v b) by (exists j; auto).
    destruct (Nat.eq_dec v b) as [->|Nb]; [apply RI, and_comm, in3_corner; auto|].
    destruct (Nat.eq_dec v c) as [->|Nc].
    { apply RI. replace i with P; [apply both; auto; apply live_P|]. apply (dir_unique P i c a); auto; [apply live_P|apply in3_P; cbn; auto]. }
    destruct (Nat.eq_dec v d) as [->|Nd].
    { apply RJ. replace j with Q; [apply both; auto; apply live_Q|]. apply (dir_unique Q j d b); auto; [apply live_Q|apply in3_Q; cbn; auto 6]. }
    destruct (LK v A Nb Nc Nd). auto. }
  assert (Z : forall i j u v u' v', rest i -> rest j -> in3 (m_face m i) u v -> in3 (m_face m j) u' v' -> u <> u' \/ v <> v' -> r u = r u' -> r v = r v' -> False).
  { intros i j u v u' v' RG RK G K NE T HD. destruct (rest_sides _ _ _ RG G) as (G1 & G2 & G3). destruct (rest_sides _ _ _ RK K) as (K1 & K2 & K3).
    unfold r in T, HD.
    destruct (Nat.eqb_spec u a) as [Ua|Ua], (Nat.eqb_spec u' a) as [Ua'|Ua'], (Nat.eqb_spec v a) as [Va|Va], (Nat.eqb_spec v' a) as [Va'|Va'];
      try subst u; try subst u'; try subst v; try subst v'; try tauto; try congruence; eauto. }
  intros (g & k & NE & [RG KG] & [RK KK] & T & HD).
  unfold tail, head in T, HD.
  assert (RC : forall f n, n < 3 -> corner (retarget f a b) n = r (corner f n)).
  { intros [[x y] z] n L. destruct (three n L) as [->|[->| ->]]; reflexivity. }
  rewrite !RC in T, HD by (auto using ccw_lt).
  refine (Z (fst g) (fst k) _ _ _ _ RG RK _ _ _ T HD); [apply in3_iff; eauto|apply in3_iff; eauto|].
  destruct (Nat.eq_dec (corner (m_face m (fst g)) (snd g)) (corner (m_face m (fst k)) (snd k))) as [E1|]; auto.
  destruct (Nat.eq_dec (corner (m_face m (fst g)) (ccw (snd g))) (corner (m_face m (fst k)) (ccw (snd k)))) as [E2|]; auto.
  exfalso. apply NE. pose proof CO as [D _]. apply (unique_side m (live m)); auto; [split; [apply RG|auto]|split; [apply RK|auto]].
Qed.

Lemma collapse_ok_star : exists m' moved, collapse m h = Ok (m', moved) /\ consistent m' /\ m_nf m' = m_nf m /\
  (forall fi, live m' fi <-> rest fi) /\ (forall fi, rest fi -> m_face m' fi = retarget (m_face m fi) a b).
Proof using CO SH TH HH CH OH DO IN LK.
  pose proof (collapse_spec m h CO SH) as S. cbn zeta in S. rewrite TH, HH in S. destruct (collapse m h) as [[m' moved]|e|].
  - exists m', moved. destruct S as (S1 & S2 & S3 & S4 & _). split; [reflexivity|]. split; [exact S1|]. split; [exact S2|]. split; [exact S3|exact S4].
  - destruct S as [_ S]. destruct (no_clash_after S).
  - destruct S.
Qed.

(** * What the collapse does *)
Variable m' : mesh.
Hypothesis CO' : consistent m'.
Hypothesis LV : forall fi, live m' fi <-> rest fi.
Hypothesis FC : forall fi, rest fi -> m_face m' fi = retarget (m_face m fi) a b.

Lemma rest_iff : forall j, rest j <-> live m j /\ j <> P /\ j <> Q.
Proof using CO SH TH HH CH OH DO.
  intros j. unfold rest. split; intros [L N]; (split; [exact L|]).
  - split; intros ->; apply N; apply both; auto.
  - rewrite both by auto. tauto.
Qed.
Lemma untouched : forall j, live m j -> ~ has_corner (m_face m j) a -> rest j /\ m_face m' j = m_face m j.
Proof using FC.
  intros j L N. assert (R : rest j) by (split; [auto|tauto]). split; auto. rewrite FC by auto.
  destruct (m_face m j) as [[x y] z]. cbn in *. destruct (Nat.eqb_spec x a), (Nat.eqb_spec y a), (Nat.eqb_spec z a); try reflexivity; exfalso; apply N; auto.
Qed.
Lemma dir_after_rest : forall u v, dir m' u v <-> exists j u0 v0, rest j /\ in3 (m_face m j) u0 v0 /\ u = r u0 /\ v = r v0.
Proof using LV FC.
  intros u v. split.
  - intros (j & L & I). apply LV in L. rewrite FC in I by auto. apply in3_retarget in I. destruct I as (u0 & v0 & I). exists j, u0, v0. tauto.
  - intros (j & u0 & v0 & R & I). exists j. split; [apply LV; auto|]. rewrite FC by auto. apply in3_retarget. eauto.
Qed.

(** The sides: those of before without a, except for a fold that goes; and those moved from a to b. *)
Definition in_fold (u v : nat) : Prop := c = d /\ ((u = b /\ v = c) \/ (u = c /\ v = b)).
Lemma dir_after : forall u v, dir m' u v <-> u <> a /\ v <> a /\
  ((dir m u v /\ ~ in_fold u v) \/ (u = b /\ dir m a v /\ v <> b /\ v <> c /\ v <> d) \/ (v = b /\ dir m u a /\ u <> b /\ u <> c /\ u <> d)).
Proof using CO SH TH HH CH OH DO IN LK LV FC.
  destruct neq_abc as (Nab & Nbc & Nac & Nad & Nbd). intros u v. rewrite dir_after_rest. split.
  - intros (j & u0 & v0 & R & I & -> & ->). destruct (rest_sides _ _ _ R I) as (R1 & R2 & R3).
    assert (RA : forall x, r x <> a). { intros x. unfold r. destruct (Nat.eqb_spec x a); auto. }
    split; [auto|]. split; [auto|]. pose proof R as [L _]. pose proof (proj1 (rest_iff j) R) as (_ & NP & NQ).
    unfold r. destruct (Nat.eqb_spec u0 a) as [->|Ua], (Nat.eqb_spec v0 a) as [->|Va]; [congruence| | |].
    + destruct (Nat.eq_dec v0 c) as [->|Nc].
      * left. split; [exists P; split; [apply live_P|apply in3_P; cbn; auto]|]. intros [E _]. apply NQ. apply (dir_unique j Q a c); auto; [apply live_Q|apply in3_Q; cbn; auto].
      * right. left. split; auto. split; [exists j; auto|]. split; [auto|]. split; [auto|]. intros ->. apply NQ. apply (dir_unique j Q a d); auto; [apply live_Q|apply in3_Q; cbn; auto].
    + destruct (Nat.eq_dec u0 d) as [->|Nd].
      * left. split; [exists Q; split; [apply live_Q|apply in3_Q; cbn; auto 6]|]. intros [E _]. apply NP. apply (dir_unique j P d a); auto; [apply live_P|apply in3_P; cbn; auto].
      * right. right. split; auto. split; [exists j; auto|]. split; [auto|]. split; [|auto]. intros ->. apply NP. apply (dir_unique j P c a); auto; [apply live_P|apply in3_P; cbn; auto].
    + left. split; [exists j; auto|]. intros [E [[-> ->]|[-> ->]]].
      * apply NP. apply (dir_unique j P b c); auto; [apply live_P|apply in3_P; cbn; auto].
      * apply NQ. apply (dir_unique j Q c b); auto; [apply live_Q|apply in3_Q; cbn; auto 8].
  - intros (Ua & Va & [[(j & L & I) NF]|[(-> & (j & L & I) & Nb & Nc & Nd)|(-> & (j & L & I) & Nb & Nc & Nd)]]).
    + assert (RU : u = r u /\ v = r v). { unfold r. apply Nat.eqb_neq in Ua, Va. rewrite Ua, Va. auto. }
      destruct (Nat.eq_dec j P) as [->|NP].
      { apply in3_P in I. cbn in I. destruct I as [[-> ->]|[[-> ->]|[-> ->]]]; [congruence| |congruence].
        assert (Ncd : c <> d). { intros E. apply NF. split; auto. }
        assert (X : dir m a c) by (apply IN; exists P; split; [apply live_P|apply in3_P; cbn; auto]). destruct X as (k & LK' & IK).
        exists k, a, c. split; [|split; [auto|]]. 2: { unfold r. rewrite Nat.eqb_refl. apply Nat.eqb_neq in Va. rewrite Va. auto. }
        apply rest_iff. split; [auto|]. split; intros ->; [apply in3_P in IK|apply in3_Q in IK]; cbn in IK; intuition congruence. }
      destruct (Nat.eq_dec j Q) as [->|NQ].
      { apply in3_Q in I. cbn in I. destruct I as [[-> ->]|[[-> ->]|[-> ->]]]; [congruence|congruence|].
        assert (Ncd : c <> d). { intros E. apply NF. split; auto. }
        assert (X : dir m d a) by (apply IN; exists Q; split; [apply live_Q|apply in3_Q; cbn; auto]). destruct X as (k & LK' & IK).
        exists k, d, a. split; [|split; [auto|]]. 2: { unfold r. rewrite Nat.eqb_refl. apply Nat.eqb_neq in Ua. rewrite Ua. auto. }
        apply rest_iff. split; [auto|]. split; intros ->; [apply in3_P in IK|apply in3_Q in IK]; cbn in IK; intuition congruence. }
      exists j, u, v. split; [apply rest_iff; auto|]. tauto.
    + exists j, a, v. split; [|split; [auto|]]. 2: { unfold r. rewrite Nat.eqb_refl. apply Nat.eqb_neq in Va. rewrite Va. auto. }
      apply rest_iff. split; [auto|]. split; intros ->; [apply in3_P in I|apply in3_Q in I]; cbn in I; intuition congruence.
    + exists j, u, a. split; [|split; [auto|]]. 2: { unfold r. rewrite Nat.eqb_refl. apply Nat.eqb_neq in Ua. rewrite Ua. auto. }
      apply rest_iff. split; [auto|]. split; intros ->; [apply in3_P in I|apply in3_Q in I]; cbn in I; intuition congruence.
Qed.

Lemma boundary_after : forall u v, (dir m' u v /\ ~ dir m' v u) <-> (dir m u v /\ ~ dir m v u).
Proof using CO SH TH HH CH OH DO IN LK LV FC.
  destruct neq_abc as (Nab & Nbc & Nac & Nad & Nbd).
  assert (BC : dir m b c) by (exists P; split; [apply live_P|apply in3_P; cbn; auto]).
  assert (DB : dir m d b) by (exists Q; split; [apply live_Q|apply in3_Q; cbn; auto 6]).
  assert (SYM : forall u v, in_fold u v -> in_fold v u) by (unfold in_fold; tauto).
  assert (FD : forall u v, in_fold u v -> dir m u v) by (intros u v [E [[-> ->]|[-> ->]]]; [auto|rewrite E; auto]).
  intros u v. rewrite !dir_after. split.
  - intros [(Ua & Va & X) N]. destruct X as [[X NF]|[(-> & X & X1 & X2 & X3)|(-> & X & X1 & X2 & X3)]].
    + split; auto. intros Y. apply N. split; [auto|]. split; [auto|]. left. split; [auto|]. intros F. apply NF, SYM, F.
    + exfalso. apply N. split; [auto|]. split; [auto|]. right. right. split; auto. split; [apply IN; auto|auto].
    + exfalso. apply N. split; [auto|]. split; [auto|]. right. left. split; auto. split; [apply IN; auto|auto].
  - intros [X N].
    assert (Ua : u <> a) by (intros ->; apply N, IN; auto). assert (Va : v <> a) by (intros ->; apply N, IN; auto).
    split.
    + split; [auto|]. split; [auto|]. left. split; [auto|]. intros F. apply N, FD, SYM, F.
    + intros (_ & _ & [[Y _]|[(-> & Y & Y1 & Y2 & Y3)|(-> & Y & Y1 & Y2 & Y3)]]).
      * auto.
      * destruct (LK u Y Y1 Y2 Y3). auto.
      * apply IN in Y. destruct (LK v Y Y1 Y2 Y3). auto.
Qed.

Lemma used_after : forall v, (exists u, dir m' v u) -> v <> a /\ exists u, dir m v u.
Proof using CO SH TH HH CH OH DO IN LK LV FC.
  intros v (u & H). apply dir_after in H. destruct H as (A & B & H). split; auto. destruct H as [[H _]|[(-> & _)|(-> & H & _)]]; eauto.
  exists c. exists P. split; [apply live_P|apply in3_P; cbn; auto].
Qed.
Lemma kept_after : c <> d -> forall v, v <> a -> (exists u, dir m v u) -> exists u, dir m' v u.
Proof using CO SH TH HH CH OH DO IN LK LV FC.
  destruct neq_abc as (Nab & Nbc & Nac & Nad & Nbd). intros N v Va (u & H).
  assert (NF : forall x y, x <> a -> y <> a -> dir m x y -> dir m' x y) by (intros x y X Y D; apply dir_after; split; auto; split; auto; left; split; auto; intros [E _]; auto).
  destruct (Nat.eq_dec u a) as [->|Ua]; [|eauto].
  apply IN in H. destruct H as (j & L & I). destruct (corner_side (m_face m j) v) as (w & W); [apply (in3_corner _ _ _ I)|].
  exists w. apply NF; auto; [|exists j; auto]. intros ->. pose proof (live_distinct j L). destruct (m_face m j) as [[x y] z]. cbn in *. intuition congruence.
Qed.
End Star.
