From Coq Require Import List Arith Bool Lia ZArith QArith Permutation.
From Verif Require Import Model.Outcome Model.MeshDefects Model.AbstractMesh Model.Triangulation
  Spec.VertexClusterer Spec.AbstractMesh Spec.Triangulation Proofs.MeshDefects Proofs.AbstractMesh Proofs.MeshEditing Proofs.MeshHistory
  Proofs.LatticeVertices Proofs.TriangulationEars.
Import ListNotations.
Local Open Scope nat_scope.

(** ** The storage size never changes *)
Lemma pair_cap : forall m fi k m', pair_side m fi k = Ok m' -> m_cap m' = m_cap m.
Proof. intros m fi k m' H. destruct (pair_side_frame _ _ _ _ H) as (o & ->). reflexivity. Qed.
Lemma register_cap : forall m fi m', register_face m fi = Ok m' -> m_cap m' = m_cap m.
Proof.
  intros m fi m' H. unfold register_face in H. destruct (pair_side m fi 0) as [m1| |] eqn:E1; try discriminate. cbn [bind] in H.
  destruct (pair_side m1 fi 1) as [m2| |] eqn:E2; try discriminate. cbn [bind] in H.
  destruct (pair_side m2 fi 2) as [m3| |] eqn:E3; try discriminate. cbn [bind] in H. injection H as <-.
  cbn. rewrite (pair_cap _ _ _ _ E3), (pair_cap _ _ _ _ E2). apply (pair_cap _ _ _ _ E1).
Qed.
Lemma drop_cap : forall m fi k m', drop_side m fi k = Ok m' -> m_cap m' = m_cap m.
Proof. intros m fi k m' H. unfold drop_side in H. destruct (m_opp m (fi, k)); destruct (_ <? _); try discriminate; injection H as <-; reflexivity. Qed.
Lemma unregister_cap : forall m fi m', unregister_face m fi = Ok m' -> m_cap m' = m_cap m.
Proof.
  intros m fi m' H. unfold unregister_face in H. destruct (fi <? m_nf m); try discriminate.
  destruct (drop_side m fi 0) as [m1| |] eqn:E1; try discriminate. cbn [bind] in H.
  destruct (drop_side m1 fi 1) as [m2| |] eqn:E2; try discriminate. cbn [bind] in H.
  rewrite (drop_cap _ _ _ _ H), (drop_cap _ _ _ _ E2). apply (drop_cap _ _ _ _ E1).
Qed.
Lemma set_face_cap : forall m fi f m', set_face m fi f = Ok m' -> m_cap m' = m_cap m.
Proof.
  intros m fi f m' H. unfold set_face in H. destruct (unregister_face m fi) as [m1| |] eqn:E1; try discriminate. cbn [bind] in H.
  rewrite (register_cap _ _ _ H). cbn. apply (unregister_cap _ _ _ E1).
Qed.
Lemma add_face_cap : forall m f m', add_face m f = Ok m' -> m_cap m' = m_cap m.
Proof. intros m f m' H. unfold add_face in H. destruct (_ <? _); try discriminate. rewrite (register_cap _ _ _ H). reflexivity. Qed.
Lemma insert_in_face_cap : forall m fi v m', insert_in_face m fi v = Ok m' -> m_cap m' = m_cap m.
Proof.
  intros m fi v m' H. unfold insert_in_face in H. destruct (fi <? m_nf m); try discriminate.
  destruct (set_face m fi _) as [m1| |] eqn:E1; try discriminate. cbn [bind] in H.
  destruct (add_face m1 _) as [m2| |] eqn:E2; try discriminate. cbn [bind] in H.
  rewrite (add_face_cap _ _ _ H), (add_face_cap _ _ _ E2). apply (set_face_cap _ _ _ _ E1).
Qed.
Lemma split_side_cap : forall m fi a b v m', split_side m fi a b v = Ok m' -> m_cap m' = m_cap m.
Proof.
  intros m fi a b v m' H. unfold split_side in H. destruct (set_face m fi _) as [m1| |] eqn:E1; try discriminate. cbn [bind] in H.
  rewrite (add_face_cap _ _ _ H). apply (set_face_cap _ _ _ _ E1).
Qed.
Lemma insert_on_edge_cap : forall m a b v m', insert_on_edge m a b v = Ok m' -> m_cap m' = m_cap m.
Proof.
  intros m a b v. unfold insert_on_edge. generalize (faces_of m a b). intros l. revert m.
  induction l as [|fi l IH]; intros m m' H; cbn [split_sides] in H; [injection H as <-; auto|].
  destruct (split_side m fi a b v) as [m1| |] eqn:E1; try discriminate. cbn [bind] in H.
  rewrite (IH _ _ H). apply (split_side_cap _ _ _ _ _ _ E1).
Qed.
Lemma flip_cap : forall m a b m', flip m a b = Ok m' -> m_cap m' = m_cap m.
Proof.
  intros m a b m' H. unfold flip in H. destruct (halfedge_of m a b) as [g|]; try discriminate. destruct (halfedge_of m b a) as [h|]; try discriminate.
  destruct (unregister_face m (fst g)) as [m1| |] eqn:E1; try discriminate. cbn [bind] in H.
  destruct (unregister_face m1 (fst h)) as [m2| |] eqn:E2; try discriminate. cbn [bind] in H.
  destruct (register_face _ (fst g)) as [m3| |] eqn:E3; try discriminate. cbn [bind] in H.
  rewrite (register_cap _ _ _ H), (register_cap _ _ _ E3). cbn. rewrite (unregister_cap _ _ _ E2). apply (unregister_cap _ _ _ E1).
Qed.

(** ** Editing a disk *)
Section Disk.
Variable B : nat -> nat -> Prop.
Variable n0 cap : nat.
Notation disk := (disk B n0 cap).

Lemma disk_live : forall m ins fi, disk m ins -> (live m fi <-> fi < m_nf m).
Proof. intros m ins fi D. unfold live. split; [tauto|]. intros L. split; auto. apply (d_live _ _ _ _ _ D). auto. Qed.
Lemma disk_side : forall m ins a b, disk m ins -> (has_side m a b <-> exists fi, fi < m_nf m /\ in3 (m_face m fi) a b).
Proof.
  intros m ins a b D. rewrite side_iff. split; intros (fi & L & I); exists fi; (split; [|exact I]); rewrite (disk_live m ins fi D) in *; exact L.
Qed.
Lemma disk_distinct : forall m ins fi, disk m ins -> fi < m_nf m -> distinct3 (m_face m fi).
Proof. intros m ins fi D L. destruct (d_con _ _ _ _ _ D) as ((F & _) & _). apply F. rewrite (disk_live _ _ _ D); auto. Qed.

(** The two faces of an edge have different apexes. *)
Lemma apexes_differ : forall m ins g h, disk m ins -> side (live m) g -> side (live m) h ->
  tail (m_face m) g = head (m_face m) h -> head (m_face m) g = tail (m_face m) h -> third (m_face m) g <> third (m_face m) h.
Proof.
  intros m ins g h D [LG KG] [LH KH] A1 A2 A3. pose proof (d_con _ _ _ _ _ D) as ((F & _) & _).
  assert (fst g <> fst h) as NE.
  { intros EQ. unfold tail, head in A1, A2. rewrite EQ in A1, A2. apply (no_self_reverse (m_face m (fst h)) (snd g) (snd h)); auto. apply F; auto. }
  destruct (d_diff _ _ _ _ _ D (fst g) (fst h)) as (v & V1 & V2); auto; [apply LG|apply LH|].
  apply V2. apply has_corner_iff in V1. destruct V1 as (k & K & <-). apply has_corner_iff.
  unfold tail, head, third in *.
  assert (k = snd g \/ k = ccw (snd g) \/ k = cw (snd g)) as KK.
  { destruct (three _ K) as [->|[->| ->]], (three _ KG) as [->|[->| ->]]; cbn; auto. }
  destruct KK as [->|[->| ->]].
  - exists (ccw (snd h)). auto using ccw_lt.
  - exists (snd h). auto.
  - exists (cw (snd h)). auto using cw_lt.
Qed.

Lemma unused_new : forall m ins v, disk m ins -> n0 <= v -> ~ In v ins -> unused m v.
Proof.
  intros m ins v D L NI fi LV HC. rewrite (disk_live _ _ _ D) in LV.
  assert (v < n0 \/ In v ins) as X by (apply (d_used _ _ _ _ _ D); eauto). lia || (destruct X; [lia|tauto]).
Qed.

Lemma disk_in_face : forall m ins fi v, disk m ins -> fi < m_nf m -> n0 <= v -> ~ In v ins -> m_nf m + 2 <= cap ->
  (forall a b, B a b -> a < n0 /\ b < n0) ->
  exists m', insert_in_face m fi v = Ok m' /\ disk m' (v :: ins) /\
    (forall a b, has_side m' a b -> has_side m a b \/ a = v \/ b = v).
Proof.
  intros m ins fi v D L NV NI CAP BL. pose proof (unused_new _ _ _ D NV NI) as UN.
  pose proof (insert_in_face_spec m fi v (d_con _ _ _ _ _ D)) as S. cbn zeta in S.
  destruct S as (m' & EQ & CO & NF & LV & FA).
  { split; [rewrite (disk_live _ _ _ D); auto|]. split; auto. rewrite (d_cap _ _ _ _ _ D). auto. }
  exists m'. split; auto. pose proof (insert_in_face_cap _ _ _ _ EQ) as CA.
  pose proof (disk_distinct _ _ _ D L) as DF. destruct (m_face m fi) as [[p q] r] eqn:FI. cbn [corner] in FA.
  assert (forall x, x < m_nf m -> ~ has_corner (m_face m x) v) as NC by (intros x X; apply UN; rewrite (disk_live _ _ _ D); auto).
  assert (v <> p /\ v <> q /\ v <> r) as (V1 & V2 & V3).
  { pose proof (NC fi L) as X. rewrite FI in X. cbn in X. repeat split; intros ->; tauto. }
  assert (m_face m' fi = (p, q, v)) as F0 by (rewrite FA, upd_other, upd_other, upd_same by lia; reflexivity).
  assert (m_face m' (m_nf m) = (q, r, v)) as F1 by (rewrite FA, upd_other, upd_same by lia; reflexivity).
  assert (m_face m' (S (m_nf m)) = (r, p, v)) as F2 by (rewrite FA, upd_same by lia; reflexivity).
  assert (forall x, x < m_nf m -> x <> fi -> m_face m' x = m_face m x) as FO by (intros x X1 X2; rewrite FA, !upd_other by lia; reflexivity).
  assert (forall x, x < m_nf m' -> x = fi \/ x = m_nf m \/ x = S (m_nf m) \/ (x < m_nf m /\ x <> fi)) as CASES by (intros x X; rewrite NF in X; lia).
  assert (forall x, live m' x <-> x < m_nf m') as LV'.
  { intros x. rewrite LV, (disk_live _ _ _ D), NF. lia. }
  assert (forall a b, has_side m' a b <-> has_side m a b \/ (a = v /\ (b = p \/ b = q \/ b = r)) \/ (b = v /\ (a = p \/ a = q \/ a = r))) as SI.
  { intros a b. rewrite (disk_side _ _ _ _ D), side_iff. split.
    - intros (x & X & I). apply LV' in X. destruct (CASES x X) as [->|[->|[->|[X1 X2]]]].
      + rewrite F0 in I. cbn in I. destruct I as [[-> ->]|[[-> ->]|[-> ->]]]; [left; exists fi; rewrite FI; cbn; auto|auto 10|auto 10].
      + rewrite F1 in I. cbn in I. destruct I as [[-> ->]|[[-> ->]|[-> ->]]]; [left; exists fi; rewrite FI; cbn; auto|auto 10|auto 10].
      + rewrite F2 in I. cbn in I. destruct I as [[-> ->]|[[-> ->]|[-> ->]]]; [left; exists fi; rewrite FI; cbn; auto|auto 10|auto 10].
      + rewrite FO in I by auto. left. eauto.
    - assert (live m' fi /\ live m' (m_nf m) /\ live m' (S (m_nf m))) as (L0 & L1 & L2) by (rewrite !LV', NF; lia).
      intros [(x & X & I)|[[-> I]|[-> I]]].
      + destruct (Nat.eq_dec x fi) as [->|NE].
        * rewrite FI in I. cbn in I. destruct I as [[-> ->]|[[-> ->]|[-> ->]]]; [exists fi; rewrite F0|exists (m_nf m); rewrite F1|exists (S (m_nf m)); rewrite F2]; cbn; auto.
        * exists x. rewrite FO by auto. split; auto. apply LV'. lia.
      + destruct I as [->|[->| ->]]; [exists fi; rewrite F0|exists (m_nf m); rewrite F1|exists (S (m_nf m)); rewrite F2]; cbn; auto.
      + destruct I as [->|[->| ->]]; [exists (S (m_nf m)); rewrite F2|exists fi; rewrite F0|exists (m_nf m); rewrite F1]; cbn; auto. }
  assert (forall a b, has_side m a b -> a <> v /\ b <> v) as OLD.
  { intros a b S. apply (disk_side _ _ _ _ D) in S. destruct S as (x & X & I). destruct (in3_corner _ _ _ I) as [I1 I2].
    split; intros ->; apply (NC x X); auto. }
  split; [|intros a b S; apply SI in S; tauto].
  destruct DF as (N1 & N2 & N3).
  constructor; auto.
  - intros x X. apply LV'. auto.
  - rewrite CA. apply (d_cap _ _ _ _ _ D).
  - rewrite NF, (d_nf _ _ _ _ _ D). cbn [length]. clear. lia.
  - intros a b. rewrite <- (d_border _ _ _ _ _ D). rewrite !SI. split.
    + intros [[S|[[-> I]|[-> I]]] NS]; [tauto| |]; exfalso; apply NS; auto.
    + intros [S NS]. split; auto. destruct (OLD _ _ S). tauto.
  - intros i j Li Lj NE.
    destruct (CASES i Li) as [->|[->|[->|[I1 I2]]]], (CASES j Lj) as [->|[->|[->|[J1 J2]]]]; try congruence;
      rewrite ?F0, ?F1, ?F2.
    + exists p. cbn. intuition congruence.
    + exists q. cbn. intuition congruence.
    + rewrite FO by auto. exists v. split; [cbn; auto|auto].
    + exists r. cbn. intuition congruence.
    + exists q. cbn. intuition congruence.
    + rewrite FO by auto. exists v. split; [cbn; auto|auto].
    + exists r. cbn. intuition congruence.
    + exists p. cbn. intuition congruence.
    + rewrite FO by auto. exists v. split; [cbn; auto|auto].
    + rewrite FO by auto. destruct (d_diff _ _ _ _ _ D i fi) as (z & Z1 & Z2); auto; try lia. rewrite FI in Z2. exists z. split; auto.
      cbn in Z2 |- *. intros [->|[->| ->]]; try tauto. apply (NC i I1). auto.
    + rewrite FO by auto. destruct (d_diff _ _ _ _ _ D i fi) as (z & Z1 & Z2); auto; try lia. rewrite FI in Z2. exists z. split; auto.
      cbn in Z2 |- *. intros [->|[->| ->]]; try tauto. apply (NC i I1). auto.
    + rewrite FO by auto. destruct (d_diff _ _ _ _ _ D i fi) as (z & Z1 & Z2); auto; try lia. rewrite FI in Z2. exists z. split; auto.
      cbn in Z2 |- *. intros [->|[->| ->]]; try tauto. apply (NC i I1). auto.
    + rewrite !FO by auto. apply (d_diff _ _ _ _ _ D); auto.
  - intros z. cbn [In]. assert (v < n0 \/ In v ins <-> False) as NVI by lia || (split; [intros [X|X]; [lia|tauto]|tauto]).
    transitivity (v = z \/ exists x, x < m_nf m /\ has_corner (m_face m x) z).
    + split.
      * intros (x & X & HC). destruct (CASES x X) as [->|[->|[->|[X1 X2]]]].
        -- rewrite F0 in HC. cbn in HC. destruct HC as [->|[->| ->]]; [right; exists fi; rewrite FI; cbn; auto|right; exists fi; rewrite FI; cbn; auto|auto].
        -- rewrite F1 in HC. cbn in HC. destruct HC as [->|[->| ->]]; [right; exists fi; rewrite FI; cbn; auto|right; exists fi; rewrite FI; cbn; auto|auto].
        -- rewrite F2 in HC. cbn in HC. destruct HC as [->|[->| ->]]; [right; exists fi; rewrite FI; cbn; auto|right; exists fi; rewrite FI; cbn; auto|auto].
        -- rewrite FO in HC by auto. right. eauto.
      * intros [->|(x & X & HC)]; [exists fi; rewrite F0; split; [lia|cbn; auto]|].
        destruct (Nat.eq_dec x fi) as [->|NE]; [|exists x; rewrite FO by auto; split; [lia|auto]].
        rewrite FI in HC. cbn in HC. destruct HC as [->|[->| ->]]; [exists fi; rewrite F0|exists fi; rewrite F0|exists (m_nf m); rewrite F1]; cbn; split; auto; lia.
    + rewrite (d_used _ _ _ _ _ D). tauto.
  - constructor; auto. apply (d_ins _ _ _ _ _ D).
Qed.

(** A side of a face, seen from that side. *)
Lemma side_face : forall m ins h, disk m ins -> side (live m) h -> 
  let a := tail (m_face m) h in let b := head (m_face m) h in let c := third (m_face m) h in
  fst h < m_nf m /\ a <> b /\ b <> c /\ c <> a /\ (forall x y, in3 (m_face m (fst h)) x y <-> in3 (a, b, c) x y) /\
  (forall v, has_corner (m_face m (fst h)) v <-> v = a \/ v = b \/ v = c).
Proof.
  intros m ins h D [L K]. cbn zeta. rewrite (disk_live _ _ _ D) in L. split; auto.
  destruct (distinct_rotate _ _ K (disk_distinct _ _ _ D L)) as (N1 & N2 & N3). unfold tail, head, third.
  split; [auto|]. split; [auto|]. split; [auto|]. split; [intros x y; apply in3_rotate; auto|].
  intros v. destruct (m_face m (fst h)) as [[p q] r]. destruct (three _ K) as [->|[->| ->]]; cbn; tauto.
Qed.

Lemma two_new : forall a b n1 n2 : nat, a <= n1 < b -> a <= n2 < b -> n1 <> n2 -> (forall x, a <= x < b -> x = n1 \/ x = n2) -> b = a + 2.
Proof.
  intros a b n1 n2 R1 R2 N12 TWO.
  assert (incl (seq a (b - a)) [n1; n2]) as IN.
  { intros x X. apply in_seq in X. destruct (TWO x) as [->| ->]; [lia|left; auto|right; left; auto]. }
  assert (incl [n1; n2] (seq a (b - a))) as IN2 by (intros x [<-|[<-|[]]]; apply in_seq; lia).
  apply NoDup_incl_length in IN; [|apply seq_NoDup]. apply NoDup_incl_length in IN2; [|constructor; [intros [X|[]]; auto|constructor; [intros []|constructor]]].
  rewrite seq_length in *. cbn [length] in *. lia.
Qed.

Lemma disk_on_edge : forall m ins g h v, disk m ins -> side (live m) g -> side (live m) h ->
  tail (m_face m) g = head (m_face m) h -> head (m_face m) g = tail (m_face m) h ->
  n0 <= v -> ~ In v ins -> m_nf m + 2 <= cap ->
  exists m', insert_on_edge m (tail (m_face m) g) (head (m_face m) g) v = Ok m' /\ disk m' (v :: ins) /\
    (forall a b, has_side m' a b -> has_side m a b \/ a = v \/ b = v).
Proof.
  intros m ins g h v D SG SH T1 T2 NV NI CAP. pose proof (unused_new _ _ _ D NV NI) as UN.
  pose proof (apexes_differ _ _ _ _ D SG SH T1 T2) as CD.
  destruct (side_face _ _ _ D SG) as (LG & G1 & G2 & G3 & GI & GC). destruct (side_face _ _ _ D SH) as (LH & H1 & H2 & H3 & HI & HC).
  assert (forall x, x < m_nf m -> ~ has_corner (m_face m x) v) as NC by (intros x X; apply UN; rewrite (disk_live _ _ _ D); auto).
  pose proof (NC _ LG) as VG. pose proof (NC _ LH) as VH. rewrite GC in VG. rewrite HC in VH. rewrite <- T1, <- T2 in H1, HI, HC, VH. rewrite <- T1 in H2. rewrite <- T2 in H3.
  set (u := tail (m_face m) g) in *. set (w := head (m_face m) g) in *.
  set (c := third (m_face m) g) in *. set (d := third (m_face m) h) in *.
  assert (v <> u /\ v <> w /\ v <> c /\ v <> d) as (V1 & V2 & V3 & V4) by (clear - VG VH; tauto).
  assert (fst g <> fst h) as GH.
  { intros EQ. destruct (HI w u) as [_ X]. assert (in3 (m_face m (fst h)) w u) as Y by (apply X; cbn; auto). rewrite <- EQ in Y. apply GI in Y.
    clear - Y G1 G2 G3. cbn in Y. intuition congruence. }
  assert (forall x, along m u w x <-> x = g \/ x = h) as AL.
  { pose proof (d_con _ _ _ _ _ D) as (DE & _). intros x. unfold along. split.
    - intros [SX [[A1 A2]|[A1 A2]]]; [left|right]; apply (unique_side m (live m)); auto; rewrite <- ?T1, <- ?T2; auto.
    - intros [->| ->]; split; auto. }
  pose proof (insert_on_edge_spec m u w v (d_con _ _ _ _ _ D)) as S.
  assert (allowed m (InsertOnEdge u w v)) as AW by (cbn; repeat split; auto; rewrite (d_cap _ _ _ _ _ D); auto).
  specialize (S AW). destruct (insert_on_edge m u w v) as [m'|e|] eqn:EQ; [|exfalso|destruct S].
  2: { destruct S as (_ & g' & h' & S1 & S2 & A1 & A2 & A3 & A4 & A5). apply (apexes_differ m ins g' h'); auto; congruence. }
  exists m'. split; auto. pose proof (insert_on_edge_cap _ _ _ _ _ EQ) as CA. clear EQ. destruct S as [(CO & LE & LV & FA & FO & FN) _].
  destruct (FA g) as (F0 & n1 & R1 & F1); [apply AL; auto|]. destruct (FA h) as (F2 & n2 & R2 & F3); [apply AL; auto|].
  fold u w c in F0, F1. rewrite <- T2 in F2. rewrite <- T1 in F3. fold d in F2, F3.
  assert (n1 <> n2) as N12. { intros ->. rewrite F1 in F3. injection F3 as X1 X2. auto. }
  pose proof CO as ((DF & CL & _) & _).
  assert (forall x, m_nf m <= x < m_nf m' -> x = n1 \/ x = n2) as TWO.
  { intros x X. destruct (FN x X) as (k & K & FK). apply AL in K.
    assert (forall y, m_nf m <= y < m_nf m' -> m_face m' y = m_face m' x -> y = x) as SAME.
    { intros y Y EF. destruct (Nat.eq_dec y x) as [|NE]; auto. exfalso. apply CL. exists (y, 0), (x, 0). unfold side, tail, head. cbn [fst snd].
      rewrite EF. repeat split; auto; try (apply LV; auto); congruence. }
    destruct K as [->| ->]; [left|right]; symmetry; (apply SAME; [assumption|]); rewrite FK; [exact F1|rewrite <- T1; exact F3]. }
  pose proof (two_new _ _ _ _ R1 R2 N12 TWO) as NF.
  assert (forall x, live m' x <-> x < m_nf m') as LV'. { intros x. rewrite LV, (disk_live _ _ _ D). clear - LE. lia. }
  assert (forall x, x < m_nf m -> x <> fst g -> x <> fst h -> m_face m' x = m_face m x) as FK.
  { intros x X X1 X2. apply FO; [rewrite (disk_live _ _ _ D); auto|]. intros k K. apply AL in K. destruct K as [->| ->]; auto. }
  assert (forall x, x < m_nf m' -> x = fst g \/ x = fst h \/ x = n1 \/ x = n2 \/ (x < m_nf m /\ x <> fst g /\ x <> fst h)) as CASES.
  { intros x X. destruct (Nat.lt_ge_cases x (m_nf m)) as [Y|Y]; [|destruct (TWO x); auto].
    destruct (Nat.eq_dec x (fst g)); auto. destruct (Nat.eq_dec x (fst h)); auto 10. }
  assert (fst g < m_nf m' /\ fst h < m_nf m' /\ n1 < m_nf m' /\ n2 < m_nf m') as (B0 & B1 & B2 & B3) by (clear - LG LH R1 R2 LE; lia).
  assert (forall a b, has_side m' a b <-> (has_side m a b /\ ~ (a = u /\ b = w) /\ ~ (a = w /\ b = u)) \/
    (a = v /\ (b = u \/ b = w \/ b = c \/ b = d)) \/ (b = v /\ (a = u \/ a = w \/ a = c \/ a = d))) as SI.
  { assert (forall x a b, x < m_nf m -> x <> fst g -> x <> fst h -> in3 (m_face m x) a b -> ~ (a = u /\ b = w) /\ ~ (a = w /\ b = u)) as NUW.
    { intros x a b X X1 X2 I. pose proof (d_con _ _ _ _ _ D) as (DE & _).
      apply in3_iff in I. destruct I as (k & K & I1 & I2). split; intros [-> ->].
      - apply X1. assert ((x, k) = g) as <-; [|auto]. apply (unique_side m (live m)); auto. split; [rewrite (disk_live _ _ _ D); auto|auto].
      - apply X2. assert ((x, k) = h) as <-; [|auto]. apply (unique_side m (live m)); auto; [split; [rewrite (disk_live _ _ _ D); auto|auto]| |].
        + rewrite <- T2. auto.
        + rewrite <- T1. auto. }
    intros a b. rewrite (disk_side _ _ _ _ D), side_iff. split.
    - intros (x & X & I). apply LV' in X. destruct (CASES x X) as [->|[->|[->|[->|(X1 & X2 & X3)]]]].
      + rewrite F0 in I. cbn in I. destruct I as [[-> ->]|[[-> ->]|[-> ->]]]; [auto 10|auto 10|]. left. split; [exists (fst g); rewrite GI; cbn; auto|].
        split; intros [? ?]; congruence.
      + rewrite F2 in I. cbn in I. destruct I as [[-> ->]|[[-> ->]|[-> ->]]]; [auto 10|auto 10|]. left. split; [exists (fst h); rewrite HI; cbn; auto|].
        split; intros [? ?]; congruence.
      + rewrite F1 in I. cbn in I. destruct I as [[-> ->]|[[-> ->]|[-> ->]]]; [auto 10| |auto 10]. left. split; [exists (fst g); rewrite GI; cbn; auto|].
        split; intros [? ?]; congruence.
      + rewrite F3 in I. cbn in I. destruct I as [[-> ->]|[[-> ->]|[-> ->]]]; [auto 10| |auto 10]. left. split; [exists (fst h); rewrite HI; cbn; auto|].
        split; intros [? ?]; congruence.
      + rewrite FK in I by auto. left. split; [eauto|]. apply (NUW x); auto.
    - intros [[(x & X & I) [U1 U2]]|[[-> I]|[-> I]]].
      + destruct (Nat.eq_dec x (fst g)) as [->|NG]; [|destruct (Nat.eq_dec x (fst h)) as [->|NH]].
        * apply GI in I. cbn in I. destruct I as [I|[[-> ->]|[-> ->]]]; [tauto| |].
          -- exists n1. rewrite F1, LV'. cbn. auto.
          -- exists (fst g). rewrite F0, LV'. cbn. auto.
        * apply HI in I. cbn in I. destruct I as [I|[[-> ->]|[-> ->]]]; [tauto| |].
          -- exists n2. rewrite F3, LV'. cbn. auto.
          -- exists (fst h). rewrite F2, LV'. cbn. auto.
        * exists x. rewrite FK, LV' by auto. split; [clear - X NF; lia|auto].
      + destruct I as [->|[->|[->| ->]]]; [exists n2; rewrite F3|exists n1; rewrite F1|exists (fst g); rewrite F0|exists (fst h); rewrite F2]; rewrite LV'; cbn; auto.
      + destruct I as [->|[->|[->| ->]]]; [exists (fst g); rewrite F0|exists (fst h); rewrite F2|exists n1; rewrite F1|exists n2; rewrite F3]; rewrite LV'; cbn; auto. }
  assert (forall a b, has_side m a b -> a <> v /\ b <> v) as OLD.
  { intros a b S. apply (disk_side _ _ _ _ D) in S. destruct S as (x & X & I). destruct (in3_corner _ _ _ I) as [I1 I2].
    split; intros ->; apply (NC x X); auto. }
  assert (has_side m u w /\ has_side m w u) as (UW & WU).
  { rewrite !(disk_side _ _ _ _ D). split; [exists (fst g); rewrite GI|exists (fst h); rewrite HI]; cbn; auto. }
  split; [|intros a b S; apply SI in S; clear - S; tauto].
  constructor; auto.
  - intros x X. apply LV'. auto.
  - rewrite CA. apply (d_cap _ _ _ _ _ D).
  - rewrite NF, (d_nf _ _ _ _ _ D). cbn [length]. clear. lia.
  - intros a b. rewrite <- (d_border _ _ _ _ _ D). rewrite !SI. split.
    + intros [[[S U]|[[-> I]|[-> I]]] NS]; [|exfalso; apply NS; clear - I; tauto|exfalso; apply NS; clear - I; tauto].
      split; auto. intros S'. apply NS. left. split; auto. clear - U. tauto.
    + intros [S NS]. assert (~ (a = u /\ b = w) /\ ~ (a = w /\ b = u)) as U by (split; intros [-> ->]; auto).
      split; [left; auto|]. destruct (OLD _ _ S) as [O1 O2]. clear - NS O1 O2. tauto.
  - assert (forall i z, i < m_nf m -> has_corner (m_face m i) z -> z <> v) as NZ by (intros i z Li Z ->; apply (NC i Li); auto).
    assert (forall i j (f : face) p q, i < m_nf m -> m_face m' i = m_face m i -> i <> j -> j < m_nf m ->
      (forall z, has_corner f z -> z = v \/ z = p \/ z = q) -> (forall z, z = p \/ z = q -> has_corner (m_face m j) z) ->
      exists z, has_corner (m_face m' i) z /\ ~ has_corner f z) as AUX.
    { intros i j f p q Li EF NE Lj F W. rewrite EF. destruct (d_diff _ _ _ _ _ D i j) as (z & Z1 & Z2); auto. exists z. split; auto.
      intros Z3. destruct (F z Z3) as [->|Z4]; [apply (NC i Li); auto|]. apply Z2, W, Z4. }
    assert (forall i j, i < m_nf m -> i <> fst g -> i <> fst h -> has_corner (m_face m' j) v -> exists z, has_corner (m_face m' j) z /\ ~ has_corner (m_face m' i) z) as AUX2.
    { intros i j Li NG NH HV. exists v. split; auto. rewrite FK by auto. apply NC. auto. }
    intros i j Li Lj NE.
    destruct (CASES i Li) as [->|[->|[->|[->|(I1 & I2 & I3)]]]], (CASES j Lj) as [->|[->|[->|[->|(J1 & J2 & J3)]]]]; try (exfalso; clear - NE; congruence).
    all: try (apply AUX2; auto; rewrite ?F0, ?F1, ?F2, ?F3; cbn; auto; fail).
    all: try (rewrite ?F0, ?F1, ?F2, ?F3; clear - G1 G2 G3 H1 H2 H3 CD V1 V2 V3 V4; first
      [ exists u; cbn; split; [tauto|]; intros [X|[X|X]]; congruence | exists w; cbn; split; [tauto|]; intros [X|[X|X]]; congruence
      | exists c; cbn; split; [tauto|]; intros [X|[X|X]]; congruence | exists d; cbn; split; [tauto|]; intros [X|[X|X]]; congruence ]; fail).
    + apply (AUX i (fst g) _ u c); auto; [intros z Z; rewrite F0 in Z; cbn in Z; clear - Z; tauto|intros z [->| ->]; apply GC; auto].
    + apply (AUX i (fst h) _ w d); auto; [intros z Z; rewrite F2 in Z; cbn in Z; clear - Z; tauto|intros z [->| ->]; apply HC; auto].
    + apply (AUX i (fst g) _ w c); auto; [intros z Z; rewrite F1 in Z; cbn in Z; clear - Z; tauto|intros z [->| ->]; apply GC; auto].
    + apply (AUX i (fst h) _ u d); auto; [intros z Z; rewrite F3 in Z; cbn in Z; clear - Z; tauto|intros z [->| ->]; apply HC; auto].
    + rewrite !FK by auto. apply (d_diff _ _ _ _ _ D); auto.
  - intros z. cbn [In].
    transitivity (v = z \/ exists x, x < m_nf m /\ has_corner (m_face m x) z).
    + split.
      * intros (x & X & HZ). destruct (CASES x X) as [->|[->|[->|[->|(X1 & X2 & X3)]]]].
        -- rewrite F0 in HZ. destruct HZ as [->|[->| ->]]; [right; exists (fst g); rewrite GC; auto|auto|right; exists (fst g); rewrite GC; auto].
        -- rewrite F2 in HZ. destruct HZ as [->|[->| ->]]; [right; exists (fst h); rewrite HC; auto|auto|right; exists (fst h); rewrite HC; auto].
        -- rewrite F1 in HZ. destruct HZ as [->|[->| ->]]; [auto|right; exists (fst g); rewrite GC; auto|right; exists (fst g); rewrite GC; auto].
        -- rewrite F3 in HZ. destruct HZ as [->|[->| ->]]; [auto|right; exists (fst h); rewrite HC; auto|right; exists (fst h); rewrite HC; auto].
        -- rewrite FK in HZ by auto. right. eauto.
      * intros [->|(x & X & HZ)]; [exists (fst g); rewrite F0; split; [auto|cbn; auto]|].
        destruct (Nat.eq_dec x (fst g)) as [->|NG]; [|destruct (Nat.eq_dec x (fst h)) as [->|NH]].
        -- apply GC in HZ. destruct HZ as [->|[->| ->]]; [exists (fst g); rewrite F0|exists n1; rewrite F1|exists (fst g); rewrite F0]; (split; [auto|cbn; auto]).
        -- apply HC in HZ. destruct HZ as [->|[->| ->]]; [exists (fst h); rewrite F2|exists n2; rewrite F3|exists (fst h); rewrite F2]; (split; [auto|cbn; auto]).
        -- exists x. rewrite FK by auto. split; [clear - X NF; lia|auto].
    + rewrite (d_used _ _ _ _ _ D). clear. tauto.
  - constructor; auto. apply (d_ins _ _ _ _ _ D).
Qed.

Lemma disk_flip : forall m ins g h, disk m ins -> side (live m) g -> side (live m) h ->
  tail (m_face m) g = head (m_face m) h -> head (m_face m) g = tail (m_face m) h ->
  let c := third (m_face m) g in let d := third (m_face m) h in ~ has_side m c d -> ~ has_side m d c ->
  exists m', flip m (tail (m_face m) g) (head (m_face m) g) = Ok m' /\ disk m' ins /\ m_nf m' = m_nf m /\
    (forall a b, has_side m' a b -> has_side m a b \/ (a = c /\ b = d) \/ (a = d /\ b = c)) /\
    (forall x, x <> fst g -> x <> fst h -> m_face m' x = m_face m x).
Proof.
  intros m ins g h D SG SH T1 T2 c d NCD NDC. pose proof (apexes_differ _ _ _ _ D SG SH T1 T2) as CD. fold c d in CD.
  destruct (side_face _ _ _ D SG) as (LG & G1 & G2 & G3 & GI & GC). destruct (side_face _ _ _ D SH) as (LH & H1 & H2 & H3 & HI & HC).
  rewrite <- T1, <- T2 in H1, HI, HC. rewrite <- T1 in H2. rewrite <- T2 in H3. fold c in G2, G3, GI, GC. fold d in H2, H3, HI, HC.
  pose proof (flip_spec m g h (tail (m_face m) g) (head (m_face m) g) c d (d_con _ _ _ _ _ D)) as S. cbn zeta in S.
  destruct S as [GH S]; [auto 10|].
  set (u := tail (m_face m) g) in *. set (w := head (m_face m) g) in *.
  destruct (flip m u w) as [m'|e|] eqn:EQ; [|exfalso|destruct S].
  2: { destruct S as (_ & [X|[X|X]]); auto. }
  exists m'. split; auto. pose proof (flip_cap _ _ _ _ EQ) as CA. clear EQ. destruct S as (CO & NF & LV & FA & _).
  assert (m_face m' (fst g) = (c, u, d)) as F0 by (rewrite FA, upd_other, upd_same by auto; auto).
  assert (m_face m' (fst h) = (d, w, c)) as F1 by (rewrite FA, upd_same by auto; auto).
  assert (forall x, x <> fst g -> x <> fst h -> m_face m' x = m_face m x) as FK by (intros x X1 X2; rewrite FA, !upd_other by auto; auto).
  assert (forall x, live m' x <-> x < m_nf m') as LV'. { intros x. rewrite LV, (disk_live _ _ _ D), NF. tauto. }
  assert (forall x, x = fst g \/ x = fst h \/ (x <> fst g /\ x <> fst h)) as CASES.
  { intros x. destruct (Nat.eq_dec x (fst g)); auto. destruct (Nat.eq_dec x (fst h)); auto. }
  assert (has_side m u w /\ has_side m w u) as (UW & WU).
  { rewrite !(disk_side _ _ _ _ D). split; [exists (fst g); rewrite GI|exists (fst h); rewrite HI]; cbn; auto. }
  assert (forall a b, has_side m' a b <-> (has_side m a b /\ ~ (a = u /\ b = w) /\ ~ (a = w /\ b = u)) \/
    (a = c /\ b = d) \/ (a = d /\ b = c)) as SI.
  { assert (forall x a b, x < m_nf m -> x <> fst g -> x <> fst h -> in3 (m_face m x) a b -> ~ (a = u /\ b = w) /\ ~ (a = w /\ b = u)) as NUW.
    { intros x a b X X1 X2 I. pose proof (d_con _ _ _ _ _ D) as (DE & _).
      apply in3_iff in I. destruct I as (k & K & I1 & I2). split; intros [-> ->].
      - apply X1. assert ((x, k) = g) as <-; [|auto]. apply (unique_side m (live m)); auto. split; [rewrite (disk_live _ _ _ D); auto|auto].
      - apply X2. assert ((x, k) = h) as <-; [|auto]. apply (unique_side m (live m)); auto; [split; [rewrite (disk_live _ _ _ D); auto|auto]| |].
        + rewrite <- T2. auto.
        + rewrite <- T1. auto. }
    intros a b. rewrite (disk_side _ _ _ _ D), side_iff. split.
    - intros (x & X & I). apply LV' in X. rewrite NF in X. destruct (CASES x) as [->|[->|[X1 X2]]].
      + rewrite F0 in I. cbn in I. destruct I as [[-> ->]|[[-> ->]|[-> ->]]]; [left|left|auto].
        * split; [exists (fst g); rewrite GI; cbn; auto|]. split; intros [? ?]; congruence.
        * split; [exists (fst h); rewrite HI; cbn; auto|]. split; intros [? ?]; congruence.
      + rewrite F1 in I. cbn in I. destruct I as [[-> ->]|[[-> ->]|[-> ->]]]; [left|left|auto].
        * split; [exists (fst h); rewrite HI; cbn; auto|]. split; intros [? ?]; congruence.
        * split; [exists (fst g); rewrite GI; cbn; auto|]. split; intros [? ?]; congruence.
      + rewrite FK in I by auto. left. split; [eauto|]. apply (NUW x); auto.
    - intros [[(x & X & I) [U1 U2]]|[[-> ->]|[-> ->]]].
      + destruct (CASES x) as [->|[->|[X1 X2]]].
        * apply GI in I. cbn in I. destruct I as [I|[[-> ->]|[-> ->]]]; [tauto| |].
          -- exists (fst h). rewrite F1, LV', NF. cbn. auto.
          -- exists (fst g). rewrite F0, LV', NF. cbn. auto.
        * apply HI in I. cbn in I. destruct I as [I|[[-> ->]|[-> ->]]]; [tauto| |].
          -- exists (fst g). rewrite F0, LV', NF. cbn. auto.
          -- exists (fst h). rewrite F1, LV', NF. cbn. auto.
        * exists x. rewrite FK, LV', NF by auto. auto.
      + exists (fst h). rewrite F1, LV', NF. cbn. auto.
      + exists (fst g). rewrite F0, LV', NF. cbn. auto. }
  split; [|split; [auto|split; [intros a b S; apply SI in S; clear - S; tauto|auto]]].
  constructor; auto.
  - intros x X. apply LV'. auto.
  - rewrite CA. apply (d_cap _ _ _ _ _ D).
  - rewrite NF. apply (d_nf _ _ _ _ _ D).
  - intros a b. rewrite <- (d_border _ _ _ _ _ D). rewrite !SI. split.
    + intros [[[S U]|I] NS]; [|exfalso; apply NS; clear - I; tauto].
      split; auto. intros S'. apply NS. left. split; auto. clear - U. tauto.
    + intros [S NS]. assert (~ (a = u /\ b = w) /\ ~ (a = w /\ b = u)) as U by (split; intros [-> ->]; auto).
      split; [left; auto|]. intros [[S' _]|[[-> ->]|[-> ->]]]; auto.
  - (* another face with both c and d would have the side *)
    assert (forall x, x < m_nf m -> has_corner (m_face m x) c -> has_corner (m_face m x) d -> False) as NB.
    { intros x X XC XD. assert (in3 (m_face m x) c d \/ in3 (m_face m x) d c) as [I|I].
      { destruct (m_face m x) as [[p q] r]. clear - XC XD CD. cbn in *. destruct XC as [->|[->| ->]], XD as [->|[->| ->]]; auto 10; congruence. }
      - apply NCD. rewrite (disk_side _ _ _ _ D). eauto.
      - apply NDC. rewrite (disk_side _ _ _ _ D). eauto. }
    intros i j Li Lj NE. rewrite NF in Li, Lj. destruct (CASES i) as [->|[->|[I1 I2]]], (CASES j) as [->|[->|[J1 J2]]]; try (exfalso; clear - NE; congruence).
    + rewrite F0, F1. exists u. cbn. split; [auto|]. clear - G1 G3 H2. intros [X|[X|X]]; congruence.
    + rewrite F0, FK by auto. destruct (in_dec Nat.eq_dec c [fst (fst (m_face m j)); snd (fst (m_face m j)); snd (m_face m j)]) as [Y|Y].
      * exists d. split; [cbn; auto|]. intros Z. apply (NB j); auto. apply corner_in. auto.
      * exists c. split; [cbn; auto|]. rewrite corner_in. auto.
    + rewrite F0, F1. exists w. cbn. split; [auto|]. clear - G1 G2 H3. intros [X|[X|X]]; congruence.
    + rewrite F1, FK by auto. destruct (in_dec Nat.eq_dec c [fst (fst (m_face m j)); snd (fst (m_face m j)); snd (m_face m j)]) as [Y|Y].
      * exists d. split; [cbn; auto|]. intros Z. apply (NB j); auto. apply corner_in. auto.
      * exists c. split; [cbn; auto|]. rewrite corner_in. auto.
    + assert (exists z, has_corner (c, u, d) z /\ ~ has_corner (m_face m i) z) as (z & Z1 & Z2).
      { destruct (in_dec Nat.eq_dec c [fst (fst (m_face m i)); snd (fst (m_face m i)); snd (m_face m i)]) as [Y|Y].
        - exists d. split; [cbn; auto|]. intros Z. apply (NB i); auto. apply corner_in. auto.
        - exists c. split; [cbn; auto|]. rewrite corner_in. auto. }
      rewrite F0, FK by auto. apply (corner_outside _ _ z); auto; [apply (disk_distinct _ _ _ D); auto|]. cbn. clear - CD H2 G3. repeat split; congruence.
    + assert (exists z, has_corner (d, w, c) z /\ ~ has_corner (m_face m i) z) as (z & Z1 & Z2).
      { destruct (in_dec Nat.eq_dec c [fst (fst (m_face m i)); snd (fst (m_face m i)); snd (m_face m i)]) as [Y|Y].
        - exists d. split; [cbn; auto|]. intros Z. apply (NB i); auto. apply corner_in. auto.
        - exists c. split; [cbn; auto|]. rewrite corner_in. auto. }
      rewrite F1, FK by auto. apply (corner_outside _ _ z); auto; [apply (disk_distinct _ _ _ D); auto|]. cbn. clear - CD H3 G2. repeat split; congruence.
    + rewrite !FK by auto. apply (d_diff _ _ _ _ _ D); auto.
  - intros z. rewrite <- (d_used _ _ _ _ _ D). rewrite NF. split.
    + intros (x & X & HZ). destruct (CASES x) as [->|[->|[X1 X2]]].
      * rewrite F0 in HZ. destruct HZ as [->|[->| ->]]; [exists (fst g); rewrite GC; auto|exists (fst g); rewrite GC; auto|exists (fst h); rewrite HC; auto].
      * rewrite F1 in HZ. destruct HZ as [->|[->| ->]]; [exists (fst h); rewrite HC; auto|exists (fst h); rewrite HC; auto|exists (fst g); rewrite GC; auto].
      * rewrite FK in HZ by auto. eauto.
    + intros (x & X & HZ). destruct (CASES x) as [->|[->|[X1 X2]]].
      * apply GC in HZ. destruct HZ as [->|[->| ->]]; [exists (fst g); rewrite F0|exists (fst h); rewrite F1|exists (fst g); rewrite F0]; (split; [auto|cbn; auto]).
      * apply HC in HZ. destruct HZ as [->|[->| ->]]; [exists (fst h); rewrite F1|exists (fst g); rewrite F0|exists (fst h); rewrite F1]; (split; [auto|cbn; auto]).
      * exists x. rewrite FK by auto. auto.
  - apply (d_ins _ _ _ _ _ D).
Qed.
End Disk.

Section Main.
Variable E : tenv.
Hypothesis NB : 3 <= nb E.
Definition dsk := disk (border E) (nb E) (cap E).

Lemma constraint_iff : forall a b, is_constraint E a b = true <-> border E a b \/ border E b a.
Proof.
  intros a b. unfold is_constraint. rewrite existsb_exists.
  assert (forall i j, (i < nb E /\ succ E i = j) <-> follows E i j) as F.
  { intros i j. unfold succ, follows. split.
    - intros [L <-]. destruct (Nat.eq_dec (i + 1) (nb E)) as [EQ|NE]; [rewrite EQ, Nat.mod_same by lia; lia|rewrite Nat.mod_small by lia; lia].
    - intros (L & L' & [<-|[EQ ->]]); split; auto; [rewrite Nat.mod_small; lia|replace (i + 1) with (nb E) by lia; apply Nat.mod_same; lia]. }
  transitivity (follows E a b \/ follows E b a).
  - rewrite <- !F. split.
    + intros (i & I & H). apply in_seq in I. rewrite orb_true_iff, !andb_true_iff, !Nat.eqb_eq in H. destruct H as [[-> H]|[-> H]]; [left|right]; (split; [lia|auto]).
    + intros [[L H]|[L H]]; [exists a|exists b]; (split; [apply in_seq; lia|]); rewrite H, !Nat.eqb_refl; [reflexivity|apply orb_true_r].
  - unfold border. destruct (backwards E); tauto.
Qed.

Lemma shares_new : forall v a b, nb E <= v -> a = v \/ b = v -> shares_edge E a b = Ok false.
Proof.
  intros v a b L H. unfold shares_edge. destruct (labels E); auto.
  destruct (Nat.leb_spec (nb E) (Nat.min a b)); auto. destruct (Nat.leb_spec (nb E) (Nat.max a b)); auto. lia.
Qed.
Lemma labels_new : forall m m' v, nb E <= v -> labels_ok E m -> (forall a b, has_side m' a b -> has_side m a b \/ a = v \/ b = v) -> labels_ok E m'.
Proof.
  intros m m' v L LO H a b S. destruct (H a b S) as [S'|S']; [apply LO; auto|]. right. right. apply (shares_new v); auto.
Qed.

Lemma locate_spec : forall m v, match locate E m v with
  | Some (best, l) => best < m_nf m /\ forall fi l', fi < m_nf m -> bary E v (m_face m fi) = Some l' -> (min3 l' <= min3 l)%Q
  | None => forall fi, fi < m_nf m -> bary E v (m_face m fi) = None
  end.
Proof.
  intros m v. unfold locate. set (step := fun best fi => _).
  assert (forall is seen b0, (forall x, In x (seen ++ is) -> x < m_nf m) ->
    match b0 with Some (b, l) => b < m_nf m /\ forall fi l', In fi seen -> bary E v (m_face m fi) = Some l' -> (min3 l' <= min3 l)%Q
             | None => forall fi, In fi seen -> bary E v (m_face m fi) = None end ->
    match fold_left step is b0 with
      | Some (b, l) => b < m_nf m /\ forall fi l', In fi (seen ++ is) -> bary E v (m_face m fi) = Some l' -> (min3 l' <= min3 l)%Q
      | None => forall fi, In fi (seen ++ is) -> bary E v (m_face m fi) = None end) as G.
  { induction is as [|i is IH]; intros seen b0 HI H0; cbn [fold_left]; [rewrite app_nil_r; exact H0|].
    replace (seen ++ i :: is) with ((seen ++ [i]) ++ is) in * by (rewrite <- app_assoc; reflexivity).
    assert (i < m_nf m) as LI by (apply HI; rewrite !in_app_iff; cbn; auto).
    apply IH; [exact HI|]. unfold step.
    destruct (bary E v (m_face m i)) as [l|] eqn:BI.
    - destruct b0 as [[b0 l0]|].
      + destruct H0 as [L0 H0]. destruct (Qlt_le_dec (min3 l0) (min3 l)) as [LT|GE]; (split; [auto|]); intros fi l' F B; apply in_app_iff in F; destruct F as [F|[<-|[]]].
        * apply Qle_trans with (min3 l0); [eauto|apply Qlt_le_weak; auto].
        * rewrite BI in B. injection B as <-. apply Qle_refl.
        * eauto.
        * rewrite BI in B. injection B as <-. auto.
      + split; [auto|]. intros fi l' F B. apply in_app_iff in F. destruct F as [F|[<-|[]]]; [rewrite H0 in B by auto; discriminate|].
        rewrite BI in B. injection B as <-. apply Qle_refl.
    - destruct b0 as [[b0 l0]|].
      + destruct H0 as [L0 H0]. split; [auto|]. intros fi l' F B. apply in_app_iff in F. destruct F as [F|[<-|[]]]; [eauto|congruence].
      + intros fi F. apply in_app_iff in F. destruct F as [F|[<-|[]]]; auto. }
  specialize (G (seq 0 (m_nf m)) [] None). cbn [app] in G.
  assert (forall x, In x (seq 0 (m_nf m)) <-> x < m_nf m) as IS by (intros x; rewrite in_seq; lia).
  destruct (fold_left step (seq 0 (m_nf m)) None) as [[b l]|].
  - destruct G as [L G]; [intros x; apply IS|intros x []|]. split; auto. intros fi l' F. apply G. apply IS. auto.
  - intros fi F. apply G; [intros x; apply IS|intros x []|apply IS; auto].
Qed.

(** No triangle has the point well inside. *)
Definition nowhere (m : mesh) (v : nat) : Prop := forall fi l, fi < m_nf m -> bary E v (m_face m fi) = Some l -> (min3 l <= on_edge)%Q.

Lemma min_index_lt : forall l, min_index l < 3.
Proof. intros [[a b] c]. unfold min_index. repeat destruct (Qlt_le_dec _ _); lia. Qed.
Lemma ccw_ccw : forall k, k < 3 -> ccw (ccw k) = cw k.
Proof. intros k K. destruct (three _ K) as [->|[->| ->]]; reflexivity. Qed.

(** A side that is not on the polygon has a partner. *)
Lemma partner : forall m ins g, dsk m ins -> side (live m) g -> is_constraint E (tail (m_face m) g) (head (m_face m) g) = false ->
  exists h, side (live m) h /\ tail (m_face m) g = head (m_face m) h /\ head (m_face m) g = tail (m_face m) h.
Proof.
  intros m ins g D SG C. pose proof (d_con _ _ _ _ _ D) as (DE & _).
  destruct (halfedge_of m (head (m_face m) g) (tail (m_face m) g)) as [h|] eqn:H.
  - apply (halfedge_of_spec _ _ _ _ _ DE) in H. destruct H as (S & T1 & T2). eauto.
  - exfalso. assert (is_constraint E (tail (m_face m) g) (head (m_face m) g) = true); [|congruence].
    apply constraint_iff. left. apply (d_border _ _ _ _ _ D). split; [exists g; auto|].
    intros (h & SH & T1 & T2). exact (halfedge_of_none _ _ _ _ DE H h SH T1 T2).
Qed.

Lemma insert_point_spec : forall m ins v, dsk m ins -> labels_ok E m -> nb E <= v -> ~ In v ins -> m_nf m + 2 <= cap E ->
  exists m', insert_point E m v = Ok m' /\ labels_ok E m' /\ ((m' = m /\ nowhere m v) \/ dsk m' (v :: ins)).
Proof.
  intros m ins v D LO NV NI CAP. unfold insert_point. pose proof (locate_spec m v) as LS. destruct (locate E m v) as [[best l]|] eqn:LO'.
  2: { exists m. split; [auto|]. split; [auto|]. left. split; auto. intros fi l F B. rewrite LS in B by auto. discriminate. }
  destruct LS as [LC MX]. clear LO'.
  assert ((min3 l <= on_edge)%Q -> exists m', Ok m = Ok m' /\ labels_ok E m' /\ ((m' = m /\ nowhere m v) \/ dsk m' (v :: ins))) as KEEP.
  { intros LE. exists m. split; [auto|]. split; [auto|]. left. split; auto. intros fi l' F B. apply Qle_trans with (min3 l); [eauto|auto]. }
  unfold lt at 1. destruct (Qlt_le_dec (min3 l) (Qopp on_edge)) as [LN|_].
  { apply KEEP. apply Qlt_le_weak. apply Qlt_le_trans with (Qopp on_edge); [auto|]. unfold on_edge, Qopp, Qle. cbn. lia. }
  unfold lt at 1. destruct (Qlt_le_dec on_edge (min3 l)) as [_|SM]; [|specialize (KEEP SM)].
  - destruct (disk_in_face _ _ _ m ins best v D LC NV NI CAP (border_lt E)) as (m' & -> & D' & S'). exists m'. split; [auto|]. split; [|right; auto].
    apply (labels_new m m' v); auto.
  - destruct (_ || _); [exact KEEP|]. set (k := min_index l). assert (k < 3) as K by apply min_index_lt.
    destruct (is_constraint E _ _) eqn:C; [exact KEEP|]. clear KEEP.
    assert (side (live m) (best, ccw k)) as SG. { split; cbn [fst snd]; [rewrite (disk_live _ _ _ _ _ _ D); auto|apply ccw_lt; auto]. }
    assert (corner (m_face m best) (ccw k) = tail (m_face m) (best, ccw k)) as EU by reflexivity.
    assert (corner (m_face m best) (cw k) = head (m_face m) (best, ccw k)) as EW by (unfold head; cbn [fst snd]; rewrite ccw_ccw; auto).
    rewrite EU, EW in *. destruct (partner _ _ _ D SG C) as (h & SH & T1 & T2). clear EU EW C.
    destruct (Nat.le_ge_cases (tail (m_face m) (best, ccw k)) (head (m_face m) (best, ccw k))) as [LE|GE].
    + rewrite Nat.min_l, Nat.max_r by auto.
      destruct (disk_on_edge _ _ _ m ins (best, ccw k) h v D SG SH T1 T2 NV NI CAP) as (m' & -> & D' & S').
      exists m'. split; [auto|]. split; [|right; auto]. apply (labels_new m m' v); auto.
    + rewrite Nat.min_r, Nat.max_l by auto. rewrite T1, T2.
      destruct (disk_on_edge _ _ _ m ins h (best, ccw k) v D SH SG (eq_sym T2) (eq_sym T1) NV NI CAP) as (m' & -> & D' & S').
      exists m'. split; [auto|]. split; [|right; auto]. apply (labels_new m m' v); auto.
Qed.

Lemma insert_interior_spec : forall k a m ins, dsk m ins -> labels_ok E m -> nb E <= a -> a + k <= nb E + ni E ->
  (forall v, In v ins -> nb E <= v < a) -> length ins + k <= ni E ->
  exists m' ins', insert_interior E m (seq a k) = Ok m' /\ dsk m' ins' /\ labels_ok E m' /\
    (forall v, In v ins' -> nb E <= v < a + k) /\ (forall v, v < a -> In v ins' <-> In v ins) /\
    (forall v, a <= v < a + k -> ~ In v ins' -> exists m0 ins0, dsk m0 ins0 /\ (forall u, In u ins0 <-> In u ins' /\ u < v) /\ nowhere m0 v).
Proof.
  induction k as [|k IH]; intros a m ins D LO NA AK I L; cbn [seq insert_interior].
  { exists m, ins. split; [auto|]. split; [auto|]. split; [auto|]. split; [intros v V; rewrite Nat.add_0_r; auto|]. split; [tauto|]. intros v V. lia. }
  assert (~ In a ins) as NI by (intros V; apply I in V; lia).
  destruct (insert_point_spec m ins a D LO) as (m1 & -> & LO1 & D1); [lia|auto| |].
  { rewrite (d_nf _ _ _ _ _ D). unfold cap. lia. }
  cbn [bind]. destruct D1 as [[-> NW]|D1].
  - destruct (IH (S a) m ins) as (m' & ins' & EQ & D' & LO' & R & K & DR); auto; try lia; [intros v V; apply I in V; lia|].
    exists m', ins'. split; [auto|]. split; [auto|]. split; [auto|]. split; [intros v V; apply R in V; lia|].
    split; [intros v V; apply K; lia|]. intros v V N. destruct (Nat.eq_dec v a) as [->|NE]; [|apply DR; auto; lia].
    exists m, ins. split; [auto|]. split; [|auto]. intros u. split.
    + intros U. split; [apply K; [apply I in U; lia|auto]|apply I in U; lia].
    + intros [U UL]. apply K in U; [auto|lia].
  - destruct (IH (S a) m1 (a :: ins)) as (m' & ins' & EQ & D' & LO' & R & K & DR); auto; try lia.
    + intros v [<-|V]; [lia|apply I in V; lia].
    + cbn [length]. lia.
    + exists m', ins'. split; [auto|]. split; [auto|]. split; [auto|]. split; [intros v V; apply R in V; lia|].
      split.
      * intros v V. rewrite K by lia. cbn. split; [intros [->|X]; [lia|auto]|auto].
      * intros v V N. destruct (Nat.eq_dec v a) as [->|NE]; [|apply DR; auto; lia]. destruct N. apply K; [lia|left; auto].
Qed.

(** ** make_delaunay *)
Lemma to_flip_spec : forall m ins h o, dsk m ins -> labels_ok E m -> m_opp m h = Some o ->
  match to_flip E m h o with
  | Ok true => exists m', flip m (Nat.min (from m h) (to m h)) (Nat.max (from m h) (to m h)) = Ok m' /\ dsk m' ins /\ labels_ok E m'
  | Ok false => True
  | Throw e => e = ExOutOfRange /\ bad_labels E
  | UB => False
  end.
Proof.
  intros m ins h o D LO OP. unfold to_flip. destruct (is_constraint E _ _); [auto|].
  pose proof (shares_throw E (apex m h) (apex m o)) as ST. destruct (shares_edge E (apex m h) (apex m o)) as [s|e|] eqn:SH; cbn [bind]; [|auto|auto].
  destruct s; cbn [negb andb]; [auto|]. destruct (_ && _) eqn:AND; [|auto]. apply andb_true_iff in AND. destruct AND as [_ NE].
  pose proof (d_con _ _ _ _ _ D) as (DE & _). pose proof DE as (_ & _ & DO & _). apply DO in OP. destruct OP as (S1 & S2 & T1 & T2).
  change (apex m h) with (third (m_face m) h) in *. change (apex m o) with (third (m_face m) o) in *.
  set (c := third (m_face m) h) in *. set (d := third (m_face m) o) in *.
  assert (~ has_side m c d /\ ~ has_side m d c) as [N1 N2].
  { destruct (halfedge_of m (Nat.min c d) (Nat.max c d)) eqn:H1; [discriminate|]. destruct (halfedge_of m (Nat.max c d) (Nat.min c d)) eqn:H2; [discriminate|].
    assert (forall a b, halfedge_of m a b = None -> ~ has_side m a b) as HN.
    { intros a b H (k & SK & K1 & K2). exact (halfedge_of_none _ _ _ _ DE H k SK K1 K2). }
    destruct (Nat.le_ge_cases c d) as [LE|GE].
    - rewrite Nat.min_l, Nat.max_r in H1, H2 by auto. auto.
    - rewrite Nat.min_r, Nat.max_l in H1, H2 by auto. auto. }
  assert (forall a b, (a = c /\ b = d) \/ (a = d /\ b = c) -> unlabelled E a b) as U.
  { intros a b [[-> ->]|[-> ->]]; right; right; [|rewrite shares_sym]; auto. }
  change (from m h) with (tail (m_face m) h). change (to m h) with (head (m_face m) h).
  destruct (Nat.le_ge_cases (tail (m_face m) h) (head (m_face m) h)) as [LE|GE].
  - rewrite Nat.min_l, Nat.max_r by auto. destruct (disk_flip _ _ _ m ins h o D S1 S2 T1 T2 N1 N2) as (m' & EQ & D' & _ & SI & _).
    exists m'. split; [auto|]. split; [auto|]. intros a b S. destruct (SI a b S) as [S'|S']; [apply LO; auto|apply U; auto].
  - rewrite Nat.min_r, Nat.max_l by auto. rewrite T1, T2.
    destruct (disk_flip _ _ _ m ins o h D S2 S1 (eq_sym T2) (eq_sym T1) N2 N1) as (m' & EQ & D' & _ & SI & _).
    exists m'. split; [auto|]. split; [auto|]. intros a b S. destruct (SI a b S) as [S'|S']; [apply LO; auto|].
    apply U. destruct S'; [right|left]; auto.
Qed.

Definition settled (m : mesh) (h : halfedge) : Prop := forall o, m_opp m h = Some o -> to_flip E m h o = Ok false.

Lemma flip_pass_spec : forall hs m ins fl ch, dsk m ins -> labels_ok E m ->
  match flip_pass E hs m fl ch with
  | Ok (m', ch') => dsk m' ins /\ labels_ok E m' /\ (ch' = false -> ch = false /\ ((forall x, fl x = false) -> m' = m /\ Forall (settled m) hs))
  | Throw e => e = ExOutOfRange /\ bad_labels E
  | UB => False
  end.
Proof.
  induction hs as [|h hs IH]; intros m ins fl ch D LO; cbn [flip_pass]; [auto|].
  assert (settled m h -> match flip_pass E hs m fl ch with
  | Ok (m', ch') => dsk m' ins /\ labels_ok E m' /\ (ch' = false -> ch = false /\ ((forall x, fl x = false) -> m' = m /\ Forall (settled m) (h :: hs)))
  | Throw e => e = ExOutOfRange /\ bad_labels E
  | UB => False
  end) as SK.
  { intros ST. specialize (IH m ins fl ch D LO). destruct (flip_pass E hs m fl ch) as [[m' ch']|e|]; auto.
    destruct IH as (D' & LO' & H). split; [auto|]. split; [auto|]. intros C. destruct (H C) as [C' F]. split; [auto|].
    intros FL. destruct (F FL) as [-> F']. split; auto. }
  destruct (is_constraint E _ _) eqn:C.
  { apply SK. intros o O. unfold to_flip. rewrite C. reflexivity. }
  destruct (m_opp m h) as [o|] eqn:O; [|apply SK; intros o O'; congruence].
  destruct (fl (fst h) || fl (fst o)) eqn:FL.
  { specialize (IH m ins fl ch D LO). destruct (flip_pass E hs m fl ch) as [[m' ch']|e|]; auto.
    destruct IH as (D' & LO' & H). split; [auto|]. split; [auto|]. intros C'. destruct (H C') as [C2 F]. split; [auto|].
    intros FA. rewrite !FA in FL. discriminate. }
  pose proof (to_flip_spec m ins h o D LO O) as TS. destruct (to_flip E m h o) as [t|e|] eqn:T; cbn [bind]; auto. destruct t.
  - destruct TS as (m1 & -> & D1 & LO1). cbn [bind]. specialize (IH m1 ins (upd (upd fl (fst h) true) (fst o) true) true D1 LO1).
    destruct (flip_pass E hs m1 _ true) as [[m' ch']|e|]; auto. destruct IH as (D' & LO' & H). split; [auto|]. split; [auto|].
    intros C'. destruct (H C'). discriminate.
  - apply SK. intros o' O'. congruence.
Qed.

Lemma sorted_perm : forall m l, Permutation (fold_right (insert_sorted m) [] l) l.
Proof.
  intros m l. induction l as [|h l IH]; cbn [fold_right]; auto. rewrite <- IH at 2. generalize (fold_right (insert_sorted m) [] l). intros s.
  induction s as [|g s IHs]; cbn [insert_sorted]; auto. destruct (key_le m h g); auto. rewrite IHs. apply perm_swap.
Qed.

Lemma delaunay_spec : forall budget m ins, dsk m ins -> labels_ok E m ->
  match delaunay E budget m with
  | Ok (m', ch) => dsk m' ins /\ labels_ok E m' /\ (ch = false -> Forall (settled m') (interior_sides m'))
  | Throw e => e = ExOutOfRange /\ bad_labels E
  | UB => False
  end.
Proof.
  induction budget as [|budget IH]; intros m ins D LO; cbn [delaunay]; [split; [auto|split; [auto|discriminate]]|].
  pose proof (flip_pass_spec (sorted_sides m) m ins (fun _ => false) false D LO) as FP.
  destruct (flip_pass E (sorted_sides m) m (fun _ => false) false) as [[m1 ch]|e|]; cbn [bind fst snd]; auto.
  destruct FP as (D1 & LO1 & F). destruct ch; [apply IH; auto|]. split; [auto|]. split; [auto|]. intros _.
  destruct (F eq_refl) as [_ F']. destruct (F' (fun _ => eq_refl)) as [-> FA].
  apply Forall_forall. intros h H. rewrite Forall_forall in FA. apply FA. apply (Permutation_in _ (Permutation_sym (sorted_perm m _)) H).
Qed.

(** ** The faces handed out *)
Lemma keep_all : forall (A : Type) (f : A -> bool) l, (forall x, In x l -> f x = true) -> filter f l = l.
Proof. intros A f l. induction l as [|x l IH]; intros H; cbn; auto. rewrite H by (left; auto). f_equal. apply IH. intros y Y. apply H. right. auto. Qed.
Lemma take_live : forall m ins, dsk m ins -> take_faces m = map (m_face m) (seq 0 (m_nf m)).
Proof.
  intros m ins D. unfold take_faces. f_equal. apply keep_all. intros x X. apply in_seq in X.
  rewrite (d_live _ _ _ _ _ D x); [reflexivity|lia].
Qed.

Lemma sides_in3 : forall (f : face) a b, In (a, b) (sides f) <-> in3 f a b.
Proof.
  intros [[p q] r] a b. cbn. split.
  - intros [X|[X|[X|[]]]]; injection X as <- <-; auto.
  - intros [[-> ->]|[[-> ->]|[-> ->]]]; auto.
Qed.
Lemma all_sides_iff : forall m ins, dsk m ins -> forall a b, In (a, b) (all_sides (take_faces m)) <-> has_side m a b.
Proof.
  intros m ins D a b. rewrite (take_live _ _ D). unfold all_sides. rewrite (disk_side _ _ _ _ _ _ _ D), in_flat_map. split.
  - intros (f & F & I). apply in_map_iff in F. destruct F as (fi & <- & F). apply in_seq in F. exists fi. split; [lia|apply sides_in3; auto].
  - intros (fi & L & I). exists (m_face m fi). split; [apply in_map, in_seq; lia|apply sides_in3; auto].
Qed.
Lemma in3_self : forall (f : face) a b, distinct3 f -> in3 f a b -> in3 f b a -> False.
Proof. intros [[p q] r] a b (N1 & N2 & N3) X Y. cbn in X, Y. destruct X as [[-> ->]|[[-> ->]|[-> ->]]], Y as [[X Y]|[[X Y]|[X Y]]]; congruence. Qed.

Lemma NoDup_sides : forall f : face, distinct3 f -> NoDup (sides f).
Proof.
  intros [[p q] r] (N1 & N2 & N3). cbn. constructor; [|constructor; [|constructor; [intros []|constructor]]].
  - intros [X|[X|[]]]; congruence.
  - intros [X|[]]; congruence.
Qed.
Lemma sides_disjoint : forall m ins, dsk m ins -> forall i j a b, i < m_nf m -> j < m_nf m -> in3 (m_face m i) a b -> in3 (m_face m j) a b -> i = j.
Proof.
  intros m ins D i j a b I J X Y. pose proof (d_con _ _ _ _ _ D) as (DE & _). apply in3_iff in X. apply in3_iff in Y.
  destruct X as (k & K & X1 & X2), Y as (k' & K' & Y1 & Y2).
  assert ((i, k) = (j, k')) as EQ; [|congruence]. apply (unique_side m (live m)); auto.
  - split; [rewrite (disk_live _ _ _ _ _ _ D); auto|auto].
  - split; [rewrite (disk_live _ _ _ _ _ _ D); auto|auto].
  - unfold tail. cbn [fst snd]. congruence.
  - unfold head. cbn [fst snd]. congruence.
Qed.

Lemma disk_triangulation : forall m ins, dsk m ins -> (forall v, In v ins -> nb E <= v < nb E + ni E) -> triangulation E ins (take_faces m).
Proof.
  intros m ins D R. unfold triangulation. pose proof (take_live _ _ D) as TL.
  assert (forall i f, nth_error (take_faces m) i = Some f -> i < m_nf m /\ f = m_face m i) as NT.
  { intros i f H. rewrite TL in H. assert (i < m_nf m) as L.
    { rewrite <- (seq_length (m_nf m) 0), <- (map_length (m_face m)). apply nth_error_Some. congruence. }
    split; auto. rewrite nth_error_map in H. rewrite (nth_error_nth' _ 0) in H by (rewrite seq_length; auto).
    rewrite seq_nth in H by auto. cbn in H. congruence. }
  split; [apply (d_ins _ _ _ _ _ D)|]. split; [auto|]. split; [rewrite TL, map_length, seq_length; apply (d_nf _ _ _ _ _ D)|].
  split. { rewrite TL. apply Forall_forall. intros f F. apply in_map_iff in F. destruct F as (fi & <- & F). apply in_seq in F. apply (disk_distinct _ _ _ _ _ _ D). lia. }
  split.
  { rewrite TL. unfold all_sides. rewrite flat_map_concat_map, map_map, <- flat_map_concat_map. apply NoDup_flat_map.
    - apply seq_NoDup.
    - intros x X. apply in_seq in X. apply NoDup_sides, (disk_distinct _ _ _ _ _ _ D). lia.
    - intros x y [a b] X Y H1 H2. apply in_seq in X. apply in_seq in Y. apply sides_in3 in H1. apply sides_in3 in H2.
      apply (sides_disjoint _ _ D x y a b); auto; lia. }
  split. { intros a b. rewrite !(all_sides_iff _ _ D). apply (d_border _ _ _ _ _ D). }
  split.
  { intros v. rewrite <- (d_used _ _ _ _ _ D). unfold used. rewrite TL. split.
    - intros (f & F & H). apply in_map_iff in F. destruct F as (fi & <- & F). apply in_seq in F. exists fi. split; [lia|auto].
    - intros (fi & L & H). exists (m_face m fi). split; [apply in_map, in_seq; lia|auto]. }
  intros i j f g I J NE SC. destruct (NT _ _ I) as [LI ->]. destruct (NT _ _ J) as [LJ ->].
  destruct (d_diff _ _ _ _ _ D i j LI LJ NE) as (v & V1 & V2). apply V2. apply SC. auto.
Qed.

Lemma common_shares : forall a b, shares_edge E a b = Ok false -> ~ common_label E a b.
Proof.
  intros a b S (x & y & l & X & Y & A & B & L & LX & LY).
  assert (same_label x y = true /\ same_label y x = true) as [SL1 SL2].
  { assert (forall p q : Z * Z, l = fst p \/ l = snd p -> l = fst q \/ l = snd q -> same_label p q = true) as G.
    { intros p q P Q. unfold same_label. rewrite orb_true_iff, !andb_true_iff, !orb_true_iff, !Z.eqb_eq, !Z.leb_le.
      destruct P as [<-|<-], Q as [<-|<-]; auto 10. }
    split; apply G; auto. }
  assert (forall p : Z * Z, l = fst p \/ l = snd p -> (fst p <? 0)%Z && (snd p <? 0)%Z = false) as NN.
  { intros p P. destruct (Z.ltb_spec (fst p) 0), (Z.ltb_spec (snd p) 0); auto. lia. }
  unfold shares_edge in S. destruct (labels E) as [|l0 ls] eqn:EL; [destruct a; discriminate|]. rewrite <- EL in *.
  destruct (Nat.leb_spec (nb E) (Nat.min a b)); [lia|]. destruct (Nat.leb_spec (nb E) (Nat.max a b)); [lia|]. cbn [orb] in S.
  destruct (Nat.le_ge_cases a b) as [LE|GE].
  - rewrite Nat.min_l, Nat.max_r, X, Y, (NN x LX), SL1 in S by auto. discriminate.
  - rewrite Nat.min_r, Nat.max_l, X, Y, (NN y LY), SL2 in S by auto. discriminate.
Qed.
Lemma shares_common : forall a b, shares_edge E a b = Ok true -> common_label E a b.
Proof.
  intros a b S. unfold shares_edge in S. destruct (labels E) as [|l0 ls] eqn:EL; [discriminate|]. rewrite <- EL in *.
  destruct (Nat.leb_spec (nb E) (Nat.min a b)); [discriminate|]. destruct (Nat.leb_spec (nb E) (Nat.max a b)); [discriminate|]. cbn [orb] in S.
  destruct (nth_error (labels E) (Nat.min a b)) as [x|] eqn:X; [|discriminate]. destruct (_ && _)%Z eqn:N; [discriminate|].
  destruct (nth_error (labels E) (Nat.max a b)) as [y|] eqn:Y; [|discriminate]. injection S as S.
  unfold same_label in S. rewrite orb_true_iff, !andb_true_iff, !orb_true_iff, !Z.eqb_eq, !Z.leb_le in S.
  assert (exists l, (0 <= l)%Z /\ (l = fst x \/ l = snd x) /\ (l = fst y \/ l = snd y)) as (l & L0 & L1 & L2).
  { destruct S as [[P Q]|[P Q]]; [exists (fst x)|exists (snd x)]; auto. }
  destruct (Nat.le_ge_cases a b) as [LE|GE].
  - rewrite Nat.min_l in X by auto. rewrite Nat.max_r in Y by auto. exists x, y, l. repeat split; auto; lia.
  - rewrite Nat.min_r in X by auto. rewrite Nat.max_l in Y by auto. exists y, x, l. repeat split; auto; lia.
Qed.

Lemma turned_side : forall (fc : nat -> face) fi x y c, turned (fc fi) x y c ->
  exists k, k < 3 /\ tail fc (fi, k) = x /\ head fc (fi, k) = y /\ third fc (fi, k) = c.
Proof. intros fc fi x y c [T|[T|T]]; [exists 0|exists 2|exists 1]; unfold tail, head, third; cbn [fst snd]; rewrite T; cbn; auto. Qed.

Lemma settled_flippable : forall m ins, dsk m ins -> Forall (settled m) (interior_sides m) ->
  forall x y c d, flippable E (take_faces m) x y c d -> border E x y \/ border E y x.
Proof.
  intros m ins D SE x y c d (XY & (f & g & F & G & TF & TG) & EN & P1 & P2 & NL & N1 & N2).
  apply constraint_iff. destruct (is_constraint E x y) eqn:C; auto. exfalso.
  rewrite (take_live _ _ D) in F, G. apply in_map_iff in F. apply in_map_iff in G. destruct F as (fi & <- & F), G as (gi & <- & G).
  apply in_seq in F. apply in_seq in G.
  destruct (turned_side _ _ _ _ _ TF) as (k & K & K1 & K2 & K3). destruct (turned_side _ _ _ _ _ TG) as (l & L & L1 & L2 & L3).
  assert (side (live m) (fi, k) /\ side (live m) (gi, l)) as [S1 S2].
  { split; (split; cbn [fst snd]; [rewrite (disk_live _ _ _ _ _ _ D); lia|auto]). }
  pose proof (d_con _ _ _ _ _ D) as (DE & _). pose proof DE as (_ & _ & DO & _).
  assert (m_opp m (fi, k) = Some (gi, l)) as OP by (apply DO; split; [exact S1|]; split; [exact S2|]; split; [transitivity x|transitivity y]; auto).
  rewrite Forall_forall in SE. assert (In (fi, k) (interior_sides m)) as IN.
  { unfold interior_sides. apply filter_In. split.
    - apply in_flat_map. exists fi. split.
      + apply filter_In. split; [apply in_seq; lia|]. rewrite (d_live _ _ _ _ _ D fi); [reflexivity|lia].
      + destruct (three _ K) as [->|[->| ->]]; cbn; auto.
    - rewrite OP, andb_true_r. apply Nat.ltb_lt. change (tail (m_face m) (fi, k) < head (m_face m) (fi, k)). lia. }
  pose proof (SE _ IN _ OP) as TF'. unfold to_flip in TF'.
  change (from m (fi, k)) with (tail (m_face m) (fi, k)) in TF'. change (to m (fi, k)) with (head (m_face m) (fi, k)) in TF'.
  change (apex m (fi, k)) with (third (m_face m) (fi, k)) in TF'. change (apex m (gi, l)) with (third (m_face m) (gi, l)) in TF'.
  rewrite K1, K2, K3, L3, C in TF'.
  pose proof (shares_throw E c d) as ST. destruct (shares_edge E c d) as [[]|e|] eqn:SH; cbn [bind] in TF'; try discriminate.
  { apply NL, shares_common. auto. }
  rewrite EN, P1, P2 in TF'. cbn [negb andb] in TF'. injection TF' as TF'.
  rewrite (all_sides_iff _ _ D) in N1, N2.
  assert (forall a b, ~ has_side m a b -> halfedge_of m a b = None) as HN.
  { intros a b NS. destruct (halfedge_of m a b) as [h|] eqn:H; auto. apply (halfedge_of_spec _ _ _ _ _ DE) in H. destruct NS. exists h. auto. }
  destruct (Nat.le_ge_cases c d) as [LE|GE].
  - rewrite Nat.min_l, Nat.max_r, (HN c d), (HN d c) in TF' by auto. discriminate.
  - rewrite Nat.min_r, Nat.max_l, (HN c d), (HN d c) in TF' by auto. discriminate.
Qed.

Theorem triangulate_spec : match triangulate E with
  | Ok (true, fs, exhausted) =>
      (exists ins, triangulation E ins fs /\ forall v, nb E <= v < nb E + ni E -> ~ In v ins -> outside E ins v) /\
      (forall a b, In (a, b) (all_sides fs) -> border E a b \/ border E b a \/ ~ common_label E a b) /\
      (exhausted = false -> forall x y c d, flippable E fs x y c d -> border E x y \/ border E y x)
  | Ok (false, fs, _) => fs = []
  | Throw e => e = ExOutOfRange /\ labels E <> [] /\ length (labels E) < nb E
  | UB => False
  end.
Proof.
  unfold triangulate. destruct (Nat.ltb_spec (nb E) 3); [lia|].
  pose proof (clip_start E NB) as CS. change (cap E) with (nb E - 2 + 2 * ni E) in CS at 1.
  destruct (clip E (nb E - 3) (ring0 E) (empty (nb E - 2 + 2 * ni E))) as [[s m]|e|]; cbn [bind fst snd]; auto.
  destruct s; [|reflexivity]. destruct CS as [D LO].
  destruct (insert_interior_spec (ni E) (nb E) m []) as (m1 & ins & -> & D1 & LO1 & R1 & _ & DR); auto.
  - intros v [].
  - cbn [bind]. unfold make_delaunay. pose proof (delaunay_spec (10 + 3 * m_nf m1) m1 ins D1 LO1) as DS.
    destruct (delaunay E (10 + 3 * m_nf m1) m1) as [[m2 ch]|e|]; cbn [bind fst snd]; auto. destruct DS as (D2 & LO2 & F).
    split.
    { exists ins. split; [apply disk_triangulation; auto|]. intros v V N. destruct (DR v V N) as (m0 & ins0 & D0 & I0 & NW).
      exists (take_faces m0), ins0. split; [|split; [auto|]].
      - apply disk_triangulation; auto. intros u U. apply I0 in U. destruct U as [U _]. apply R1 in U. auto.
      - intros f l FI. rewrite (take_live _ _ D0) in FI. apply in_map_iff in FI. destruct FI as (fi & <- & FI). apply in_seq in FI. apply NW. lia. }
    split.
    + intros a b AB. apply (all_sides_iff _ _ D2) in AB. destruct (LO2 a b AB) as [X|[X|X]]; auto. right. right. apply common_shares. auto.
    + intros -> x y c d. apply (settled_flippable m2 ins D2). auto.
Qed.
End Main.

Theorem too_few : forall E, nb E < 3 -> triangulate E = Throw ExInvalidArgument.
Proof. intros E H. unfold triangulate. apply Nat.ltb_lt in H. rewrite H. reflexivity. Qed.
