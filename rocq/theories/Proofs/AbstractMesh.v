From Coq Require Import List Arith Bool Lia.
From Verif Require Import Model.Outcome Model.MeshDefects Model.AbstractMesh
  Spec.VertexClusterer Spec.AbstractMesh Proofs.MeshDefects.
Import ListNotations.

(** ** Halfedges *)

Lemma he_eqb_spec : forall g h, reflect (g = h) (he_eqb g h).
Proof.
  intros [a b] [c d]. unfold he_eqb. cbn [fst snd]. apply iff_reflect. rewrite andb_true_iff, !Nat.eqb_eq.
  split; [intros E; injection E as -> ->; auto|intros [-> ->]; auto].
Qed.

Lemma he_dec : forall g h : halfedge, {g = h} + {g <> h}.
Proof. intros g h. destruct (he_eqb_spec g h); auto. Qed.

Lemma upd_he_same : forall A (f : halfedge -> A) h x, upd_he f h x h = x.
Proof. intros. unfold upd_he. destruct (he_eqb_spec h h); congruence. Qed.
Lemma upd_he_other : forall A (f : halfedge -> A) h x g, g <> h -> upd_he f h x g = f g.
Proof. intros. unfold upd_he. destruct (he_eqb_spec g h); congruence. Qed.

(** Rotations inside a face. *)
Lemma three : forall k, k < 3 -> k = 0 \/ k = 1 \/ k = 2. Proof. lia. Qed.

Lemma corner_inj : forall f j k, distinct3 f -> j < 3 -> k < 3 -> corner f j = corner f k -> j = k.
Proof.
  intros [[a b] c] j k (D1 & D2 & D3) J K E. destruct (three j J) as [->|[->| ->]], (three k K) as [->|[->| ->]]; cbn in E; congruence.
Qed.

Lemma ccw_lt : forall k, k < 3 -> ccw k < 3. Proof. intros k K. destruct (three k K) as [->|[->| ->]]; cbn; lia. Qed.
Lemma cw_lt : forall k, k < 3 -> cw k < 3. Proof. intros k K. destruct (three k K) as [->|[->| ->]]; cbn; lia. Qed.

Lemma no_self_reverse : forall f j k, distinct3 f -> j < 3 -> k < 3 ->
  corner f j = corner f (ccw k) -> corner f (ccw j) = corner f k -> False.
Proof.
  intros f j k D J K E E'. apply corner_inj in E; auto using ccw_lt. apply corner_inj in E'; auto using ccw_lt. subst.
  destruct (three k K) as [->|[->| ->]]; cbn in E'; discriminate.
Qed.

Lemma has_corner_iff : forall f v, has_corner f v <-> exists k, k < 3 /\ corner f k = v.
Proof.
  intros [[a b] c] v. cbn. split.
  - intros [->|[->| ->]]; [exists 0|exists 1|exists 2]; cbn; auto.
  - intros (k & K & E). destruct (three k K) as [->|[->| ->]]; cbn in E; auto.
Qed.

Lemma corners_of_side : forall f k, distinct3 f -> k < 3 ->
  corner f k <> corner f (ccw k) /\ corner f (ccw k) <> corner f (cw k) /\ corner f (cw k) <> corner f k.
Proof.
  intros [[a b] c] k (D1 & D2 & D3) K. destruct (three k K) as [->|[->| ->]]; cbn; auto.
Qed.

(** The three sides seen from one of them. *)
Lemma sides_of_face : forall f j k, j < 3 -> k < 3 ->
  (j = k /\ corner f j = corner f k /\ corner f (ccw j) = corner f (ccw k)) \/
  (j = ccw k /\ corner f j = corner f (ccw k) /\ corner f (ccw j) = corner f (cw k)) \/
  (j = cw k /\ corner f j = corner f (cw k) /\ corner f (ccw j) = corner f k).
Proof.
  intros [[a b] c] j k J K. destruct (three j J) as [->|[->| ->]], (three k K) as [->|[->| ->]]; cbn; auto 7.
Qed.

(** ** halfedge_of *)

Lemma unique_side : forall m R g h, describes m R -> side R g -> side R h ->
  tail (m_face m) g = tail (m_face m) h -> head (m_face m) g = head (m_face m) h -> g = h.
Proof.
  intros m R g h (_ & C & _) G H T D. destruct (he_dec g h) as [E|E]; auto. exfalso. apply C. exists g, h. auto.
Qed.

Lemma halfedge_of_spec : forall m R a b h, describes m R ->
  (halfedge_of m a b = Some h <-> side R h /\ tail (m_face m) h = a /\ head (m_face m) h = b).
Proof.
  intros m R a b h D. pose proof D as (_ & _ & _ & _ & V & N). unfold halfedge_of. split.
  - intros E. apply find_some in E. destruct E as [I E]. apply Nat.eqb_eq in E.
    destruct (a <? m_nv m); [|destruct I]. apply V in I. destruct I as [S T]. auto.
  - intros (S & T & H). pose proof (N h S) as L. rewrite T in L. apply Nat.ltb_lt in L. rewrite L.
    destruct (find _ (m_vh m a)) as [g|] eqn:E.
    + apply find_some in E. destruct E as [I E]. apply Nat.eqb_eq in E. apply V in I. destruct I as [S' T'].
      f_equal. apply (unique_side m R); auto; [congruence|]. unfold to in E. unfold head at 1. congruence.
    + pose proof (find_none _ _ E h) as F. apply Nat.eqb_neq in F; [|apply V; auto]. exfalso. apply F. exact H.
Qed.

Lemma halfedge_of_none : forall m R a b, describes m R -> halfedge_of m a b = None ->
  forall h, side R h -> tail (m_face m) h = a -> head (m_face m) h = b -> False.
Proof.
  intros m R a b D E h S T H. assert (halfedge_of m a b = Some h) by (apply (halfedge_of_spec m R); auto). congruence.
Qed.

(** ** register_face *)

Definition frame (m m' : mesh) : Prop :=
  m_cap m' = m_cap m /\ m_nf m' = m_nf m /\ m_face m' = m_face m /\ m_deleted m' = m_deleted m.

Lemma frame_refl : forall m, frame m m. Proof. repeat split. Qed.
Lemma frame_trans : forall m m' m'', frame m m' -> frame m' m'' -> frame m m''.
Proof. intros m m' m'' (A & B & C & D) (A' & B' & C' & D'). repeat split; congruence. Qed.

Definition plus (R : nat -> Prop) (fi : nat) : nat -> Prop := fun x => R x \/ x = fi.
Definition minus (R : nat -> Prop) (fi : nat) : nat -> Prop := fun x => R x /\ x <> fi.

Section Register.
Variable m : mesh.
Variable R : nat -> Prop.
Variable fi : nat.
Hypothesis D : describes m R.
Hypothesis NR : ~ R fi.
Hypothesis DF : distinct3 (m_face m fi).
Let fc := m_face m.
Definition reverse (g h : halfedge) : Prop := tail (m_face m) g = head (m_face m) h /\ head (m_face m) g = tail (m_face m) h.

Definition paired (n : nat) (o : halfedge -> option halfedge) : Prop :=
  forall g h, o g = Some h <->
    (side R g /\ side R h /\ reverse g h) \/
    (exists k, k < n /\ g = (fi, k) /\ side R h /\ reverse g h) \/
    (exists k, k < n /\ h = (fi, k) /\ side R g /\ reverse g h).

Lemma paired_0 : paired 0 (m_opp m).
Proof.
  intros g h. destruct D as (_ & _ & O & _). rewrite O. unfold reverse. split; [tauto|].
  intros [H|[(k & K & _)|(k & K & _)]]; [auto|lia|lia].
Qed.

Lemma not_side : forall k, ~ side R (fi, k).
Proof. intros k [S _]. auto. Qed.

Lemma pair_side_step : forall n o, n < 3 -> paired n o ->
  match pair_side (set_opp m o) fi n with
  | Ok m' => exists o', m' = set_opp m o' /\ paired (S n) o' /\
      ~ (exists h, side R h /\ tail fc h = tail fc (fi, n) /\ head fc h = head fc (fi, n))
  | Throw e => e = ExRuntimeError /\ exists h, side R h /\ tail fc h = tail fc (fi, n) /\ head fc h = head fc (fi, n)
  | UB => False
  end.
Proof.
  intros n o L P. unfold pair_side. 
  change (halfedge_of (set_opp m o)) with (halfedge_of m). change (from (set_opp m o) (fi, n)) with (tail fc (fi, n)).
  change (to (set_opp m o) (fi, n)) with (head fc (fi, n)). cbn [m_opp set_opp].
  destruct (halfedge_of m (tail fc (fi, n)) (head fc (fi, n))) as [h|] eqn:E.
  - split; auto. exists h. apply (halfedge_of_spec m R); auto.
  - pose proof (halfedge_of_none _ _ _ _ D E) as F.
    assert (forall k, k < 3 -> tail fc (fi, k) = tail fc (fi, n) -> k = n) as IJ.
    { intros k K T. apply (corner_inj (fc fi)); auto. }
    destruct (halfedge_of m (head fc (fi, n)) (tail fc (fi, n))) as [p|] eqn:Q.
    + apply (halfedge_of_spec m R) in Q; auto. destruct Q as (SP & TP & HP).
      eexists. split; [reflexivity|]. split; [|intros (h & S & T & H); eauto].
      intros g x. destruct (he_dec g p) as [E1|E1]; [subst g; rewrite upd_he_same|].
      * split.
        -- intros X. injection X as <-. right. right. exists n. split; [lia|]. split; [auto|]. split; [auto|]. split; auto.
        -- intros [(_ & S & RV)|[(k & K & -> & _)|(k & K & -> & _ & RV)]].
           ++ exfalso. destruct RV as [RV1 RV2]. apply (F x S); unfold fc in *; congruence.
           ++ exfalso. apply (not_side k). auto.
           ++ destruct RV as [RV1 RV2]. f_equal. f_equal. symmetry. apply IJ; [lia|]. unfold fc in *. congruence.
      * rewrite upd_he_other by auto. destruct (he_dec g (fi, n)) as [E2|E2]; [subst g; rewrite upd_he_same|].
        -- split.
           ++ intros X. injection X as <-. right. left. exists n. split; [lia|]. split; [auto|]. split; [auto|]. split; auto.
           ++ intros [(S & _)|[(k & K & X & S & RV)|(k & K & _ & S & _)]]; try (exfalso; eapply not_side; eauto; fail).
              f_equal. destruct RV as [RV1 RV2]. apply (unique_side m R); auto; unfold fc in *; congruence.
        -- rewrite upd_he_other by auto. rewrite (P g x). split.
           ++ intros [H|[(k & K & H)|(k & K & H)]]; auto; right; [left|right]; exists k; split; auto.
           ++ intros [H|[(k & K & -> & H)|(k & K & -> & S & RV)]]; auto.
              ** right. left. exists k. split; [|auto]. assert (k <> n) by congruence. lia.
              ** destruct (Nat.eq_dec k n) as [->|NE]; [|right; right; exists k; split; [lia|auto]].
                 exfalso. apply E1. destruct RV as [RV1 RV2]. apply (unique_side m R); auto; unfold fc in *; congruence.
    + pose proof (halfedge_of_none _ _ _ _ D Q) as F'.
      eexists. split; [reflexivity|]. split; [|intros (h & S & T & H); eauto].
      intros g x. destruct (he_dec g (fi, n)) as [E2|E2]; [subst g; rewrite upd_he_same|].
      * split; [discriminate|]. intros [(S & _)|[(k & K & X & S & RV)|(k & K & _ & S & _)]]; try (exfalso; eapply not_side; eauto; fail).
        exfalso. destruct RV as [RV1 RV2]. apply (F' x S); auto.
      * rewrite upd_he_other by auto. rewrite (P g x). split.
        -- intros [H|[(k & K & H)|(k & K & H)]]; auto; right; [left|right]; exists k; split; auto.
        -- intros [H|[(k & K & -> & H)|(k & K & -> & S & RV)]]; auto.
           ++ right. left. exists k. split; [|auto]. assert (k <> n) by congruence. lia.
           ++ destruct (Nat.eq_dec k n) as [->|NE]; [|right; right; exists k; split; [lia|auto]].
              exfalso. destruct RV as [RV1 RV2]. apply (F' g S); auto.
Qed.

Definition listed (n : nat) (nv : nat) (vh : nat -> list halfedge) : Prop :=
  (forall v, NoDup (vh v)) /\
  (forall v h, In h (vh v) <-> (side R h \/ exists k, k < n /\ h = (fi, k)) /\ tail (m_face m) h = v) /\
  (forall h, side R h \/ (exists k, k < n /\ h = (fi, k)) -> tail (m_face m) h < nv).

Lemma push_side_step : forall n o nv vh, n < 3 -> listed n nv vh ->
  exists nv' vh', push_side (set_vh (set_opp m o) nv vh) fi n = set_vh (set_opp m o) nv' vh' /\ listed (S n) nv' vh'.
Proof.
  intros n o nv vh L (N & V & B). unfold push_side. 
  change (from (set_vh (set_opp m o) nv vh) (fi, n)) with (tail (m_face m) (fi, n)). cbn [m_nv m_vh set_vh set_opp].
  eexists _, _. split; [reflexivity|].
  assert (~ In (fi, n) (vh (tail (m_face m) (fi, n)))) as NI.
  { intros I. apply V in I. destruct I as [[S|(k & K & E)] _]; [eapply not_side; eauto|]. injection E as <-. lia. }
  split; [|split].
  - intros v. destruct (Nat.eq_dec v (tail (m_face m) (fi, n))) as [->|NE]; [rewrite upd_same|rewrite upd_other by auto; auto].
    pose proof (N (tail (m_face m) (fi, n))) as ND. apply NoDup_rev in ND. rewrite <- (rev_involutive (_ ++ _)). apply NoDup_rev.
    rewrite rev_app_distr. cbn. constructor; auto. rewrite <- in_rev. auto.
  - intros v h.
    assert (In h (upd vh (tail (m_face m) (fi, n)) (vh (tail (m_face m) (fi, n)) ++ [(fi, n)]) v) <->
            In h (vh v) \/ (h = (fi, n) /\ v = tail (m_face m) (fi, n))) as ->.
    { destruct (Nat.eq_dec v (tail (m_face m) (fi, n))) as [->|NE]; [rewrite upd_same|rewrite upd_other by auto].
      - rewrite in_app_iff. cbn. intuition auto.
      - tauto. }
    rewrite V. split.
    + intros [[[S|(k & K & E)] T]|[-> ->]].
      * auto.
      * split; auto. right. exists k. auto.
      * split; auto. right. exists n. auto.
    + intros [[S|(k & K & E)] T]; auto. destruct (Nat.eq_dec k n) as [->|NE].
      * right. split; auto. congruence.
      * left. split; auto. right. exists k. split; auto. lia.
  - intros h [S|(k & K & E)].
    + pose proof (B h (or_introl S)). lia.
    + destruct (Nat.eq_dec k n) as [->|NE]; [subst; lia|].
      assert (tail (m_face m) h < nv) by (apply B; right; exists k; split; auto; lia). lia.
Qed.

Lemma register_spec : fi < m_nf m ->
  match register_face m fi with
  | Ok m' => describes m' (plus R fi) /\ frame m m'
  | Throw e => e = ExRuntimeError /\ clash fc (plus R fi)
  | UB => False
  end.
Proof.
  intros LF. unfold register_face.
  assert (forall n e, n < 3 -> e = ExRuntimeError /\ (exists h, side R h /\ tail fc h = tail fc (fi, n) /\ head fc h = head fc (fi, n)) ->
    e = ExRuntimeError /\ clash fc (plus R fi)) as TK.
  { intros n e L [-> (h & S & T & H)]. split; auto. exists h, (fi, n). split; [intros ->; eapply not_side; eauto|].
    split; [split; [left; apply S|apply S]|]. split; [split; [right; auto|auto]|]. auto. }
  pose proof (pair_side_step 0 (m_opp m) ltac:(lia) paired_0) as S0. 
  replace (set_opp m (m_opp m)) with m in S0 by (destruct m; reflexivity).
  destruct (pair_side m fi 0) as [m1|e|] eqn:E0; cbn [bind]; [|apply (TK 0 e); [lia|auto]|auto].
  destruct S0 as (o1 & -> & P1 & F0).
  pose proof (pair_side_step 1 o1 ltac:(lia) P1) as S1.
  destruct (pair_side (set_opp m o1) fi 1) as [m2|e|] eqn:E1; cbn [bind]; [|apply (TK 1 e); [lia|auto]|auto].
  destruct S1 as (o2 & -> & P2 & F1).
  pose proof (pair_side_step 2 o2 ltac:(lia) P2) as S2.
  destruct (pair_side (set_opp m o2) fi 2) as [m3|e|] eqn:E2; cbn [bind]; [|apply (TK 2 e); [lia|auto]|auto].
  destruct S2 as (o3 & -> & P3 & F2).
  assert (listed 0 (m_nv m) (m_vh m)) as L0.
  { destruct D as (_ & _ & _ & N & V & B). split; [auto|]. split.
    - intros v h. rewrite V. split; [tauto|]. intros [[S|(k & K & _)] T]; [auto|lia].
    - intros h [S|(k & K & _)]; [auto|lia]. }
  replace (set_opp m o3) with (set_vh (set_opp m o3) (m_nv m) (m_vh m)) at 1 by reflexivity.
  destruct (push_side_step 0 o3 _ _ ltac:(lia) L0) as (nv1 & vh1 & -> & L1).
  destruct (push_side_step 1 o3 _ _ ltac:(lia) L1) as (nv2 & vh2 & -> & L2).
  destruct (push_side_step 2 o3 _ _ ltac:(lia) L2) as (nv3 & vh3 & -> & L3).
  split; [|repeat split].
  assert (forall h, side (plus R fi) h <-> side R h \/ exists k, k < 3 /\ h = (fi, k)) as SP.
  { intros [x k]. unfold side, plus. cbn. split.
    - intros [[S| ->] K]; [auto|]. right. exists k. auto.
    - intros [[S K]|(j & J & E)]; [auto|]. injection E as -> ->. auto. }
  destruct L3 as (N & V & B). unfold describes. cbn [m_face m_nf m_opp m_vh m_nv set_vh set_opp]. split; [|split; [|split; [|split; [|split]]]].
  - intros x [S| ->]; [apply D; auto|auto].
  - assert (forall k h, k < 3 -> side R h -> tail fc h = tail fc (fi, k) -> head fc h = head fc (fi, k) -> False) as FR.
    { intros k h K S T H. destruct (three k K) as [->|[->| ->]]; [apply F0|apply F1|apply F2]; eauto. }
    intros (g & h & NE & SG & SH & T & H). apply SP in SG. apply SP in SH.
    destruct SG as [SG|(j & J & ->)], SH as [SH|(k & K & ->)].
    + apply NE. apply (unique_side m R); auto.
    + apply (FR k g); auto.
    + apply (FR j h); auto.
    + apply NE. f_equal. apply (corner_inj (m_face m fi)); auto.
  - intros g h. rewrite (P3 g h). rewrite !SP. unfold reverse. split.
    + intros [(S & S' & Q)|[(k & K & -> & S & Q)|(k & K & -> & S & Q)]].
      * tauto.
      * split; [right; exists k; auto|]. tauto.
      * split; [auto|]. split; [right; exists k; auto|]. auto.
    + intros ([S|(j & J & ->)] & [S'|(k & K & ->)] & Q).
      * auto.
      * right. right. exists k. auto.
      * right. left. exists j. auto.
      * exfalso. destruct Q as [Q1 Q2]. apply (no_self_reverse (m_face m fi) j k); auto.
  - auto.
  - intros v h. rewrite V, SP. tauto.
  - intros h S. apply B, SP. auto.
Qed.
End Register.

(** ** unregister_face *)

Section Unregister.
Variable m : mesh.
Variable R : nat -> Prop.
Variable fi : nat.
Hypothesis D : describes m R.
Hypothesis IR : R fi.

Definition gone (n : nat) (h : halfedge) : Prop := fst h = fi /\ snd h < n.
Definition unpaired (n : nat) (o : halfedge -> option halfedge) (vh : nat -> list halfedge) : Prop :=
  (forall g h, o g = Some h <-> m_opp m g = Some h /\ ~ gone n g /\ ~ gone n h) /\
  (forall v, NoDup (vh v)) /\ (forall v h, In h (vh v) <-> In h (m_vh m v) /\ ~ gone n h).

Lemma gone_S : forall n h, gone (S n) h <-> gone n h \/ h = (fi, n).
Proof.
  intros n [x k]. unfold gone. cbn. split.
  - intros [-> K]. destruct (Nat.eq_dec k n) as [->|NE]; auto. left. lia.
  - intros [[-> K]|E]; [lia|]. injection E as -> ->. lia.
Qed.

Lemma drop_side_step : forall n o vh, n < 3 -> unpaired n o vh ->
  exists o' vh', drop_side (set_vh (set_opp m o) (m_nv m) vh) fi n = Ok (set_vh (set_opp m o') (m_nv m) vh') /\
                 unpaired (S n) o' vh'.
Proof.
  intros n o vh L (P & N & V). pose proof D as (_ & _ & O & _ & _ & B).
  assert (side R (fi, n)) as SS by (split; auto).
  unfold drop_side. cbn [m_opp set_vh set_opp].
  set (o' := match o (fi, n) with Some p => upd_he (upd_he o p None) (fi, n) None | None => o end).
  set (vh' := upd vh (tail (m_face m) (fi, n)) (filter (fun g => negb (he_eqb g (fi, n))) (vh (tail (m_face m) (fi, n))))).
  exists o', vh'. split.
  - pose proof (B (fi, n) SS) as LT. apply Nat.ltb_lt in LT. unfold o'.
    destruct (o (fi, n)) as [p|];
      match goal with |- context [from ?x ?h] => change (from x h) with (tail (m_face m) (fi, n)) end;
      cbn [m_nv m_vh set_vh set_opp]; rewrite LT; reflexivity.
  - split; [|split].
    + intros g h. rewrite !gone_S.
      assert (o' g = Some h <-> o g = Some h /\ g <> (fi, n) /\ h <> (fi, n)) as ->.
      { unfold o'. destruct (o (fi, n)) as [p|] eqn:Q.
        - assert (forall x y, o x = Some y <-> o x = Some y /\ m_opp m x = Some y) as OM by (intros; rewrite P; tauto).
          apply OM in Q. destruct Q as [Q Q']. apply O in Q'. destruct Q' as (_ & SP & Q1 & Q2).
          destruct (he_dec g (fi, n)) as [->|E1]; [rewrite upd_he_same; split; [discriminate|tauto]|]. rewrite upd_he_other by auto.
          destruct (he_dec g p) as [->|E2]; [rewrite upd_he_same|rewrite upd_he_other by auto].
          + split; [discriminate|]. intros (X & _ & NE). exfalso. apply NE. apply OM in X. destruct X as [_ X]. apply O in X.
            apply (unique_side m R); try tauto; destruct X as (_ & _ & X1 & X2); congruence.
          + split; [|tauto]. intros X. split; auto. split; auto. intros ->. apply E2.
            apply OM in X. destruct X as [_ X]. apply O in X. apply (unique_side m R); try tauto; destruct X as (_ & _ & X1 & X2); congruence.
        - split; [|tauto]. intros X. split; auto. split; [congruence|]. intros ->.
          assert (o (fi, n) = Some g) as Y; [|congruence].
          apply P in X. destruct X as (X & G1 & G2). apply P. split; [|auto]. apply O in X. apply O.
          destruct X as (X1 & X2 & X3 & X4). auto. }
      rewrite P. tauto.
    + intros v. unfold vh', upd. destruct (Nat.eqb v _); auto. apply NoDup_filter. auto.
    + intros v h. rewrite gone_S. unfold vh'.
      destruct (Nat.eq_dec v (tail (m_face m) (fi, n))) as [->|NE]; [rewrite upd_same|rewrite upd_other by auto].
      * rewrite filter_In, V. destruct (he_eqb_spec h (fi, n)) as [E|E]; cbn [negb]; intuition congruence.
      * rewrite V. split; [|tauto]. intros [I G]. split; auto. intros [X|X]; auto. subst.
        destruct D as (_ & _ & _ & _ & VV & _). apply VV in I. destruct I as [_ T]. auto.
Qed.

Lemma unregister_spec : exists m', unregister_face m fi = Ok m' /\ describes m' (minus R fi) /\ frame m m'.
Proof.
  unfold unregister_face. pose proof D as (F & C & O & N & V & B). destruct (F fi IR) as [LF _].
  apply Nat.ltb_lt in LF. rewrite LF.
  assert (unpaired 0 (m_opp m) (m_vh m)) as U0.
  { assert (forall h, ~ gone 0 h) as G by (intros h [_ X]; lia). split; [|split; [auto|]]; intros.
    - split; [auto|tauto].
    - split; [auto|tauto]. }
  assert (drop_side m fi 0 = drop_side (set_vh (set_opp m (m_opp m)) (m_nv m) (m_vh m)) fi 0) as -> by (destruct m; reflexivity).
  destruct (drop_side_step 0 _ _ ltac:(lia) U0) as (o1 & vh1 & -> & U1). cbn [bind].
  destruct (drop_side_step 1 _ _ ltac:(lia) U1) as (o2 & vh2 & -> & U2). cbn [bind].
  destruct (drop_side_step 2 _ _ ltac:(lia) U2) as (o3 & vh3 & -> & U3).
  eexists. split; [reflexivity|]. split; [|repeat split].
  assert (forall h, side (minus R fi) h <-> side R h /\ ~ gone 3 h) as SM.
  { intros [x k]. unfold side, minus, gone. cbn. intuition auto. }
  destruct U3 as (P & ND & VV). unfold describes. cbn [m_face m_nf m_opp m_vh m_nv set_vh set_opp].
  split; [|split; [|split; [|split; [|split]]]].
  - intros x [X _]. auto.
  - intros (g & h & NE & SG & SH & Q). apply SM in SG. apply SM in SH. apply C. exists g, h. tauto.
  - intros g h. rewrite P, O, !SM. tauto.
  - auto.
  - intros v h. rewrite VV, V, SM. tauto.
  - intros h S. apply SM in S. apply B. tauto.
Qed.
End Unregister.

(** ** Frames *)

Lemma describes_ext : forall m R R', describes m R -> (forall x, R x <-> R' x) -> describes m R'.
Proof.
  intros m R R' (F & C & O & N & V & B) E.
  assert (forall h, side R' h <-> side R h) as S by (intros h; unfold side; rewrite E; tauto).
  split; [intros x X; apply F, E; auto|]. split.
  - intros (g & h & NE & SG & SH & Q). apply C. exists g, h. rewrite S in SG, SH. auto.
  - split; [intros; rewrite O, !S; tauto|]. split; [auto|]. split; [intros; rewrite V, S; tauto|]. intros h X. apply B, S. auto.
Qed.

Lemma describes_row : forall m R fi f, describes m R -> ~ R fi -> describes (set_row m fi f) R.
Proof.
  intros m R fi f (F & C & O & N & V & B) NR.
  assert (forall x, R x -> m_face (set_row m fi f) x = m_face m x) as E.
  { intros x X. cbn. apply upd_other. intros ->. auto. }
  assert (forall h, side R h -> tail (m_face (set_row m fi f)) h = tail (m_face m) h) as ET by (intros h [S _]; unfold tail; rewrite E; auto).
  assert (forall h, side R h -> head (m_face (set_row m fi f)) h = head (m_face m) h) as EH by (intros h [S _]; unfold head; rewrite E; auto).
  split; [intros x X; rewrite E by auto; auto|]. split.
  - intros (g & h & NE & SG & SH & Q1 & Q2). apply C. exists g, h. rewrite !ET in Q1 by auto. rewrite !EH in Q2 by auto. auto.
  - split; [|split; [auto|split]].
    + intros g h. cbn [m_opp set_row]. rewrite O. split; intros (SG & SH & Q1 & Q2); split; auto; split; auto.
      * rewrite !ET, !EH by auto. auto.
      * rewrite !ET, !EH in * by auto. auto.
    + intros v h. cbn [m_vh set_row]. rewrite V. split; intros [S T]; split; auto; [rewrite ET; auto|rewrite ET in T; auto].
    + intros h S. rewrite ET by auto. cbn. auto.
Qed.

Lemma describes_deleted : forall m R fi, describes m R -> describes (set_deleted m fi) R.
Proof. intros m R fi H. exact H. Qed.

(** Growing the number of rows. *)
Lemma describes_grow : forall m R f, describes m R -> ~ R (m_nf m) ->
  describes (Mesh (m_cap m) (S (m_nf m)) (upd (m_face m) (m_nf m) f) (upd (m_deleted m) (m_nf m) false) (m_opp m) (m_nv m) (m_vh m)) R.
Proof.
  intros m R f H NR. destruct (describes_row m R (m_nf m) f H NR) as (F & X). split; [|exact X].
  intros x Rx. destruct (F x Rx) as [L D']. split; [cbn in *; lia|exact D'].
Qed.
