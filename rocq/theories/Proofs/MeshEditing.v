From Coq Require Import List Arith Bool Lia.
From Verif Require Import Model.Outcome Model.MeshDefects Model.AbstractMesh
  Spec.VertexClusterer Spec.AbstractMesh Proofs.MeshDefects Proofs.AbstractMesh.
Import ListNotations.

(** ** Directed edges *)

Definition edge (m : mesh) (R : nat -> Prop) (a b : nat) : Prop :=
  exists h, side R h /\ tail (m_face m) h = a /\ head (m_face m) h = b.
Definition in3 (f : face) (a b : nat) : Prop :=
  let '(p, q, r) := f in (a = p /\ b = q) \/ (a = q /\ b = r) \/ (a = r /\ b = p).

Lemma in3_iff : forall f a b, in3 f a b <-> exists k, k < 3 /\ corner f k = a /\ corner f (ccw k) = b.
Proof.
  intros [[p q] r] a b. cbn. split.
  - intros [[-> ->]|[[-> ->]|[-> ->]]]; [exists 0|exists 1|exists 2]; cbn; auto.
  - intros (k & K & E). destruct (three k K) as [->|[->| ->]]; cbn in E; intuition auto.
Qed.

Lemma in3_rotate : forall f k a b, k < 3 -> (in3 f a b <-> in3 (corner f k, corner f (ccw k), corner f (cw k)) a b).
Proof. intros [[p q] r] k a b K. destruct (three k K) as [->|[->| ->]]; cbn; tauto. Qed.

Lemma distinct_rotate : forall f k, k < 3 -> distinct3 f -> distinct3 (corner f k, corner f (ccw k), corner f (cw k)).
Proof. intros f k K D. apply (corners_of_side f k D K). Qed.

Lemma edge_face : forall (m : mesh) (R : nat -> Prop) fi a b, R fi -> in3 (m_face m fi) a b -> edge m R a b.
Proof. intros m R fi a b X I. apply in3_iff in I. destruct I as (k & K & A & B). exists (fi, k). repeat split; auto. Qed.

Lemma edge_ext : forall (m : mesh) (R R' : nat -> Prop) a b, (forall x, R x <-> R' x) -> (edge m R a b <-> edge m R' a b).
Proof. intros m R R' a b E. unfold edge, side. split; intros (h & S & Q); exists h; rewrite ?E in *; auto. Qed.

Lemma registered : forall (m : mesh) (R : nat -> Prop) fi, describes m R -> ~ R fi -> fi < m_nf m -> distinct3 (m_face m fi) ->
  match register_face m fi with
  | Ok m' => describes m' (plus R fi) /\ frame m m' /\
             (forall a b, edge m' (plus R fi) a b <-> edge m R a b \/ in3 (m_face m fi) a b) /\
             (forall a b, in3 (m_face m fi) a b -> ~ edge m R a b)
  | Throw e => e = ExRuntimeError /\ clash (m_face m) (plus R fi) /\ exists a b, in3 (m_face m fi) a b /\ edge m R a b
  | UB => False
  end.
Proof.
  intros m R fi D NR L DF. pose proof (register_spec m R fi D NR DF L) as S.
  destruct (register_face m fi) as [m'|e|] eqn:E; auto.
  - destruct S as [D' F]. split; [auto|]. split; [auto|]. pose proof F as (_ & _ & EF & _). split.
    + intros a b. unfold edge. rewrite EF. split.
      * intros ([x k] & [[X|X] K] & A & B); [left; exists (x, k); repeat split; auto|]. cbn in X. subst x.
        right. apply in3_iff. exists k. auto.
      * intros [(h & [X K] & Q)|I]; [exists h; split; [split; [left; auto|auto]|auto]|].
        apply in3_iff in I. destruct I as (k & K & A & B). exists (fi, k). split; [split; [right; auto|auto]|auto].
    + intros a b I (h & S & A & B). apply in3_iff in I. destruct I as (k & K & A' & B').
      destruct D' as (_ & C & _). apply C. rewrite EF. exists h, (fi, k). split; [intros ->; apply NR, S|].
      split; [split; [left; apply S|apply S]|]. split; [split; [right; auto|auto]|].
      unfold tail at 2, head at 2. cbn [fst snd]. rewrite A', B'. auto.
  - destruct S as [-> C]. split; [auto|]. split; [auto|]. destruct C as (g & h & NE & SG & SH & T & H).
    assert (forall x, side (plus R fi) x -> side R x \/ exists k, k < 3 /\ x = (fi, k)) as SP.
    { intros [x k] [[X|X] K]; [left; split; auto|right; exists k; cbn in X; subst; auto]. }
    destruct (SP g SG) as [G|(j & J & ->)], (SP h SH) as [H'|(k & K & ->)].
    + exfalso. apply NE. apply (unique_side m R); auto.
    + exists (tail (m_face m) g), (head (m_face m) g). split; [|exists g; auto]. apply in3_iff. exists k. rewrite T, H. auto.
    + exists (tail (m_face m) h), (head (m_face m) h). split; [|exists h; auto]. apply in3_iff. exists j. rewrite <- T, <- H. auto.
    + exfalso. apply NE. f_equal. apply (corner_inj (m_face m fi)); auto.
Qed.

Lemma unregistered : forall (m : mesh) (R : nat -> Prop) fi, describes m R -> R fi -> exists m', unregister_face m fi = Ok m' /\
  describes m' (minus R fi) /\ frame m m' /\
  (forall a b, edge m' (minus R fi) a b <-> edge m R a b /\ ~ in3 (m_face m fi) a b).
Proof.
  intros m R fi D X. destruct (unregister_spec m R fi D X) as (m' & E & D' & F). exists m'. split; [auto|]. split; [auto|].
  split; [auto|]. pose proof F as (_ & _ & EF & _). intros a b. unfold edge. rewrite EF. split.
  - intros (h & [[Y NE] K] & A & B). split; [exists h; repeat split; auto|]. intros I. apply in3_iff in I.
    destruct I as (k & K' & A' & B'). apply NE.
    assert (h = (fi, k)) as ->; [|auto]. apply (unique_side m R); auto; [split; auto|split; auto| |]; unfold tail, head in *; cbn [fst snd]; congruence.
  - intros [(h & [Y K] & A & B) NI]. exists h. split; [|auto]. split; [split; auto|auto]. intros Z. apply NI, in3_iff.
    exists (snd h). split; [auto|]. unfold tail, head in *. rewrite Z in *. auto.
Qed.

Lemma edge_row : forall (m : mesh) (R : nat -> Prop) fi f a b, ~ R fi -> (edge (set_row m fi f) R a b <-> edge m R a b).
Proof.
  intros m R fi f a b NR. unfold edge, tail, head. cbn [m_face set_row].
  split; intros (h & [X K] & Q); exists h; (split; [split; auto|]); (rewrite upd_other in * by (intros E; apply NR; rewrite <- E; auto)); auto.
Qed.

Lemma edge_head_ne : forall (m : mesh) (R : nat -> Prop) a b v, describes m R -> (forall fi, R fi -> ~ has_corner (m_face m fi) v) ->
  edge m R a b -> a <> v /\ b <> v.
Proof.
  intros m R a b v D U (h & [X K] & A & B). split; intros E; apply (U (fst h) X), has_corner_iff.
  - exists (snd h). subst. auto.
  - exists (ccw (snd h)). split; [apply ccw_lt; auto|]. subst. auto.
Qed.

Lemma edge_distinct : forall (m : mesh) (R : nat -> Prop) a b, describes m R -> edge m R a b -> a <> b.
Proof.
  intros m R a b (F & _) (h & [X K] & A & B). subst. destruct (F _ X) as [_ D]. apply (corners_of_side _ _ D K).
Qed.

(** ** Construction *)

Lemma clash_mono : forall fc fc' (R R' : nat -> Prop), clash fc R -> (forall x, R x -> R' x) -> (forall x, R x -> fc x = fc' x) -> clash fc' R'.
Proof.
  intros fc fc' R R' (g & h & NE & [G GK] & [H HK] & T & D) I E. exists g, h. unfold tail, head in *.
  rewrite <- !E by auto. repeat split; auto.
Qed.

Lemma register_all_spec : forall fis m R, describes m R -> NoDup fis -> (forall x, In x fis -> ~ R x /\ x < m_nf m /\ distinct3 (m_face m x)) ->
  match register_all m fis with
  | Ok m' => describes m' (fun x => R x \/ In x fis) /\ frame m m'
  | Throw e => e = ExRuntimeError /\ clash (m_face m) (fun x => R x \/ In x fis)
  | UB => False
  end.
Proof.
  induction fis as [|fi fis IH]; intros m R D ND H.
  - cbn. split; [|apply frame_refl]. apply (describes_ext m R); auto. intros x. cbn. tauto.
  - cbn [register_all]. inversion ND as [|? ? N1 N2]; subst. destruct (H fi (or_introl eq_refl)) as (NR & L & DF).
    pose proof (registered m R fi D NR L DF) as S. destruct (register_face m fi) as [m'|e|]; cbn [bind]; auto.
    + destruct S as (D' & F & _). pose proof F as (_ & NF & EF & _).
      assert (forall x, In x fis -> ~ plus R fi x /\ x < m_nf m' /\ distinct3 (m_face m' x)) as H'.
      { intros x I. rewrite NF, EF. destruct (H x (or_intror I)) as (A & B & C). split; [|auto]. intros [X|X]; [auto|congruence]. }
      specialize (IH m' (plus R fi) D' N2 H'). destruct (register_all m' fis) as [m''|e|]; auto.
      * destruct IH as [D'' F']. split; [|eapply frame_trans; eauto]. apply (describes_ext m'' _ _ D''). intros x. unfold plus. cbn.
        intuition auto.
      * destruct IH as [-> C]. split; auto. rewrite EF in C. apply (clash_mono _ _ _ _ C); auto. intros x. unfold plus. cbn. intuition auto.
    + destruct S as (-> & C & _). split; auto. apply (clash_mono _ _ _ _ C); auto. intros x. unfold plus. cbn. intuition auto.
Qed.

Lemma no_side : forall h, ~ side (fun _ => False) h.
Proof. intros h [[] _]. Qed.

Lemma nothing : forall cap nf fc del, describes (Mesh cap nf fc del (fun _ => None) 0 (fun _ => [])) (fun _ => False).
Proof.
  intros. split; [tauto|]. split; [intros (g & h & _ & S & _); apply (no_side _ S)|]. split; [|split; [|split]].
  - intros g h. split; [discriminate|]. intros (S & _). destruct (no_side _ S).
  - constructor.
  - intros v h. split; [intros []|]. intros (S & _). apply (no_side _ S).
  - intros h S. destruct (no_side _ S).
Qed.

Theorem construct_spec : forall fs : list face, Forall distinct3 fs ->
  match construct fs with
  | Ok m => consistent m /\ take_faces m = fs /\ ~ clash (fun i => nth i fs (0, 0, 0)) (fun i => i < length fs)
  | Throw e => e = ExRuntimeError /\ clash (fun i => nth i fs (0, 0, 0)) (fun i => i < length fs)
  | UB => False
  end.
Proof.
  intros fs DF. unfold construct.
  set (m0 := Mesh (length fs) (length fs) (fun i => nth i fs (0, 0, 0)) (fun _ => false) (fun _ => None) 0 (fun _ => [])).
  assert (forall x, False \/ In x (seq 0 (length fs)) <-> x < length fs) as EQ.
  { intros x. rewrite in_seq. lia. }
  pose proof (register_all_spec (seq 0 (length fs)) m0 (fun _ => False) (nothing _ _ _ _) (seq_NoDup _ _)) as S.
  destruct (register_all m0 (seq 0 (length fs))) as [m|e|].
  - destruct S as [D F].
    { intros x I. apply in_seq in I. split; [tauto|]. split; [cbn; lia|]. cbn. rewrite Forall_forall in DF. apply DF, nth_In. lia. }
    destruct F as (E1 & E2 & E3 & E4). split; [split|split].
    + apply (describes_ext m _ _ D). intros x. rewrite EQ. unfold live. rewrite E2, E4. cbn. tauto.
    + rewrite E1, E2. cbn. auto.
    + unfold take_faces. rewrite E2, E3, E4. cbn [m0 m_nf m_face m_deleted negb].
      replace (filter (fun _ => true) (seq 0 (length fs))) with (seq 0 (length fs)).
      2:{ clear. induction (seq 0 (length fs)) as [|a l IH]; cbn; congruence. }
      clear. induction fs as [|f fs IH]; auto. cbn [length seq map nth]. f_equal. rewrite <- seq_shift, map_map. exact IH.
    + destruct D as (_ & C & _). rewrite E3 in C. intros X. apply C. apply (clash_mono _ _ _ _ X); auto. intros x. apply EQ.
  - destruct S as [-> C].
    { intros x I. apply in_seq in I. split; [tauto|]. split; [cbn; lia|]. cbn. rewrite Forall_forall in DF. apply DF, nth_In. lia. }
    split; auto. apply (clash_mono _ _ _ _ C); auto. intros x. apply EQ.
  - apply S. intros x I. apply in_seq in I. split; [tauto|]. split; [cbn; lia|]. cbn. rewrite Forall_forall in DF. apply DF, nth_In. lia.
Qed.

Theorem empty_consistent : forall cap, consistent (empty cap).
Proof.
  intros cap. split; [|cbn; lia]. apply (describes_ext _ (fun _ => False)); [apply nothing|]. intros x. unfold live. cbn. split; [tauto|lia].
Qed.

(** ** add_face *)

Lemma added : forall (m : mesh) (R : nat -> Prop) f, describes m R -> m_nf m < m_cap m -> distinct3 f ->
  match add_face m f with
  | Ok m' => describes m' (plus R (m_nf m)) /\ m_cap m' = m_cap m /\ m_nf m' = S (m_nf m) /\
             m_face m' = upd (m_face m) (m_nf m) f /\ m_deleted m' = upd (m_deleted m) (m_nf m) false /\
             (forall a b, edge m' (plus R (m_nf m)) a b <-> edge m R a b \/ in3 f a b)
  | Throw e => e = ExRuntimeError /\ exists a b, in3 f a b /\ edge m R a b
  | UB => False
  end.
Proof.
  intros m R f D L DF. unfold add_face. apply Nat.ltb_lt in L. rewrite L.
  assert (~ R (m_nf m)) as NR. { intros X. destruct D as (F & _). destruct (F _ X). lia. }
  set (m1 := Mesh _ _ _ _ _ _ _). pose proof (describes_grow m R f D NR) as D1. fold m1 in D1.
  assert (m_face m1 (m_nf m) = f) as EF by (cbn; apply upd_same).
  assert (forall a b, edge m1 R a b <-> edge m R a b) as EE by (intros; apply (edge_row m R (m_nf m) f); auto).
  pose proof (registered m1 R (m_nf m) D1 NR) as S. rewrite EF in S. specialize (S ltac:(cbn; lia) DF).
  destruct (register_face m1 (m_nf m)) as [m'|e|]; auto.
  - destruct S as (D' & (F1 & F2 & F3 & F4) & E & _). split; [auto|]. split; [auto|]. split; [auto|]. split; [auto|]. split; [auto|].
    intros a b. rewrite E, EE. tauto.
  - destruct S as (-> & _ & a & b & I & X). split; auto. exists a, b. rewrite EE in X. auto.
Qed.

Lemma live_added : forall m m' x, m_nf m' = S (m_nf m) -> m_deleted m' = upd (m_deleted m) (m_nf m) false ->
  (plus (live m) (m_nf m) x <-> live m' x).
Proof.
  intros m m' x E1 E2. unfold plus, live. rewrite E1, E2. destruct (Nat.eq_dec x (m_nf m)) as [->|NE].
  - rewrite upd_same. split; auto.
  - rewrite upd_other by auto. split; [intros [[A B]|A]; [split; [lia|auto]|congruence]|]. intros [A B]. left. split; [lia|auto].
Qed.

Theorem add_face_spec : forall m f, consistent m -> allowed m (AddFace f) ->
  match add_face m f with
  | Ok m' => consistent m' /\ m_nf m' = S (m_nf m) /\ m_face m' = upd (m_face m) (m_nf m) f /\
             (forall fi, live m' fi <-> live m fi \/ fi = m_nf m)
  | Throw e => e = ExRuntimeError /\ exists a b, In (a, b) (sides f) /\ has_side m a b
  | UB => False
  end.
Proof.
  intros m f [D LC] [DF L]. pose proof (added m (live m) f D L DF) as S. destruct (add_face m f) as [m'|e|]; auto.
  - destruct S as (D' & E1 & E2 & E3 & E4 & _). split; [split; [|lia]|].
    + apply (describes_ext _ _ _ D'). intros x. apply live_added; auto.
    + split; [auto|]. split; [auto|]. intros x. rewrite <- (live_added m m' x E2 E4). unfold plus. tauto.
  - destruct S as (-> & a & b & I & E). split; auto. exists a, b. split; [|exact E].
    destruct f as [[p q] r]. cbn in I |- *. intuition subst; auto.
Qed.

(** ** flip *)

Lemma pair_side_frame : forall m fi k m', pair_side m fi k = Ok m' -> exists o, m' = set_opp m o.
Proof.
  intros m fi k m' E. unfold pair_side in E. destruct (halfedge_of m _ _); [discriminate|].
  destruct (halfedge_of m _ _); injection E as <-; eauto.
Qed.

Lemma pair_side_fails : forall m fi k, match pair_side m fi k with Ok _ => True | Throw e => e = ExRuntimeError | UB => False end.
Proof. intros m fi k. unfold pair_side. destruct (halfedge_of m _ _); auto. destruct (halfedge_of m _ _); auto. Qed.

(** The side from the last to the first corner is listed afterwards. *)
Lemma register_lists_last : forall m fi m', register_face m fi = Ok m' ->
  m_face m' = m_face m /\ exists h, halfedge_of m' (from m (fi, 2)) (to m (fi, 2)) = Some h.
Proof.
  intros m fi m' E. unfold register_face in E.
  destruct (pair_side m fi 0) as [m1| |] eqn:E1; try discriminate. apply pair_side_frame in E1. destruct E1 as (o1 & ->).
  cbn [bind] in E. destruct (pair_side _ fi 1) as [m2| |] eqn:E2; try discriminate. apply pair_side_frame in E2. destruct E2 as (o2 & ->).
  cbn [bind] in E. destruct (pair_side _ fi 2) as [m3| |] eqn:E3; try discriminate. apply pair_side_frame in E3. destruct E3 as (o3 & ->).
  cbn [bind] in E. injection E as <-. split; [reflexivity|]. unfold halfedge_of.
  set (M := push_side _ fi 2). set (v := from m (fi, 2)).
  assert (v < m_nv M) as L by (unfold M, push_side at 1; cbn [m_nv set_vh]; match goal with |- _ < Nat.max _ (S ?w) => change w with v end; lia). apply Nat.ltb_lt in L. rewrite L.
  assert (In (fi, 2) (m_vh M v)) as I.
  { unfold M, push_side at 1. cbn [m_vh set_vh]. match goal with |- In _ (upd _ ?w _ v) => change w with v end.
    rewrite upd_same. apply in_app_iff. right. left. auto. }
  destruct (find _ (m_vh M v)) as [h|] eqn:F; [eauto|]. exfalso. pose proof (find_none _ _ F _ I) as X. cbv beta in X.
  apply Nat.eqb_neq in X. apply X. reflexivity.
Qed.

Lemma register_rejects_last : forall m fi h, halfedge_of m (from m (fi, 2)) (to m (fi, 2)) = Some h ->
  register_face m fi = Throw ExRuntimeError.
Proof.
  intros m fi h H. unfold register_face.
  pose proof (pair_side_fails m fi 0) as P. destruct (pair_side m fi 0) as [m1|e|] eqn:E; cbn [bind]; [|subst; auto|tauto].
  apply pair_side_frame in E. destruct E as (o1 & ->).
  pose proof (pair_side_fails (set_opp m o1) fi 1) as P1.
  destruct (pair_side (set_opp m o1) fi 1) as [m2|e|] eqn:E; cbn [bind]; [|subst; auto|tauto].
  apply pair_side_frame in E. destruct E as (o2 & ->).
  unfold pair_side. match goal with |- context [halfedge_of ?M ?a ?b] => change (halfedge_of M a b) with (halfedge_of m (from m (fi, 2)) (to m (fi, 2))) end.
  rewrite H. auto.
Qed.

Theorem flip_spec : forall m g h a b c d, consistent m ->
  (side (live m) g /\ side (live m) h /\ tail (m_face m) g = a /\ head (m_face m) g = b /\
   tail (m_face m) h = b /\ head (m_face m) h = a /\ third (m_face m) g = c /\ third (m_face m) h = d) ->
  fst g <> fst h /\
  match flip m a b with
  | Ok m' => consistent m' /\ m_nf m' = m_nf m /\ (forall fi, live m' fi <-> live m fi) /\
             m_face m' = upd (upd (m_face m) (fst g) (c, a, d)) (fst h) (d, b, c) /\ c <> d /\ ~ has_side m c d /\ ~ has_side m d c
  | Throw e => e = ExRuntimeError /\ (c = d \/ has_side m c d \/ has_side m d c)
  | UB => False
  end.
Proof.
  intros m g h a b c d [D LC] (SG & SH & TG & HG & TH & HH & CG & CH).
  pose proof D as (F & _).
  destruct SG as [LG KG], SH as [LH KH]. destruct (F _ LG) as [LG' DG], (F _ LH) as [LH' DH].
  assert (in3 (m_face m (fst g)) = in3 (m_face m (fst g))) as _ by auto.
  assert (forall x y, in3 (m_face m (fst g)) x y <-> in3 (a, b, c) x y) as IG.
  { intros x y. rewrite (in3_rotate _ (snd g)) by auto. fold (tail (m_face m) g) (head (m_face m) g) (third (m_face m) g). rewrite TG, HG, CG. tauto. }
  assert (forall x y, in3 (m_face m (fst h)) x y <-> in3 (b, a, d) x y) as IH.
  { intros x y. rewrite (in3_rotate _ (snd h)) by auto. fold (tail (m_face m) h) (head (m_face m) h) (third (m_face m) h). rewrite TH, HH, CH. tauto. }
  assert (distinct3 (a, b, c)) as D1.
  { pose proof (distinct_rotate _ _ KG DG) as X. fold (tail (m_face m) g) (head (m_face m) g) (third (m_face m) g) in X. congruence. }
  assert (distinct3 (b, a, d)) as D2.
  { pose proof (distinct_rotate _ _ KH DH) as X. fold (tail (m_face m) h) (head (m_face m) h) (third (m_face m) h) in X. congruence. }
  destruct D1 as (N1 & N2 & N3), D2 as (_ & N4 & N5).
  assert (fst g <> fst h) as NF.
  { intros E. assert (in3 (a, b, c) b a) as X by (apply IG; rewrite E; apply IH; cbn; auto). cbn in X. intuition congruence. }
  split; [auto|]. unfold flip.
  assert (halfedge_of m a b = Some g) as -> by (apply (halfedge_of_spec m (live m) _ _ _ D); split; [split; auto|auto]).
  assert (halfedge_of m b a = Some h) as -> by (apply (halfedge_of_spec m (live m) _ _ _ D); split; [split; auto|auto]).
  change (apex m g) with (third (m_face m) g). change (apex m h) with (third (m_face m) h). rewrite CG, CH.
  destruct (unregistered m (live m) (fst g) D LG) as (m1 & -> & D1 & F1 & E1). cbn [bind].
  pose proof F1 as (FA1 & FB1 & FC1 & FD1).
  destruct (unregistered m1 (minus (live m) (fst g)) (fst h) D1) as (m2 & -> & D2 & F2 & E2); [split; auto|]. cbn [bind].
  pose proof F2 as (FA2 & FB2 & FC2 & FD2).
  set (R2 := minus (minus (live m) (fst g)) (fst h)) in *.
  assert (~ R2 (fst g)) as NG by (intros [[_ X] _]; auto). assert (~ R2 (fst h)) as NH by (intros [_ X]; auto).
  set (m3 := set_row (set_row m2 (fst g) (c, a, d)) (fst h) (d, b, c)).
  assert (describes m3 R2) as D3 by (apply describes_row; auto; apply describes_row; auto).
  assert (forall x y, edge m3 R2 x y <-> edge m (live m) x y /\ ~ in3 (a, b, c) x y /\ ~ in3 (b, a, d) x y) as E3.
  { intros x y. unfold m3. rewrite !edge_row by auto. rewrite E2, E1, FC1, IG, IH. tauto. }
  assert (m_face m3 (fst g) = (c, a, d)) as RG by (cbn; rewrite upd_other, upd_same; auto).
  assert (m_face m3 (fst h) = (d, b, c)) as RH by (cbn; rewrite upd_same; auto).
  destruct (Nat.eq_dec c d) as [EQ|NE].
  { destruct EQ. pose proof (pair_side_fails m3) as PF.
    destruct (register_face m3 (fst g)) as [m4|e|] eqn:E4; cbn [bind].
    - destruct (register_lists_last _ _ _ E4) as (FF & h' & HF).
      assert (halfedge_of m4 (from m4 (fst h, 2)) (to m4 (fst h, 2)) = Some h') as Z.
      { unfold from, to in *. cbn [fst snd ccw] in *. rewrite FF, RH. rewrite RG in HF. exact HF. }
      rewrite (register_rejects_last _ _ _ Z). auto.
    - split; auto. unfold register_face in E4. pose proof (PF (fst g) 0) as P0.
      destruct (pair_side m3 (fst g) 0) as [x0| |]; cbn [bind] in E4; [|congruence|discriminate].
      pose proof (pair_side_fails x0 (fst g) 1) as P1.
      destruct (pair_side x0 (fst g) 1) as [x1| |]; cbn [bind] in E4; [|congruence|discriminate].
      pose proof (pair_side_fails x1 (fst g) 2) as P2.
      destruct (pair_side x1 (fst g) 2) as [x2| |]; cbn [bind] in E4; [discriminate|congruence|discriminate].
    - unfold register_face in E4. pose proof (PF (fst g) 0) as P0.
      destruct (pair_side m3 (fst g) 0) as [x0| |]; cbn [bind] in E4; [|congruence|auto].
      pose proof (pair_side_fails x0 (fst g) 1) as P1.
      destruct (pair_side x0 (fst g) 1) as [x1| |]; cbn [bind] in E4; [|congruence|auto].
      pose proof (pair_side_fails x1 (fst g) 2) as P2.
      destruct (pair_side x1 (fst g) 2) as [x2| |]; cbn [bind] in E4; [discriminate|congruence|auto]. }
  assert (forall x y, edge m (live m) x y -> x <> y) as ED by (intros x y; apply (edge_distinct m (live m) x y D)).
  pose proof (registered m3 R2 (fst g) D3 NG) as S. rewrite RG in S.
  specialize (S ltac:(cbn; lia) ltac:(cbn; auto)).
  destruct (register_face m3 (fst g)) as [m4|e|]; cbn [bind]; auto.
  - destruct S as (D4 & F4 & E4 & X4). pose proof F4 as (FA4 & FB4 & FC4 & FD4).
    assert (~ plus R2 (fst g) (fst h)) as NH' by (intros [X|X]; [auto|congruence]).
    pose proof (registered m4 (plus R2 (fst g)) (fst h) D4 NH') as S. rewrite FC4, RH in S.
    specialize (S ltac:(rewrite FB4; cbn; lia) ltac:(cbn; auto)).
    destruct (register_face m4 (fst h)) as [m5|e|]; auto.
    + destruct S as (D5 & F5 & _ & X5). pose proof F5 as (FA5 & FB5 & FC5 & FD5).
      assert (forall x, live m5 x <-> live m x) as LV.
      { intros x. unfold live. rewrite FB5, FB4, FD5, FD4. cbn. rewrite FB2, FB1, FD2, FD1. tauto. }
      split; [split|].
      * apply (describes_ext _ _ _ D5). intros x. rewrite LV. unfold plus, R2, minus.
        destruct (Nat.eq_dec x (fst g)) as [->|Q1]; [tauto|]; destruct (Nat.eq_dec x (fst h)) as [->|Q2]; tauto.
      * rewrite FA5, FA4, FB5, FB4. cbn. rewrite FA2, FA1, FB2, FB1. auto.
      * split; [rewrite FB5, FB4; cbn; congruence|]. split; [auto|].
        split; [rewrite FC5, FC4; cbn; rewrite FC2, FC1; auto|].
        split; [auto|]. split; intros X; [apply (X5 c d)|apply (X4 d c)]; try (cbn; auto; fail).
        -- apply E4. left. apply E3. split; [exact X|]. cbn. intuition congruence.
        -- apply E3. split; [exact X|]. cbn. intuition congruence.
    + destruct S as (-> & _ & x & y & I & X). split; auto. apply E4 in X. rewrite E3 in X. cbn in I, X.
      intuition subst; try congruence; try tauto.
  - destruct S as (-> & _ & x & y & I & X). split; auto. rewrite E3 in X. cbn in I, X.
    intuition subst; try congruence; try tauto.
Qed.

(** ** insert_in_face *)

Lemma set_face_ok : forall (m : mesh) (R : nat -> Prop) fi f, describes m R -> R fi -> distinct3 f ->
  (forall a b, in3 f a b -> edge m R a b -> in3 (m_face m fi) a b) ->
  exists m', set_face m fi f = Ok m' /\ describes m' R /\ m_cap m' = m_cap m /\ m_nf m' = m_nf m /\
    m_face m' = upd (m_face m) fi f /\ m_deleted m' = m_deleted m /\
    (forall a b, edge m' R a b <-> (edge m R a b /\ ~ in3 (m_face m fi) a b) \/ in3 f a b).
Proof.
  intros m R fi f D X DF FR. unfold set_face.
  destruct (unregistered m R fi D X) as (m1 & -> & D1 & (A1 & B1 & C1 & G1) & E1). cbn [bind].
  assert (~ minus R fi fi) as NM by (intros [_ Y]; auto).
  pose proof (describes_row m1 _ fi f D1 NM) as D2.
  assert (m_face (set_row m1 fi f) fi = f) as EF by (cbn; apply upd_same).
  pose proof D as (F & _). destruct (F fi X) as [LF _].
  pose proof (registered _ _ fi D2 NM) as S. rewrite EF in S. specialize (S ltac:(cbn; lia) DF).
  assert (forall x, plus (minus R fi) fi x <-> R x) as RR.
  { intros x. unfold plus, minus. destruct (Nat.eq_dec x fi) as [->|NE]; tauto. }
  destruct (register_face (set_row m1 fi f) fi) as [m'|e|].
  - destruct S as (D' & (A2 & B2 & C2 & G2) & E & _). exists m'. split; [auto|].
    split; [apply (describes_ext _ _ _ D' RR)|]. cbn in A2, B2, C2, G2.
    split; [congruence|]. split; [congruence|]. split; [congruence|]. split; [congruence|].
    intros a b. rewrite <- (edge_ext m' _ _ a b RR), E, edge_row, E1 by auto. tauto.
  - exfalso. destruct S as (_ & _ & a & b & I & Y). rewrite edge_row, E1 in Y by auto. destruct Y as [Y NI]. auto.
  - tauto.
Qed.

Theorem insert_in_face_spec : forall m fi v, consistent m -> allowed m (InsertInFace fi v) ->
  let f := m_face m fi in
  exists m', insert_in_face m fi v = Ok m' /\ consistent m' /\ m_nf m' = m_nf m + 2 /\
    (forall x, live m' x <-> live m x \/ x = m_nf m \/ x = S (m_nf m)) /\
    m_face m' = upd (upd (upd (m_face m) fi (corner f 0, corner f 1, v)) (m_nf m) (corner f 1, corner f 2, v))
                    (S (m_nf m)) (corner f 2, corner f 0, v).
Proof.
  intros m fi v [D LC] (LV & U & CAP) f. pose proof D as (F & _). destruct (F fi LV) as [LF DF].
  unfold insert_in_face. pose proof LF as LT. apply Nat.ltb_lt in LT. rewrite LT. fold f.
  pose proof (U fi LV) as NC. fold f in NC. fold f in DF.
  assert (forall a b, edge m (live m) a b -> a <> v /\ b <> v) as NV by (intros a b; apply edge_head_ne; auto).
  assert (m_face m fi = f) as EQ by auto. destruct f as [[p q] r] eqn:EF. cbn [corner]. cbn in NC. destruct DF as (N1 & N2 & N3).
  destruct (set_face_ok m (live m) fi (p, q, v) D LV) as (m1 & -> & D1 & A1 & B1 & C1 & G1 & E1).
  { cbn. intuition congruence. }
  { intros a b I E. apply NV in E. rewrite EQ. cbn in *. intuition congruence. }
  cbn [bind]. rewrite EQ in E1.
  assert (forall x, live m1 x <-> live m x) as L1 by (intros x; unfold live; rewrite B1, G1; tauto).
  pose proof (added m1 (live m) (q, r, v) D1) as S. rewrite A1, B1 in S. specialize (S ltac:(lia) ltac:(cbn; intuition congruence)).
  destruct (add_face m1 (q, r, v)) as [m2|e|]; cbn [bind].
  2:{ exfalso. destruct S as (_ & a & b & I & E). rewrite E1 in E. cbn in I, E.
      destruct E as [[E NI]|E]; [apply NV in E|]; intuition congruence. }
  2:{ tauto. }
  destruct S as (D2 & A2 & B2 & C2 & G2 & E2). rewrite E1 in E2 || idtac.
  pose proof (added m2 _ (r, p, v) D2) as S. rewrite A2, B2 in S. specialize (S ltac:(lia) ltac:(cbn; intuition congruence)).
  destruct (add_face m2 (r, p, v)) as [m3|e|].
  2:{ exfalso. destruct S as (_ & a & b & I & E). rewrite E2, E1 in E. cbn in I, E.
      destruct E as [[[E NI]|E]|E]; [apply NV in E| |]; intuition congruence. }
  2:{ tauto. }
  destruct S as (D3 & A3 & B3 & C3 & G3 & E3). exists m3. split; [auto|].
  assert (forall x, live m3 x <-> live m x \/ x = m_nf m \/ x = S (m_nf m)) as LL.
  { intros x. rewrite <- (live_added m2 m3) by congruence. unfold plus. rewrite <- (live_added m1 m2) by congruence.
    unfold plus. rewrite L1, B2, B1. tauto. }
  split; [split; [|lia]|].
  - apply (describes_ext _ _ _ D3). intros x. rewrite LL. unfold plus. tauto.
  - split; [lia|]. split; [auto|]. rewrite C3, C2, C1. auto.
Qed.

(** ** insert_on_edge *)

Lemma side_index_spec : forall f k a b, distinct3 f -> k < 3 ->
  (corner f k = a /\ corner f (ccw k) = b) \/ (corner f k = b /\ corner f (ccw k) = a) -> side_index f a b = k.
Proof.
  intros [[p q] r] k a b (N1 & N2 & N3) K H. unfold side_index.
  destruct (three k K) as [->|[->| ->]]; cbn in H |- *; destruct H as [[<- <-]|[<- <-]];
    rewrite ?Nat.eqb_refl; cbn;
    repeat match goal with |- context [Nat.eqb ?x ?y] => destruct (Nat.eqb_spec x y); subst; cbn; try congruence end; auto.
Qed.

(** One side of the edge: face [fst h] becomes (t, v, c) and the new face is (v, u, c). *)
Lemma split_side_ok : forall m h a b v, consistent m -> side (live m) h ->
  (tail (m_face m) h = a /\ head (m_face m) h = b) \/ (tail (m_face m) h = b /\ head (m_face m) h = a) ->
  m_nf m < m_cap m ->
  let t := tail (m_face m) h in let u := head (m_face m) h in let c := third (m_face m) h in
  ~ has_corner (m_face m (fst h)) v ->
  match split_side m (fst h) a b v with
  | Ok m' => consistent m' /\ m_cap m' = m_cap m /\ m_nf m' = S (m_nf m) /\ (forall x, live m' x <-> live m x \/ x = m_nf m) /\
      m_face m' = upd (upd (m_face m) (fst h) (t, v, c)) (m_nf m) (v, u, c) /\
      (forall x y, edge m' (live m') x y <-> (edge m (live m) x y /\ ~ (x = t /\ y = u)) \/
         (x = t /\ y = v) \/ (x = v /\ y = c) \/ (x = v /\ y = u) \/ (x = c /\ y = v)) /\
      ~ edge m (live m) v c /\ ~ edge m (live m) c v
  | Throw e => e = ExRuntimeError /\ (edge m (live m) t v \/ edge m (live m) v c \/ edge m (live m) v u \/ edge m (live m) c v)
  | UB => False
  end.
Proof.
  intros m h a b v [D LC] [LH K] TH CAP t u c NC. pose proof D as (F & _). destruct (F _ LH) as [LF DF].
  unfold split_side.
  assert (side_index (m_face m (fst h)) a b = snd h) as -> by (apply side_index_spec; auto).
  change (corner (m_face m (fst h)) (snd h)) with t. change (corner (m_face m (fst h)) (ccw (snd h))) with u.
  change (corner (m_face m (fst h)) (cw (snd h))) with c.
  assert (forall x y, in3 (m_face m (fst h)) x y <-> in3 (t, u, c) x y) as I3.
  { intros x y. rewrite (in3_rotate _ (snd h)) by auto. reflexivity. }
  destruct (distinct_rotate _ _ K DF) as (N1 & N2 & N3). fold (tail (m_face m) h) (head (m_face m) h) (third (m_face m) h) in N1, N2, N3.
  fold t u c in N1, N2, N3.
  assert (t <> v /\ u <> v /\ c <> v) as (V1 & V2 & V3).
  { split; [|split]; intros E; apply NC, has_corner_iff; [exists (snd h)|exists (ccw (snd h))|exists (cw (snd h))]; auto using ccw_lt, cw_lt. }
  unfold set_face.
  destruct (unregistered m (live m) (fst h) D LH) as (m1 & -> & D1 & (A1 & B1 & C1 & G1) & E1). cbn [bind].
  set (R := live m) in *. set (fi := fst h) in *.
  assert (~ minus R fi fi) as NM by (intros [_ Y]; auto).
  pose proof (describes_row m1 _ fi (t, v, c) D1 NM) as D2.
  assert (m_face (set_row m1 fi (t, v, c)) fi = (t, v, c)) as EF by (cbn; apply upd_same).
  pose proof (registered _ _ fi D2 NM) as S. rewrite EF in S. specialize (S ltac:(cbn; lia) ltac:(cbn; auto)).
  assert (forall x, plus (minus R fi) fi x <-> R x) as RR.
  { intros x. unfold plus, minus. destruct (Nat.eq_dec x fi) as [->|NE]; tauto. }
  destruct (register_face (set_row m1 fi (t, v, c)) fi) as [m2|e|]; cbn [bind]; auto.
  - destruct S as (D3 & (A3 & B3 & C3 & G3) & E3 & X3). apply (describes_ext _ _ _ D3) in RR as D3'. cbn in A3, B3, C3, G3.
    assert (forall x y, edge m2 R x y <-> (edge m R x y /\ ~ in3 (t, u, c) x y) \/ in3 (t, v, c) x y) as E4.
    { intros x y. rewrite <- (edge_ext m2 _ _ x y RR), E3, edge_row, E1, I3 by auto. tauto. }
    assert (edge m R t u /\ edge m R u c /\ edge m R c t) as (Z1 & Z2 & Z3).
    { split; [|split]; apply (edge_face m R fi); auto; apply I3; cbn; auto. }
    pose proof (added m2 R (v, u, c) D3') as S. rewrite A3, B3, A1, B1 in S. specialize (S ltac:(lia) ltac:(cbn; auto)).
    assert (~ edge m R v c) as Y1.
    { intros X. apply (X3 v c); [cbn; auto|]. rewrite edge_row, E1, I3 by auto. split; auto. cbn. intuition congruence. }
    destruct (add_face m2 (v, u, c)) as [m3|e|]; auto.
    + destruct S as (D5 & A5 & B5 & C5 & G5 & E5).
      assert (forall x, live m2 x <-> R x) as L2 by (intros x; unfold R, live; rewrite B3, B1, G3, G1; tauto).
      assert (forall x, live m3 x <-> R x \/ x = m_nf m) as L3.
      { intros x. rewrite <- (live_added m2 m3) by congruence. unfold plus. rewrite L2, B3, B1. tauto. }
      split; [split; [|lia]|].
      * apply (describes_ext _ _ _ D5). intros x. rewrite L3. unfold plus. tauto.
      * split; [congruence|]. split; [congruence|]. split; [auto|]. split; [rewrite C5, C3, C1; auto|]. split; [|split; [auto|]].
        -- intros x y.
           assert (edge m3 (live m3) x y <-> edge m3 (plus R (m_nf m)) x y) as -> by (apply edge_ext; intros z; rewrite L3; unfold plus; tauto).
           rewrite E5, E4. cbn. split.
           ++ intros [[[X Y]|X]|X]; intuition (subst; auto 10).
           ++ intros [[X Y]|X]; [|intuition (subst; auto 10)].
              destruct (Nat.eq_dec x u), (Nat.eq_dec y c), (Nat.eq_dec x c), (Nat.eq_dec y t); tauto.
        -- intros X. 
           destruct D5 as (_ & CL & _).
           assert (edge m2 R c v) as (h2 & S2 & T2 & H2).
           { apply E4. left. split; auto. cbn. intuition congruence. }
           apply CL. rewrite C5. exists h2, (m_nf m, 2). unfold side, plus, tail, head. cbn [fst snd ccw].
           assert (fst h2 <> m_nf m) as NN. { destruct S2 as [[S2 _] _]. lia. }
           rewrite upd_other, upd_same by auto. cbn. unfold tail, head in T2, H2.
           split; [intros E; apply NN; rewrite E; auto|]. destruct S2. repeat split; auto.
    + destruct S as (-> & x & y & I & X). split; auto. rewrite E4 in X. cbn in I, X. intuition (subst; try congruence; auto 6).
  - destruct S as (-> & _ & x & y & I & X). split; auto. rewrite edge_row, E1, I3 in X by auto. cbn in I, X.
    intuition (subst; try congruence; auto 6).
Qed.
