From Coq Require Import Reals List Arith Bool Lia Lra Permutation.
From Verif Require Import Proofs.PointTriangle Proofs.TriangleIntersect Proofs.TriangleCases Proofs.MeshDefects Proofs.AbstractMesh Proofs.MeshEditing Proofs.SmootherBend.
From Verif Require Import Model.Outcome Model.Clip Model.PointTriangle Model.Predicates Model.LinAlg Model.MeshDefects Model.AbstractMesh Model.Smoother
  Spec.PointTriangle Spec.Predicates Spec.VertexClusterer Spec.AbstractMesh Spec.Smoother.
Import ListNotations.
Local Open Scope R_scope.

(** * Boxes *)
Lemma triangle_box : forall a b c x, in_triangle a b c x -> in_box (lo_of a [b; c]) (hi_of a [b; c]) x.
Proof. intros a b c x I. pose proof (lo_le a b c x I) as L. split; [apply (L 0%nat)|split; [apply (L 1%nat)|apply (L 2%nat)]]. Qed.

Lemma convex1 : forall u v w a b c lo hi, 0 <= u -> 0 <= v -> 0 <= w -> u + v + w = 1 -> lo <= a <= hi -> lo <= b <= hi -> lo <= c <= hi ->
  lo <= u * a + v * b + w * c <= hi.
Proof. intros. nra. Qed.
Lemma convex_box : forall lo hi a b c x, in_box lo hi a -> in_box lo hi b -> in_box lo hi c -> in_triangle a b c x -> in_box lo hi x.
Proof.
  intros lo hi a b c x (A1 & A2 & A3) (B1 & B2 & B3) (C1 & C2 & C3) (u & v & w & U & V & W & E & X & Y & Z).
  unfold in_box. rewrite X, Y, Z. split; [|split]; apply convex1; auto.
Qed.
Lemma box4 : forall a b c d e, In e [a; b; c; d] -> in_box (lo_of a [b; c; d]) (hi_of a [b; c; d]) e.
Proof.
  assert (M : forall a b c d e, In e [a; b; c; d] -> Rmin (Rmin (Rmin a b) c) d <= e <= Rmax (Rmax (Rmax a b) c) d).
  { intros a b c d e I. pose proof (Rmin_l a b). pose proof (Rmin_r a b). pose proof (Rmax_l a b). pose proof (Rmax_r a b).
    pose proof (Rmin_l (Rmin a b) c). pose proof (Rmin_r (Rmin a b) c). pose proof (Rmax_l (Rmax a b) c). pose proof (Rmax_r (Rmax a b) c).
    pose proof (Rmin_l (Rmin (Rmin a b) c) d). pose proof (Rmin_r (Rmin (Rmin a b) c) d). pose proof (Rmax_l (Rmax (Rmax a b) c) d). pose proof (Rmax_r (Rmax (Rmax a b) c) d).
    cbn in I. destruct I as [<-|[<-|[<-|[<-|[]]]]]; lra. }
  intros a b c d e I. unfold in_box, lo_of, hi_of. cbn [fold_left]. unfold lo2, hi2, px, py, pz. cbn [fst snd].
  split; [|split]; apply M; (match goal with |- In (?f e) [?f a; ?f b; ?f c; ?f d] => apply (in_map f [a; b; c; d] e I) | |- In (?f (?g e)) _ => apply (in_map (fun z => f (g z)) [a; b; c; d] e I) end).
Qed.

Lemma clear_sym : forall s t, clear s t -> clear t s.
Proof.
  intros s t C (x & A & B & N). apply C. exists x. split; [auto|]. split; [auto|]. intros (a & b & c & H & I). apply N. exists a, b, c. split; [|auto].
  intros y Y. destruct (H y Y). auto.
Qed.

(** * Rows and sides *)
Lemma directed_rows : forall m u v, has_directed (rows m) u v <-> exists fi, (fi < m_nf m)%nat /\ in3 (m_face m fi) u v.
Proof.
  intros m u v. unfold has_directed. assert (E : forall f, In (u, v) (sides f) <-> in3 f u v).
  { intros [[a b] c]. cbn. split; [intros [E|[E|[E|[]]]]; injection E as -> ->; auto|intros [[-> ->]|[[-> ->]|[-> ->]]]; auto]. }
  split.
  - intros (f & I & S). apply rows_in in I. destruct I as (fi & L & <-). exists fi. rewrite <- E. auto.
  - intros (fi & L & S). exists (m_face m fi). split; [apply rows_in; eauto|apply E; auto].
Qed.
Lemma used_rows : forall m v, used (rows m) v <-> exists fi, (fi < m_nf m)%nat /\ has_corner (m_face m fi) v.
Proof.
  intros m v. split.
  - intros (f & I & S). apply rows_in in I. destruct I as (fi & L & <-). eauto.
  - intros (fi & L & S). exists (m_face m fi). split; [apply rows_in; eauto|auto].
Qed.
Lemma full_distinct : forall m fi, full m -> (fi < m_nf m)%nat -> distinct3 (m_face m fi).
Proof. intros m fi [[D _] L] I. apply D. auto. Qed.

Lemma construct_frame : forall (fs : list face) m, Forall distinct3 fs -> construct fs = Ok m ->
  m_nf m = length fs /\ m_face m = (fun i => nth i fs (0, 0, 0)%nat) /\ forall i, m_deleted m i = false.
Proof.
  intros fs m DF EC. unfold construct in EC.
  set (m0 := Mesh (length fs) (length fs) (fun i => nth i fs (0, 0, 0)%nat) (fun _ => false) (fun _ => None) 0 (fun _ => [])) in EC.
  pose proof (register_all_spec (seq 0 (length fs)) m0 (fun _ => False) (nothing _ _ _ _) (seq_NoDup _ _)) as S.
  change (register_all m0 (seq 0 (length fs)) = Ok m) in EC. destruct (register_all m0 (seq 0 (length fs))) as [m1|e|]; [|discriminate|discriminate]. injection EC as ->.
  destruct S as [_ F].
  { intros x I. apply in_seq in I. split; [tauto|]. split; [cbn; lia|]. cbn. rewrite Forall_forall in DF. apply DF, nth_In. lia. }
  destruct F as (_ & E2 & E3 & E4). rewrite E2, E3, E4. auto.
Qed.

Section Step.
Variables (p ap : nat -> pt) (n_points : nat) (target : nat -> pt) (tol : nat -> R).
Variables (near : pt -> pt -> list nat) (faces_near : mesh -> pt -> pt -> list nat).
Hypothesis NP : finds_points n_points target tol near.
Hypothesis NF : finds_faces p faces_near.

(** Rows of faces with separate vertices are proper triangles in space. *)
Lemma corners_separate : forall (r : nat -> pt) fs f, separate r fs -> (forall v, has_corner f v -> used fs v) -> distinct3 f -> distinct_corners (at_rows r f).
Proof.
  intros r fs [[a b] c] S U (N1 & N2 & N3). cbn. assert (used fs a) by (apply U; cbn; auto). assert (used fs b) by (apply U; cbn; auto). assert (used fs c) by (apply U; cbn; auto).
  repeat split; intros E; apply S in E; auto.
Qed.

Lemma honored_by_iff : forall fs f i, separate ap fs -> (forall v, has_corner f v -> used fs v) -> distinct3 f ->
  (honored_by ap target tol i f = true <-> exists x, inside (at_rows ap f) x /\ dist2 (target i) x <= tol i * tol i).
Proof.
  intros fs f i S U D. pose proof (corners_separate ap fs f S U D) as C. unfold honored_by. destruct (at_rows ap f) as [[a b] c]. destruct C as (N & _).
  destruct (closest_nearest (target i) a b c N) as (q & d & -> & I & -> & M). unfold leb. destruct (Rle_dec _ _) as [L|L].
  - split; auto. intros _. exists q. auto.
  - split; [discriminate|]. intros (x & X & E). exfalso. apply L. apply Rle_trans with (dist2 (target i) x); auto.
Qed.

Section Flip.
Variables (m m' : mesh) (l : flip_of).
Hypothesis F : full m.
Hypothesis F' : full m'.
Hypothesis S : scored ap m l.
Hypothesis NF' : m_nf m' = m_nf m.
Hypothesis E : m_face m' = upd (upd (m_face m) (fst (l_h l)) (new_f0 l)) (fst (l_o l)) (new_f1 l).
Notation x := (l_x l). Notation y := (l_y l). Notation c := (l_c l). Notation d := (l_d l).
Notation P := (fst (l_h l)). Notation Q := (fst (l_o l)).

Lemma face_p : m_face m' P = new_f0 l.
Proof using F S E. rewrite E, upd_other, upd_same; auto. apply (rows_pq ap m); auto. Qed.
Lemma face_q : m_face m' Q = new_f1 l.
Proof using E. rewrite E, upd_same; auto. Qed.
Lemma face_other : forall j, j <> P -> j <> Q -> m_face m' j = m_face m j.
Proof using E. intros j A B. rewrite E, !upd_other; auto. Qed.
Lemma which : forall j, j = P \/ j = Q \/ (j <> P /\ j <> Q).
Proof using Type. intros j. destruct (Nat.eq_dec j P), (Nat.eq_dec j Q); auto. Qed.

Lemma flip_used : forall v, used (rows m') v <-> used (rows m) v.
Proof using F S E NF'.
  intros v. rewrite !used_rows, NF'. destruct (side_rows ap m l F S) as (LP & LQ & _).
  pose proof (corner_p ap m l S) as CP. pose proof (corner_q ap m l S) as CQ. split.
  - intros (j & J & H). destruct (which j) as [->|[->|[A B]]].
    + rewrite face_p in H. cbn in H. destruct H as [->|[->| ->]]; [exists P; rewrite CP|exists P; rewrite CP|exists Q; rewrite CQ]; auto.
    + rewrite face_q in H. cbn in H. destruct H as [->|[->| ->]]; [exists Q; rewrite CQ|exists P; rewrite CP|exists P; rewrite CP]; auto.
    + rewrite face_other in H by auto. eauto.
  - intros (j & J & H). destruct (which j) as [->|[->|[A B]]].
    + apply CP in H. destruct H as [->|[->| ->]]; [exists P|exists Q|exists P]; rewrite ?face_p, ?face_q; cbn; auto.
    + apply CQ in H. destruct H as [->|[->| ->]]; [exists Q|exists P|exists P]; rewrite ?face_p, ?face_q; cbn; auto.
    + exists j. rewrite face_other; auto.
Qed.

Lemma flip_directed : forall u v, has_directed (rows m') u v <->
  (has_directed (rows m) u v /\ (u, v) <> (x, y) /\ (u, v) <> (y, x)) \/ (u, v) = (c, d) \/ (u, v) = (d, c).
Proof using F S E NF'.
  intros u v. rewrite !directed_rows, NF'. destruct (side_rows ap m l F S) as (LP & LQ & _). pose proof (rows_pq ap m l F S) as PQ.
  pose proof (in3_p ap m l S) as IP. pose proof (in3_q ap m l S) as IQ. pose proof (distinct4 ap m l F S) as (N1 & N2 & N3 & N4 & N5 & N6).
  pose proof F as [[D _] FL].
  assert (UN : forall j j', (j < m_nf m)%nat -> (j' < m_nf m)%nat -> in3 (m_face m j) u v -> in3 (m_face m j') u v -> j = j').
  { intros j j' J J' I I'. apply in3_iff in I, I'. destruct I as (k & K & A & B), I' as (k' & K' & A' & B').
    enough ((j, k) = (j', k')) as X by (injection X; auto). apply (unique_side m (live m)); auto; [split; auto|split; auto| |]; unfold tail, head; cbn [fst snd]; congruence. }
  split.
  - intros (j & J & H). destruct (which j) as [->|[->|[A B]]].
    + rewrite face_p in H. cbn in H. destruct H as [[-> ->]|[[-> ->]|[-> ->]]]; [left|left|auto].
      * split; [exists P; split; [auto|]; apply IP; cbn; auto|]. split; congruence.
      * split; [exists Q; split; [auto|]; apply IQ; cbn; auto|]. split; congruence.
    + rewrite face_q in H. cbn in H. destruct H as [[-> ->]|[[-> ->]|[-> ->]]]; [left|left|auto].
      * split; [exists Q; split; [auto|]; apply IQ; cbn; auto|]. split; congruence.
      * split; [exists P; split; [auto|]; apply IP; cbn; auto|]. split; congruence.
    + rewrite face_other in H by auto. left. split; [eauto|]. split; intros X; injection X as -> ->.
      * apply A, UN; auto. apply IP. cbn. auto.
      * apply B, UN; auto. apply IQ. cbn. auto.
  - intros [[(j & J & H) [X Y]]|[X|X]].
    + destruct (which j) as [->|[->|[A B]]].
      * apply IP in H. cbn in H. destruct H as [[-> ->]|[[-> ->]|[-> ->]]]; [congruence|exists Q; rewrite face_q; cbn; auto|exists P; rewrite face_p; cbn; auto].
      * apply IQ in H. cbn in H. destruct H as [[-> ->]|[[-> ->]|[-> ->]]]; [congruence|exists P; rewrite face_p; cbn; auto|exists Q; rewrite face_q; cbn; auto].
      * exists j. rewrite face_other; auto.
    + injection X as -> ->. exists Q. rewrite face_q. cbn. auto.
    + injection X as -> ->. exists P. rewrite face_p. cbn. auto 6.
Qed.
Lemma flip_boundary : forall u v, on_boundary (rows m') u v <-> on_boundary (rows m) u v.
Proof using F S E NF'.
  intros u v. unfold on_boundary. rewrite !flip_directed.
  assert (DX : has_directed (rows m) x y /\ has_directed (rows m) y x).
  { destruct (side_rows ap m l F S) as (LP & LQ & _). rewrite !directed_rows. split; [exists P; split; [auto|apply (in3_p ap m l S)]; cbn; auto|exists Q; split; [auto|apply (in3_q ap m l S)]; cbn; auto]. }
  destruct DX as [DX DY].
  assert (NC : ~ has_directed (rows m) c d /\ ~ has_directed (rows m) d c).
  { pose proof F as [[D _] FL]. rewrite !directed_rows. split; intros (j & J & I); apply in3_iff in I; destruct I as (k & K & A & B).
    - apply (halfedge_of_none m (live m) c d D (sc_no _ _ _ S) (j, k)); auto. split; auto.
    - apply (halfedge_of_none m (live m) d c D (sc_no' _ _ _ S) (j, k)); auto. split; auto. }
  destruct NC as [NC ND]. split.
  - intros [[[H [A B]]|[X|X]] N].
    + split; auto. intros H'. apply N. left. split; auto. split; congruence.
    + exfalso. apply N. right. right. congruence.
    + exfalso. apply N. right. left. congruence.
  - intros [H N]. split.
    + left. split; auto. split; intros X; injection X as -> ->; auto.
    + intros [[H' _]|[X|X]]; [auto|injection X as -> ->; auto|injection X as -> ->; auto].
Qed.

Hypothesis SEP : separate ap (rows m).
Hypothesis SEPp : separate p (rows m).
Lemma corners_used : forall j v, (j < m_nf m)%nat -> has_corner (m_face m j) v -> used (rows m) v.
Proof using Type. intros j v J H. apply used_rows. eauto. Qed.
Lemma new_used : forall j v, (j < m_nf m)%nat -> has_corner (m_face m' j) v -> used (rows m) v.
Proof using F S E NF'. intros j v J H. apply flip_used, used_rows. exists j. rewrite NF'. auto. Qed.
Lemma rotate_inside : forall r f k z, (k < 3)%nat -> (inside (at_rows r f) z <-> in_triangle (r (corner f k)) (r (corner f (ccw k))) (r (corner f (cw k))) z).
Proof using Type.
  assert (RT : forall a b c z, in_triangle a b c z -> in_triangle b c a z).
  { intros a b c0 z (u & v & w & U & V & W & T & X & Y & Z). exists v, w, u. rewrite X, Y, Z. repeat split; auto; lra. }
  intros r [[a b] e] k z K. destruct (three k K) as [->|[->| ->]]; cbn; split; auto.
Qed.

Lemma quad_box : forall f z, (forall v, has_corner f v -> v = x \/ v = y \/ v = c \/ v = d) -> inside (at_rows ap f) z ->
  in_box (lo_of (ap x) [ap y; ap c; ap d]) (hi_of (ap x) [ap y; ap c; ap d]) z.
Proof using Type.
  intros [[a b] e] z H I. assert (B : forall v, has_corner (a, b, e) v -> in_box (lo_of (ap x) [ap y; ap c; ap d]) (hi_of (ap x) [ap y; ap c; ap d]) (ap v)).
  { intros v V. apply box4. destruct (H v V) as [->|[->|[->| ->]]]; cbn; auto. }
  apply (convex_box _ _ (ap a) (ap b) (ap e)); auto; apply B; cbn; auto.
Qed.
Lemma neighbour_kept : forall u v g, In (u, v) [(c, x); (y, c); (x, d); (d, y)] -> In g (neighbour m u v) -> In g (rows m') /\ exists j, (j < m_nf m)%nat /\ m_face m j = g.
Proof using F S E NF'.
  intros u v g I G. unfold neighbour in G. destruct (halfedge_of m u v) as [h|] eqn:H; [|destruct G]. destruct (m_opp m h) as [o|] eqn:O; [|destruct G].
  destruct G as [<-|[]]. pose proof F as [[D _] FL]. pose proof D as (DF & _ & OS & _). apply OS in O. destruct O as (_ & SO & T & HD).
  apply (halfedge_of_spec m (live m) _ _ _ D) in H. destruct H as (_ & TH & HH). rewrite TH in T. rewrite HH in HD.
  assert (LO : (fst o < m_nf m)%nat) by (apply DF, SO).
  assert (IN : in3 (m_face m (fst o)) v u) by (rewrite HD, T; apply in3_side; [apply SO|reflexivity]).
  pose proof (distinct4 ap m l F S) as (N1 & N2 & N3 & N4 & N5 & N6).
  split; [|eauto]. apply rows_in. exists (fst o). rewrite NF'. split; [auto|]. apply face_other.
  - intros X. rewrite X in IN. apply (in3_p ap m l S) in IN. cbn in I, IN. destruct I as [I|[I|[I|[I|[]]]]]; injection I as <- <-; intuition congruence.
  - intros X. rewrite X in IN. apply (in3_q ap m l S) in IN. cbn in I, IN. destruct I as [I|[I|[I|[I|[]]]]]; injection I as <- <-; intuition congruence.
Qed.

Lemma flip_honored : honors_ok ap n_points target tol near m l = true -> forall i, (i < n_points)%nat -> honored ap target tol (rows m) i -> honored ap target tol (rows m') i.
Proof using NP F F' S E NF' SEP.
  intros H i I (f & z & FI & IN & DI). apply rows_in in FI. destruct FI as (j & J & <-).
  destruct (side_rows ap m l F S) as (LP & LQ & DP & DQ).
  assert (SEP' : separate ap (rows m')). { intros u v U V. apply SEP; apply flip_used; auto. }
  assert (K : j = P \/ j = Q -> honored ap target tol (rows m') i).
  { intros JJ. unfold honors_ok in H. replace (n_points =? 0)%nat with false in H by (symmetry; apply Nat.eqb_neq; lia).
    rewrite forallb_forall in H. specialize (H i).
    assert (HJ : honored_by ap target tol i (m_face m j) = true).
    { apply (honored_by_iff (rows m)); auto; [intros v; apply corners_used; auto|apply full_distinct; auto|eauto]. }
    assert (B : In i (near (lo_of (ap x) [ap y; ap c; ap d]) (hi_of (ap x) [ap y; ap c; ap d]))).
    { apply (NP _ _ i z); auto. apply (quad_box (m_face m j)); auto. intros v V. destruct JJ as [-> | ->]; [apply (corner_p ap m l S) in V|apply (corner_q ap m l S) in V]; tauto. }
    specialize (H B). apply orb_true_iff in H. destruct H as [H|H].
    { exfalso. apply andb_true_iff in H. destruct H as [H1 H2]. apply negb_true_iff in H1, H2. destruct JJ; subst j; congruence. }
    apply existsb_exists in H. destruct H as (g & G & HG).
    assert (R : In g (rows m')).
    { cbn [app] in G. destruct G as [<-|[<-|G]]; [apply rows_in; exists P; rewrite NF', face_p; auto|apply rows_in; exists Q; rewrite NF', face_q; auto|].
      repeat (apply in_app_iff in G; destruct G as [G|G]); [apply (neighbour_kept c x)|apply (neighbour_kept y c)|apply (neighbour_kept x d)|apply (neighbour_kept d y)]; cbn; auto. }
    pose proof R as R'. apply rows_in in R'. destruct R' as (k & KL & EK).
    apply (honored_by_iff (rows m')) in HG; auto.
    - destruct HG as (z' & IZ & DZ). exists g, z'. auto.
    - intros v V. exists g. auto.
    - rewrite <- EK. apply full_distinct; auto. }
  destruct (which j) as [JP|[JQ|[JP JQ]]]; [auto|auto|]. exists (m_face m j), z. split; auto. apply rows_in. exists j. rewrite NF', face_other; auto.
Qed.

(** The guard answers, and its yes means that the new faces meet the others properly. *)
Lemma any_of_ok : forall fis hits, (forall fi, In fi fis -> exists b, hits fi = Ok b) ->
  exists b, any_of fis hits = Ok b /\ (b = false -> forall fi, In fi fis -> hits fi = Ok false).
Proof using Type.
  induction fis as [|fi fis IH]; intros hits H; cbn [any_of]; [exists false; split; [auto|intros _ fi []]|].
  destruct (H fi (or_introl eq_refl)) as [b EF]. rewrite EF. cbn [bind]. destruct b; [exists true; split; [auto|discriminate]|].
  destruct (IH hits) as (b & EB & HB); [intros; apply H; right; auto|]. exists b. split; auto. intros -> fi' [<-|I]; auto.
Qed.
Lemma crosses_ok : forall f, distinct3 f -> (forall v, has_corner f v -> used (rows m) v) ->
  exists b, crosses p faces_near m f P Q = Ok b /\
    (b = false -> forall j, (j < m_nf m)%nat -> j <> P -> j <> Q -> clear (at_rows p f) (at_rows p (m_face m j))).
Proof using NF F SEPp.
  intros f D U. unfold crosses. pose proof (corners_separate p (rows m) f SEPp U D) as CF. destruct (at_rows p f) as [[a b] e] eqn:EF.
  set (lo := lo_of a [b; e]). set (hi := hi_of a [b; e]).
  destruct (any_of_ok (faces_near m lo hi) (fun gi => if (gi =? P)%nat || (gi =? Q)%nat then Ok false else triangles_intersect (a, b, e) (at_rows p (m_face m gi)))) as (r & ER & HR).
  { intros fi I. destruct (_ || _); [eauto|]. apply no_throw; [exact CF|]. apply (NF m lo hi) in I. apply (full_live m fi F) in I.
    apply (corners_separate p (rows m)); auto; [intros v; apply corners_used; auto|apply full_distinct; auto]. }
  exists r. split; [exact ER|]. intros R j J NP' NQ (z & IZ & JZ & NZ). specialize (HR R j).
  assert (I : In j (faces_near m lo hi)).
  { apply (proj2 (NF m lo hi j) z); auto; [apply (full_live m j F); auto|]. apply triangle_box. exact IZ. }
  specialize (HR I). apply Nat.eqb_neq in NP', NQ. rewrite NP', NQ in HR. cbn [orb] in HR.
  assert (CJ : distinct_corners (at_rows p (m_face m j))) by (apply (corners_separate p (rows m)); auto; [intros v; apply corners_used; auto|apply full_distinct; auto]).
  rewrite (intersect_complete (a, b, e) (at_rows p (m_face m j)) CF CJ z IZ JZ NZ) in HR. discriminate.
Qed.
Lemma guard_spec : exists b, guard_ok p faces_near m l = Ok b /\
  (b = true -> forall j, (j < m_nf m)%nat -> j <> P -> j <> Q ->
     clear (at_rows p (new_f0 l)) (at_rows p (m_face m j)) /\ clear (at_rows p (new_f1 l)) (at_rows p (m_face m j))).
Proof using NF F S E NF' SEPp.
  pose proof (distinct4 ap m l F S) as (N1 & N2 & N3 & N4 & N5 & N6). destruct (side_rows ap m l F S) as (LP & LQ & _).
  destruct (crosses_ok (new_f0 l)) as (b & EB & HB); [cbn; auto|intros v V; apply (new_used P); auto; rewrite face_p; auto|].
  destruct (crosses_ok (new_f1 l)) as (b' & EB' & HB'); [cbn; auto|intros v V; apply (new_used Q); auto; rewrite face_q; auto|].
  unfold guard_ok. rewrite EB. cbn [bind]. destruct b; [exists false; split; [auto|discriminate]|]. rewrite EB'. cbn [bind].
  exists (negb b'). split; auto. intros X. apply negb_true_iff in X. intros j J A B. split; auto.
Qed.
Lemma flip_pairs : forall fs, length fs = m_nf m -> no_new_crossing p fs (rows m) ->
  (forall j, (j < m_nf m)%nat -> j <> P -> j <> Q -> clear (at_rows p (new_f0 l)) (at_rows p (m_face m j)) /\ clear (at_rows p (new_f1 l)) (at_rows p (m_face m j))) ->
  no_new_crossing p fs (rows m').
Proof using F S E NF'.
  intros fs LF H G i j. rewrite rows_length, NF'. intros I J N. rewrite !rows_nth by (rewrite NF'; auto).
  assert (AD : adjacent (new_f0 l) (new_f1 l)) by (exists d, c; cbn; auto).
  assert (AD' : adjacent (new_f1 l) (new_f0 l)) by (exists c, d; cbn; auto).
  destruct (which i) as [->|[->|[A B]]], (which j) as [->|[->|[A' B']]]; rewrite ?face_p, ?face_q, ?face_other by auto; try congruence; auto.
  - left. apply G; auto.
  - left. apply G; auto.
  - left. apply clear_sym, G; auto.
  - left. apply clear_sym, G; auto.
  - specialize (H i j). rewrite rows_length, !rows_nth in H by auto. auto.
Qed.
End Flip.

(** * The loop *)
Variables (max_edge2 : R) (take : list item -> option (item * list item)).
Hypothesis TL : takes_largest take.

Record holds (m0 m : mesh) (n : nat) : Prop := {
  ho_full : full m; ho_nf : m_nf m = m_nf m0;
  ho_used : forall v, used (rows m) v <-> used (rows m0) v;
  ho_boundary : forall u v, on_boundary (rows m) u v <-> on_boundary (rows m0) u v;
  ho_bend : total_bend (bend ap) (rows m) + INR n * / 10 ^ 6 <= total_bend (bend ap) (rows m0);
  ho_honored : forall i, (i < n_points)%nat -> honored ap target tol (rows m0) i -> honored ap target tol (rows m) i;
  ho_pairs : no_new_crossing p (rows m0) (rows m) }.

Lemma holds_start : forall m, full m -> holds m m 0.
Proof using Type.
  intros m F. constructor; auto; try tauto; [cbn [INR]; lra|]. intros i j I J N. auto.
Qed.
Lemma holds_flip : forall m0 m n l, separate ap (rows m0) -> separate p (rows m0) -> holds m0 m n -> scored ap m l ->
  exists ok, guard_ok p faces_near m l = Ok ok /\
  exists m', flip m (l_x l) (l_y l) = Ok m' /\ (ok = true -> honors_ok ap n_points target tol near m l = true -> holds m0 m' (S n)).
Proof using NP NF.
  intros m0 m n l SA SP H S. destruct H as [F EN U B T HO PA]. destruct (flip_ok ap m l F S) as (m' & FL & F' & N' & E).
  assert (SA' : separate ap (rows m)). { intros u v X Y. apply SA; apply U; auto. }
  assert (SP' : separate p (rows m)). { intros u v X Y. apply SP; apply U; auto. }
  destruct (guard_spec m m' l F S N' E SP') as (ok & EG & HG). exists ok. split; [auto|]. exists m'. split; auto. intros OK HN. constructor; auto.
  - congruence.
  - intros v. rewrite (flip_used m m' l F S N' E). apply U.
  - intros u v. rewrite (flip_boundary m m' l F S N' E). apply B.
  - rewrite (flip_total ap m l F S m' N' E), S_INR. pose proof (sc_pos _ _ _ S). lra.
  - intros i I X. apply (flip_honored m m' l F F' S N' E SA'); auto.
  - apply (flip_pairs m m' l F S N' E); auto. rewrite rows_length. auto.
Qed.

Lemma enqueue_length : forall m es q, (length (fold_left (enqueue ap max_edge2 m) es q) <= length q + length es)%nat.
Proof using Type.
  intros m. induction es as [|e es IH]; intros q; cbn [fold_left length]; [lia|]. specialize (IH (enqueue ap max_edge2 m q e)).
  assert (length (enqueue ap max_edge2 m q e) <= S (length q))%nat by (unfold enqueue; destruct (score ap max_edge2 m e); cbn [length]; lia). lia.
Qed.
Lemma changed_length : forall m a b, (length (changed m a b) <= 24)%nat.
Proof using Type.
  intros m a b. unfold changed. set (f := fun h : halfedge => _ :: _).
  assert (L : forall h, (length (f h) <= 4)%nat).
  { intros h. unfold f. cbn [length]. destruct (m_opp m h) as [g|]; [|cbn; lia]. destruct (_ || _); [cbn; lia|]. destruct (m_face m (fst g)) as [[? ?] ?]. cbn. lia. }
  clearbody f. cbn [flat_map]. rewrite !app_length. cbn [length].
  pose proof (L (a, 0)%nat). pose proof (L (a, 1)%nat). pose proof (L (a, 2)%nat). pose proof (L (b, 0)%nat). pose proof (L (b, 1)%nat). pose proof (L (b, 2)%nat). lia.
Qed.
Lemma halfedges_length : forall m, (length (halfedges m) <= 3 * m_nf m)%nat.
Proof using Type.
  intros m. unfold halfedges. assert (G : forall l, (length (flat_map (fun fi => if m_deleted m fi then [] else [(fi, 0); (fi, 1); (fi, 2)]%nat) l) <= 3 * length l)%nat).
  { induction l as [|a l IH]; cbn [flat_map]; [cbn; lia|]. rewrite app_length. destruct (m_deleted m a); cbn [length] in *; lia. }
  eapply Nat.le_trans; [apply G|]. rewrite seq_length. lia.
Qed.
Lemma filter_length_le : forall A (t : A -> bool) l, (length (filter t l) <= length l)%nat.
Proof using Type. intros A t. induction l as [|a l IH]; cbn [filter length]; [lia|]. destruct (t a); cbn [length]; lia. Qed.
Lemma initial_length : forall m, (length (initial ap max_edge2 m) <= 3 * m_nf m)%nat.
Proof using Type.
  intros m. unfold initial. eapply Nat.le_trans; [apply enqueue_length|]. rewrite map_length. cbn [length].
  pose proof (filter_length_le _ (canonical m) (halfedges m)). pose proof (halfedges_length m). lia.
Qed.

Lemma loop_spec : forall m0, separate ap (rows m0) -> separate p (rows m0) -> forall fuel m q n, holds m0 m n -> (n <= cap m)%nat ->
  (length q + 25 * (S (cap m) - n) < fuel)%nat ->
  exists m' n', loop p ap n_points target tol max_edge2 near faces_near take fuel m q n = Ok (Some (m', n')) /\ holds m0 m' n' /\ (n' <= S (cap m0))%nat.
Proof using NP NF TL.
  intros m0 SA SP. induction fuel as [|fuel IH]; intros m q n H C L; [lia|]. cbn [loop].
  assert (EC : cap m = cap m0) by (unfold cap; rewrite (ho_nf _ _ _ H); auto).
  pose proof (TL q) as T. destruct (take q) as [[[e w] q']|]; [|exists m, n; split; [reflexivity|split; [auto|lia]]].
  destruct T as [PE _]. apply Permutation_length in PE. cbn [length] in PE.
  destruct (score ap max_edge2 m e) as [l|] eqn:SC; [|apply IH; auto; lia].
  apply score_inv in SC; [|apply (ho_full _ _ _ H)]. destruct (holds_flip m0 m n l SA SP H SC) as (ok & EG & m' & EF & HF).
  destruct (honors_ok ap n_points target tol near m l) eqn:HN; [|apply IH; auto; lia].
  rewrite EG. cbn [bind]. destruct ok; [|apply IH; auto; lia]. rewrite EF. cbn [bind]. specialize (HF eq_refl eq_refl).
  assert (EC' : cap m' = cap m0) by (unfold cap; rewrite (ho_nf _ _ _ HF); auto).
  destruct (Nat.ltb_spec (cap m) (S n)) as [G|G]; [exists m', (S n); split; [reflexivity|split; [auto|lia]]|].
  apply IH; auto; [lia|]. pose proof (enqueue_length m' (changed m' (fst (l_h l)) (fst (l_o l))) q'). pose proof (changed_length m' (fst (l_h l)) (fst (l_o l))). lia.
Qed.

Theorem smooth_spec : forall fs : list face, Forall distinct3 fs -> ~ clash (fun i => nth i fs (0, 0, 0)%nat) (fun i => (i < length fs)%nat) ->
  separate p fs -> separate ap fs ->
  exists fs' n, smooth p ap n_points target tol max_edge2 near faces_near take (enough fs) fs = Ok (Some (fs', n)) /\
    length fs' = length fs /\ Forall distinct3 fs' /\ ~ clash (fun i => nth i fs' (0, 0, 0)%nat) (fun i => (i < length fs')%nat) /\
    (forall v, used fs' v <-> used fs v) /\ (forall u v, on_boundary fs' u v <-> on_boundary fs u v) /\
    total_bend (bend ap) fs' + INR n * / 10 ^ 6 <= total_bend (bend ap) fs /\ (n <= 50 * Nat.max (length fs) 1 + 1)%nat /\
    (forall i, (i < n_points)%nat -> honored ap target tol fs i -> honored ap target tol fs' i) /\ no_new_crossing p fs fs'.
Proof using NP NF TL.
  intros fs D NC SP SA. unfold smooth. pose proof (construct_spec fs D) as C. destruct (construct fs) as [m|e|] eqn:EC; [|destruct C; contradiction|destruct C].
  cbn [bind]. destruct C as (CO & TF & _).
  assert (M : m_nf m = length fs /\ m_face m = (fun i => nth i fs (0, 0, 0)%nat) /\ forall i, m_deleted m i = false).
  { apply construct_frame; auto. }
  destruct M as (MN & MF & MD). assert (F : full m) by (split; auto; intros fi I; split; auto).
  assert (R : rows m = fs) by (rewrite <- (take_rows m F); auto).
  destruct (loop_spec m) with (fuel := enough fs) (m := m) (q := initial ap max_edge2 m) (n := 0%nat) as (m' & n & EL & H & LN); rewrite ?R; auto; [apply holds_start; auto|lia| |].
  { pose proof (initial_length m). unfold enough, cap. rewrite MN in *. lia. }
  rewrite EL. cbn [bind option_map]. destruct H as [F' EN U B T HO PA]. rewrite R in *.
  exists (rows m'), n. rewrite (take_rows m' F'). split; auto. rewrite rows_length.
  assert (EQ : forall i, (i < m_nf m')%nat -> nth i (rows m') (0, 0, 0)%nat = m_face m' i) by (intros; apply rows_nth; auto).
  repeat split; try (apply U || apply B); auto.
  - congruence.
  - apply Forall_forall. intros f I. apply rows_in in I. destruct I as (j & J & <-). apply full_distinct; auto.
  - intros (g & h & N & [SG KG] & [SH KH] & TT & HH). destruct F' as [[DD _] FL]. destruct DD as (_ & NCL & _). apply NCL. exists g, h. split; auto.
    split; [split; auto|]. split; [split; auto|]. unfold tail, head in *. rewrite !EQ in * by auto. auto.
  - unfold cap in LN. rewrite MN in LN. lia.
Qed.
End Step.
