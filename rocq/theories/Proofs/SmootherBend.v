From Coq Require Import Reals List Arith Bool Lia Lra.
From Verif Require Import Model.Outcome Model.Clip Model.PointTriangle Model.Predicates Model.LinAlg Model.MeshDefects Model.AbstractMesh Model.Smoother
  Spec.PointTriangle Spec.Predicates Spec.VertexClusterer Spec.AbstractMesh Spec.Smoother Proofs.LinAlg Proofs.MeshDefects Proofs.AbstractMesh Proofs.MeshEditing.
Import ListNotations.
Local Open Scope R_scope.

(** * The bend of two faces *)
Lemma clamp1_range : forall x, -1 <= clamp1 x <= 1.
Proof. intros x. unfold clamp1, ltb. destruct (Rlt_dec x (-1)); [lra|]. destruct (Rlt_dec 1 x); lra. Qed.
Lemma bend_range : forall ap f g, 0 <= bend ap f g <= PI.
Proof.
  intros ap f g. unfold bend. pose proof PI_RGT_0. destruct (_ || _); [lra|]. apply acos_bound.
Qed.
Lemma bend_sym : forall ap f g, bend ap f g = bend ap g f.
Proof.
  intros ap f g. unfold bend. rewrite orb_comm. destruct (_ || _); auto. do 2 f_equal. f_equal; [unfold dot3; ring|ring].
Qed.
Lemma cauchy_pt : forall a b, dot3 a b * dot3 a b <= norm2 a * norm2 b.
Proof.
  intros a b. unfold norm2, dot3. destruct a as [[ax ay] az], b as [[bx by'] bz]. cbn [px py pz fst snd].
  pose proof (Rle_0_sqr (ax * by' - ay * bx)). pose proof (Rle_0_sqr (ay * bz - az * by')). pose proof (Rle_0_sqr (az * bx - ax * bz)). unfold Rsqr in *. lra.
Qed.
Lemma bend_angle : forall ap f g, (norm2 (normal ap f) = 0 \/ norm2 (normal ap g) = 0 -> bend ap f g = PI) /\
  (0 < norm2 (normal ap f) -> 0 < norm2 (normal ap g) -> cos (bend ap f g) * (norm (normal ap f) * norm (normal ap g)) = dot3 (normal ap f) (normal ap g)).
Proof.
  intros ap f g. unfold bend. set (a := normal ap f). set (b := normal ap g). clearbody a b. unfold norm. split.
  - intros H. assert (X : negb (ltb 0 (sqrt (norm2 a))) || negb (ltb 0 (sqrt (norm2 b))) = true); [|rewrite X; reflexivity].
    unfold ltb. destruct H as [-> | ->]; rewrite sqrt_0; (destruct (Rlt_dec 0 0) as [Z|Z]; [exfalso; lra|cbn [negb orb]; try reflexivity; apply Bool.orb_true_r]).
  - intros A B. pose proof (sqrt_lt_R0 _ A) as SA. pose proof (sqrt_lt_R0 _ B) as SB. pose proof (cauchy_pt a b) as C.
    rewrite <- (sqrt_sqrt (norm2 a)), <- (sqrt_sqrt (norm2 b)) in C by lra. revert SA SB C. generalize (sqrt (norm2 a)) (sqrt (norm2 b)) (dot3 a b). clear. intros x y d X Y C.
    unfold ltb at 1 2. destruct (Rlt_dec 0 x); [|contradiction]. destruct (Rlt_dec 0 y); [|contradiction]. cbn [negb orb].
    assert (P : 0 < x * y) by nra. assert (D : - (x * y) <= d <= x * y) by (split; nra).
    assert (Q : -1 <= d / (x * y) <= 1).
    { split; [apply (Rmult_le_reg_r (x * y)); [exact P|]|apply (Rmult_le_reg_r (x * y)); [exact P|]]; unfold Rdiv; rewrite Rmult_assoc, Rinv_l, Rmult_1_r by lra; lra. }
    unfold clamp1, ltb. destruct (Rlt_dec (d / (x * y)) (-1)); [lra|]. destruct (Rlt_dec 1 (d / (x * y))); [lra|]. rewrite cos_acos by exact Q. field. lra.
Qed.

(** * Sides shared by two faces *)
Definition delta (s t : nat * nat) : R := if Nat.eqb (fst s) (fst t) && Nat.eqb (snd s) (snd t) then 1 else 0.
Definition cnt (g : face) (s : nat * nat) : R := let '(a, b, c) := g in delta s (a, b) + delta s (b, c) + delta s (c, a).
Definition weight (f g : face) : R := let '(a, b, c) := f in cnt g (b, a) + cnt g (c, b) + cnt g (a, c).

Lemma length_filter_sum : forall A (t : A -> bool) l, INR (length (filter t l)) = fold_right (fun x r => (if t x then 1 else 0) + r) 0 l.
Proof. intros A t. induction l as [|x l IH]; auto. cbn [filter fold_right]. destruct (t x); cbn [length]; rewrite ?S_INR, IH; lra. Qed.

Lemma delta_swap : forall a b c d : nat, delta (b, a) (c, d) = (if Nat.eqb a d && Nat.eqb b c then 1 else 0).
Proof. intros. unfold delta. cbn [fst snd]. rewrite andb_comm. reflexivity. Qed.

Lemma shared_weight : forall f g, INR (shared_edges f g) = weight f g.
Proof.
  intros [[a b] c] [[a' b'] c']. unfold shared_edges. rewrite length_filter_sum. cbn [sides list_prod map app fold_right weight cnt].
  rewrite !delta_swap. lra.
Qed.

Lemma weight_sym : forall f g, weight f g = weight g f.
Proof.
  intros [[a b] c] [[a' b'] c']. cbn [weight cnt].
  assert (S : forall u v w z : nat, delta (u, v) (w, z) = delta (z, w) (v, u)).
  { intros. unfold delta. cbn [fst snd]. rewrite (Nat.eqb_sym u w), (Nat.eqb_sym v z), andb_comm. reflexivity. }
  rewrite (S b a a' b'), (S b a b' c'), (S b a c' a'), (S c b a' b'), (S c b b' c'), (S c b c' a'), (S a c a' b'), (S a c b' c'), (S a c c' a'). ring.
Qed.

Lemma weight_rotate : forall f g k, (k < 3)%nat -> weight f g = weight (corner f k, corner f (ccw k), corner f (cw k)) g.
Proof. intros [[a b] c] g k K. destruct (three k K) as [->|[->| ->]]; cbn [corner ccw cw weight]; ring. Qed.

Lemma delta_1 : forall s t, s = t -> delta s t = 1.
Proof. intros s t ->. unfold delta. rewrite !Nat.eqb_refl. reflexivity. Qed.
Lemma delta_0 : forall s t, s <> t -> delta s t = 0.
Proof.
  intros [a b] [c d] N. unfold delta. cbn [fst snd]. destruct (Nat.eqb_spec a c); auto. destruct (Nat.eqb_spec b d); auto. subst. destruct N. reflexivity.
Qed.
Lemma cnt_0 : forall g u v, ~ in3 g u v -> cnt g (u, v) = 0.
Proof.
  intros [[a b] c] u v N. cbn in N. cbn [cnt]. rewrite !delta_0; [ring| | |]; intros E; injection E as -> ->; tauto.
Qed.
Lemma cnt_1 : forall g u v, distinct3 g -> in3 g u v -> cnt g (u, v) = 1.
Proof.
  intros [[a b] c] u v (N1 & N2 & N3) [[-> ->]|[[-> ->]|[-> ->]]]; cbn [cnt].
  - rewrite (delta_1 (a, b) (a, b)), !delta_0; auto; [ring| |]; congruence.
  - rewrite (delta_1 (b, c) (b, c)), !delta_0; auto; [ring| |]; congruence.
  - rewrite (delta_1 (c, a) (c, a)), !delta_0; auto; [ring| |]; congruence.
Qed.
Lemma weight_self : forall f, distinct3 f -> weight f f = 0.
Proof. intros [[a b] c] (N1 & N2 & N3). cbn [weight]. rewrite !cnt_0; [ring| | |]; cbn; intuition congruence. Qed.
Lemma weight_nonneg : forall f g, 0 <= weight f g.
Proof. intros f g. rewrite <- shared_weight. apply pos_INR. Qed.

(** * Sums over pairs of rows, two of which change *)
Definition drop2 (p q : nat) (f : nat -> R) (j : nat) : R := if Nat.eqb j p || Nat.eqb j q then 0 else f j.
Lemma rsum_drop2 : forall n p q f, (p < n)%nat -> (q < n)%nat -> p <> q -> rsum n f = f p + f q + rsum n (drop2 p q f).
Proof.
  intros n p q f P Q N.
  set (fp := fun j => if Nat.eqb j p then f j else 0). set (fq := fun j => if Nat.eqb j q then f j else 0).
  assert (rsum n fp = f p) as <-.
  { rewrite (rsum_single n p); auto; unfold fp; [rewrite Nat.eqb_refl; auto|]. intros i _ E. apply Nat.eqb_neq in E. rewrite E. auto. }
  assert (rsum n fq = f q) as <-.
  { rewrite (rsum_single n q); auto; unfold fq; [rewrite Nat.eqb_refl; auto|]. intros i _ E. apply Nat.eqb_neq in E. rewrite E. auto. }
  rewrite <- !rsum_plus. apply rsum_ext. intros i _. unfold fp, fq, drop2.
  destruct (Nat.eqb_spec i p), (Nat.eqb_spec i q); cbn [orb]; try lra. subst. congruence.
Qed.

Section Pairs.
Variables (n p q : nat) (M M' : nat -> nat -> R).
Hypothesis P : (p < n)%nat. Hypothesis Q : (q < n)%nat. Hypothesis N : p <> q.
Hypothesis SM : forall i j, M i j = M j i.

Lemma pair_sum : rsum n (fun i => rsum n (M i)) =
  M p p + M q q + 2 * M p q + 2 * rsum n (drop2 p q (M p)) + 2 * rsum n (drop2 p q (M q)) + rsum n (drop2 p q (fun i => rsum n (drop2 p q (M i)))).
Proof using P Q N SM.
  rewrite (rsum_drop2 n p q (fun i => rsum n (M i)) P Q N).
  rewrite (rsum_drop2 n p q (M p) P Q N), (rsum_drop2 n p q (M q) P Q N).
  assert (rsum n (drop2 p q (fun i => rsum n (M i))) = rsum n (drop2 p q (M p)) + rsum n (drop2 p q (M q)) + rsum n (drop2 p q (fun i => rsum n (drop2 p q (M i))))) as ->.
  { rewrite <- !rsum_plus. apply rsum_ext. intros i _. unfold drop2 at 1 2 3 4. destruct (Nat.eqb i p || Nat.eqb i q); [lra|].
    rewrite (rsum_drop2 n p q (M i) P Q N), (SM i p), (SM i q). lra. }
  rewrite (SM q p). lra.
Qed.
End Pairs.

Lemma rest_same : forall n p q (M M' : nat -> nat -> R), (forall i j, i <> p -> i <> q -> j <> p -> j <> q -> M' i j = M i j) ->
  rsum n (drop2 p q (fun i => rsum n (drop2 p q (M' i)))) = rsum n (drop2 p q (fun i => rsum n (drop2 p q (M i)))).
Proof.
  intros n p q M M' E. apply rsum_ext. intros i _. unfold drop2 at 1 3. destruct (Nat.eqb_spec i p); auto. destruct (Nat.eqb_spec i q); auto.
  cbn [orb]. apply rsum_ext. intros j _. unfold drop2. destruct (Nat.eqb_spec j p); auto. destruct (Nat.eqb_spec j q); auto. cbn [orb]. auto.
Qed.

(** * A mesh without deleted rows *)
Definition rows (m : mesh) : list face := map (m_face m) (seq 0 (m_nf m)).

Lemma rows_length : forall m, length (rows m) = m_nf m.
Proof. intros m. unfold rows. rewrite map_length, seq_length. reflexivity. Qed.
Lemma rows_nth : forall m i d, (i < m_nf m)%nat -> nth i (rows m) d = m_face m i.
Proof.
  intros m i d I. unfold rows. rewrite (nth_indep _ d (m_face m 0)) by (rewrite map_length, seq_length; auto). rewrite map_nth, seq_nth; auto.
Qed.
Lemma rows_in : forall m f, In f (rows m) <-> exists fi, (fi < m_nf m)%nat /\ m_face m fi = f.
Proof.
  intros m f. unfold rows. rewrite in_map_iff. split; intros (i & A & B); exists i; rewrite in_seq in *; intuition lia.
Qed.
Lemma full_live : forall m fi, full m -> (live m fi <-> (fi < m_nf m)%nat).
Proof. intros m fi [C F]. split; [intros [L _]; auto|auto]. Qed.
Lemma take_rows : forall m, full m -> take_faces m = rows m.
Proof.
  intros m [C F]. unfold take_faces, rows. f_equal. assert (G : forall l, (forall i, In i l -> (i < m_nf m)%nat) -> filter (fun fi => negb (m_deleted m fi)) l = l).
  { induction l as [|a l IH]; intros H; auto. cbn [filter]. destruct (F a (H a (or_introl eq_refl))) as [_ ->]. cbn [negb]. rewrite IH; auto. intros i I. apply H. right. auto. }
  apply G. intros i I. apply in_seq in I. lia.
Qed.

Lemma total_rows : forall ap m, total_bend (bend ap) (rows m) =
  rsum (m_nf m) (fun i => rsum (m_nf m) (fun j => weight (m_face m i) (m_face m j) * bend ap (m_face m i) (m_face m j))) / 2.
Proof.
  intros ap m. unfold total_bend. rewrite rows_length. f_equal. apply rsum_ext. intros i I. apply rsum_ext. intros j J.
  rewrite !rows_nth by auto. rewrite shared_weight. reflexivity.
Qed.
Lemma total_nonneg : forall ap fs, 0 <= total_bend (bend ap) fs.
Proof.
  intros ap fs. unfold total_bend. match goal with |- 0 <= ?a / 2 => enough (0 <= a) by lra end.
  apply rsum_pos. intros i _. apply rsum_pos. intros j _. apply Rmult_le_pos; [apply pos_INR|apply bend_range].
Qed.

(** * The face across a directed side *)
Lemma in3_side : forall m h fi, (snd h < 3)%nat -> fst h = fi -> in3 (m_face m fi) (tail (m_face m) h) (head (m_face m) h).
Proof. intros m [a k] fi K <-. apply in3_iff. exists k. auto. Qed.

Lemma across_sum : forall ap m f u v, full m ->
  rsum (m_nf m) (fun j => cnt (m_face m j) (u, v) * bend ap f (m_face m j)) = bend_with ap m f (halfedge_of m u v).
Proof.
  intros ap m f u v F. pose proof F as [[D _] L]. pose proof D as (DF & _). destruct (halfedge_of m u v) as [h|] eqn:E; cbn [bend_with].
  - apply (halfedge_of_spec m (live m) _ _ _ D) in E. destruct E as ([LH K] & T & H).
    rewrite (rsum_single _ (fst h)).
    + rewrite cnt_1; [ring|apply DF; auto|]. rewrite <- T, <- H. apply in3_side; auto.
    + apply DF. auto.
    + intros i I N. rewrite cnt_0; [ring|]. intros X. apply in3_iff in X. destruct X as (k & K' & A & B). apply N.
      enough ((i, k) = h) as <- by auto. apply (unique_side m (live m)); auto; [split; auto|split; auto| |]; unfold tail, head in *; cbn [fst snd] in *; congruence.
  - apply rsum_0. intros j J. rewrite cnt_0; [ring|]. intros X. apply in3_iff in X. destruct X as (k & K & A & B).
    apply (halfedge_of_none m (live m) u v D E (j, k)); [split; auto| |]; auto.
Qed.

(** The opposite of a side is the side between the same vertices. *)
Lemma opp_of : forall m h, consistent m -> side (live m) h -> m_opp m h = halfedge_of m (head (m_face m) h) (tail (m_face m) h).
Proof.
  intros m h [D _] S. pose proof D as (_ & _ & O & _). destruct (m_opp m h) as [g|] eqn:E.
  - apply O in E. destruct E as (_ & SG & T & H). symmetry. apply (halfedge_of_spec m (live m) _ _ _ D). auto.
  - destruct (halfedge_of m _ _) as [g|] eqn:E'; auto. apply (halfedge_of_spec m (live m) _ _ _ D) in E'. destruct E' as (SG & T & H).
    assert (m_opp m h = Some g) by (apply O; auto). congruence.
Qed.

Lemma tail_next : forall m h, (snd h < 3)%nat -> tail (m_face m) (next h) = head (m_face m) h /\ head (m_face m) (next h) = third (m_face m) h /\ third (m_face m) (next h) = tail (m_face m) h /\ (snd (next h) < 3)%nat.
Proof. intros m [fi k] K. cbn in K. unfold tail, head, third, next. cbn [fst snd]. destruct (three k K) as [->|[->| ->]]; cbn; repeat split; auto; lia. Qed.
Lemma tail_prev : forall m h, (snd h < 3)%nat -> tail (m_face m) (prev h) = third (m_face m) h /\ head (m_face m) (prev h) = tail (m_face m) h /\ third (m_face m) (prev h) = head (m_face m) h /\ (snd (prev h) < 3)%nat.
Proof. intros m [fi k] K. cbn in K. unfold tail, head, third, prev. cbn [fst snd]. destruct (three k K) as [->|[->| ->]]; cbn; repeat split; auto; lia. Qed.

(** * What a score says *)
Record scored (ap : nat -> pt) (m : mesh) (l : flip_of) : Prop := {
  sc_h : side (live m) (l_h l); sc_o : side (live m) (l_o l); sc_opp : m_opp m (l_h l) = Some (l_o l);
  sc_x : tail (m_face m) (l_h l) = l_x l; sc_y : head (m_face m) (l_h l) = l_y l; sc_c : third (m_face m) (l_h l) = l_c l;
  sc_x' : head (m_face m) (l_o l) = l_x l; sc_y' : tail (m_face m) (l_o l) = l_y l; sc_d : third (m_face m) (l_o l) = l_d l;
  sc_cd : l_c l <> l_d l; sc_no : halfedge_of m (l_c l) (l_d l) = None; sc_no' : halfedge_of m (l_d l) (l_c l) = None;
  sc_improve : l_improve l =
    (let f0 := m_face m (fst (l_h l)) in let f1 := m_face m (fst (l_o l)) in
     bend ap f0 f1 + bend_with ap m f0 (halfedge_of m (l_x l) (l_c l)) + bend_with ap m f0 (halfedge_of m (l_c l) (l_y l)) +
     bend_with ap m f1 (halfedge_of m (l_d l) (l_x l)) + bend_with ap m f1 (halfedge_of m (l_y l) (l_d l))) -
    (bend ap (new_f0 l) (new_f1 l) + bend_with ap m (new_f0 l) (halfedge_of m (l_x l) (l_c l)) + bend_with ap m (new_f1 l) (halfedge_of m (l_c l) (l_y l)) +
     bend_with ap m (new_f0 l) (halfedge_of m (l_d l) (l_x l)) + bend_with ap m (new_f1 l) (halfedge_of m (l_y l) (l_d l)));
  sc_pos : / 10 ^ 6 < l_improve l }.

Lemma score_inv : forall ap max_edge2 m e l, full m -> score ap max_edge2 m e = Some l -> scored ap m l.
Proof.
  intros ap max_edge2 m e l F S. pose proof F as [C _]. pose proof C as [D _]. unfold score in S.
  destruct (halfedge_of m (fst e) (snd e)) as [h|] eqn:H; [|discriminate]. destruct (m_opp m h) as [o|] eqn:O; [|discriminate].
  apply (halfedge_of_spec m (live m) _ _ _ D) in H. destruct H as (SH & TH & HH).
  pose proof D as (_ & _ & OS & _). pose proof O as O'. apply OS in O'. destruct O' as (_ & SO & TO & HO).
  destruct (Nat.eqb_spec (apex m h) (apex m o)) as [X|CD]; [discriminate|]. cbn [orb] in S.
  unfold joined in S. destruct (halfedge_of m (apex m h) (apex m o)) eqn:J1; [discriminate|].
  destruct (halfedge_of m (apex m o) (apex m h)) eqn:J2; [discriminate|].
  pose proof SH as [_ KH]. pose proof SO as [_ KO].
  destruct (tail_next m h KH) as (N1 & N2 & _ & N3). destruct (tail_prev m h KH) as (P1 & P2 & _ & P3).
  destruct (tail_next m o KO) as (N4 & N5 & _ & N6). destruct (tail_prev m o KO) as (P4 & P5 & _ & P6).
  assert (live m (fst h)) as LH by apply SH. assert (live m (fst o)) as LO by apply SO.
  rewrite (opp_of m (prev h) C), (opp_of m (next h) C), (opp_of m (next o) C), (opp_of m (prev o) C) in S by (split; auto).
  rewrite N1, N2, N4, N5, P1, P2, P4, P5, <- HO, <- TO in S.
  change (third (m_face m) h) with (apex m h) in S. change (third (m_face m) o) with (apex m o) in S.
  change (tail (m_face m) h) with (from m h) in S. change (head (m_face m) h) with (to m h) in S.
  match type of S with (if ltb ?a (?b - _) then _ else _) = _ => set (after := a) in S; set (before := b) in S end.
  destruct (ltb after (before - / 10 ^ 6)) eqn:LT; [|discriminate]. unfold ltb in LT. destruct (Rlt_dec after (before - / 10 ^ 6)) as [LT'|]; [|discriminate].
  destruct (ltb _ _); [discriminate|]. injection S as <-.
  constructor; cbn [l_h l_o l_x l_y l_c l_d l_improve]; auto.
  change (/ 10 ^ 6 < before - after). clear - LT'. clearbody before after. lra.
Qed.

(** * The flip *)
Section Step.
Variables (ap : nat -> pt) (m : mesh) (l : flip_of).
Hypothesis F : full m.
Hypothesis S : scored ap m l.
Notation x := (l_x l). Notation y := (l_y l). Notation c := (l_c l). Notation d := (l_d l).
Notation p := (fst (l_h l)). Notation q := (fst (l_o l)).

Lemma side_rows : (p < m_nf m)%nat /\ (q < m_nf m)%nat /\ distinct3 (m_face m p) /\ distinct3 (m_face m q).
Proof using F S.
  pose proof F as [[D _] _]. pose proof D as (DF & _). destruct (sc_h _ _ _ S) as [A _], (sc_o _ _ _ S) as [B _].
  destruct (DF _ A), (DF _ B). auto.
Qed.
Lemma in3_p : forall u v, in3 (m_face m p) u v <-> in3 (x, y, c) u v.
Proof using S.
  intros u v. rewrite (in3_rotate _ (snd (l_h l))) by apply (sc_h _ _ _ S).
  pose proof (sc_x _ _ _ S) as A. pose proof (sc_y _ _ _ S) as B. pose proof (sc_c _ _ _ S) as C. unfold tail, head, third in *. rewrite A, B, C. tauto.
Qed.
Lemma in3_q : forall u v, in3 (m_face m q) u v <-> in3 (y, x, d) u v.
Proof using S.
  intros u v. rewrite (in3_rotate _ (snd (l_o l))) by apply (sc_o _ _ _ S).
  pose proof (sc_x' _ _ _ S) as A. pose proof (sc_y' _ _ _ S) as B. pose proof (sc_d _ _ _ S) as C. unfold tail, head, third in *. rewrite A, B, C. tauto.
Qed.
Lemma distinct4 : x <> y /\ y <> c /\ c <> x /\ x <> d /\ d <> y /\ c <> d.
Proof using F S.
  destruct side_rows as (_ & _ & A & B).
  pose proof (distinct_rotate _ _ (proj2 (sc_h _ _ _ S)) A) as X. pose proof (distinct_rotate _ _ (proj2 (sc_o _ _ _ S)) B) as Y.
  pose proof (sc_x _ _ _ S) as E1. pose proof (sc_y _ _ _ S) as E2. pose proof (sc_c _ _ _ S) as E3.
  pose proof (sc_x' _ _ _ S) as E4. pose proof (sc_y' _ _ _ S) as E5. pose proof (sc_d _ _ _ S) as E6. unfold tail, head, third in *.
  rewrite E1, E2, E3 in X. rewrite E4, E5, E6 in Y. destruct X as (? & ? & ?), Y as (? & ? & ?). pose proof (sc_cd _ _ _ S). repeat split; auto.
Qed.
Lemma rows_pq : p <> q.
Proof using F S.
  intros E. pose proof distinct4 as (N1 & N2 & N3 & N4 & N5 & N6).
  assert (in3 (x, y, c) y x) as X by (apply in3_p; rewrite E; apply in3_q; cbn; auto). cbn in X. intuition congruence.
Qed.
Lemma corner_p : forall v, has_corner (m_face m p) v <-> v = x \/ v = y \/ v = c.
Proof using S.
  intros v. pose proof (in3_p) as I. split.
  - intros H. apply has_corner_iff in H. destruct H as (k & K & E). assert (in3 (m_face m p) v (corner (m_face m p) (ccw k))) as X by (apply in3_iff; eauto).
    apply I in X. cbn in X. tauto.
  - intros H. apply has_corner_iff. assert (exists w, in3 (m_face m p) v w) as [w W].
    { destruct H as [->|[->| ->]]; [exists y|exists c|exists x]; apply I; cbn; auto. }
    apply in3_iff in W. destruct W as (k & K & A & _). eauto.
Qed.
Lemma corner_q : forall v, has_corner (m_face m q) v <-> v = y \/ v = x \/ v = d.
Proof using S.
  intros v. pose proof (in3_q) as I. split.
  - intros H. apply has_corner_iff in H. destruct H as (k & K & E). assert (in3 (m_face m q) v (corner (m_face m q) (ccw k))) as X by (apply in3_iff; eauto).
    apply I in X. cbn in X. tauto.
  - intros H. apply has_corner_iff. assert (exists w, in3 (m_face m q) v w) as [w W].
    { destruct H as [->|[->| ->]]; [exists x|exists d|exists y]; apply I; cbn; auto. }
    apply in3_iff in W. destruct W as (k & K & A & _). eauto.
Qed.

Lemma flip_ok : exists m', flip m x y = Ok m' /\ full m' /\ m_nf m' = m_nf m /\ m_face m' = upd (upd (m_face m) p (new_f0 l)) q (new_f1 l).
Proof using F S.
  pose proof F as [C FL]. pose proof C as [D _]. destruct (flip_spec m (l_h l) (l_o l) x y c d C) as [_ X].
  { destruct S. repeat split; auto; apply sc_h0 || apply sc_o0. }
  assert (NS : forall u v, halfedge_of m u v = None -> ~ has_side m u v).
  { intros u v E (h & SH & T & H). eapply (halfedge_of_none m (live m)); eauto. }
  destruct (flip m x y) as [m'|e|]; [|exfalso|destruct X].
  - exists m'. destruct X as (C' & N & L & E & _). split; [auto|]. split; [|split; [auto|exact E]]. split; [exact C'|]. intros fi I. apply L, FL. lia.
  - destruct X as [_ [X|[X|X]]]; [apply (sc_cd _ _ _ S X)|apply (NS _ _ (sc_no _ _ _ S) X)|apply (NS _ _ (sc_no' _ _ _ S) X)].
Qed.

(** The bends along one directed side with the faces other than p and q. *)
Definition part (f : face) (s : nat * nat) : R := rsum (m_nf m) (drop2 p q (fun j => cnt (m_face m j) s * bend ap f (m_face m j))).
Lemma part_across : forall f u v, ~ in3 (m_face m p) u v -> ~ in3 (m_face m q) u v -> part f (u, v) = bend_with ap m f (halfedge_of m u v).
Proof using F.
  intros f u v P Q. rewrite <- across_sum by apply F. apply rsum_ext. intros j _. unfold drop2.
  destruct (Nat.eqb_spec j p) as [-> |]; [cbn [orb]; rewrite cnt_0 by auto; ring|]. destruct (Nat.eqb_spec j q) as [-> |]; [cbn [orb]; rewrite cnt_0 by auto; ring|reflexivity].
Qed.
Lemma part_inner : forall f u v, in3 (m_face m p) u v \/ in3 (m_face m q) u v -> part f (u, v) = 0.
Proof using F S.
  intros f u v I. pose proof F as [[D _] FL]. apply rsum_0. intros j J. unfold drop2. destruct (Nat.eqb_spec j p) as [|NP]; auto. destruct (Nat.eqb_spec j q) as [|NQ]; auto.
  cbn [orb]. rewrite cnt_0; [ring|]. intros X. apply in3_iff in X. destruct X as (k & K & A & B).
  destruct side_rows as (LP & LQ & _). assert (exists r k', (r = p \/ r = q) /\ (r < m_nf m)%nat /\ (k' < 3)%nat /\ corner (m_face m r) k' = u /\ corner (m_face m r) (ccw k') = v) as (r & k' & R & LR & K' & A' & B').
  { destruct I as [I|I]; apply in3_iff in I; destruct I as (k' & K' & A' & B'); [exists p, k'|exists q, k']; auto. }
  enough ((j, k) = (r, k')) as E by (injection E as -> ->; tauto).
  apply (unique_side m (live m)); auto; [split; auto|split; auto| |]; unfold tail, head; cbn [fst snd]; congruence.
Qed.
Lemma row_parts : forall f, rsum (m_nf m) (drop2 p q (fun j => weight f (m_face m j) * bend ap f (m_face m j))) =
  let '(a, b, e) := f in part f (b, a) + part f (e, b) + part f (a, e).
Proof using Type.
  intros [[a b] e]. unfold part. rewrite <- !rsum_plus. apply rsum_ext. intros j _. unfold drop2. destruct (_ || _); [lra|]. cbn [weight]. ring.
Qed.
Lemma row_parts_rot : forall f k, (k < 3)%nat -> rsum (m_nf m) (drop2 p q (fun j => weight f (m_face m j) * bend ap f (m_face m j))) =
  part f (corner f (ccw k), corner f k) + part f (corner f (cw k), corner f (ccw k)) + part f (corner f k, corner f (cw k)).
Proof using Type.
  intros f k K. rewrite row_parts. destruct f as [[a b] e]. destruct (three k K) as [->|[->| ->]]; cbn [corner ccw cw]; ring.
Qed.

Lemma flip_total : forall m', m_nf m' = m_nf m -> m_face m' = upd (upd (m_face m) p (new_f0 l)) q (new_f1 l) ->
  total_bend (bend ap) (rows m') = total_bend (bend ap) (rows m) - l_improve l.
Proof using F S.
  intros m' NF E. rewrite !total_rows, NF. destruct side_rows as (LP & LQ & DP & DQ). pose proof rows_pq as PQ.
  pose proof distinct4 as (N1 & N2 & N3 & N4 & N5 & N6).
  set (M := fun i j => weight (m_face m i) (m_face m j) * bend ap (m_face m i) (m_face m j)).
  set (M' := fun i j => weight (m_face m' i) (m_face m' j) * bend ap (m_face m' i) (m_face m' j)).
  assert (SY : forall i j, M i j = M j i) by (intros; unfold M; rewrite weight_sym, bend_sym; auto).
  assert (SY' : forall i j, M' i j = M' j i) by (intros; unfold M'; rewrite weight_sym, bend_sym; auto).
  change (rsum (m_nf m) (fun i => rsum (m_nf m) (M' i)) / 2 = rsum (m_nf m) (fun i => rsum (m_nf m) (M i)) / 2 - l_improve l).
  rewrite (pair_sum _ p q M LP LQ PQ SY), (pair_sum _ p q M' LP LQ PQ SY').
  assert (EP : m_face m' p = new_f0 l) by (rewrite E, upd_other, upd_same; auto).
  assert (EQ : m_face m' q = new_f1 l) by (rewrite E, upd_same; auto).
  assert (EO : forall j, j <> p -> j <> q -> m_face m' j = m_face m j) by (intros; rewrite E, !upd_other; auto).
  rewrite (rest_same (m_nf m) p q M M') by (intros; unfold M, M'; rewrite !EO; auto).
  assert (D0 : distinct3 (new_f0 l)) by (cbn; auto). assert (D1 : distinct3 (new_f1 l)) by (cbn; auto).
  assert (M p p = 0) as -> by (unfold M; rewrite weight_self; [ring|auto]). assert (M q q = 0) as -> by (unfold M; rewrite weight_self; [ring|auto]).
  assert (M' p p = 0) as -> by (unfold M'; rewrite EP, weight_self; [ring|auto]). assert (M' q q = 0) as -> by (unfold M'; rewrite EQ, weight_self; [ring|auto]).
  assert (forall f j, rsum (m_nf m) (drop2 p q (fun k => weight f (m_face m' k) * bend ap f (m_face m' k))) = rsum (m_nf m) (drop2 p q (fun k => weight f (m_face m k) * bend ap f (m_face m k))) + 0 * INR j) as EX.
  { intros f j. rewrite Rmult_0_l, Rplus_0_r. apply rsum_ext. intros k _. unfold drop2. destruct (Nat.eqb_spec k p); auto. destruct (Nat.eqb_spec k q); auto. cbn [orb]. rewrite EO; auto. }
  pose proof (sc_x _ _ _ S) as E1. pose proof (sc_y _ _ _ S) as E2. pose proof (sc_c _ _ _ S) as E3.
  pose proof (sc_x' _ _ _ S) as E4. pose proof (sc_y' _ _ _ S) as E5. pose proof (sc_d _ _ _ S) as E6. unfold tail, head, third in E1, E2, E3, E4, E5, E6.
  assert (W0 : weight (m_face m p) (m_face m q) = 1).
  { rewrite (weight_rotate _ _ (snd (l_h l))) by apply (sc_h _ _ _ S). rewrite E1, E2, E3. cbn [weight].
    rewrite cnt_1; [|auto|apply in3_q; cbn; auto]. rewrite !cnt_0; [ring| |]; rewrite in3_q; cbn; intuition congruence. }
  assert (W1 : weight (new_f0 l) (new_f1 l) = 1).
  { unfold new_f0. cbn [weight]. rewrite (cnt_1 _ c d); [|auto|cbn; auto]. rewrite !cnt_0; [ring| |]; cbn; intuition congruence. }
  assert (M p q = bend ap (m_face m p) (m_face m q)) as -> by (unfold M; rewrite W0; ring).
  assert (M' p q = bend ap (new_f0 l) (new_f1 l)) as -> by (unfold M'; rewrite EP, EQ, W1; ring).
  assert (rsum (m_nf m) (drop2 p q (M p)) = bend_with ap m (m_face m p) (halfedge_of m x c) + bend_with ap m (m_face m p) (halfedge_of m c y)) as ->.
  { unfold M. rewrite (row_parts_rot _ (snd (l_h l))) by apply (sc_h _ _ _ S). rewrite E1, E2, E3.
    rewrite (part_inner _ y x) by (right; apply in3_q; cbn; auto).
    rewrite !part_across; [ring| | | |]; rewrite ?in3_p, ?in3_q; cbn; intuition congruence. }
  assert (rsum (m_nf m) (drop2 p q (M q)) = bend_with ap m (m_face m q) (halfedge_of m d x) + bend_with ap m (m_face m q) (halfedge_of m y d)) as ->.
  { unfold M. rewrite (row_parts_rot _ (snd (l_o l))) by apply (sc_o _ _ _ S). rewrite E4, E5, E6.
    rewrite (part_inner _ x y) by (left; apply in3_p; cbn; auto).
    rewrite !part_across; [ring| | | |]; rewrite ?in3_p, ?in3_q; cbn; intuition congruence. }
  assert (rsum (m_nf m) (drop2 p q (M' p)) = bend_with ap m (new_f0 l) (halfedge_of m x c) + bend_with ap m (new_f0 l) (halfedge_of m d x)) as ->.
  { unfold M'. rewrite EP, (EX _ 0%nat), row_parts. unfold new_f0 at 1. rewrite !part_across; try (rewrite ?in3_p, ?in3_q; cbn; intuition congruence).
    rewrite (sc_no _ _ _ S). cbn [bend_with]. ring. }
  assert (rsum (m_nf m) (drop2 p q (M' q)) = bend_with ap m (new_f1 l) (halfedge_of m c y) + bend_with ap m (new_f1 l) (halfedge_of m y d)) as ->.
  { unfold M'. rewrite EQ, (EX _ 0%nat), row_parts. unfold new_f1 at 1. rewrite !part_across; try (rewrite ?in3_p, ?in3_q; cbn; intuition congruence).
    rewrite (sc_no' _ _ _ S). cbn [bend_with]. ring. }
  rewrite (sc_improve _ _ _ S). cbv zeta. lra.
Qed.
End Step.
