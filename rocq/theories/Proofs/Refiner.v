From Coq Require Import Reals List Arith Bool Lia Lra.
From Verif Require Import Proofs.Predicates Proofs.TriangleIntersect Proofs.TriangleCases Proofs.Smoother Proofs.MeshEditing Proofs.AbstractMesh.
From Verif Require Import Model.Outcome Model.Clip Model.PointTriangle Model.Predicates Model.MeshDefects Model.AbstractMesh Model.Smoother Model.Refiner
  Spec.PointTriangle Spec.Predicates Spec.VertexClusterer Spec.AbstractMesh Spec.Smoother Spec.Refiner.
Import ListNotations.
Local Open Scope R_scope.

Ltac vec := unfold norm2, add3, sub3, scale3, dot3, cross, px, py, pz; cbn [fst snd].

(** * The linear fit *)
Section Fit.
Variable field : pt -> R.
Variable isovalue res : R.
Hypothesis P : 0 < res.
Lemma spread_pos : 0 < spread res.
Proof using P. unfold spread. assert (0 < / 10 ^ 3) by (apply Rinv_0_lt_compat; lra). nra. Qed.
Lemma fit4 : forall d v0 v1 v2 v3 c g0 g1 g2, d <> 0 ->
  let k := 1 / (4 * d * d) in
  let h0 := k * (v0 * d + (v1 * d + (v2 * - d + (v3 * - d + 0)))) in
  let h1 := k * (v0 * d + (v1 * - d + (v2 * d + (v3 * - d + 0)))) in
  let h2 := k * (v0 * d + (v1 * - d + (v2 * - d + (v3 * d + 0)))) in
  let m := 1 / 4 * (v0 + (v1 + (v2 + (v3 + 0)))) in
  let sq x := x * x in
  sq (v0 - (c + (g0 * d + g1 * d + g2 * d))) + (sq (v1 - (c + (g0 * d + g1 * - d + g2 * - d))) + (sq (v2 - (c + (g0 * - d + g1 * d + g2 * - d))) + (sq (v3 - (c + (g0 * - d + g1 * - d + g2 * d))) + 0))) =
  (sq (v0 - (m + (h0 * d + h1 * d + h2 * d))) + (sq (v1 - (m + (h0 * d + h1 * - d + h2 * - d))) + (sq (v2 - (m + (h0 * - d + h1 * d + h2 * - d))) + (sq (v3 - (m + (h0 * - d + h1 * - d + h2 * d))) + 0)))) +
  4 * sq (c - m) + 4 * (d * d) * (sq (g0 - h0) + sq (g1 - h1) + sq (g2 - h2)).
Proof using Type. intros d v0 v1 v2 v3 c g0 g1 g2 N. cbv beta zeta. field. exact N. Qed.
Theorem fit : forall x c g, misfit (value field isovalue res x) (gradient field isovalue res x) (samples field isovalue res x) (offsets res)
  <= misfit c g (samples field isovalue res x) (offsets res).
Proof using P.
  intros x c [[g0 g1] g2]. pose proof spread_pos as D. unfold misfit, gradient, value, samples, offsets. set (d := spread res) in *. clearbody d.
  cbn [map combine sum1 fold_right sum3].
  set (v0 := field (add3 (d, d, d) x) - isovalue). set (v1 := field (add3 (d, - d, - d) x) - isovalue). set (v2 := field (add3 (- d, d, - d) x) - isovalue). set (v3 := field (add3 (- d, - d, d) x) - isovalue).
  clearbody v0 v1 v2 v3. vec. pose proof (fit4 d v0 v1 v2 v3 c g0 g1 g2 ltac:(lra)) as E. cbv beta zeta in E. rewrite E.
  match goal with |- ?a <= ?a + 4 * (?u * ?u) + 4 * (d * d) * (?x * ?x + ?y * ?y + ?z * ?z) => generalize a u x y z end. clear - D. intros a u x y z.
  assert (0 <= u * u) by nra. assert (0 <= x * x + y * y + z * z) by nra. assert (0 <= d * d) by nra. nra.
Qed.
Theorem affine : forall g c, (forall x, field x = dot3 g x + c) -> forall x,
  gradient field isovalue res x = g /\ value field isovalue res x = field x - isovalue.
Proof using P.
  intros [[g0 g1] g2] c A [[x y] z]. pose proof spread_pos as D. unfold gradient, value, samples, offsets. set (d := spread res) in *. clearbody d.
  cbn [map combine sum1 fold_right sum3]. rewrite !A. vec. split; [f_equal; [f_equal|]; field; lra|field].
Qed.
End Fit.

Lemma norm_scale : forall k u, 0 <= k -> norm (scale3 k u) = k * norm u.
Proof.
  intros k u K. unfold norm. replace (norm2 (scale3 k u)) with (k * k * norm2 u) by (vec; ring). rewrite sqrt_mult_alt by nra. rewrite sqrt_square by exact K. reflexivity.
Qed.
Lemma apply_scale : forall m k u, apply m (scale3 k u) = scale3 k (apply m u).
Proof. intros [[a b] c] k u. unfold apply. vec. f_equal; [f_equal|]; ring. Qed.
(** The cap shortens a step to the allowed length. *)
Theorem capped_spec : forall res aniso s, 0 < res -> norm (apply aniso (capped res aniso s)) <= 1 / 2 * res /\
  exists k, 0 < k <= 1 /\ capped res aniso s = scale3 k s /\ (norm (apply aniso s) <= 1 / 2 * res -> k = 1) /\ (k <> 1 -> norm (apply aniso (capped res aniso s)) = 1 / 2 * res).
Proof.
  intros res aniso s P. unfold capped, ltb. set (l := norm (apply aniso s)). destruct (Rlt_dec (1 / 2 * res) l) as [L|L].
  - assert (Q : 0 < l) by lra. assert (E : norm (apply aniso (scale3 (1 / 2 * res / l) s)) = 1 / 2 * res).
    { rewrite apply_scale, norm_scale; [fold l; field; lra|]. apply Rlt_le, Rdiv_lt_0_compat; lra. }
    rewrite E. split; [lra|]. exists (1 / 2 * res / l). split; [split; [apply Rdiv_lt_0_compat; lra|apply Rmult_le_reg_r with l; [exact Q|]; unfold Rdiv; rewrite !Rmult_assoc, Rinv_l by lra; lra]|].
    split; [reflexivity|]. split; [intros H; lra|intros _; reflexivity].
  - split; [fold l; lra|]. exists 1. split; [lra|]. split; [destruct s as [[x y] z]; vec; f_equal; [f_equal|]; ring|]. split; [intros _; reflexivity|intros H; congruence].
Qed.
Theorem newton_affine : forall field isovalue res aniso g c x, 0 < res -> (forall x, field x = dot3 g x + c) ->
  match newton field isovalue res aniso x with
  | None => g = (0, 0, 0)
  | Some t => g <> (0, 0, 0) /\ (norm (apply aniso (step field isovalue res x)) <= 1 / 2 * res -> field t = isovalue) /\
      (field x <= field t <= isovalue \/ isovalue <= field t <= field x)
  end.
Proof.
  intros field isovalue res aniso g c x P A. unfold newton, step. destruct (affine field isovalue res P g c A x) as [G V]. rewrite G, V. unfold eqb. destruct (Req_EM_T (norm2 g) 0) as [Z|Z].
  - destruct g as [[a b] e]. revert Z. vec. intros Z. assert (a = 0) by nra. assert (b = 0) by nra. assert (e = 0) by nra. subst. reflexivity.
  - split; [intros ->; apply Z; vec; ring|]. set (s := scale3 ((field x - isovalue) / norm2 g) g). destruct (capped_spec res aniso s P) as (_ & k & K & -> & K1 & _).
    assert (E : field (sub3 x (scale3 k s)) = field x - k * (field x - isovalue)).
    { rewrite !A. unfold s. rewrite A. clear - Z. revert Z. destruct g as [[a b] e], x as [[u v] w]. vec. intros Z. field. exact Z. }
    rewrite E. split; [intros H; rewrite (K1 H); ring|]. destruct (Rle_dec (field x) isovalue); [left|right]; nra.
Qed.

(** * Faces at a moving vertex *)
Lemma rotate : forall a b c x, in_triangle a b c x -> in_triangle b c a x.
Proof. intros a b c x (u & v & w & U & V & W & E & X & Y & Z). exists v, w, u. repeat split; lra. Qed.
Lemma corner_view : forall f v, distinct3 f -> has_corner f v -> exists b c, b <> v /\ c <> v /\
  forall (q : nat -> pt) x, inside (at_rows q f) x <-> in_triangle (q v) (q b) (q c) x.
Proof.
  intros [[a b] c] v (N1 & N2 & N3) [->|[->| ->]].
  - exists b, c. split; [congruence|]. split; [congruence|]. intros q x. reflexivity.
  - exists c, a. split; [congruence|]. split; [congruence|]. intros q x. split; [apply rotate|intros H; apply rotate, rotate; exact H].
  - exists a, b. split; [congruence|]. split; [congruence|]. intros q x. split; [intros H; apply rotate, rotate; exact H|apply rotate].
Qed.
(** Two triangles with a common corner and another common point: the side opposite the corner of one of them meets the other. *)
Lemma cone_meet : forall v b c d e x, in_triangle v b c x -> in_triangle v d e x -> x <> v ->
  (exists y, in_triangle v b c y /\ in_segment d e y) \/ (exists y, in_triangle v d e y /\ in_segment b c y).
Proof.
  assert (H : forall v b c d e x, in_triangle v b c x -> in_triangle v d e x -> x <> v -> forall u0 u1 u2 w0 w1 w2,
    0 <= u1 -> 0 <= u2 -> u0 + u1 + u2 = 1 -> 0 <= w1 -> 0 <= w2 -> w0 + w1 + w2 = 1 -> w0 <= u0 -> w0 < 1 ->
    px x = u0 * px v + u1 * px b + u2 * px c -> py x = u0 * py v + u1 * py b + u2 * py c -> pz x = u0 * pz v + u1 * pz b + u2 * pz c ->
    px x = w0 * px v + w1 * px d + w2 * px e -> py x = w0 * py v + w1 * py d + w2 * py e -> pz x = w0 * pz v + w1 * pz d + w2 * pz e ->
    exists y, in_triangle v b c y /\ in_segment d e y).
  { intros v b c d e x _ _ _ u0 u1 u2 w0 w1 w2 U1 U2 US W1 W2 WS L W X Y Z X' Y' Z'. set (k := / (1 - w0)). assert (K : 0 < k) by (apply Rinv_0_lt_compat; lra).
    assert (KE : k * (1 - w0) = 1) by (apply Rinv_l; lra). clearbody k.
    exists (add3 (scale3 (k * w1) d) (scale3 (k * w2) e)). split.
    - exists (k * (u0 - w0)), (k * u1), (k * u2). split; [apply Rmult_le_pos; lra|]. split; [apply Rmult_le_pos; lra|]. split; [apply Rmult_le_pos; lra|]. split; [nra|].
      unfold add3, scale3, px, py, pz in *. cbn [fst snd]. split; [|split].
      + replace (k * w1 * fst (fst d) + k * w2 * fst (fst e)) with (k * (w1 * fst (fst d) + w2 * fst (fst e))) by ring. replace (w1 * fst (fst d) + w2 * fst (fst e)) with (fst (fst x) - w0 * fst (fst v)) by lra. rewrite X. ring.
      + replace (k * w1 * snd (fst d) + k * w2 * snd (fst e)) with (k * (w1 * snd (fst d) + w2 * snd (fst e))) by ring. replace (w1 * snd (fst d) + w2 * snd (fst e)) with (snd (fst x) - w0 * snd (fst v)) by lra. rewrite Y. ring.
      + replace (k * w1 * snd d + k * w2 * snd e) with (k * (w1 * snd d + w2 * snd e)) by ring. replace (w1 * snd d + w2 * snd e) with (snd x - w0 * snd v) by lra. rewrite Z. ring.
    - exists (k * w1), (k * w2), 0. split; [apply Rmult_le_pos; lra|]. split; [apply Rmult_le_pos; lra|]. split; [lra|]. split; [nra|]. unfold add3, scale3, px, py, pz. cbn [fst snd]. split; [ring|split; ring]. }
  assert (NV : forall v b c x u0 u1 u2, x <> v -> 0 <= u1 -> 0 <= u2 -> u0 + u1 + u2 = 1 -> px x = u0 * px v + u1 * px b + u2 * px c -> py x = u0 * py v + u1 * py b + u2 * py c -> pz x = u0 * pz v + u1 * pz b + u2 * pz c -> u0 < 1).
  { intros v b c x u0 u1 u2 N A B E X Y Z. destruct (Rlt_dec u0 1) as [L|L]; [exact L|]. exfalso. apply N. assert (u0 = 1) by lra. assert (u1 = 0) by lra. assert (u2 = 0) by lra. subst.
    destruct x as [[x0 x1] x2], v as [[v0 v1] v2]. unfold px, py, pz in *. cbn [fst snd] in *. f_equal; [f_equal|]; lra. }
  intros v b c d e x I J N. pose proof I as I'. pose proof J as J'. destruct I as (u0 & u1 & u2 & U0 & U1 & U2 & US & X & Y & Z). destruct J as (w0 & w1 & w2 & W0 & W1 & W2 & WS & X' & Y' & Z').
  pose proof (NV v b c x u0 u1 u2 N U1 U2 US X Y Z) as UL. pose proof (NV v d e x w0 w1 w2 N W1 W2 WS X' Y' Z') as WL. destruct (Rle_dec w0 u0) as [L|L].
  - left. apply (H v b c d e x I' J' N u0 u1 u2 w0 w1 w2); assumption.
  - right. apply (H v d e b c x J' I' N w0 w1 w2 u0 u1 u2); try assumption. lra.
Qed.

Lemma turned_distinct : forall t n, 0 < dot3 n (let '(a, b, c) := t in triangle_normal a b c) -> distinct_corners t.
Proof.
  intros [[a b] c] n H. cbn. unfold triangle_normal in H. repeat split; intros E; subst; revert H; vec; lra.
Qed.
Lemma normal_rows : forall p f, normal p f = let '(a, b, c) := at_rows p f in triangle_normal a b c.
Proof. intros p [[a b] c]. reflexivity. Qed.
Lemma intersect_clear : forall s t, distinct_corners s -> distinct_corners t -> triangles_intersect s t = Ok false -> clear s t.
Proof. intros s t S T E (x & A & B & N). rewrite (intersect_complete s t S T x A B N) in E. discriminate. Qed.
Lemma place_same : forall p v q, place p v q v = q.
Proof. intros p v q. unfold place. rewrite Nat.eqb_refl. reflexivity. Qed.
Lemma place_other : forall p v q u, u <> v -> place p v q u = p u.
Proof. intros p v q u N. unfold place. destruct (Nat.eqb_spec u v); [contradiction|reflexivity]. Qed.
Lemma rows_ext : forall p q f, (forall v, has_corner f v -> p v = q v) -> at_rows p f = at_rows q f.
Proof. intros p q [[a b] c] H. cbn. rewrite (H a), (H b), (H c) by (cbn; auto). reflexivity. Qed.
Lemma rows_corner : forall q f v, has_corner f v -> In (q v) (corners (at_rows q f)).
Proof. intros q [[a b] c] v [->|[->| ->]]; cbn; auto. Qed.

Section Move.
Variable faces_near : (nat -> pt) -> mesh -> pt -> pt -> list nat.
Hypothesis FN : forall p, finds_faces p (faces_near p).
Variable m : mesh.
Hypothesis C : consistent m.

Lemma in_vertex_faces : forall v fi, In fi (vertex_faces m v) <-> live m fi /\ has_corner (m_face m fi) v.
Proof using C.
  destruct C as [(D1 & D2 & D3 & D4 & D5 & D6) _]. intros v fi. unfold vertex_faces. rewrite in_map_iff. split.
  - intros (h & <- & I). destruct (v <? m_nv m)%nat; [|destruct I]. apply D5 in I. destruct I as [[L K] T]. split; [exact L|]. apply has_corner_iff. exists (snd h). split; [exact K|exact T].
  - intros [L H]. apply has_corner_iff in H. destruct H as (k & K & T). exists (fi, k). split; [reflexivity|].
    assert (S : side (live m) (fi, k)) by (split; assumption). assert (I : In (fi, k) (m_vh m v)) by (apply D5; split; [exact S|exact T]).
    pose proof (D6 _ S) as B. unfold tail in B. cbn [fst snd] in B. rewrite T in B. apply Nat.ltb_lt in B. rewrite B. exact I.
Qed.
Section One.
Variable p : nat -> pt.
Variable vi : nat.
Variable q : pt.
Notation p' := (place p vi q).
Notation box_lo fi := (let '(a, b, c) := at_rows p' (m_face m fi) in lo_of a [b; c]).
Notation box_hi fi := (let '(a, b, c) := at_rows p' (m_face m fi) in hi_of a [b; c]).
Definition tested (fi : nat) : Prop :=
  0 < dot3 (normal p (m_face m fi)) (normal p' (m_face m fi)) /\
  forall fj, In fj (faces_near p m (box_lo fi) (box_hi fi)) -> fj <> fi -> triangles_intersect (at_rows p' (m_face m fi)) (at_rows p' (m_face m fj)) = Ok false.
Lemma refused_false : forall fis, refused faces_near p m vi q fis = Ok false -> forall fi, In fi fis -> tested fi.
Proof using Type.
  induction fis as [|f fis IH]; intros H fi []; cbn [refused] in H; destruct (at_rows p' (m_face m f)) as [[a b] c] eqn:E; unfold leb in H; destruct (Rle_dec _ 0) as [L|L]; try discriminate.
  - subst f. split; [lra|]. intros fj I N. rewrite E in *. assert (G : forall fjs hits, any_of fjs hits = Ok false -> forall fj, In fj fjs -> hits fj = Ok false).
    { clear. induction fjs as [|x fjs IH]; intros hits H fj []; cbn [any_of] in H; destruct (hits x) as [[|]| |] eqn:Ex; try discriminate; [subst; exact Ex|]. apply IH; assumption. }
    destruct (any_of _ _) as [[|]| |] eqn:A; try discriminate. pose proof (G _ _ A fj I) as K. cbn beta in K. destruct (Nat.eqb_spec fj fi); [contradiction|]. exact K.
  - destruct (any_of _ _) as [[|]| |]; try discriminate. cbn [bind] in H. apply IH; assumption.
Qed.
Hypothesis DC : forall fi, live m fi -> distinct_corners (at_rows p (m_face m fi)).
Hypothesis T : forall fi, live m fi -> has_corner (m_face m fi) vi -> tested fi.
Lemma still_distinct : forall fi, live m fi -> distinct_corners (at_rows p' (m_face m fi)).
Proof using DC T.
  intros fi L. destruct (in_dec Nat.eq_dec vi (let '(a, b, c) := m_face m fi in [a; b; c])) as [I|I].
  - assert (H : has_corner (m_face m fi) vi) by (destruct (m_face m fi) as [[a b] c]; cbn in I |- *; destruct I as [->|[->|[->|[]]]]; auto).
    destruct (T fi L H) as [P _]. rewrite (normal_rows p') in P. apply (turned_distinct _ _ P).
  - rewrite <- (rows_ext p); [apply DC; exact L|]. intros v H. rewrite place_other; [reflexivity|]. intros ->. apply I. destruct (m_face m fi) as [[a b] c]. cbn in H |- *. destruct H as [->|[->| ->]]; auto.
Qed.
Lemma tested_pair : forall fi fj x, live m fi -> live m fj -> fj <> fi -> has_corner (m_face m fi) vi ->
  inside (at_rows p' (m_face m fi)) x -> inside (at_rows p (m_face m fj)) x -> clear (at_rows p' (m_face m fi)) (at_rows p' (m_face m fj)).
Proof using FN DC T.
  intros fi fj x Li Lj N H X Y. destruct (T fi Li H) as [_ K]. apply intersect_clear; [apply still_distinct; exact Li|apply still_distinct; exact Lj|]. apply K; [|exact N].
  destruct (FN p m (box_lo fi) (box_hi fi) fj) as [_ F]. apply (F x); [exact Lj| |exact Y]. destruct (at_rows p' (m_face m fi)) as [[a b] c]. apply triangle_box. exact X.
Qed.
Lemma clear_after : forall fi fj, live m fi -> live m fj -> fj <> fi -> has_corner (m_face m fi) vi -> clear (at_rows p' (m_face m fi)) (at_rows p' (m_face m fj)).
Proof using FN C DC T.
  intros fi fj Li Lj N H. destruct C as [(D1 & _) _]. destruct (D1 fi Li) as [_ Di]. destruct (D1 fj Lj) as [_ Dj].
  intros (x & X & Y & NS). destruct (in_dec Nat.eq_dec vi (let '(a, b, c) := m_face m fj in [a; b; c])) as [I|I].
  - assert (H' : has_corner (m_face m fj) vi) by (destruct (m_face m fj) as [[a b] c]; cbn in I |- *; destruct I as [->|[->|[->|[]]]]; auto). clear I.
    assert (NX : x <> q).
    { intros ->. apply NS. exists q, q, q. split; [|exists 1, 0, 0; repeat split; lra]. intros y Iy. assert (y = q) by (cbn in Iy; destruct Iy as [<-|[<-|[<-|[]]]]; reflexivity). subst y.
      rewrite <- (place_same p vi q) at 1 3. split; apply rows_corner; assumption. }
    destruct (corner_view _ _ Di H) as (b & c & Nb & Nc & V). destruct (corner_view _ _ Dj H') as (d & e & Nd & Ne & V').
    pose proof (proj1 (V _ _) X) as X'. pose proof (proj1 (V' _ _) Y) as Y'. rewrite place_same, !place_other in X', Y' by assumption.
    assert (OLD : forall b c y, b <> vi -> c <> vi -> in_segment (p b) (p c) y -> in_triangle (p vi) (p b) (p c) y).
    { intros b0 c0 y _ _ (u & v & w & U1 & U2 & U3 & US & UX & UY & UZ). exists 0, u, (v + w). repeat split; lra. }
    destruct (cone_meet q (p b) (p c) (p d) (p e) x X' Y' NX) as [(y & A & B)|(y & A & B)].
    + assert (CL : clear (at_rows p' (m_face m fi)) (at_rows p' (m_face m fj))).
      { apply (tested_pair fi fj y Li Lj N H); [apply V; rewrite place_same, !place_other by assumption; exact A|]. apply V'. apply OLD; assumption. }
      apply CL. exists x. split; [exact X|]. split; [exact Y|exact NS].
    + assert (CL : clear (at_rows p' (m_face m fj)) (at_rows p' (m_face m fi))).
      { apply (tested_pair fj fi y Lj Li); [congruence|exact H'|apply V'; rewrite place_same, !place_other by assumption; exact A|]. apply V. apply OLD; assumption. }
      apply clear_sym in CL. apply CL. exists x. split; [exact X|]. split; [exact Y|exact NS].
  - assert (E : at_rows p' (m_face m fj) = at_rows p (m_face m fj)).
    { apply rows_ext. intros v Hv. apply place_other. intros ->. apply I. destruct (m_face m fj) as [[a b] c]. cbn in Hv |- *. destruct Hv as [->|[->| ->]]; auto. }
    assert (CL : clear (at_rows p' (m_face m fi)) (at_rows p' (m_face m fj))) by (apply (tested_pair fi fj x Li Lj N H X); rewrite <- E; exact Y).
    apply CL. exists x. split; [exact X|]. split; [exact Y|exact NS].
Qed.
End One.

Section Run.
Variable blo bhi : pt.
Variable res : R.
Variable goal : nat -> option pt.
Notation good l := (forall vi t, In (vi, t) l -> goal vi = Some (new_place blo bhi res t)).
Notation fs := (take_faces m).
Lemma in_faces : forall f, In f fs <-> exists fi, live m fi /\ m_face m fi = f.
Proof using Type.
  clear C FN. intros f. unfold take_faces. rewrite in_map_iff. split.
  - intros (fi & E & I). apply filter_In in I. destruct I as [I J]. apply in_seq in I. exists fi. split; [split; [lia|destruct (m_deleted m fi); [discriminate|reflexivity]]|exact E].
  - intros (fi & (L & D) & E). exists fi. split; [exact E|]. apply filter_In. split; [apply in_seq; lia|rewrite D; reflexivity].
Qed.
Theorem move_all_spec : forall l p p', good l -> (forall fi, live m fi -> distinct_corners (at_rows p (m_face m fi))) ->
  move_all blo bhi res faces_near m p l = Ok p' ->
  moves fs goal p p' /\ (forall fi, live m fi -> distinct_corners (at_rows p' (m_face m fi))) /\
  (forall v, p' v = p v \/ goal v = Some (p' v)) /\
  (forall fi fj, live m fi -> live m fj -> fi <> fj -> clear (at_rows p' (m_face m fi)) (at_rows p' (m_face m fj)) \/ (unmoved p p' (m_face m fi) /\ unmoved p p' (m_face m fj))).
Proof using FN C.
  induction l as [|[vi t] l IH]; intros p p' G DC E; cbn [move_all] in E.
  - injection E as <-. split; [apply MNone|]. split; [exact DC|]. split; [intros v; left; reflexivity|]. intros fi fj _ _ _. right. split; intros v _; reflexivity.
  - unfold try_move in E. set (q := new_place blo bhi res t) in *. assert (Gq : goal vi = Some q) by (apply G; left; reflexivity). assert (G' : good l) by (intros v s I; apply G; right; exact I).
    destruct (refused faces_near p m vi q (vertex_faces m vi)) as [[|]| |] eqn:R; cbn [bind] in E; try discriminate; [apply (IH p p' G' DC E)|].
    pose proof (refused_false p vi q _ R) as T. assert (T' : forall fi, live m fi -> has_corner (m_face m fi) vi -> tested p vi q fi) by (intros fi L H; apply T; apply in_vertex_faces; split; assumption).
    pose proof (still_distinct p vi q DC T') as DC1. destruct (IH (place p vi q) p' G' DC1 E) as (M & DC2 & V & K). split.
    + apply (MStep _ _ p p' vi q Gq); [|exact M]. intros f I H. apply in_faces in I. destruct I as (fi & L & <-). apply (T' fi L H).
    + split; [exact DC2|]. split.
      * intros v. destruct (V v) as [Ev|Ev]; [|right; exact Ev]. destruct (Nat.eq_dec v vi) as [->|N]; [right; rewrite Ev, place_same; exact Gq|left; rewrite Ev; apply place_other; exact N].
      * intros fi fj Li Lj N. destruct (K fi fj Li Lj N) as [CL|[Ui Uj]]; [left; exact CL|].
        assert (HC : forall f, has_corner f vi \/ ~ has_corner f vi) by (intros [[a b] c]; cbn; destruct (Nat.eq_dec a vi), (Nat.eq_dec b vi), (Nat.eq_dec c vi); intuition congruence).
        destruct (HC (m_face m fi)) as [Hi|Hi].
        { left. rewrite (rows_ext p' (place p vi q) (m_face m fi)), (rows_ext p' (place p vi q) (m_face m fj)) by assumption. apply clear_after; try assumption. congruence. }
        destruct (HC (m_face m fj)) as [Hj|Hj].
        { left. rewrite (rows_ext p' (place p vi q) (m_face m fi)), (rows_ext p' (place p vi q) (m_face m fj)) by assumption. apply clear_sym. apply clear_after; assumption. }
        right. split; intros v H; [rewrite (Ui v H)|rewrite (Uj v H)]; apply place_other; intros ->; contradiction.
Qed.

(** With all places different there is no exception. *)
Variable p0 : nat -> pt.
Hypothesis AP : apart fs goal p0.
Lemma used_corner : forall fi v, live m fi -> has_corner (m_face m fi) v -> used fs v.
Proof using Type. clear C FN AP. intros fi v L H. exists (m_face m fi). split; [apply in_faces; exists fi; split; [exact L|reflexivity]|exact H]. Qed.
Lemma apart_distinct : forall p, (forall v, p v = p0 v \/ goal v = Some (p v)) -> forall fi, live m fi -> distinct_corners (at_rows p (m_face m fi)).
Proof using C AP.
  intros p H fi L. destruct C as [(D1 & _) _]. destruct (D1 fi L) as [_ D].
  assert (K : forall u v, has_corner (m_face m fi) u -> has_corner (m_face m fi) v -> u <> v -> p u <> p v).
  { intros u v Hu Hv N. pose proof (used_corner fi u L Hu) as Uu. pose proof (used_corner fi v L Hv) as Uv. destruct (AP u v Uu Uv N) as (A & B & A2). destruct (AP v u Uv Uu ltac:(congruence)) as (_ & B' & _).
    destruct (H u) as [Eu|Eu], (H v) as [Ev|Ev].
    - rewrite Eu, Ev. exact A.
    - rewrite Eu. intros X. apply (B' _ Ev). symmetry. exact X.
    - rewrite Ev. apply (B _ Eu).
    - apply (A2 _ _ Eu Ev). }
  destruct (m_face m fi) as [[a b] c]. destruct D as (N1 & N2 & N3). cbn in K |- *. repeat split; apply K; auto.
Qed.
Lemma refused_ok : forall p vi q, goal vi = Some q -> (forall v, p v = p0 v \/ goal v = Some (p v)) -> forall fis, (forall fi, In fi fis -> live m fi) ->
  exists b, refused faces_near p m vi q fis = Ok b.
Proof using C FN AP.
  intros p vi q G H. assert (DC : forall fi, live m fi -> distinct_corners (at_rows (place p vi q) (m_face m fi))).
  { apply apart_distinct. intros v. destruct (Nat.eq_dec v vi) as [->|N]; [right; rewrite place_same; exact G|rewrite place_other by exact N; apply H]. }
  induction fis as [|f fis IH]; intros L; cbn [refused]; [exists false; reflexivity|]. pose proof (DC f (L f (or_introl eq_refl))) as Df.
  destruct (at_rows (place p vi q) (m_face m f)) as [[a b] c] eqn:E. destruct (leb _ 0); [exists true; reflexivity|].
  match goal with |- context [any_of ?l ?h] => destruct (any_of_ok l h) as (r & -> & _) end.
  - intros fj I. destruct (fj =? f)%nat; [exists false; reflexivity|]. apply no_throw; [exact Df|]. apply DC. apply (FN p m _ _ fj) in I. exact I.
  - cbn [bind]. destruct r; [exists true; reflexivity|]. apply IH. intros fi I. apply L. right. exact I.
Qed.
Theorem move_all_ok : forall l p, good l -> (forall v, p v = p0 v \/ goal v = Some (p v)) -> exists p', move_all blo bhi res faces_near m p l = Ok p'.
Proof using C FN AP.
  induction l as [|[vi t] l IH]; intros p G H; cbn [move_all]; [exists p; reflexivity|]. unfold try_move. set (q := new_place blo bhi res t).
  assert (Gq : goal vi = Some q) by (apply G; left; reflexivity). destruct (refused_ok p vi q Gq H (vertex_faces m vi)) as (b & ->); [intros fi I; apply in_vertex_faces in I; apply I|].
  cbn [bind]. apply IH; [intros v s I; apply G; right; exact I|]. destruct b; [exact H|]. intros v. destruct (Nat.eq_dec v vi) as [->|N]; [right; rewrite place_same; exact Gq|rewrite place_other by exact N; apply H].
Qed.
End Run.
End Move.

(** * The whole *)
Section Whole.
Variable field : pt -> R.
Variable isovalue : R.
Variables blo bhi : pt.
Variable res : R.
Variable aniso : triangle.
Variable faces_near : (nat -> pt) -> mesh -> pt -> pt -> list nat.
Hypothesis FN : forall p, finds_faces p (faces_near p).
Definition goal_of (nv : nat) (p : nat -> pt) (v : nat) : option pt :=
  if (v <? nv)%nat then option_map (new_place blo bhi res) (newton field isovalue res aniso (p v)) else None.
Lemma project_goal : forall nv p vi t, In (vi, t) (project field isovalue res aniso nv p) -> goal_of nv p vi = Some (new_place blo bhi res t).
Proof using Type.
  clear FN. intros nv p vi t I. unfold project in I. apply in_flat_map in I. destruct I as (i & S & I). apply in_seq in S. destruct (newton field isovalue res aniso (p i)) as [t'|] eqn:E; [|destruct I].
  destruct I as [I|[]]. injection I as -> ->. unfold goal_of. rewrite (proj2 (Nat.ltb_lt vi nv)) by lia. rewrite E. reflexivity.
Qed.
Notation at_ fs i := (nth i fs (0, 0, 0)%nat).
Theorem refine_spec : forall nv p fs p' fs' e, fs <> [] -> Forall distinct3 fs -> Forall (fun f => distinct_corners (at_rows p f)) fs ->
  refine field isovalue blo bhi res aniso faces_near nv p fs false = Ok (p', fs', e) ->
  fs' = fs /\ e = false /\ moves fs (goal_of nv p) p p' /\ Forall (fun f => distinct_corners (at_rows p' f)) fs /\
  (forall v, p' v = p v \/ goal_of nv p v = Some (p' v)) /\
  (forall i j, (i < length fs)%nat -> (j < length fs)%nat -> i <> j ->
     clear (at_rows p' (at_ fs i)) (at_rows p' (at_ fs j)) \/ (unmoved p p' (at_ fs i) /\ unmoved p p' (at_ fs j))).
Proof using FN.
  intros nv p fs p' fs' e NE D DC E. unfold refine in E. destruct fs as [|f0 fs0]; [congruence|]. cbn [length Nat.eqb andb] in E. set (fs := f0 :: fs0) in *. clearbody fs. clear NE f0 fs0.
  pose proof (construct_spec fs D) as S. destruct (construct fs) as [m|x|] eqn:EM; cbn [bind] in E; try discriminate. destruct S as (CM & TF & _).
  destruct (construct_frame fs m D EM) as (NF & MF & MD).
  destruct (move_all blo bhi res faces_near m p (project field isovalue res aniso nv p)) as [p1|x|] eqn:EV; cbn [bind] in E; try discriminate. injection E as -> <- <-.
  assert (LV : forall i, live m i <-> (i < length fs)%nat) by (intros i; unfold live; rewrite NF, MD; split; [intros [A _]; exact A|intros A; split; [exact A|reflexivity]]).
  assert (DC0 : forall fi, live m fi -> distinct_corners (at_rows p (m_face m fi))).
  { intros fi L. apply LV in L. rewrite MF. rewrite Forall_forall in DC. apply DC. apply nth_In. exact L. }
  destruct (move_all_spec faces_near FN m CM blo bhi res (goal_of nv p) (project field isovalue res aniso nv p) p p' (project_goal nv p) DC0 EV) as (M & DC1 & V & K).
  rewrite TF in *. split; [reflexivity|]. split; [reflexivity|]. split; [exact M|]. split.
  - apply Forall_forall. intros f I. apply (In_nth _ _ (0, 0, 0)%nat) in I. destruct I as (i & L & <-). apply LV in L. pose proof (DC1 i L) as X. rewrite MF in X. exact X.
  - split; [exact V|]. intros i j Li Lj N. apply LV in Li, Lj. pose proof (K i j Li Lj N) as X. rewrite MF in X. exact X.
Qed.
Theorem refine_ok : forall nv p fs, fs <> [] -> Forall distinct3 fs -> ~ clash (fun i => at_ fs i) (fun i => (i < length fs)%nat) -> apart fs (goal_of nv p) p ->
  exists p', refine field isovalue blo bhi res aniso faces_near nv p fs false = Ok (p', fs, false).
Proof using FN.
  intros nv p fs NE D NC AP. unfold refine. destruct fs as [|f0 fs0]; [congruence|]. cbn [length Nat.eqb andb]. set (fs := f0 :: fs0) in *. clearbody fs. clear NE f0 fs0.
  pose proof (construct_spec fs D) as S. destruct (construct fs) as [m|x|] eqn:EM; cbn [bind]; [|destruct S; contradiction|destruct S]. destruct S as (CM & TF & _).
  destruct (move_all_ok faces_near FN m CM blo bhi res (goal_of nv p) p ltac:(rewrite TF; exact AP) (project field isovalue res aniso nv p) p (project_goal nv p)) as (p' & ->).
  - intros v. left. reflexivity.
  - cbn [bind]. rewrite TF. exists p'. reflexivity.
Qed.
End Whole.
Lemma refine_empty : forall field isovalue blo bhi res aniso faces_near nv p,
  refine field isovalue blo bhi res aniso faces_near nv p [] false = Ok (p, [], false) /\
  forall p' fs' e, refine field isovalue blo bhi res aniso faces_near nv p [] true = Ok (p', fs', e) -> fs' = [] /\ e = false.
Proof.
  intros. split; [reflexivity|]. intros p' fs' e E. unfold refine in E. cbn [length Nat.eqb andb negb] in E.
  destruct (construct []) as [m| |] eqn:M; try discriminate. cbn [bind] in E. destruct (move_all _ _ _ _ _ _ _) as [q| |] eqn:Q; try discriminate. cbn [bind] in E.
  injection E as <- <- <-. split; auto. vm_compute in M. injection M as <-. reflexivity.
Qed.
