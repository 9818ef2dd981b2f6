From Coq Require Import Reals Lra Lia List Arith Bool.
From Verif Require Import Proofs.PointTriangle.
From Verif Require Import Model.Outcome Model.Clip Model.PointTriangle Spec.PointTriangle Model.HonoredPoints Spec.HonoredPoints.
Import ListNotations.
Local Open Scope R_scope.

(** ** Boxes *)
Lemma Rmin_le : forall a b, Rmin a b <= a /\ Rmin a b <= b.
Proof. intros a b. split; [apply Rmin_l|apply Rmin_r]. Qed.
Lemma Rmax_ge : forall a b, a <= Rmax a b /\ b <= Rmax a b.
Proof. intros a b. split; [apply Rmax_l|apply Rmax_r]. Qed.
Ltac boxes := unfold inside, pmin, pmax, px, py, pz in *; cbn [fst snd] in *.
Lemma corner_inside : forall ap f r, In r (corners f) -> inside (face_box ap f) (ap r).
Proof.
  intros ap [[a b] c] r R. unfold face_box. assert (D : r = a \/ r = b \/ r = c) by (cbn in R; intuition congruence). clear R.
  destruct (ap a) as [[a0 a1] a2] eqn:EA, (ap b) as [[b0 b1] b2] eqn:EB, (ap c) as [[c0 c1] c2] eqn:EC.
  assert (X : forall x y z, (Rmin (Rmin x y) z <= x <= Rmax (Rmax x y) z) /\ (Rmin (Rmin x y) z <= y <= Rmax (Rmax x y) z) /\ (Rmin (Rmin x y) z <= z <= Rmax (Rmax x y) z)).
  { intros x y z. pose proof (Rmin_le x y). pose proof (Rmin_le (Rmin x y) z). pose proof (Rmax_ge x y). pose proof (Rmax_ge (Rmax x y) z). lra. }
  pose proof (X a0 b0 c0). pose proof (X a1 b1 c1). pose proof (X a2 b2 c2).
  destruct D as [-> | [-> | ->]]; rewrite ?EA, ?EB, ?EC; boxes; tauto.
Qed.
Lemma box_convex : forall b p q r x, inside b p -> inside b q -> inside b r -> in_triangle p q r x -> inside b x.
Proof.
  intros b p q r x P Q R (u & v & w & U & V & W & S' & X & Y & Z). unfold inside in *. rewrite X, Y, Z.
  assert (L : forall lo a c d, lo <= a -> lo <= c -> lo <= d -> lo <= u * a + v * c + w * d).
  { intros lo a c d A C D. replace lo with (u * lo + v * lo + w * lo) by (replace (u * lo + v * lo + w * lo) with ((u + v + w) * lo) by ring; rewrite S'; ring).
    pose proof (Rmult_le_compat_l u _ _ U A). pose proof (Rmult_le_compat_l v _ _ V C). pose proof (Rmult_le_compat_l w _ _ W D). lra. }
  assert (H : forall hi a c d, a <= hi -> c <= hi -> d <= hi -> u * a + v * c + w * d <= hi).
  { intros hi a c d A C D. replace hi with (u * hi + v * hi + w * hi) by (replace (u * hi + v * hi + w * hi) with ((u + v + w) * hi) by ring; rewrite S'; ring).
    pose proof (Rmult_le_compat_l u _ _ U A). pose proof (Rmult_le_compat_l v _ _ V C). pose proof (Rmult_le_compat_l w _ _ W D). lra. }
  repeat split; (apply L || apply H); tauto.
Qed.
Definition clamp (b : pt * pt) (p : pt) : pt := pmin (pmax p (fst b)) (snd b).
Lemma clamp_inside : forall b p q, inside b q -> inside b (clamp b p).
Proof.
  intros [[[l0 l1] l2] [[h0 h1] h2]] [[p0 p1] p2] [[q0 q1] q2] Q. unfold clamp. boxes.
  assert (X : forall l h x, l <= h -> l <= Rmin (Rmax x l) h <= h).
  { intros l h x H. pose proof (Rmin_r (Rmax x l) h). split; [|lra]. apply Rmin_glb; [apply Rmax_r|exact H]. }
  repeat split; apply X; lra.
Qed.
Lemma clamp_nearest : forall b p q, inside b q -> dist2 p (clamp b p) <= dist2 p q.
Proof.
  intros [[[l0 l1] l2] [[h0 h1] h2]] [[p0 p1] p2] [[q0 q1] q2] Q. unfold clamp, dist2. boxes.
  assert (X : forall l h x y, l <= y <= h -> (x - Rmin (Rmax x l) h) * (x - Rmin (Rmax x l) h) <= (x - y) * (x - y)).
  { intros l h x y H. unfold Rmax. destruct (Rle_dec x l) as [A|A]; unfold Rmin; destruct (Rle_dec _ h) as [B|B]; try lra.
    - assert (0 <= (y - l) * (y + l - 2 * x)) by (apply Rmult_le_pos; lra). lra.
    - replace ((x - x) * (x - x)) with 0 by ring. pose proof (Rle_0_sqr (x - y)) as K. unfold Rsqr in K. exact K.
    - assert (0 <= (h - y) * (2 * x - h - y)) by (apply Rmult_le_pos; lra). lra. }
  pose proof (X l0 h0 p0 q0 ltac:(tauto)). pose proof (X l1 h1 p1 q1 ltac:(tauto)). pose proof (X l2 h2 p2 q2 ltac:(tauto)). lra.
Qed.
Lemma sub_dist2 : forall p q, norm2 (sub3 p q) = dist2 p q.
Proof. intros [[a b] c] [[d e] f]. unfold norm2, dot3, sub3, dist2, px, py, pz. cbn [fst snd]. ring. Qed.
Lemma ltb_spec : forall a b, ltb a b = true <-> a < b.
Proof. intros a b. unfold ltb. destruct (Rlt_dec a b); split; auto; discriminate. Qed.
Lemma leb_spec : forall a b, leb a b = true <-> a <= b.
Proof. intros a b. unfold leb. destruct (Rle_dec a b); split; auto; discriminate. Qed.

Section Honored.
Variable tols : nat -> R.
Notation honored_by := (honored_by tols).

Lemma honored_exact : forall ap i a b c, ap a <> ap b ->
  honored_by ap i (a, b, c) = true <-> exists q, in_triangle (ap a) (ap b) (ap c) q /\ dist2 (ap i) q <= tols i * tols i.
Proof.
  intros ap i a b c AB. unfold HonoredPoints.honored_by. set (bx := face_box ap (a, b, c)).
  destruct (closest_nearest (ap i) (ap a) (ap b) (ap c) AB) as (q & d & E & IT & DQ & MIN). rewrite E.
  change (pmin (pmax (ap i) (fst bx)) (snd bx)) with (clamp bx (ap i)). rewrite sub_dist2. unfold tol2.
  assert (IN : forall x, in_triangle (ap a) (ap b) (ap c) x -> inside bx x).
  { intros x X. apply (box_convex bx (ap a) (ap b) (ap c)); auto; apply corner_inside; cbn; tauto. }
  split.
  - destruct (ltb _ _); [discriminate|]. intros H. apply leb_spec in H. exists q. split; auto. lra.
  - intros (x & X & DX). pose proof (clamp_nearest bx (ap i) x (IN x X)) as CN. destruct (ltb _ _) eqn:L; [apply ltb_spec in L; lra|].
    apply leb_spec. specialize (MIN x X). lra.
Qed.

Hypothesis TP : forall i, 0 <= tols i.
Lemma honored_meets : forall ap i f, honored_by ap i f = true -> meets (ball (ap i) (tols i)) (face_box ap f).
Proof.
  intros ap i [[a b] c] H. unfold HonoredPoints.honored_by in H. set (bx := face_box ap (a, b, c)) in *.
  change (pmin (pmax (ap i) (fst bx)) (snd bx)) with (clamp bx (ap i)) in H. rewrite sub_dist2 in H. unfold tol2 in H.
  destruct (ltb (tols i * tols i) (dist2 (ap i) (clamp bx (ap i)))) eqn:L; [discriminate|]. clear H.
  assert (LE : dist2 (ap i) (clamp bx (ap i)) <= tols i * tols i).
  { destruct (Rle_dec (dist2 (ap i) (clamp bx (ap i))) (tols i * tols i)) as [X|X]; auto. assert (ltb (tols i * tols i) (dist2 (ap i) (clamp bx (ap i))) = true) by (apply ltb_spec; lra). congruence. }
  exists (clamp bx (ap i)). split.
  2:{ apply (clamp_inside bx (ap i) (ap a)). apply corner_inside. cbn. tauto. }
  set (q := clamp bx (ap i)) in *. clearbody q. clear bx L. destruct (ap i) as [[x y] z], q as [[x' y'] z']. specialize (TP i). set (t := tols i) in *. clearbody t.
  unfold dist2, px, py, pz in LE. cbn [fst snd] in LE. unfold ball, inside, sub3, add3, px, py, pz. cbn [fst snd].
  assert (X : forall u v, (u - v) * (u - v) <= t * t -> u - t <= v <= u + t).
  { intros u v H. assert (Rabs (u - v) <= t). { apply Rsqr_incr_0_var; auto. rewrite <- Rsqr_abs. exact H. } unfold Rabs in *. destruct (Rcase_abs (u - v)); lra. }
  pose proof (Rle_0_sqr (x - x')) as SX. pose proof (Rle_0_sqr (y - y')) as SY. pose proof (Rle_0_sqr (z - z')) as SZ. unfold Rsqr in SX, SY, SZ.
  repeat split; (apply X; lra) || idtac.
Qed.
Lemma sub_box : forall ap fs f b p, In f fs -> faces_box ap fs = Some b -> inside (face_box ap f) p -> inside b p.
Proof.
  intros ap fs. induction fs as [|g fs IH]; intros f b p IN E P; [contradiction|]. cbn [faces_box] in E. destruct (faces_box ap fs) as [c|] eqn:EC.
  - injection E as <-. assert (inside (face_box ap g) p \/ inside c p) as H by (destruct IN as [-> |IN]; [left; auto|right; apply (IH f c); auto]).
    destruct (face_box ap g) as [[[l0 l1] l2] [[h0 h1] h2]], c as [[[m0 m1] m2] [[n0 n1] n2]]. boxes.
    assert (X : forall u v x, u <= x \/ v <= x -> Rmin u v <= x) by (intros u v x; pose proof (Rmin_le u v); lra).
    assert (Y : forall u v x, x <= u \/ x <= v -> x <= Rmax u v) by (intros u v x; pose proof (Rmax_ge u v); lra).
    repeat split; (apply X || apply Y); tauto.
  - injection E as <-. destruct fs as [|h fs]; [|cbn [faces_box] in EC; destruct (faces_box ap fs); discriminate]. destruct IN as [-> |[]]. exact P.
Qed.
Lemma faces_box_some : forall ap fs, fs <> [] -> exists b, faces_box ap fs = Some b.
Proof. intros ap [|f fs] H; [congruence|]. cbn [faces_box]. destruct (faces_box ap fs); eauto. Qed.
Lemma faces_box_none : forall ap b, faces_box ap [] = Some b -> False.
Proof. intros ap b H. discriminate. Qed.
Lemma meets_sym : forall b c, meets b c -> meets c b.
Proof. intros b c (p & A & B). exists p. auto. Qed.

(** ** The scans *)
Variable scan_points : pt * pt -> list nat.
Variable scan_faces : (nat -> pt * pt) -> pt * pt -> list nat.
Variable vertex_faces : nat -> list nat.
Variables np nf : nat.
Variable points : nat -> pt.
Hypothesis SP : forall q, finds np (fun i => ball (points i) (tols i)) q (scan_points q).
Hypothesis SF : forall boxes q, finds nf boxes q (scan_faces boxes q).
Hypothesis VF : forall v, NoDup (vertex_faces v) /\ forall fi, In fi (vertex_faces v) -> (fi < nf)%nat.
Notation coherent := (coherent tols vertex_faces np nf points).
Notation on_mesh := (on_mesh tols nf).
Notation honored_by_patch := (honored_by_patch tols).

Lemma patch_iff : forall s i fi, honored_by_patch s i fi = true <-> exists f, In f (h_faces s fi) /\ honored_by (h_ap s) i f = true.
Proof. intros s i fi. unfold HonoredPoints.honored_by_patch. apply existsb_exists. Qed.
Lemma mesh_iff : forall s i, coherent s -> (i < np)%nat -> honored_by_mesh tols scan_faces s i = true <-> on_mesh s i.
Proof.
  intros s i [PT CO] I. unfold honored_by_mesh. rewrite existsb_exists. destruct (SF (h_box s) (ball (h_ap s i) (sqrt (tol2 tols i)))) as (_ & LT & ALL). split.
  - intros (fi & IN & H). apply patch_iff in H as (f & F & HF). exists fi, f. auto.
  - intros (fi & f & L & F & HF). exists fi. split; [|apply patch_iff; eauto]. apply ALL; auto. unfold tol2. rewrite sqrt_square by auto.
    destruct (honored_meets _ _ _ HF) as (p & A & B). exists p. split; auto. destruct (CO fi L) as (BX & _). apply (sub_box (h_ap s) (h_faces s fi) f); auto.
Qed.

(** Filling the cache. *)
Lemma points_of_patch_ok : forall s fi, coherent s -> (fi < nf)%nat ->
  let r := points_of_patch tols scan_points s fi in
  h_ap (snd r) = h_ap s /\ h_faces (snd r) = h_faces s /\ h_box (snd r) = h_box s /\ coherent (snd r) /\ NoDup (fst r) /\
  forall i, In i (fst r) <-> (i < np)%nat /\ honored_by_patch s i fi = true.
Proof.
  intros s fi CS L. destruct CS as [PT CO]. destruct (CO fi L) as (BX & CA & OW). cbn zeta. unfold points_of_patch. destruct (h_cache s fi) as [l|] eqn:EC.
  - destruct (CA l eq_refl) as [ND IFF]. cbn [fst snd]. repeat (split; [reflexivity|]). split; [split; assumption|]. split; assumption.
  - cbn [fst snd h_ap h_faces h_box]. do 3 (split; [reflexivity|]).
    destruct (SP (h_box s fi)) as (ND & LT & ALL).
    assert (IFF : forall i, In i (filter (fun i => honored_by_patch s i fi) (scan_points (h_box s fi))) <-> (i < np)%nat /\ honored_by_patch s i fi = true).
    { intros i. rewrite filter_In. split; intros [A B]; split; auto. apply ALL; auto. apply patch_iff in B as (f & F & HF).
      rewrite <- (PT i A). destruct (honored_meets _ _ _ HF) as (p & X & Y). exists p. split; auto. apply (sub_box (h_ap s) (h_faces s fi) f); auto. }
    assert (ND' : NoDup (filter (fun i => honored_by_patch s i fi) (scan_points (h_box s fi)))) by (apply NoDup_filter; auto).
    split; [|split; auto]. split; [exact PT|]. intros fj LJ. destruct (CO fj LJ) as (BX' & CA' & OW'). cbn [h_ap h_faces h_box h_cache]. split; [auto|]. split; [|auto].
    intros l. unfold put. destruct (Nat.eqb_spec fj fi) as [-> |NE]; [|apply CA']. intros E. injection E as <-. split; [exact ND'|exact IFF].
Qed.
Lemma points_of_patches_ok : forall l s, coherent s -> (forall fi, In fi l -> (fi < nf)%nat) ->
  let r := points_of_patches tols scan_points s l in
  h_ap (snd r) = h_ap s /\ h_faces (snd r) = h_faces s /\ coherent (snd r) /\
  forall i, In i (fst r) <-> (i < np)%nat /\ exists fi, In fi l /\ honored_by_patch s i fi = true.
Proof.
  induction l as [|fi l IH]; intros s CS L; cbn zeta; cbn [points_of_patches fst snd].
  - split; [reflexivity|]. split; [reflexivity|]. split; [auto|]. intros i. split; [intros []|intros (_ & fi & [] & _)].
  - destruct (points_of_patch_ok s fi CS (L fi (or_introl eq_refl))) as (A & B & _ & C & _ & IFF). cbn zeta in A, B, C, IFF.
    set (r := points_of_patch tols scan_points s fi) in *.
    destruct (IH (snd r) C (fun fj J => L fj (or_intror J))) as (A' & B' & C' & IFF'). cbn zeta in A', B', C', IFF'. rewrite A', B', A, B.
    split; [reflexivity|]. split; [reflexivity|]. split; [exact C'|]. intros i. rewrite in_app_iff, IFF, IFF'.
    assert (SAME : forall fj, honored_by_patch (snd r) i fj = honored_by_patch s i fj) by (intros fj; unfold HonoredPoints.honored_by_patch; rewrite A, B; reflexivity).
    split.
    + intros [[I H]|(I & fj & J & H)]; split; auto; [exists fi; cbn; auto|exists fj; rewrite SAME in H; cbn; auto].
    + intros (I & fj & [<-|J] & H); [left; auto|right; split; auto; exists fj; rewrite SAME; auto].
Qed.

(** Storing faces and boxes. *)
Lemma reindex_ok : forall s fi, h_faces s fi <> [] -> exists s', reindex s fi = Ok s' /\ h_ap s' = h_ap s /\ h_faces s' = h_faces s /\
  faces_box (h_ap s) (h_faces s fi) = Some (h_box s' fi) /\ h_cache s' fi = None /\
  forall fj, fj <> fi -> h_box s' fj = h_box s fj /\ h_cache s' fj = h_cache s fj.
Proof.
  intros s fi NE. unfold reindex. destruct (faces_box_some (h_ap s) _ NE) as [b E]. rewrite E. eexists. split; [reflexivity|]. cbn [h_ap h_faces h_box h_cache].
  unfold put. rewrite Nat.eqb_refl. do 4 (split; [reflexivity|]). intros fj N. apply Nat.eqb_neq in N. rewrite N. auto.
Qed.
Lemma reindex_all_ok : forall l s, NoDup l -> (forall fi, In fi l -> h_faces s fi <> []) -> exists s', reindex_all s l = Ok s' /\
  h_ap s' = h_ap s /\ h_faces s' = h_faces s /\
  (forall fi, In fi l -> faces_box (h_ap s) (h_faces s fi) = Some (h_box s' fi) /\ h_cache s' fi = None) /\
  forall fi, ~ In fi l -> h_box s' fi = h_box s fi /\ h_cache s' fi = h_cache s fi.
Proof.
  induction l as [|fi l IH]; intros s ND NE; cbn [reindex_all].
  - exists s. split; [reflexivity|]. split; [reflexivity|]. split; [reflexivity|]. split; [intros fi []|auto].
  - apply NoDup_cons_iff in ND as [NI ND]. destruct (reindex_ok s fi (NE fi (or_introl eq_refl))) as (s1 & E1 & A1 & F1 & B1 & C1 & O1). rewrite E1. cbn [bind].
    destruct (IH s1 ND) as (s2 & E2 & A2 & F2 & B2 & O2). { intros fj J. rewrite F1. apply NE. right. auto. }
    exists s2. split; [exact E2|]. rewrite A2, F2, A1, F1. do 2 (split; [reflexivity|]). rewrite A1, F1 in B2. split.
    + intros fj [<-|J]; [|apply B2; auto]. destruct (O2 fi NI) as [-> ->]. auto.
    + intros fj NJ. destruct (O2 fj) as [-> ->]; [intros J; apply NJ; right; auto|]. apply O1. intros ->. apply NJ. left. reflexivity.
Qed.
Lemma commit_ok : forall ch s, NoDup (map fst ch) -> (forall fi fs, In (fi, fs) ch -> fs <> []) -> exists s', commit s ch = Ok s' /\
  h_ap s' = h_ap s /\
  (forall fi fs, In (fi, fs) ch -> h_faces s' fi = fs /\ faces_box (h_ap s) fs = Some (h_box s' fi) /\ h_cache s' fi = None) /\
  forall fi, ~ In fi (map fst ch) -> h_faces s' fi = h_faces s fi /\ h_box s' fi = h_box s fi /\ h_cache s' fi = h_cache s fi.
Proof.
  induction ch as [|[fi fs] ch IH]; intros s ND NE; cbn [commit].
  - exists s. split; [reflexivity|]. split; [reflexivity|]. split; [intros fi fs []|auto].
  - cbn [map fst] in ND. apply NoDup_cons_iff in ND as [NI ND]. set (s0 := Patches (h_ap s) (put (h_faces s) fi fs) (h_box s) (h_cache s)).
    assert (F0 : h_faces s0 fi = fs) by (cbn [s0 h_faces]; unfold put; rewrite Nat.eqb_refl; reflexivity).
    destruct (reindex_ok s0 fi) as (s1 & E1 & A1 & F1 & B1 & C1 & O1). { rewrite F0. apply (NE fi). left. reflexivity. }
    rewrite E1. cbn [bind]. destruct (IH s1 ND) as (s2 & E2 & A2 & B2 & O2). { intros fj gs J. apply (NE fj). right. auto. }
    exists s2. split; [exact E2|]. rewrite A2, A1. split; [reflexivity|]. split.
    + intros fj gs [J|J].
      * injection J as <- <-. destruct (O2 fi NI) as (-> & -> & ->). rewrite F1, F0. rewrite F0 in B1. auto.
      * destruct (B2 fj gs J) as (X & Y & Z). rewrite A1 in Y. auto.
    + intros fj NJ. cbn [map fst] in NJ. destruct (O2 fj) as (-> & -> & ->); [intros J; apply NJ; right; auto|].
      assert (N : fj <> fi) by (intros ->; apply NJ; left; reflexivity). destruct (O1 fj N) as [-> ->]. rewrite F1. cbn [s0 h_faces h_box h_cache]. unfold put.
      apply Nat.eqb_neq in N. rewrite N. auto.
Qed.

(** ** Steps *)
Lemma honored_ext : forall ap ap' i f, ap' i = ap i -> (forall r, In r (corners f) -> ap' r = ap r) -> honored_by ap' i f = honored_by ap i f.
Proof.
  intros ap ap' i [[a b] c] I H. unfold HonoredPoints.honored_by, face_box.
  rewrite I, (H a) by (cbn; tauto). rewrite (H b) by (cbn; tauto). rewrite (H c) by (cbn; tauto). reflexivity.
Qed.
Lemma has_iff : forall f v, has f v = true <-> In v (corners f).
Proof. intros f v. unfold has. rewrite existsb_exists. split; [intros (x & X & E); apply Nat.eqb_eq in E; congruence|intros H; exists v; split; auto; apply Nat.eqb_refl]. Qed.

Lemma change_ok : forall s ch, coherent s -> NoDup (map fst ch) ->
  (forall fi fs, In (fi, fs) ch -> (fi < nf)%nat /\ fs <> [] /\ forall f r, In f fs -> In r (corners f) -> (np <= r)%nat -> In fi (vertex_faces r)) ->
  exists dis s', change_patches tols scan_points scan_faces s ch = Ok (dis, s') /\ coherent s' /\ reports tols np nf s s' dis /\ h_ap s' = h_ap s /\
    (forall fi fs, In (fi, fs) ch -> h_faces s' fi = fs) /\ forall fi, ~ In fi (map fst ch) -> h_faces s' fi = h_faces s fi.
Proof.
  intros s ch CS ND CH. unfold change_patches.
  destruct (points_of_patches_ok (map fst ch) s CS) as (A & F & C1 & IFF).
  { intros fi I. apply in_map_iff in I as ([fj fs] & <- & I). apply (CH fj fs I). }
  cbn zeta in A, F, C1, IFF. set (r := points_of_patches tols scan_points s (map fst ch)) in *. destruct C1 as [PT CO].
  destruct (commit_ok ch (snd r) ND) as (s' & E & A' & B' & O'). { intros fi fs I. apply (CH fi fs I). }
  rewrite E. cbn [bind]. exists (collect tols scan_faces s' (fst r)), s'. split; [reflexivity|].
  assert (AP : h_ap s' = h_ap s) by congruence.
  assert (CS' : coherent s').
  { split; [intros i I; rewrite AP; apply CS; auto|]. intros fi L. destruct (in_dec Nat.eq_dec fi (map fst ch)) as [I|N].
    - apply in_map_iff in I as ([fj fs] & EQ & I). cbn in EQ. subst fj. destruct (B' fi fs I) as (X & Y & Z). rewrite X, A', Z. split; [exact Y|]. split; [discriminate|].
      apply (CH fi fs I).
    - destruct (O' fi N) as (X & Y & Z). destruct (CO fi L) as (P1 & P2 & P3). rewrite X, Y, Z, A'. split; [exact P1|]. split; [|exact P3].
      intros l EL. destruct (P2 l EL) as [Q1 Q2]. split; auto. intros i. rewrite Q2. unfold HonoredPoints.honored_by_patch. rewrite X, A'. tauto. }
  split; [exact CS'|]. split; [|split; [exact AP|split]].
  - intros i. unfold collect. rewrite filter_In, IFF, negb_true_iff. split.
    + intros ((I & fi & IN & H) & NH). split; [auto|]. apply patch_iff in H as (f & FF & HF). split.
      * exists fi, f. split; auto. apply in_map_iff in IN as ([fj fs] & <- & IN). apply (CH fj fs IN).
      * intros OM. apply (mesh_iff s' i CS' I) in OM. congruence.
    + intros (I & (fi & f & L & FF & HF) & NM). split.
      * split; auto. exists fi. split; [|apply patch_iff; eauto]. destruct (in_dec Nat.eq_dec fi (map fst ch)) as [IN|N]; auto. exfalso. apply NM.
        exists fi, f. destruct (O' fi N) as (X & _). rewrite X, F, AP. auto.
      * destruct (honored_by_mesh tols scan_faces s' i) eqn:EH; auto. apply (mesh_iff s' i CS' I) in EH. contradiction.
  - intros fi fs I. apply (B' fi fs I).
  - intros fi N. destruct (O' fi N) as (X & _). congruence.
Qed.

Lemma star_iff : forall s i v, honored_by_star tols vertex_faces s i v = true <->
  exists fi f, In fi (vertex_faces v) /\ In f (h_faces s fi) /\ In v (corners f) /\ honored_by (h_ap s) i f = true.
Proof.
  intros s i v. unfold honored_by_star. rewrite existsb_exists. split.
  - intros (fi & I & H). apply existsb_exists in H as (f & F & H). apply andb_true_iff in H as [H1 H2]. apply has_iff in H1. eauto 6.
  - intros (fi & f & I & F & V & H). exists fi. split; auto. apply existsb_exists. exists f. split; auto. apply andb_true_iff. split; auto. apply has_iff. auto.
Qed.
Lemma move_ok : forall s v p, coherent s -> (np <= v)%nat ->
  (exists fi f, In fi (vertex_faces v) /\ In f (h_faces s fi) /\ In v (corners f)) ->
  exists dis s', move_vertex tols scan_points scan_faces vertex_faces s v p = Ok (dis, s') /\ coherent s' /\ reports tols np nf s s' dis /\ NoDup dis /\
    h_ap s' v = p /\ (forall r, r <> v -> h_ap s' r = h_ap s r) /\ h_faces s' = h_faces s.
Proof.
  intros s v p CS V (f0i & f0 & IF0 & FF0 & V0). destruct CS as [PT CO]. unfold move_vertex, points_of_star.
  set (star := filter (fun f => has f v) (flat_map (h_faces s) (vertex_faces v))).
  assert (STAR : forall f, In f star <-> exists fi, In fi (vertex_faces v) /\ In f (h_faces s fi) /\ In v (corners f)).
  { intros f. unfold star. rewrite filter_In, in_flat_map, has_iff. split; [intros ((fi & A & B) & C); eauto|intros (fi & A & B & C); eauto]. }
  destruct (faces_box_some (h_ap s) star) as [b EB]. { intros E. assert (X : In f0 star) by (apply STAR; eauto). rewrite E in X. contradiction. }
  rewrite EB. cbn [bind]. set (s0 := Patches (put (h_ap s) v p) (h_faces s) (h_box s) (h_cache s)).
  destruct (VF v) as [NDV LTV].
  destruct (reindex_all_ok (vertex_faces v) s0 NDV) as (s' & E & A & F & B & O).
  { intros fi I N. destruct (CO fi (LTV fi I)) as (X & _). cbn [s0 h_faces] in N. rewrite N in X. discriminate. }
  rewrite E. cbn [bind]. set (prev := filter (fun i => honored_by_star tols vertex_faces s i v) (scan_points b)).
  exists (collect tols scan_faces s' prev), s'. split; [reflexivity|].
  cbn [s0 h_ap h_faces h_box h_cache] in A, F, B, O.
  assert (AV : h_ap s' v = p) by (rewrite A; unfold put; rewrite Nat.eqb_refl; reflexivity).
  assert (AN : forall r, r <> v -> h_ap s' r = h_ap s r) by (intros r N; rewrite A; unfold put; apply Nat.eqb_neq in N; rewrite N; reflexivity).
  assert (EXT : forall i f, (i < np)%nat -> ~ In v (corners f) -> honored_by (h_ap s') i f = honored_by (h_ap s) i f).
  { intros i f I N. apply honored_ext; [apply AN; lia|]. intros r R. apply AN. intros ->. contradiction. }
  assert (OUT : forall fi f, (fi < nf)%nat -> ~ In fi (vertex_faces v) -> In f (h_faces s fi) -> ~ In v (corners f)).
  { intros fi f L N FF IV. destruct (CO fi L) as (_ & _ & OW). apply N. apply (OW f v FF IV V). }
  assert (CS' : coherent s').
  { split; [intros i I; rewrite AN by lia; auto|]. intros fi L. destruct (CO fi L) as (P1 & P2 & P3). destruct (in_dec Nat.eq_dec fi (vertex_faces v)) as [I|N].
    - destruct (B fi I) as [B1 B2]. rewrite A, F, B2. split; [exact B1|]. split; [discriminate|exact P3].
    - destruct (O fi N) as [O1 O2]. rewrite F, O1, O2. split; [|split; [|exact P3]].
      + rewrite <- P1. assert (G : forall fs, (forall f, In f fs -> ~ In v (corners f)) -> faces_box (h_ap s') fs = faces_box (h_ap s) fs).
        { induction fs as [|[[a0 b0] c0] fs IH]; intros H; [reflexivity|]. cbn [faces_box]. rewrite IH by (intros; apply H; right; auto).
          assert (Q : face_box (h_ap s') (a0, b0, c0) = face_box (h_ap s) (a0, b0, c0)).
          { pose proof (H _ (or_introl eq_refl)) as NC. unfold face_box. rewrite (AN a0), (AN b0), (AN c0) by (intros ->; apply NC; cbn; tauto). reflexivity. }
          rewrite Q. reflexivity. }
        apply G. intros f FF. apply (OUT fi f L N FF).
      + intros l EL. destruct (P2 l EL) as [Q1 Q2]. split; auto. intros i. rewrite Q2. split; intros [I H]; split; auto.
        * apply patch_iff in H as (f & FF & HF). apply patch_iff. exists f. rewrite F. split; auto. rewrite EXT; auto. apply (OUT fi f L N FF).
        * apply patch_iff in H as (f & FF & HF). rewrite F in FF. apply patch_iff. exists f. split; auto. rewrite EXT in HF; auto. apply (OUT fi f L N FF). }
  split; [exact CS'|]. destruct (SP b) as (NDP & LTP & ALLP). split; [|split; [|split; [exact AV|split; [exact AN|exact F]]]].
  2:{ unfold collect, prev. apply NoDup_filter, NoDup_filter. exact NDP. }
  intros i. unfold collect, prev. rewrite !filter_In, negb_true_iff. split.
  - intros ((I & H) & NH). apply LTP in I. split; [auto|]. apply star_iff in H as (fi & f & IV & FF & VC & HF). split.
    + exists fi, f. auto.
    + intros OM. apply (mesh_iff s' i CS' I) in OM. congruence.
  - intros (I & (fi & f & L & FF & HF) & NM).
    assert (VC : In v (corners f)).
    { destruct (in_dec Nat.eq_dec v (corners f)) as [IV|N]; auto. exfalso. apply NM. exists fi, f. rewrite F, EXT; auto. }
    assert (IV : In fi (vertex_faces v)) by (destruct (CO fi L) as (_ & _ & OW); apply (OW f v FF VC V)).
    split; [split|].
    + apply ALLP; auto. rewrite <- (PT i I). destruct (honored_meets _ _ _ HF) as (q & X & Y). exists q. split; auto. apply (sub_box (h_ap s) star f); auto. apply STAR. eauto.
    + apply star_iff. exists fi, f. auto.
    + destruct (honored_by_mesh tols scan_faces s' i) eqn:EH; auto. apply (mesh_iff s' i CS' I) in EH. contradiction.
Qed.

Lemma start_ok : forall ap faces, (forall i, (i < np)%nat -> ap i = points i) ->
  (forall fi r, (fi < nf)%nat -> In r (corners (faces fi)) -> In fi (vertex_faces r)) -> coherent (start_patches ap faces).
Proof.
  intros ap faces PT OW. split; [exact PT|]. intros fi L. cbn [start_patches h_ap h_faces h_box h_cache]. split; [reflexivity|]. split; [discriminate|].
  intros f r [<-|[]] R _. apply OW; auto.
Qed.
End Honored.
