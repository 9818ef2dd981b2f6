From Coq Require Import Reals Lra Lia List Arith Bool ZArith Permutation Sorted.
From Verif Require Import Model.Outcome Proofs.SpatialGrid Model.SpatialGrid Spec.SpatialGrid.
From Verif Require Import Model.Clip Model.PointTriangle Model.Predicates Spec.PointTriangle Spec.Predicates Proofs.Predicates Proofs.TriangleCases.
From Verif Require Import Model.IntersectingFaces Spec.IntersectingFaces.
Import ListNotations.

(** ** Sorting *)
Lemma insert_index_in : forall x l y, In y (insert_index x l) <-> y = x \/ In y l.
Proof.
  intros x l. induction l as [|z l IH]; intros y; cbn; [intuition|]. destruct (x <=? z); cbn; [intuition|]. rewrite IH. intuition.
Qed.
Lemma sort_indices_in : forall l y, In y (sort_indices l) <-> In y l.
Proof. induction l as [|x l IH]; intros y; [reflexivity|]. cbn [sort_indices fold_right]. rewrite insert_index_in. fold (sort_indices l). rewrite IH. cbn. intuition. Qed.
Lemma insert_index_sorted : forall x l, StronglySorted le l -> StronglySorted le (insert_index x l).
Proof.
  intros x l H. induction H as [|y l H IH F]; cbn; [repeat constructor|]. destruct (Nat.leb_spec x y).
  - constructor; [constructor; auto|]. constructor; auto. eapply Forall_impl; [|exact F]. intros; lia.
  - constructor; auto. apply Forall_forall. intros z Z. apply insert_index_in in Z. rewrite Forall_forall in F. destruct Z; [lia|auto].
Qed.
Lemma sort_indices_sorted : forall l, StronglySorted le (sort_indices l).
Proof. induction l; cbn; [constructor|apply insert_index_sorted; auto]. Qed.
Lemma unique_after_spec : forall l x, StronglySorted le (x :: l) ->
  StronglySorted lt (x :: unique_after x l) /\ forall y, In y (x :: unique_after x l) <-> In y (x :: l).
Proof.
  induction l as [|z l IH]; intros x H; cbn [unique_after]; [split; [repeat constructor|tauto]|].
  inversion H as [|? ? H1 F]; subst. inversion F as [|? ? F1 F2]; subst. destruct (Nat.eqb_spec x z) as [->|N].
  - destruct (IH z H1) as [A B]. split; auto. intros y. rewrite B. cbn. tauto.
  - destruct (IH z H1) as [A B]. split.
    + constructor; auto. apply Forall_forall. intros y Y. apply B in Y. inversion H1 as [|? ? H2 G]; subst. rewrite Forall_forall in G.
      destruct Y as [<-|Y]; [lia|]. specialize (G y Y). lia.
    + intros y. cbn [In]. cbn [In] in B. rewrite B. tauto.
Qed.
Lemma unique_sorted : forall l, StronglySorted lt (unique_indices (sort_indices l)) /\ forall y, In y (unique_indices (sort_indices l)) <-> In y l.
Proof.
  intros l. assert (S1 := sort_indices_sorted l). assert (I1 := sort_indices_in l). destruct (sort_indices l) as [|x k]; cbn [unique_indices].
  - split; [constructor|exact I1].
  - destruct (unique_after_spec k x S1) as [A B]. split; auto. intros y. rewrite B. apply I1.
Qed.
Lemma sorted_unique : forall l k, StronglySorted lt l -> StronglySorted lt k -> (forall y, In y l <-> In y k) -> l = k.
Proof.
  induction l as [|x l IH]; intros k H K E.
  - destruct k as [|y k]; auto. exfalso. apply (E y). left. reflexivity.
  - inversion H as [|? ? H1 F]; subst. destruct k as [|y k]; [exfalso; apply (E x); left; reflexivity|]. inversion K as [|? ? K1 G]; subst.
    rewrite Forall_forall in F, G.
    assert (x = y). { destruct (proj1 (E x) (or_introl eq_refl)) as [->|X]; auto. destruct (proj2 (E y) (or_introl eq_refl)) as [->|Y]; auto.
      specialize (F y Y). specialize (G x X). lia. }
    subst y. f_equal. apply IH; auto. intros z. split; intros Z.
    + destruct (proj1 (E z) (or_intror Z)) as [<-|]; auto. specialize (F x Z). lia.
    + destruct (proj2 (E z) (or_intror Z)) as [<-|]; auto. specialize (G x Z). lia.
Qed.

(** ** Boxes *)
Lemma box_bounds : forall t, bounds t (lowest t, highest t).
Proof.
  intros [[[[a0 a1] a2] [[b0 b1] b2]] [[c0 c1] c2]]. split.
  - intros p P. cbn [corners In] in P. unfold lowest, highest, px, py, pz. cbn [fst snd].
    destruct P as [<-|[<-|[<-|[]]]]; cbn [contains]; unfold Rmin, Rmax; repeat destruct Rle_dec; lra.
  - intros [[[u0 u1] u2] [[v0 v1] v2]] H.
    pose proof (H _ (or_introl eq_refl)) as A. pose proof (H _ (or_intror (or_introl eq_refl))) as B. pose proof (H _ (or_intror (or_intror (or_introl eq_refl)))) as C.
    cbn [contains] in A, B, C. cbn [fst snd]. unfold lowest, highest, px, py, pz. cbn [fst snd contains].
    unfold Rmin, Rmax. split; repeat destruct Rle_dec; lra.
Qed.
Lemma bounds_unique : forall t b c, bounds t b -> bounds t c -> b = c.
Proof.
  intros t [[[b0 b1] b2] [[b3 b4] b5]] [[[c0 c1] c2] [[c3 c4] c5]] [A B] [C D].
  destruct (B _ C) as [X1 X2]. destruct (D _ A) as [Y1 Y2]. cbn [fst snd contains] in *. repeat f_equal; lra.
Qed.
Lemma mix_between : forall u v w x y z l h, (0 <= u -> 0 <= v -> 0 <= w -> u + v + w = 1 -> l <= x <= h -> l <= y <= h -> l <= z <= h ->
  l <= u * x + v * y + w * z <= h)%R.
Proof.
  intros u v w x y z l h U V W E X Y Z. replace w with (1 - u - v)%R in * by lra. split; nra.
Qed.
Lemma inside_box : forall t b x, bounds t b -> inside t x -> contains b x.
Proof.
  intros [[a b] c] [[[l0 l1] l2] [[h0 h1] h2]] [[x0 x1] x2] [B _] (u & v & w & U & V & W & E & X & Y & Z).
  pose proof (B _ (or_introl eq_refl)) as A0. pose proof (B _ (or_intror (or_introl eq_refl))) as B0. pose proof (B _ (or_intror (or_intror (or_introl eq_refl)))) as C0.
  destruct a as [[a0 a1] a2], b as [[b0 b1] b2], c as [[c0 c1] c2]. unfold px, py, pz in X, Y, Z. cbn [fst snd] in X, Y, Z. cbn [contains] in *. subst.
  split; [|split]; apply mix_between; tauto.
Qed.

(** ** The pairs *)
Section Run.
Variables (rnd : R -> R) (resolution : R).
Hypothesis mono : forall a b, (a <= b -> rnd a <= rnd b)%R.
Hypothesis pos_res : (0 < resolution)%R.
Variables (nv : nat) (pos : nat -> pt) (fs : list face).
Hypothesis exist : vertices_exist nv fs.
Hypothesis reach : within_reach rnd resolution nv pos.

Lemma tri_tri : forall fi, tri_of pos (face_at fs fi) = tri pos fs fi.
Proof. intros fi. unfold tri, tri_of, face_at. reflexivity. Qed.

Definition fbox (fi : nat) : box := (lowest (tri pos fs fi), highest (tri pos fs fi)).
Definition mesh_boxes (n i : nat) : option box := if i <? n then Some (fbox i) else None.

Lemma box_reach : forall fi, fi < length fs -> representable_point rnd resolution (lowest (tri pos fs fi)) /\ representable_point rnd resolution (highest (tri pos fs fi)).
Proof.
  intros fi L. destruct (face_at fs fi) as [[a b] c] eqn:N.
  assert (T : tri pos fs fi = (pos a, pos b, pos c)) by (rewrite <- tri_tri, N; reflexivity). rewrite T.
  assert (I : In (a, b, c) fs). { rewrite <- N. apply nth_In. exact L. }
  assert (A := reach a (exist _ a I (or_introl eq_refl))). assert (B := reach b (exist _ b I (or_intror (or_introl eq_refl)))).
  assert (C := reach c (exist _ c I (or_intror (or_intror eq_refl)))).
  clear T. destruct (pos a) as [[a0 a1] a2], (pos b) as [[b0 b1] b2], (pos c) as [[c0 c1] c2]. unfold representable_point in A, B, C.
  unfold lowest, highest, px, py, pz, representable_point. cbn [fst snd].
  destruct A as (A0 & A1 & A2), B as (B0 & B1 & B2), C as (C0 & C1 & C2). split; (split; [|split]);
    (apply Rmin_case || apply Rmax_case); auto; (apply Rmin_case || apply Rmax_case); auto.
Qed.

Lemma insert_faces_run : forall fis g, insert_faces rnd resolution pos g fs fis =
  fg_run rnd resolution g (map (fun fi => FInsert fi (fst (fbox fi)) (snd (fbox fi))) fis).
Proof.
  induction fis as [|fi fis IH]; intros g; cbn [insert_faces fg_run map fg_step]; auto. unfold fbox. cbn [fst snd]. rewrite tri_tri.
  destruct (fg_insert rnd resolution g fi (lowest (tri pos fs fi)) (highest (tri pos fs fi))); cbn [bind]; auto.
Qed.
Lemma edits_run : forall fis, flat_map fg_edits (map (fun fi => FInsert fi (fst (fbox fi)) (snd (fbox fi))) fis) = map (fun fi => Put fi (fbox fi)) fis.
Proof. induction fis as [|fi fis IH]; cbn; auto. f_equal. exact IH. Qed.
Lemma store_from : forall k n s, (forall i, n <= i -> s i = None) ->
  disciplined s (map (fun fi => Put fi (fbox fi)) (seq n k)) /\
  forall i, fold_left apply_edit (map (fun fi => Put fi (fbox fi)) (seq n k)) s i = if (n <=? i) && (i <? n + k) then Some (fbox i) else s i.
Proof.
  induction k as [|k IH]; intros n s N; cbn [seq map fold_left disciplined].
  - split; auto. intros i. destruct (Nat.leb_spec n i); destruct (Nat.ltb_spec i (n + 0)); cbn; auto; lia.
  - destruct (IH (S n) (apply_edit s (Put n (fbox n)))) as [A B].
    { intros i L. cbn [apply_edit]. destruct (Nat.eqb_spec i n); [lia|]. apply N. lia. }
    split; [split; [apply N; lia|exact A]|]. intros i. rewrite B. cbn [apply_edit].
    destruct (Nat.leb_spec (S n) i), (Nat.ltb_spec i (S n + k)), (Nat.leb_spec n i), (Nat.ltb_spec i (n + S k)), (Nat.eqb_spec i n); cbn; subst; auto; lia.
Qed.

Lemma grid_built : exists g, insert_faces rnd resolution pos (fg_new (length fs)) fs (seq 0 (length fs)) = Ok g /\ fg_inv rnd resolution g (mesh_boxes (length fs)).
Proof.
  rewrite insert_faces_run. destruct (store_from (length fs) 0 (fun _ => None)) as [D ST]; [auto|].
  destruct (fg_run_spec rnd resolution (map (fun fi => FInsert fi (fst (fbox fi)) (snd (fbox fi))) (seq 0 (length fs)))
    (fg_new (length fs)) (fun _ => None)) as (g & E & IV).
  - apply fg_inv_new.
  - rewrite edits_run. exact D.
  - apply Forall_forall. intros o O. apply in_map_iff in O. destruct O as (fi & <- & F). apply in_seq in F. cbn [fg_representable fbox fst snd]. apply box_reach. lia.
  - exists g. split; auto. rewrite edits_run in IV. destruct IV as ((A1 & A2 & A3 & A4) & B & C).
    assert (EQ : forall i, fold_left apply_edit (map (fun fi => Put fi (fbox fi)) (seq 0 (length fs))) (fun _ => None) i = mesh_boxes (length fs) i).
    { intros i. rewrite ST. unfold mesh_boxes. cbn [Nat.leb andb Nat.add]. reflexivity. }
    split; [split; [|split; [|split]]|split].
    all: try (intros i b Q; apply B; rewrite EQ; exact Q).
    all: try (intros i lo hi Q; apply (C i lo hi); rewrite EQ; exact Q).
    + intros c i. rewrite A1. split; intros (b & Q & R1); exists b; (split; [rewrite <- EQ || rewrite EQ; exact Q|exact R1]).
    + intros i Q. apply A2. rewrite EQ. exact Q.
    + exact A3.
    + exact A4.
Qed.

Lemma collect_spec : forall fis g, fg_inv rnd resolution g (mesh_boxes (length fs)) -> (forall fi, In fi fis -> fi < length fs) ->
  exists ps, collect_pairs rnd resolution g fis = Ok ps /\
    forall fi fj, In (fi, fj) ps <-> In fi fis /\ fi < fj /\ fj < length fs /\ cells_meet rnd resolution (fbox fj) (fbox fi).
Proof.
  induction fis as [|fi fis IH]; intros g IV L; cbn [collect_pairs].
  - exists []. split; auto. intros fi fj. cbn. tauto.
  - destruct IV as (I1 & I2 & I3). assert (Lf := L fi (or_introl eq_refl)).
    assert (M : mesh_boxes (length fs) fi = Some (fbox fi)). { unfold mesh_boxes. apply Nat.ltb_lt in Lf. rewrite Lf. reflexivity. }
    rewrite (I2 _ _ M). unfold fbox at 1. destruct (box_reach fi Lf) as [R1 R2]. destruct (cells_total rnd resolution _ _ R1 R2) as (cs & C).
    destruct (for_each_spec rnd resolution _ _ _ _ (fun _ _ => true) cs I1 C) as (g' & out & stop & E & IV' & ND & AN & X & Y).
    assert (stop = false). { destruct stop; auto. destruct out; cbn in AN; [contradiction|destruct AN; discriminate]. } subst stop.
    unfold fg_for_each. rewrite E. cbn [bind].
    destruct (IH (FaceGrid g' (fg_box g))) as (ps & -> & P); [split; [exact IV'|split; [exact I2|exact I3]]|intros k K; apply L; right; exact K|].
    cbn [bind]. eexists. split; [reflexivity|]. intros i j. rewrite in_app_iff, P, in_map_iff. split.
    + intros [(k & Q & K)|(A & B)]; [|split; [right; exact A|exact B]]. injection Q as <- <-. apply filter_In in K. destruct K as [K LT]. apply Nat.ltb_lt in LT.
      apply in_rev in K. destruct (X k K) as (b & c & Q & Z1 & Z2). unfold mesh_boxes in Q. destruct (Nat.ltb_spec k (length fs)) as [Lk|]; [|discriminate].
      injection Q as <-. split; [left; reflexivity|]. split; [exact LT|]. split; [exact Lk|]. exists c. split; [exact Z1|exact Z2].
    + intros ([<-|A] & B & C1 & (c & D1 & D2)); [|right; split; [exact A|split; [exact B|split; [exact C1|exists c; split; [exact D1|exact D2]]]]].
      left. exists j. split; auto. apply filter_In. split; [|apply Nat.ltb_lt; exact B]. apply -> in_rev. apply (Y eq_refl j (fbox j) c); auto.
      unfold mesh_boxes. apply Nat.ltb_lt in C1. rewrite C1. reflexivity.
Qed.

Lemma test_ok : forall pairs is, (forall i, In i is -> exists fi fj b, nth_error pairs i = Some (fi, fj) /\ intersect pos fs fi fj = Ok b) ->
  exists r, test_pairs pos fs pairs is = Ok r.
Proof.
  intros pairs is. induction is as [|i is IH]; intros H; cbn [test_pairs]; [eexists; reflexivity|].
  destruct (H i (or_introl eq_refl)) as (fi & fj & b & -> & ->). destruct IH as (r & ->); [intros k K; apply H; right; exact K|]. eexists. reflexivity.
Qed.
Lemma test_in : forall pairs is r, test_pairs pos fs pairs is = Ok r ->
  (forall i, In i is -> exists fi fj b, nth_error pairs i = Some (fi, fj) /\ intersect pos fs fi fj = Ok b) /\
  forall k, In k r <-> exists i fi fj, In i is /\ nth_error pairs i = Some (fi, fj) /\ intersect pos fs fi fj = Ok true /\ (k = fi \/ k = fj).
Proof.
  intros pairs is. induction is as [|i is IH]; intros r H; cbn [test_pairs] in H.
  - injection H as <-. split; [contradiction|]. intros k. split; [contradiction|]. intros (i & _ & _ & F & _). destruct F.
  - destruct (nth_error pairs i) as [[fi fj]|] eqn:N; [|discriminate]. destruct (intersect pos fs fi fj) as [b| |] eqn:T; try discriminate. cbn [bind] in H.
    destruct (test_pairs pos fs pairs is) as [r0| |]; try discriminate. cbn [bind] in H. injection H as <-. destruct (IH r0 eq_refl) as [A B]. split.
    + intros k [<-|K]; [exists fi, fj, b; auto|auto].
    + intros k. split.
      * intros K. assert (Q : (b = true /\ (k = fi \/ k = fj)) \/ In k r0). { destruct b; [|auto]. cbn in K. destruct K as [<-|[<-|K]]; auto. }
        destruct Q as [[-> Q]|Q]; [exists i, fi, fj; split; [left; reflexivity|auto]|]. apply B in Q. destruct Q as (i' & fi' & fj' & Q1 & Q2).
        exists i', fi', fj'. split; [right; exact Q1|exact Q2].
      * intros (i' & fi' & fj' & [<-|Q1] & Q2 & Q3 & Q4).
        -- rewrite N in Q2. injection Q2 as <- <-. rewrite T in Q3. injection Q3 as ->. destruct Q4 as [->| ->]; [left|right; left]; reflexivity.
        -- assert (Q : In k r0) by (apply B; exists i', fi', fj'; auto). destruct b; [right; right; exact Q|exact Q].
Qed.

Lemma meet_sym : forall a b, cells_meet rnd resolution a b -> cells_meet rnd resolution b a.
Proof. intros a b (c & A & B). exists c. auto. Qed.
Lemma share_meet : forall fi fj, share_cell rnd resolution pos fs fi fj <-> cells_meet rnd resolution (fbox fi) (fbox fj).
Proof.
  intros fi fj. split.
  - intros (b & c & B & C & M). rewrite (bounds_unique _ _ _ B (box_bounds _)), (bounds_unique _ _ _ C (box_bounds _)) in M. exact M.
  - intros M. exists (fbox fi), (fbox fj). split; [apply box_bounds|]. split; [apply box_bounds|exact M].
Qed.
Lemma exist_ok : faces_ok nv fs = true.
Proof.
  apply forallb_forall. intros [[a b] c] F. rewrite !andb_true_iff, !Nat.ltb_lt. repeat split; apply (exist _ _ F); cbn; auto.
Qed.
Lemma intersect_tri : forall fi fj, intersect pos fs fi fj = triangles_intersect (tri pos fs fi) (tri pos fs fj).
Proof. intros. unfold intersect. rewrite !tri_tri. reflexivity. Qed.

Lemma finder_pairs : forall schedule, exists ps,
  intersecting_faces rnd resolution nv pos fs schedule =
    bind (test_pairs pos fs ps (concat (schedule (length ps)))) (fun r => Ok (unique_indices (sort_indices r))) /\
  forall fi fj, In (fi, fj) ps <-> fi < fj /\ fj < length fs /\ share_cell rnd resolution pos fs fi fj.
Proof.
  intros schedule. unfold intersecting_faces. rewrite exist_ok. destruct grid_built as (g & -> & IV). cbn [bind].
  destruct (collect_spec (seq 0 (length fs)) g IV) as (ps & -> & P); [intros fi F; apply in_seq in F; lia|]. cbn [bind]. exists ps. split; auto.
  intros fi fj. rewrite P, in_seq, share_meet. split.
  - intros (_ & A & B & C). split; [exact A|]. split; [exact B|]. apply meet_sym. exact C.
  - intros (A & B & C). split; [lia|]. split; [exact A|]. split; [exact B|]. apply meet_sym. exact C.
Qed.

Lemma numbered : forall schedule (ps : list (nat * nat)), shares_work schedule -> forall fi fj,
  In (fi, fj) ps <-> exists i, In i (concat (schedule (length ps))) /\ nth_error ps i = Some (fi, fj).
Proof.
  intros schedule ps W fi fj. assert (P := W (length ps)). split.
  - intros H. apply In_nth_error in H. destruct H as (i & N). exists i. split; auto. apply (Permutation_in _ (Permutation_sym P)). apply in_seq.
    assert (i < length ps) by (apply nth_error_Some; congruence). lia.
  - intros (i & _ & N). eapply nth_error_In. exact N.
Qed.
Lemma share_sym : forall fi fj, share_cell rnd resolution pos fs fi fj -> share_cell rnd resolution pos fs fj fi.
Proof. intros fi fj (b & c & B & C & M). exists c, b. split; [exact C|]. split; [exact B|]. apply meet_sym. exact M. Qed.

(** What a result means. *)
Lemma result_exact : forall schedule r, shares_work schedule -> intersecting_faces rnd resolution nv pos fs schedule = Ok r ->
  StronglySorted lt r /\ forall fi, In fi r <-> exists fj, test_hits pos fs fi fj /\ share_cell rnd resolution pos fs fi fj.
Proof.
  intros schedule r W E. destruct (finder_pairs schedule) as (ps & EQ & P). rewrite EQ in E.
  destruct (test_pairs pos fs ps (concat (schedule (length ps)))) as [l| |] eqn:T; try discriminate. cbn [bind] in E. injection E as <-.
  destruct (unique_sorted l) as [SS IN]. split; auto. intros k. rewrite IN. destruct (test_in _ _ _ T) as [_ B]. rewrite B. split.
  - intros (i & fi & fj & I1 & N & H & K). assert (Q : In (fi, fj) ps) by (eapply nth_error_In; exact N). apply P in Q. destruct Q as (Q1 & Q2 & Q3).
    rewrite intersect_tri in H. destruct K as [->| ->].
    + exists fj. split; [|exact Q3]. split; [lia|]. split; [exact (Nat.lt_trans _ _ _ Q1 Q2)|]. split; [exact Q2|]. rewrite Nat.min_l, Nat.max_r by lia. exact H.
    + exists fi. split; [|apply share_sym; exact Q3]. split; [lia|]. split; [exact Q2|]. split; [exact (Nat.lt_trans _ _ _ Q1 Q2)|]. rewrite Nat.min_r, Nat.max_l by lia. exact H.
  - intros (j & (D & K & J & H) & SC). destruct (Nat.lt_ge_cases k j) as [L|L].
    + rewrite Nat.min_l, Nat.max_r in H by lia. assert (Q : In (k, j) ps) by (apply P; auto).
      apply (numbered schedule ps W) in Q. destruct Q as (i & I1 & N). exists i, k, j. rewrite intersect_tri. auto.
    + assert (LT : j < k) by lia. rewrite Nat.min_r, Nat.max_l in H by lia. assert (Q : In (j, k) ps) by (apply P; split; [exact LT|split; [exact K|apply share_sym; exact SC]]).
      apply (numbered schedule ps W) in Q. destruct Q as (i & I1 & N). exists i, j, k. rewrite intersect_tri. auto.
Qed.

Lemma result_iff : forall schedule, shares_work schedule ->
  ((exists r, intersecting_faces rnd resolution nv pos fs schedule = Ok r) <->
   forall fi fj, fi < fj -> fj < length fs -> share_cell rnd resolution pos fs fi fj -> exists b, triangles_intersect (tri pos fs fi) (tri pos fs fj) = Ok b).
Proof.
  intros schedule W. destruct (finder_pairs schedule) as (ps & -> & P). split.
  - intros (r & E) fi fj L1 L2 SC. destruct (test_pairs pos fs ps (concat (schedule (length ps)))) as [l| |] eqn:T; try discriminate.
    destruct (test_in _ _ _ T) as [A _]. assert (Q : In (fi, fj) ps) by (apply P; auto). apply (numbered schedule ps W) in Q. destruct Q as (i & I1 & N).
    destruct (A i I1) as (fi' & fj' & b & N' & H). rewrite N in N'. injection N' as <- <-. exists b. rewrite <- intersect_tri. exact H.
  - intros H. assert (TK : exists l, test_pairs pos fs ps (concat (schedule (length ps))) = Ok l); [apply test_ok|destruct TK as (l & ->); eexists; reflexivity].
    intros i I1. apply (Permutation_in _ (W (length ps))) in I1. apply in_seq in I1.
    destruct (nth_error ps i) as [[fi fj]|] eqn:N; [|apply nth_error_None in N; lia].
    assert (Q : In (fi, fj) ps) by (eapply nth_error_In; exact N). apply P in Q. destruct Q as (Q1 & Q2 & Q3). destruct (H fi fj Q1 Q2 Q3) as (b & B).
    exists fi, fj, b. auto.
Qed.

Lemma cross_shares : forall fi fj, cross pos fs fi fj -> share_cell rnd resolution pos fs fi fj.
Proof.
  intros fi fj (_ & _ & _ & x & A & B & _). apply share_meet. apply overlap_cells; auto. exists x. split; (eapply inside_box; [apply box_bounds|assumption]).
Qed.
End Run.

(** ** Totality, completeness, and the clustering that uses the finder *)
Lemma finder_spec : forall rnd resolution, (forall a b, a <= b -> rnd a <= rnd b)%R -> (0 < resolution)%R ->
  forall nv pos fs, vertices_exist nv fs -> within_reach rnd resolution nv pos -> proper_faces pos fs ->
  exists r, (forall schedule, shares_work schedule -> intersecting_faces rnd resolution nv pos fs schedule = Ok r) /\
    StronglySorted lt r /\ (forall fi, In fi r -> exists fj, test_hits pos fs fi fj) /\ (forall fi fj, cross pos fs fi fj -> In fi r /\ In fj r).
Proof.
  intros rnd resolution MO RP nv pos fs EX RE PR.
  assert (OK : forall schedule, shares_work schedule -> exists r, intersecting_faces rnd resolution nv pos fs schedule = Ok r).
  { intros schedule W. apply (result_iff rnd resolution nv pos fs EX RE schedule W). intros fi fj L1 L2 _. apply no_throw; apply PR; [exact (Nat.lt_trans _ _ _ L1 L2)|exact L2]. }
  assert (W0 : shares_work (fun n => [seq 0 n])). { intros n. cbn. rewrite app_nil_r. reflexivity. }
  destruct (OK _ W0) as (r & E). destruct (result_exact rnd resolution nv pos fs EX RE _ r W0 E) as [SS IN]. exists r. split; [|split; [exact SS|split]].
  - intros schedule W. destruct (OK _ W) as (r' & E'). destruct (result_exact rnd resolution nv pos fs EX RE _ r' W E') as [SS' IN'].
    rewrite E'. f_equal. apply sorted_unique; auto. intros y. rewrite IN', IN. reflexivity.
  - intros fi F. apply IN in F. destruct F as (fj & T & _). exists fj. exact T.
  - assert (ONE : forall fi fj, cross pos fs fi fj -> In fi r).
    { intros fi fj C. apply IN. exists fj. split; [|apply (cross_shares rnd resolution MO RP); exact C].
      destruct C as (D & L1 & L2 & x & A & B & N). split; [exact D|]. split; [exact L1|]. split; [exact L2|].
      destruct (Nat.lt_ge_cases fi fj).
      - rewrite Nat.min_l, Nat.max_r by lia. apply (intersect_complete _ _ (PR _ L1) (PR _ L2) x); auto.
      - rewrite Nat.min_r, Nat.max_l by lia. apply (intersect_complete _ _ (PR _ L2) (PR _ L1) x); auto.
        intros (a & b & c & Y & Z). apply N. exists a, b, c. split; [|exact Z]. intros y I1. destruct (Y y I1). auto. }
    intros fi fj C. split; [exact (ONE _ _ C)|]. apply (ONE fj fi). destruct C as (D & L1 & L2 & x & A & B & N).
    split; [auto|]. split; [exact L2|]. split; [exact L1|]. exists x. split; [exact B|]. split; [exact A|].
    intros (a & b & c & Y & Z). apply N. exists a, b, c. split; [|exact Z]. intros y I1. destruct (Y y I1). auto.
Qed.

Lemma ok_exist : forall nv fs, faces_ok nv fs = true -> vertices_exist nv fs.
Proof.
  intros nv fs F. intros [[a b] c] v I1 C. unfold faces_ok in F. rewrite forallb_forall in F. specialize (F _ I1). rewrite !andb_true_iff, !Nat.ltb_lt in F. cbn [corner_of] in C.
  destruct C as [->|[->| ->]]; tauto.
Qed.
Lemma finder_out_of_range : forall rnd resolution nv pos fs schedule, ~ vertices_exist nv fs -> intersecting_faces rnd resolution nv pos fs schedule = Throw ExOutOfRange.
Proof.
  intros rnd resolution nv pos fs schedule N. unfold intersecting_faces. destruct (faces_ok nv fs) eqn:F; auto. exfalso. apply N. apply ok_exist. exact F.
Qed.
