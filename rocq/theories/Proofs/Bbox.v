From Coq Require Import List Arith Reals Bool Lia Lra.
From Verif Require Import Model.Bbox Spec.Bbox.
Import ListNotations.
Open Scope R_scope.

Lemma eleb_ele : forall a b, eleb a b = true <-> ele a b.
Proof.
  intros [|x|] [|y|]; cbn; try tauto; try (split; [discriminate|tauto]).
  destruct (Rle_dec x y); split; auto; discriminate.
Qed.

Lemma ele_refl : forall a, ele a a.
Proof. intros [|x|]; cbn; auto. lra. Qed.
Lemma ele_trans : forall a b c, ele a b -> ele b c -> ele a c.
Proof. intros [|x|] [|y|] [|z|]; cbn; try tauto. lra. Qed.
Lemma ele_antisym : forall a b, ele a b -> ele b a -> a = b.
Proof. intros [|x|] [|y|]; cbn; try tauto. intros. f_equal. lra. Qed.
Lemma ele_total : forall a b, ele a b \/ ele b a.
Proof. intros [|x|] [|y|]; cbn; try tauto. lra. Qed.

Lemma eleb_false : forall a b, eleb a b = false -> ele b a.
Proof.
  intros a b H. destruct (ele_total a b); auto. apply eleb_ele in H0. congruence.
Qed.

Lemma emin_spec : forall a b c, ele c (emin a b) <-> ele c a /\ ele c b.
Proof.
  intros a b c. unfold emin. destruct (eleb a b) eqn:E.
  - apply eleb_ele in E. split; [|tauto]. intros H. split; auto. eapply ele_trans; eauto.
  - apply eleb_false in E. split; [|tauto]. intros H. split; auto. eapply ele_trans; eauto.
Qed.
Lemma emax_spec : forall a b c, ele (emax a b) c <-> ele a c /\ ele b c.
Proof.
  intros a b c. unfold emax. destruct (eleb a b) eqn:E.
  - apply eleb_ele in E. split; [|tauto]. intros H. split; auto. eapply ele_trans; eauto.
  - apply eleb_false in E. split; [|tauto]. intros H. split; auto. eapply ele_trans; eauto.
Qed.

Lemma ple_refl : forall p, ple p p.
Proof. induction p; constructor; auto. apply ele_refl. Qed.
Lemma ple_trans : forall p q r, ple p q -> ple q r -> ple p r.
Proof.
  unfold ple. intros p q r H. revert r. induction H; intros r K; inversion K; subst; constructor; auto.
  eapply ele_trans; eauto.
Qed.
Lemma ple_antisym : forall p q, ple p q -> ple q p -> p = q.
Proof.
  unfold ple. intros p q H. induction H; intros K; inversion K; subst; auto.
  f_equal; auto. apply ele_antisym; auto.
Qed.

Lemma ple_nth : forall p q, ple p q <->
  length p = length q /\ forall j d, (j < length p)%nat -> ele (nth j p d) (nth j q d).
Proof.
  split.
  - intros H. induction H; cbn; [split; auto; intros; lia|]. destruct IHForall2. split; [lia|].
    intros [|j] d L; auto. apply H2. lia.
  - revert q. induction p as [|a p IH]; intros [|b q] [L H]; try discriminate; constructor.
    + apply (H 0%nat a). cbn. lia.
    + apply IH. split; [cbn in L; lia|]. intros j d J. apply (H (S j) d). cbn. lia.
Qed.

Lemma within_refl : forall b, within b b.
Proof. split; apply ple_refl. Qed.
Lemma within_trans : forall a b c, within a b -> within b c -> within a c.
Proof. intros a b c [? ?] [? ?]. split; eapply ple_trans; eauto. Qed.
Lemma within_antisym : forall a b, within a b -> within b a -> a = b.
Proof. intros [a1 a2] [b1 b2] [? ?] [? ?]. cbn in *. f_equal; apply ple_antisym; auto. Qed.

Lemma within_inside : forall b c p, within b c -> inside p b -> inside p c.
Proof. intros b c p [? ?] [? ?]. split; eapply ple_trans; eauto. Qed.

Lemma all2_Forall2 : forall p q, length p = length q -> (all2 eleb p q = true <-> ple p q).
Proof.
  induction p as [|a p IH]; intros [|b q] L; try discriminate; cbn.
  - split; auto. constructor.
  - rewrite andb_true_iff, eleb_ele, IH by (cbn in L; lia). split.
    + intros [? ?]. constructor; auto.
    + intros H. inversion H; auto.
Qed.

Lemma contains_spec : forall dim b p, wf dim b -> length p = dim ->
  (contains b p = true <-> inside p b).
Proof.
  intros dim b p [W1 W2] L. unfold contains, inside.
  rewrite andb_true_iff, !all2_Forall2 by congruence. tauto.
Qed.

(** ** Convex hull *)

Lemma map2_length : forall {A B C} (f : A -> B -> C) l m, length l = length m ->
  length (map2 f l m) = length l.
Proof. induction l; intros [|] L; try discriminate; cbn; auto. Qed.

Lemma ple_cons : forall a b p q, ple (a :: p) (b :: q) <-> ele a b /\ ple p q.
Proof.
  intros. split; [intros H; inversion H; auto|intros []; constructor; auto].
Qed.

Lemma ple_emin : forall p q r, length p = length q ->
  (ple r (map2 emin p q) <-> ple r p /\ ple r q).
Proof.
  induction p as [|a p IH]; intros [|b q] [|c r] L; try discriminate; cbn [map2].
  - tauto.
  - tauto.
  - split; [intros H|intros [H _]]; inversion H.
  - rewrite !ple_cons, emin_spec, IH by (cbn in L; lia). tauto.
Qed.
Lemma ple_emax : forall p q r, length p = length q ->
  (ple (map2 emax p q) r <-> ple p r /\ ple q r).
Proof.
  induction p as [|a p IH]; intros [|b q] [|c r] L; try discriminate; cbn [map2].
  - tauto.
  - tauto.
  - split; [intros H|intros [H _]]; inversion H.
  - rewrite !ple_cons, emax_spec, IH by (cbn in L; lia). tauto.
Qed.

Lemma hull_wf : forall dim b c, wf dim b -> wf dim c -> wf dim (convex_hull b c).
Proof. intros dim b c [? ?] [? ?]. split; cbn; rewrite map2_length; congruence. Qed.

Lemma hull_within : forall dim b c d, wf dim b -> wf dim c ->
  (within (convex_hull b c) d <-> within b d /\ within c d).
Proof.
  intros dim b c d [? ?] [? ?]. unfold within, convex_hull. cbn [bmin bmax].
  rewrite ple_emin, ple_emax by congruence. tauto.
Qed.

Lemma hull_least : forall dim b c, wf dim b -> wf dim c ->
  least_box dim (fun d => within b d /\ within c d) (convex_hull b c).
Proof.
  intros dim b c B C. split; [|split].
  - apply hull_wf; auto.
  - apply hull_within with dim; auto. apply within_refl.
  - intros d _ H. apply hull_within with dim; auto.
Qed.

Lemma empty_wf : forall dim, wf dim (empty dim).
Proof. intros. split; cbn; apply repeat_length. Qed.

Lemma empty_within : forall dim b, wf dim b -> within (empty dim) b.
Proof.
  intros dim [p q] [W1 W2]. cbn in W1, W2. split; cbn [bmin bmax empty].
  - subst dim. clear. induction p; constructor; auto. destruct a; exact I.
  - subst dim. clear - W2. revert p W2. induction q; intros [|] W; try discriminate; constructor.
    + exact I.
    + apply IHq. cbn in W. lia.
Qed.

Lemma within_eq_iff : forall dim a b, wf dim a -> wf dim b ->
  (forall d, wf dim d -> (within a d <-> within b d)) -> a = b.
Proof.
  intros dim a b A B H. apply within_antisym.
  - apply H; auto. apply within_refl.
  - apply H; auto. apply within_refl.
Qed.

Lemma hull_laws : forall dim a b c, wf dim a -> wf dim b -> wf dim c ->
  convex_hull a (convex_hull b c) = convex_hull (convex_hull a b) c /\
  convex_hull a b = convex_hull b a /\
  convex_hull a a = a /\
  convex_hull (empty dim) a = a /\ convex_hull a (empty dim) = a.
Proof.
  intros dim a b c A B C. pose proof (empty_wf dim) as E.
  assert (forall x y, wf dim x -> wf dim y -> wf dim (convex_hull x y)) as W by apply hull_wf.
  repeat split; apply within_eq_iff with dim; auto; intros d D;
    repeat (rewrite (hull_within dim); auto); try tauto;
    split; try tauto; intros; split; auto; apply empty_within; auto.
Qed.

(** ** from_points *)

Lemma fold_emin : forall c x m, ele m (fold_left emin c x) <-> ele m x /\ Forall (ele m) c.
Proof.
  induction c as [|y c IH]; intros x m; cbn [fold_left].
  - split; [auto|tauto].
  - rewrite IH, emin_spec, Forall_cons_iff. tauto.
Qed.
Lemma fold_emax : forall c x m, ele (fold_left emax c x) m <-> ele x m /\ Forall (fun y => ele y m) c.
Proof.
  induction c as [|y c IH]; intros x m; cbn [fold_left].
  - split; [auto|tauto].
  - rewrite IH, emax_spec, Forall_cons_iff. tauto.
Qed.

Lemma from_points_wf : forall dim ps, wf dim (from_points dim ps).
Proof.
  intros dim [|p ps]; [apply empty_wf|]. split; cbn; rewrite map_length, seq_length; auto.
Qed.

Lemma nth_map_seq : forall {A} (f : nat -> A) n j d, (j < n)%nat -> nth j (map f (seq 0 n)) d = f j.
Proof.
  intros A f n j d H. rewrite nth_indep with (d' := f 0%nat) by (rewrite map_length, seq_length; auto).
  rewrite map_nth, seq_nth; auto.
Qed.

Lemma from_points_within : forall dim ps c, wf dim c -> Forall (fun p => length p = dim) ps ->
  (within (from_points dim ps) c <-> Forall (fun p => inside p c) ps).
Proof.
  intros dim ps c [W1 W2] F. destruct ps as [|p ps].
  { split; auto. intros _. apply empty_within. split; auto. }
  remember (p :: ps) as qs eqn:Q.
  assert (from_points dim qs = mk_bbox (map (fun j => coeff emin (column j qs)) (seq 0 dim))
                                       (map (fun j => coeff emax (column j qs)) (seq 0 dim))) as ->
    by (subst; reflexivity).
  assert (forall j m, ele m (coeff emin (column j qs)) <-> Forall (fun p => ele m (nth j p PInf)) qs) as L.
  { intros j m. subst qs. cbn [column map coeff]. rewrite fold_emin, Forall_cons_iff, Forall_map. tauto. }
  assert (forall j m, ele (coeff emax (column j qs)) m <-> Forall (fun p => ele (nth j p PInf) m) qs) as U.
  { intros j m. subst qs. cbn [column map coeff]. rewrite fold_emax, Forall_cons_iff, Forall_map. tauto. }
  rewrite Forall_forall in F. unfold within. cbn [bmin bmax].
  rewrite !ple_nth, !map_length, !seq_length, W1, W2. rewrite Forall_forall. split.
  - intros [[_ H1] [_ H2]] q I. split; apply ple_nth.
    + split; [rewrite W1; symmetry; auto|]. intros j d J. rewrite W1 in J.
      specialize (H1 j PInf J). rewrite nth_map_seq in H1 by auto.
      rewrite L, Forall_forall in H1.
      rewrite nth_indep with (d' := PInf) (n := j) by lia.
      rewrite nth_indep with (d' := PInf) (n := j) (l := q) by (rewrite F; auto; lia). auto.
    + split; [rewrite W2; auto|]. intros j d J. rewrite F in J by auto.
      specialize (H2 j PInf J). rewrite nth_map_seq in H2 by auto.
      rewrite U, Forall_forall in H2.
      rewrite nth_indep with (d' := PInf) (n := j) by (rewrite F; auto; lia).
      rewrite nth_indep with (d' := PInf) (n := j) (l := bmax c) by lia. auto.
  - intros H. split; (split; [auto|]); intros j d J.
    + rewrite nth_map_seq by auto. apply L. apply Forall_forall. intros q I.
      destruct (H q I) as [H1 _]. apply ple_nth in H1. destruct H1 as [_ H1].
      rewrite nth_indep with (d' := PInf) by lia. apply H1. lia.
    + rewrite nth_map_seq by auto. apply U. apply Forall_forall. intros q I.
      destruct (H q I) as [_ H1]. apply ple_nth in H1. destruct H1 as [_ H1].
      rewrite nth_indep with (d' := PInf) (l := bmax c) by lia. apply H1. rewrite F; auto; lia.
Qed.

Lemma from_points_least : forall dim ps, Forall (fun p => length p = dim) ps ->
  least_box dim (fun b => Forall (fun p => inside p b) ps) (from_points dim ps).
Proof.
  intros dim ps F. split; [apply from_points_wf|]. split.
  - apply from_points_within with dim; auto; [apply from_points_wf|apply within_refl].
  - intros c C H. apply from_points_within with (dim := dim); auto.
Qed.

Lemma is_empty_spec : forall dim b, wf dim b ->
  (is_empty b = true <-> forall p, length p = dim -> ~ inside p b).
Proof.
  intros dim b W. pose proof W as [W1 W2]. unfold is_empty. rewrite negb_true_iff. split.
  - intros H p L [A B].
    assert (ple (bmin b) (bmax b)) as K by (eapply ple_trans; eauto).
    apply all2_Forall2 in K; [congruence|congruence].
  - intros H. destruct (all2 eleb (bmin b) (bmax b)) eqn:E; auto. exfalso.
    apply all2_Forall2 in E; [|congruence]. apply (H (bmin b)); auto.
    split; [apply ple_refl|auto].
Qed.

(** ** transform *)

Fixpoint bits (bs : list bool) : nat :=
  match bs with [] => 0 | b :: bs' => (if b then 1 else 0) + 2 * bits bs' end%nat.

Lemma bits_lt : forall bs, (bits bs < 2 ^ length bs)%nat.
Proof. induction bs as [|b bs IH]; cbn -[Nat.mul Nat.pow]; [cbn; lia|]. rewrite Nat.pow_succ_r'. destruct b; lia. Qed.

Lemma bits_testbit : forall bs j, Nat.testbit (bits bs) j = nth j bs false.
Proof.
  induction bs as [|b bs IH]; intros j.
  - cbn [bits]. rewrite Nat.bits_0. destruct j; reflexivity.
  - cbn [bits]. destruct j; cbn [nth].
    + destruct b.
      * rewrite Nat.add_comm, Nat.testbit_odd_0. reflexivity.
      * cbn [Nat.add]. rewrite Nat.testbit_even_0. reflexivity.
    + destruct b.
      * rewrite Nat.add_comm, Nat.testbit_odd_succ by lia. apply IH.
      * cbn [Nat.add]. rewrite Nat.testbit_even_succ by lia. apply IH.
Qed.

Definition pick (lo hi : list R) (bs : list bool) : list R :=
  map2 (fun (b : bool) (lh : R * R) => if b then snd lh else fst lh) bs (combine lo hi).

Lemma finite_Fin : forall l, finite (map Fin l) = Some l.
Proof. induction l; cbn; auto. rewrite IHl. auto. Qed.

Lemma finite_inv : forall p l, finite p = Some l -> p = map Fin l.
Proof.
  induction p as [|a p IH]; intros l H; cbn in H.
  - injection H as <-. reflexivity.
  - destruct a; try discriminate. destruct (finite p) eqn:E; try discriminate. injection H as <-.
    cbn. f_equal. auto.
Qed.

Lemma corner_finite : forall dim lo hi i, length lo = dim -> length hi = dim ->
  corner dim (mk_bbox (map Fin lo) (map Fin hi)) i
  = map Fin (map (fun j => if Nat.testbit i j then nth j hi 0 else nth j lo 0) (seq 0 dim)).
Proof.
  intros dim lo hi i L H. unfold corner. rewrite map_map. apply map_ext_in. intros j J.
  apply in_seq in J. cbn [bmin bmax].
  destruct (Nat.testbit i j).
  - rewrite nth_indep with (d' := Fin 0) by (rewrite map_length; lia). apply map_nth.
  - rewrite nth_indep with (d' := Fin 0) by (rewrite map_length; lia). apply map_nth.
Qed.

Lemma transform_points_finite : forall t ls,
  transform_points t (map (map Fin) ls) = Some (map (fun l => map (fun row => Fin (dot l row)) t) ls).
Proof.
  induction ls as [|l ls IH]; cbn; auto. unfold transform_point. rewrite finite_Fin, IH. auto.
Qed.

Definition fcorner (dim : nat) (lo hi : list R) (i : nat) : list R :=
  map (fun j => if Nat.testbit i j then nth j hi 0 else nth j lo 0) (seq 0 dim).

Lemma transform_finite : forall dim t lo hi, length lo = dim -> length hi = dim ->
  transform dim t (mk_bbox (map Fin lo) (map Fin hi)) =
  Some (from_points dim (map (fun i => map (fun row => Fin (dot (fcorner dim lo hi i) row)) t)
                             (seq 0 (2 ^ dim)))).
Proof.
  intros dim t lo hi L H. unfold transform, corners.
  assert (map (corner dim (mk_bbox (map Fin lo) (map Fin hi))) (seq 0 (2 ^ dim))
          = map (map Fin) (map (fcorner dim lo hi) (seq 0 (2 ^ dim)))) as ->.
  { rewrite map_map. apply map_ext. intros i. apply corner_finite; auto. }
  rewrite transform_points_finite, map_map. reflexivity.
Qed.

(** The corner that maximises (or minimises) a linear form. *)
Lemma dot_upper : forall lo hi p row,
  Forall2 Rle lo p -> Forall2 Rle p hi ->
  exists bs, length bs = length p /\
    dot p row <= dot (map2 (fun (b : bool) (lh : R * R) => if b then snd lh else fst lh) bs (combine lo hi)) row.
Proof.
  intros lo hi p row H. revert hi row. induction H as [|l x lo p Hx H IH]; intros hi row K;
    inversion K as [|x' h p' hi' Hh K' E1 E2]; subst.
  - exists []. split; auto. destruct row; cbn; lra.
  - destruct row as [|a row].
    + destruct (IH hi' [] K') as (bs & B & _). exists (true :: bs). split; [cbn; lia|]. cbn. lra.
    + destruct (IH hi' row K') as (bs & B & D). cbn [combine].
      destruct (Rle_dec 0 a).
      * exists (true :: bs). split; [cbn; lia|]. cbn. assert (x * a <= h * a) by nra. lra.
      * exists (false :: bs). split; [cbn; lia|]. cbn. assert (x * a <= l * a) by nra. lra.
Qed.

Lemma dot_opp : forall u row, dot u (map Ropp row) = - dot u row.
Proof. induction u; intros [|b row]; cbn; try lra. rewrite IHu. lra. Qed.

Lemma pick_fcorner : forall lo hi bs, length lo = length hi -> length bs = length lo ->
  map2 (fun (b : bool) (lh : R * R) => if b then snd lh else fst lh) bs (combine lo hi)
  = fcorner (length lo) lo hi (bits bs).
Proof.
  intros lo hi bs L B. unfold fcorner.
  transitivity (map (fun j => if nth j bs false then nth j hi 0 else nth j lo 0) (seq 0 (length lo))).
  2:{ apply map_ext. intros j. rewrite bits_testbit. auto. }
  revert hi bs L B. induction lo as [|l lo IH]; intros [|h hi] [|b bs] L B; try discriminate; auto.
  cbn [combine map2 length seq map nth fst snd]. f_equal.
  rewrite (IH hi bs) by (cbn in *; lia). rewrite <- seq_shift, map_map. reflexivity.
Qed.

Lemma dot_bounds : forall dim lo hi p row,
  length lo = dim -> length hi = dim ->
  Forall2 Rle lo p -> Forall2 Rle p hi ->
  (exists i, (i < 2 ^ dim)%nat /\ dot p row <= dot (fcorner dim lo hi i) row) /\
  (exists i, (i < 2 ^ dim)%nat /\ dot (fcorner dim lo hi i) row <= dot p row).
Proof.
  intros dim lo hi p row L H A B.
  assert (length p = dim) as LP by (clear - A L; subst dim; induction A; cbn; auto).
  split.
  - destruct (dot_upper lo hi p row A B) as (bs & LB & D). exists (bits bs).
    rewrite pick_fcorner in D by lia. rewrite L in D. split; auto.
    rewrite <- LP, <- LB. apply bits_lt.
  - destruct (dot_upper lo hi p (map Ropp row) A B) as (bs & LB & D). exists (bits bs).
    rewrite pick_fcorner in D by lia. rewrite L, !dot_opp in D. split; [|lra].
    rewrite <- LP, <- LB. apply bits_lt.
Qed.

Lemma ple_Fin : forall u v, ple (map Fin u) (map Fin v) <-> Forall2 Rle u v.
Proof.
  induction u as [|a u IH]; intros [|b v]; cbn; split; intros H; inversion H; subst; constructor; auto;
    apply IH; auto.
Qed.

Lemma transform_sound : forall dim t lo hi b' p q,
  length lo = dim -> length hi = dim -> length t = dim ->
  transform dim t (mk_bbox (map Fin lo) (map Fin hi)) = Some b' ->
  inside p (mk_bbox (map Fin lo) (map Fin hi)) -> transform_point t p = Some q ->
  inside q b'.
Proof.
  intros dim t lo hi b' p q L H T E [A B] Q. cbn [bmin bmax] in *.
  rewrite transform_finite in E by auto. injection E as <-.
  unfold transform_point in Q. destruct (finite p) as [l|] eqn:F; [|discriminate].
  apply finite_inv in F. subst p. injection Q as <-. rewrite ple_Fin in A, B.
  set (qs := map (fun i => map (fun row => Fin (dot (fcorner dim lo hi i) row)) t) (seq 0 (2 ^ dim))).
  assert (Forall (fun p => length p = dim) qs) as W.
  { apply Forall_forall. intros x I. apply in_map_iff in I. destruct I as (i & <- & _).
    rewrite map_length. auto. }
  pose proof (from_points_least dim qs W) as (WF & IN & _).
  destruct WF as [W1 W2]. rewrite Forall_forall in IN.
  assert (forall i, (i < 2 ^ dim)%nat ->
    inside (map (fun row => Fin (dot (fcorner dim lo hi i) row)) t) (from_points dim qs)) as C.
  { intros i I. apply IN. apply in_map_iff. exists i. split; auto. apply in_seq. lia. }
  split; apply ple_nth; rewrite ?map_length, ?W1, ?W2; split; auto; intros j d J.
  - destruct (dot_bounds dim lo hi l (nth j t []) L H A B) as [_ (i & I & D)].
    destruct (C i I) as [CL _]. apply ple_nth in CL. destruct CL as [_ CL].
    eapply ele_trans; [apply CL; lia|].
    rewrite !nth_indep with (d := d) (d' := Fin (dot l [])) by (rewrite map_length; lia).
    rewrite (map_nth (fun row => Fin (dot l row))).
    rewrite nth_indep with (d' := Fin (dot (fcorner dim lo hi i) [])) by (rewrite map_length; lia).
    rewrite (map_nth (fun row => Fin (dot (fcorner dim lo hi i) row))). exact D.
  - destruct (dot_bounds dim lo hi l (nth j t []) L H A B) as [(i & I & D) _].
    destruct (C i I) as [_ CL]. apply ple_nth in CL. destruct CL as [_ CL].
    eapply ele_trans; [|apply CL; rewrite map_length; lia].
    rewrite nth_indep with (d' := Fin (dot l [])) by (rewrite map_length; lia).
    rewrite (map_nth (fun row => Fin (dot l row))).
    rewrite nth_indep with (d' := Fin (dot (fcorner dim lo hi i) [])) by (rewrite map_length; lia).
    rewrite (map_nth (fun row => Fin (dot (fcorner dim lo hi i) row))). exact D.
Qed.

Lemma fcorner_inside : forall dim lo hi i, length lo = dim -> length hi = dim -> Forall2 Rle lo hi ->
  inside (map Fin (fcorner dim lo hi i)) (mk_bbox (map Fin lo) (map Fin hi)).
Proof.
  intros dim lo hi i L H F. unfold inside. cbn [bmin bmax].
  rewrite <- ple_Fin in F. apply ple_nth in F. destruct F as [_ F]. rewrite map_length in F.
  split; apply ple_nth; unfold fcorner; rewrite !map_length, seq_length; split; auto; intros j d J.
  - rewrite L in J. rewrite nth_indep with (d' := Fin 0) by (rewrite map_length; lia).
    rewrite map_nth. rewrite nth_indep with (d' := Fin 0) by (rewrite !map_length, seq_length; lia).
    rewrite map_nth, nth_map_seq by auto. specialize (F j (Fin 0)). rewrite !map_nth in F.
    destruct (Nat.testbit i j); [apply F; lia|apply ele_refl].
  - rewrite nth_indep with (d' := Fin 0) by (rewrite !map_length, seq_length; lia).
    rewrite map_nth, nth_map_seq by auto.
    rewrite nth_indep with (d' := Fin 0) by (rewrite map_length; lia).
    rewrite map_nth. specialize (F j (Fin 0)). rewrite !map_nth in F.
    destruct (Nat.testbit i j); [apply ele_refl|apply F; lia].
Qed.

(** The transformed box is the least box containing the image of a non-empty box. *)
Lemma transform_least : forall dim t lo hi b',
  length lo = dim -> length hi = dim -> length t = dim -> Forall2 Rle lo hi ->
  transform dim t (mk_bbox (map Fin lo) (map Fin hi)) = Some b' ->
  least_box dim (fun c => forall p q, inside p (mk_bbox (map Fin lo) (map Fin hi)) ->
                          transform_point t p = Some q -> inside q c) b'.
Proof.
  intros dim t lo hi b' L H T F E. split; [|split].
  - rewrite transform_finite in E by auto. injection E as <-. apply from_points_wf.
  - intros p q. apply transform_sound with (dim := dim); auto.
  - intros c C P. rewrite transform_finite in E by auto. injection E as <-.
    apply from_points_within with (dim := dim); auto.
    + apply Forall_forall. intros x I. apply in_map_iff in I. destruct I as (i & <- & _).
      rewrite map_length. auto.
    + apply Forall_forall. intros x I. apply in_map_iff in I. destruct I as (i & <- & _).
      apply (P (map Fin (fcorner dim lo hi i))).
      * apply fcorner_inside; auto.
      * unfold transform_point. rewrite finite_Fin. reflexivity.
Qed.

Lemma transform_defined : forall dim t lo hi, length lo = dim -> length hi = dim ->
  exists b', transform dim t (mk_bbox (map Fin lo) (map Fin hi)) = Some b'.
Proof. intros. rewrite transform_finite by auto. eexists; reflexivity. Qed.

Lemma center_inside : forall lo hi, Forall2 Rle lo hi ->
  inside (map Fin (center lo hi)) (mk_bbox (map Fin lo) (map Fin hi)).
Proof.
  intros lo hi F. unfold inside. cbn [bmin bmax]. rewrite !ple_Fin. unfold center.
  split; induction F; cbn; constructor; auto; lra.
Qed.
