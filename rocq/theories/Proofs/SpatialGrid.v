From Coq Require Import List ZArith Reals Bool Lia Lra.
From Verif Require Import Model.Outcome Model.SpatialGrid Spec.SpatialGrid.
Import ListNotations.

Lemma cell_eqb_spec : forall a b, cell_eqb a b = true <-> a = b.
Proof.
  intros [[a0 a1] a2] [[b0 b1] b2]. cbn. rewrite !andb_true_iff, !Z.eqb_eq. split; [intros [[-> ->] ->]; auto|].
  intros E. injection E as -> -> ->. auto.
Qed.

Lemma count_spec : forall lo hi l, count lo hi = Ok l -> forall x, In x l <-> (lo <= x <= hi)%Z.
Proof.
  intros lo hi l H x. unfold count in H. destruct (Z.leb_spec lo hi).
  - destruct (Z.eqb hi int_max); [discriminate|]. injection H as <-. rewrite in_map_iff. split.
    + intros (d & <- & I). apply in_seq in I. lia.
    + intros I. exists (Z.to_nat (x - lo)). split; [lia|]. apply in_seq. lia.
  - injection H as <-. cbn. lia.
Qed.

Lemma Int_part_mono : forall a b, (a <= b)%R -> (Int_part a <= Int_part b)%Z.
Proof.
  intros a b H. destruct (base_Int_part a) as [A1 A2]. destruct (base_Int_part b) as [B1 B2].
  assert (IZR (Int_part a) < IZR (Int_part b + 1))%R as Q by (rewrite plus_IZR; lra).
  apply lt_IZR in Q. lia.
Qed.

Section Grid.
Variables (rnd : R -> R) (resolution : R).
Hypothesis Rnd : forall a b, (a <= b)%R -> (rnd a <= rnd b)%R.
Hypothesis Res : (0 < resolution)%R.

Local Notation coord := (coord rnd resolution).
Local Notation in_cells := (in_cells rnd resolution).
Local Notation representable := (representable rnd resolution).
Local Notation representable_point := (representable_point rnd resolution).
Local Notation op_representable := (op_representable rnd resolution).
Local Notation fg_representable := (fg_representable rnd resolution).

Lemma coord_mono : forall a b, (a <= b)%R -> (coord a <= coord b)%Z.
Proof.
  intros a b H. apply Int_part_mono, Rnd. unfold Rdiv. apply Rmult_le_compat_r; [|auto].
  left. apply Rinv_0_lt_compat. auto.
Qed.

Lemma cell_coord_ok : forall x c, cell_coord rnd resolution x = Ok c -> c = coord x.
Proof. intros x c H. unfold cell_coord in H. destruct (_ && _) in H; [|discriminate]. injection H as <-. auto. Qed.

Lemma cells_spec : forall lo hi cs, cells rnd resolution lo hi = Ok cs -> forall c, In c cs <-> in_cells (lo, hi) c.
Proof.
  intros [[x0 y0] z0] [[x1 y1] z1] cs H [[i j] k]. unfold cells, cell_of in H. cbn [in_cells].
  destruct (cell_coord rnd resolution x0) as [a0| |] eqn:A0; try discriminate. apply cell_coord_ok in A0.
  cbn [bind] in H.
  destruct (cell_coord rnd resolution y0) as [b0| |] eqn:B0; try discriminate. apply cell_coord_ok in B0.
  destruct (cell_coord rnd resolution z0) as [c0| |] eqn:C0; try discriminate. apply cell_coord_ok in C0.
  cbn [bind] in H.
  destruct (cell_coord rnd resolution x1) as [a1| |] eqn:A1; try discriminate. apply cell_coord_ok in A1.
  destruct (cell_coord rnd resolution y1) as [b1| |] eqn:B1; try discriminate. apply cell_coord_ok in B1.
  destruct (cell_coord rnd resolution z1) as [c1| |] eqn:C1; try discriminate. apply cell_coord_ok in C1.
  cbn [bind] in H. subst.
  destruct (count (coord x0) (coord x1)) as [is| |] eqn:CI; try discriminate. cbn [bind] in H.
  pose proof (count_spec _ _ _ CI) as SI. destruct is as [|i0 is].
  { injection H as <-. cbn. split; [tauto|]. intros (Q & _). apply SI in Q. destruct Q. }
  destruct (count (coord y0) (coord y1)) as [js| |] eqn:CJ; try discriminate. cbn [bind] in H.
  pose proof (count_spec _ _ _ CJ) as SJ. destruct js as [|j0 js].
  { injection H as <-. cbn. split; [tauto|]. intros (_ & Q & _). apply SJ in Q. destruct Q. }
  destruct (count (coord z0) (coord z1)) as [ks| |] eqn:CK; try discriminate. cbn [bind] in H.
  pose proof (count_spec _ _ _ CK) as SK.
  match type of H with Ok ?x = Ok _ => assert (cs = x) as -> by congruence end.
  rewrite <- SI, <- SJ, <- SK. rewrite in_flat_map. split.
  - intros (i' & I & Q). apply in_flat_map in Q. destruct Q as (j' & J & Q). apply in_map_iff in Q.
    destruct Q as (k' & E & K). injection E as -> -> ->. auto.
  - intros (I & J & K). exists i. split; auto. apply in_flat_map. exists j. split; auto. apply in_map. auto.
Qed.

Lemma overlap_cells : forall a b, overlap a b -> exists c, in_cells a c /\ in_cells b c.
Proof.
  intros [[[x0 y0] z0] [[x1 y1] z1]] [[[u0 v0] w0] [[u1 v1] w1]] ([[x y] z] & A & B).
  cbn in A, B. exists (coord x, coord y, coord z). cbn.
  repeat match goal with H : _ /\ _ |- _ => destruct H end. repeat split; apply coord_mono; auto.
Qed.

Lemma cell_coord_total : forall x, representable x -> cell_coord rnd resolution x = Ok (coord x) /\ (coord x < int_max)%Z.
Proof.
  intros x [H1 H2]. change (- 2 ^ 31)%Z with int_min in H1. change (2 ^ 31 - 1)%Z with int_max in H2.
  destruct (base_Int_part (rnd (x / resolution))) as [B1 B2].
  assert (int_min <= coord x)%Z as L.
  { assert (IZR int_min < IZR (coord x + 1))%R as Q by (rewrite plus_IZR; unfold Spec.SpatialGrid.coord; lra). apply lt_IZR in Q. lia. }
  assert (coord x < int_max)%Z as U by (apply lt_IZR; unfold Spec.SpatialGrid.coord; lra).
  split; auto. unfold cell_coord. change (Int_part (rnd (x / resolution))) with (coord x).
  destruct (Z.leb_spec int_min (coord x)); [|lia]. destruct (Z.leb_spec (coord x) int_max); [|lia]. auto.
Qed.

Lemma count_total : forall lo hi, (hi < int_max)%Z -> exists l, count lo hi = Ok l.
Proof.
  intros lo hi H. unfold count. destruct (lo <=? hi)%Z; [|eauto]. destruct (Z.eqb_spec hi int_max); [lia|eauto].
Qed.

Lemma cells_total : forall lo hi, representable_point lo -> representable_point hi ->
  exists cs, cells rnd resolution lo hi = Ok cs.
Proof.
  intros [[x0 y0] z0] [[x1 y1] z1] (A0 & B0 & C0) (A1 & B1 & C1). unfold cells, cell_of.
  rewrite (proj1 (cell_coord_total _ A0)), (proj1 (cell_coord_total _ B0)), (proj1 (cell_coord_total _ C0)),
    (proj1 (cell_coord_total _ A1)), (proj1 (cell_coord_total _ B1)), (proj1 (cell_coord_total _ C1)). cbn [bind].
  destruct (count_total (coord x0) (coord x1)) as (is & ->); [apply cell_coord_total; auto|]. cbn [bind]. destruct is; [eauto|].
  destruct (count_total (coord y0) (coord y1)) as (js & ->); [apply cell_coord_total; auto|]. cbn [bind]. destruct js; [eauto|].
  destruct (count_total (coord z0) (coord z1)) as (ks & ->); [apply cell_coord_total; auto|]. cbn [bind]. eauto.
Qed.

(** ** The stored items *)

Lemma fold_push : forall item cs m c i, In i (fold_left (push item) cs m c) <-> In i (m c) \/ (i = item /\ In c cs).
Proof.
  intros item. induction cs as [|d cs IH]; intros m c i; cbn [fold_left].
  - cbn. tauto.
  - rewrite IH. unfold push. destruct (cell_eqb c d) eqn:E.
    + apply cell_eqb_spec in E. subst. rewrite in_app_iff. cbn. intuition auto.
    + assert (c <> d) by (intros Q; apply cell_eqb_spec in Q; congruence). cbn. intuition congruence.
Qed.

Lemma fold_erase : forall item cs m c i, In i (fold_left (erase item) cs m c) <-> In i (m c) /\ ~ (i = item /\ In c cs).
Proof.
  intros item. induction cs as [|d cs IH]; intros m c i; cbn [fold_left].
  - cbn. tauto.
  - rewrite IH. unfold erase. destruct (cell_eqb c d) eqn:E.
    + apply cell_eqb_spec in E. subst. rewrite filter_In, negb_true_iff, Nat.eqb_neq. cbn. intuition auto.
    + assert (c <> d) by (intros Q; apply cell_eqb_spec in Q; congruence). cbn. intuition congruence.
Qed.

Definition inv (g : grid) (s : stored) : Prop :=
  (forall c i, In i (g_cells g c) <-> exists b, s i = Some b /\ in_cells b c) /\
  (forall i, s i <> None -> i < length (g_visited g)) /\
  (0 <= g_guard g <= int_max)%Z /\ (forall x, In x (g_visited g) -> (x <= g_guard g)%Z).

Lemma inv_new : forall n, inv (grid_new n) (fun _ => None).
Proof.
  intros n. split; [|split; [|split]].
  - intros c i. cbn. split; [tauto|]. intros (b & Q & _). discriminate.
  - congruence.
  - cbn. split; [lia|]. unfold int_max. lia.
  - cbn. intros x X. apply repeat_spec in X. lia.
Qed.

Lemma inv_reserve : forall g s n, inv g s -> inv (reserve g n) s /\ n <= length (g_visited (reserve g n)).
Proof.
  intros g s n (A & B & C & D). split.
  - split; [exact A|]. split; [|split; [exact C|]]; cbn.
    + intros i I. specialize (B i I). rewrite app_length. lia.
    + intros x X. apply in_app_iff in X. destruct X as [X|X]; [auto|]. apply repeat_spec in X. lia.
  - cbn. rewrite app_length, repeat_length. lia.
Qed.

Lemma inv_insert : forall g s item lo hi g', inv g s -> s item = None -> insert rnd resolution g item lo hi = Ok g' ->
  inv g' (apply_edit s (Put item (lo, hi))).
Proof.
  intros g s item lo hi g' I N H. unfold insert in H.
  destruct (cells rnd resolution lo hi) as [cs| |] eqn:C; try discriminate. cbn [bind] in H. injection H as <-.
  pose proof (cells_spec _ _ _ C) as CS. destruct (inv_reserve g s (S item) I) as [(A & B & G & D) L].
  split; [|split; [|split]]; cbn [g_cells g_visited g_guard]; auto.
  - intros c i. rewrite fold_push, CS. specialize (A c i). cbn in A. rewrite A. cbn [apply_edit].
    destruct (Nat.eqb_spec i item) as [->|NE].
    + split.
      * intros [(b & Q & _)|[_ Q]]; [congruence|eauto].
      * intros (b & Q & X). injection Q as <-. auto.
    + split; [intros [|[Q _]]; [auto|congruence]|auto].
  - intros i Q. cbn [apply_edit] in Q. destruct (Nat.eqb_spec i item) as [EQ|NE]; [subst i; exact L|apply B; exact Q].
Qed.

Lemma inv_remove : forall g s item lo hi g', inv g s -> s item = Some (lo, hi) ->
  remove rnd resolution g item lo hi = Ok g' -> inv g' (apply_edit s (Del item)).
Proof.
  intros g s item lo hi g' (A & B & G & D) N H. unfold remove in H.
  destruct (cells rnd resolution lo hi) as [cs| |] eqn:C; try discriminate. cbn [bind] in H. injection H as <-.
  pose proof (cells_spec _ _ _ C) as CS.
  split; [|split; [|split]]; cbn [g_cells g_visited g_guard]; auto.
  - intros c i. rewrite fold_erase, CS, A. cbn [apply_edit]. destruct (Nat.eqb_spec i item) as [->|NE].
    + split; [|intros (b & Q & _); discriminate].
      intros [(b & Q & X) Y]. rewrite N in Q. injection Q as <-. exfalso. auto.
    + split; [tauto|]. intros Q. split; auto. intros [Z _]. auto.
  - intros i Q. cbn [apply_edit] in Q. destruct (Nat.eqb_spec i item) as [EQ|NE]; [congruence|apply B; exact Q].
Qed.

(** ** Queries *)

Section Query.
Variables (fn : list nat -> nat -> bool) (guard : Z).

Local Notation answers := (answers fn).
Local Notation answered := (answered fn).

(** [out] holds exactly the stamped items. *)
Definition stamped (v : list Z) (out : list nat) : Prop :=
  NoDup out /\ (forall i, nth_error v i = Some guard <-> In i out) /\ (forall x, In x v -> (x <= guard)%Z).

Lemma set_visited_length : forall v i x, i < length v -> length (set_visited v i x) = length v.
Proof.
  intros v i x H. unfold set_visited. rewrite app_length. cbn [length]. rewrite firstn_length, skipn_length. lia.
Qed.

Lemma set_visited_nth : forall v i x j, i < length v ->
  nth_error (set_visited v i x) j = if Nat.eqb j i then Some x else nth_error v j.
Proof.
  induction v as [|a v IH]; intros i x j H; [cbn in H; lia|]. destruct i as [|i]; destruct j as [|j]; auto.
  - cbn in H. unfold set_visited in *. cbn. apply IH. lia.
Qed.

Lemma set_visited_In : forall v i x y, In y (set_visited v i x) -> In y v \/ y = x.
Proof.
  intros v i x y H. unfold set_visited in H. apply in_app_iff in H. destruct H as [H|[H|H]]; auto.
  - left. rewrite <- (firstn_skipn i v). apply in_app_iff. auto.
  - left. rewrite <- (firstn_skipn (S i) v). apply in_app_iff. auto.
Qed.

Lemma visit_items_spec : forall items v out, stamped v out -> answers out -> (forall i, In i items -> i < length v) ->
  exists v' out' stop, visit_items fn guard items v out = Ok (v', out', stop) /\ length v' = length v /\
    stamped v' out' /\ answered out' stop /\ incl out out' /\
    (forall i, In i out' -> In i out \/ In i items) /\
    (stop = false -> forall i, In i items -> In i out').
Proof.
  induction items as [|a items IH]; intros v out ST AN B; cbn [visit_items].
  - exists v, out, false. split; [auto|]. split; [auto|]. split; [auto|]. split; [exact AN|]. split; [apply incl_refl|].
    split; [auto|]. intros _ i [].
  - assert (a < length v) as La by (apply B; left; auto).
    destruct (nth_error v a) as [s|] eqn:N; [|apply nth_error_None in N; lia].
    destruct (Z.eqb_spec s guard) as [->|NE].
    + destruct (IH v out ST AN) as (v' & out' & stop & E & L & S' & A' & I' & F & T).
      { intros i I. apply B. right; auto. }
      exists v', out', stop. split; [auto|]. split; [auto|]. split; [auto|]. split; [auto|]. split; [auto|]. split.
      * intros i I. destruct (F i I); auto. right. right. auto.
      * intros Q i [<-|I]; auto. apply I'. apply ST. auto.
    + destruct ST as (ND & SG & LE).
      assert (~ In a out) as NI by (rewrite <- SG; congruence).
      assert (stamped (set_visited v a guard) (a :: out)) as ST'.
      { split; [constructor; auto|]. split.
        - intros i. rewrite set_visited_nth by auto. destruct (Nat.eqb_spec i a) as [->|NE'].
          + cbn. tauto.
          + rewrite SG. cbn. intuition congruence.
        - intros x X. apply set_visited_In in X. destruct X as [X| ->]; [auto|lia]. }
      destruct (fn out a) eqn:FN.
      * destruct (IH (set_visited v a guard) (a :: out) ST') as (v' & out' & stop & E & L & S' & A' & I' & F & T).
        { split; auto. }
        { intros i I. rewrite set_visited_length by auto. apply B. right; auto. }
        exists v', out', stop. split; [auto|]. split; [rewrite L; apply set_visited_length; auto|]. split; [auto|].
        split; [auto|]. split; [intros x X; apply I'; right; auto|]. split.
        -- intros i I. destruct (F i I) as [[<-|Q]|Q]; auto; right; [left|right]; auto.
        -- intros Q i [<-|I]; auto. apply I'. left; auto.
      * exists (set_visited v a guard), (a :: out), true. split; [auto|]. split; [apply set_visited_length; auto|].
        split; [auto|]. split; [split; auto|]. split; [intros x X; right; auto|]. split; [|discriminate].
        intros i [<-|I]; auto. right. left. auto.
Qed.

Lemma visit_cells_spec : forall m cs v out, stamped v out -> answers out ->
  (forall c i, In i (m c) -> i < length v) ->
  exists v' out' stop, visit_cells fn guard m cs v out = Ok (v', out', stop) /\ length v' = length v /\
    stamped v' out' /\ answered out' stop /\ incl out out' /\
    (forall i, In i out' -> In i out \/ exists c, In c cs /\ In i (m c)) /\
    (stop = false -> forall c i, In c cs -> In i (m c) -> In i out').
Proof.
  intros m. induction cs as [|c cs IH]; intros v out ST AN B; cbn [visit_cells].
  - exists v, out, false. split; [auto|]. split; [auto|]. split; [auto|]. split; [exact AN|]. split; [apply incl_refl|].
    split; [auto|]. intros _ c i [].
  - destruct (visit_items_spec (m c) v out ST AN (B c)) as (v1 & out1 & stop1 & -> & L1 & S1 & A1 & I1 & F1 & T1).
    cbn [bind]. destruct stop1.
    + exists v1, out1, true. split; [auto|]. split; [auto|]. split; [auto|]. split; [auto|]. split; [auto|]. split; [|discriminate].
      intros i I. destruct (F1 i I); auto. right. exists c. split; [left; auto|auto].
    + destruct (IH v1 out1 S1 A1) as (v2 & out2 & stop2 & -> & L2 & S2 & A2 & I2 & F2 & T2).
      { intros d i I. rewrite L1. eapply B; eauto. }
      exists v2, out2, stop2. split; [auto|]. split; [congruence|]. split; [auto|]. split; [auto|].
      split; [intros x X; apply I2, I1; auto|]. split.
      * intros i I. destruct (F2 i I) as [Q|(d & D & Q)].
        -- destruct (F1 i Q); auto. right. exists c. split; [left; auto|auto].
        -- right. exists d. split; [right; auto|auto].
      * intros Q d i [<-|D] X; [apply I2, T1; auto|]. eapply T2; eauto.
Qed.
End Query.

Lemma for_each_spec : forall g s lo hi fn cs, inv g s -> cells rnd resolution lo hi = Ok cs ->
  exists g' out stop, for_each rnd resolution g lo hi fn = Ok (g', out, stop) /\ inv g' s /\
    NoDup out /\ answered fn out stop /\
    (forall i, In i out -> exists b c, s i = Some b /\ in_cells b c /\ in_cells (lo, hi) c) /\
    (stop = false -> forall i b c, s i = Some b -> in_cells b c -> in_cells (lo, hi) c -> In i out).
Proof.
  intros g s lo hi fn cs (A & B & G & D) C. pose proof (cells_spec _ _ _ C) as CS. unfold for_each.
  set (p := if Z.eqb (g_guard g) int_max then (repeat 0%Z (length (g_visited g)), 0%Z) else (g_visited g, g_guard g)).
  assert (exists v gd, p = (v, gd) /\ length v = length (g_visited g) /\ (0 <= gd < int_max)%Z /\
          forall x, In x v -> (x <= gd)%Z) as (v & gd & -> & Lv & Gd & Dv).
  { unfold p. destruct (Z.eqb_spec (g_guard g) int_max).
    - eexists _, _. split; [reflexivity|]. rewrite repeat_length. split; auto. split; [unfold int_max; lia|].
      intros x X. apply repeat_spec in X. lia.
    - eexists _, _. split; [reflexivity|]. split; auto. split; [lia|auto]. }
  rewrite C. cbn [bind].
  destruct (visit_cells_spec fn (gd + 1) (g_cells g) cs v []) as (v' & out & stop & -> & L & (ND & SG & LE) & AN & _ & F & T).
  - split; [constructor|]. split; [|intros x X; specialize (Dv x X); lia].
    intros i. split; [|intros []]. intros Q. apply nth_error_In in Q. specialize (Dv _ Q). lia.
  - exact I.
  - intros c i I. rewrite Lv. apply A in I. destruct I as (b & Q & _). apply B. congruence.
  - cbn [bind]. eexists _, out, stop. split; [reflexivity|]. split; [|split; [auto|split; [auto|split]]].
    + split; [exact A|]. cbn [g_visited g_guard]. split; [intros i I; rewrite L, Lv; auto|]. split; [lia|auto].
    + intros i I. destruct (F i I) as [[]|(c & Q & X)]. apply A in X. destruct X as (b & X & Y). exists b, c.
      rewrite <- CS. auto.
    + intros Q i b c X Y Z. apply (T Q c i); [apply CS; auto|]. apply A. eauto.
Qed.

(** ** Histories *)

Lemma run_spec : forall os g s, inv g s -> same_boxes s os -> Forall op_representable os ->
  exists g', run rnd resolution g os = Ok g' /\ inv g' (fold_left apply_edit (flat_map edits_of os) s).
Proof.
  induction os as [|o os IH]; intros g s I D R; cbn [run].
  - exists g. auto.
  - destruct D as [D0 D]. inversion R as [|? ? R0 R']; subst. cbn [flat_map]. rewrite fold_left_app.
    assert (exists g1, step rnd resolution g o = Ok g1 /\ inv g1 (fold_left apply_edit (edits_of o) s)) as (g1 & -> & I1).
    { destruct o as [i lo hi|i lo hi|n|lo hi fn]; cbn in D0, R0; unfold op_representable in R0; cbn in R0; cbn [step edits_of fold_left].
      - destruct R0 as [R1 R2]. destruct (cells_total lo hi R1 R2) as (cs & C).
        assert (exists g1, insert rnd resolution g i lo hi = Ok g1) as (g1 & E) by (unfold insert; rewrite C; eexists; reflexivity).
        exists g1. split; auto. eapply inv_insert; eauto.
      - destruct R0 as [R1 R2]. destruct (cells_total lo hi R1 R2) as (cs & C).
        assert (exists g1, remove rnd resolution g i lo hi = Ok g1) as (g1 & E) by (unfold remove; rewrite C; eexists; reflexivity).
        exists g1. split; auto. eapply inv_remove; eauto.
      - eexists. split; auto. apply inv_reserve. auto.
      - destruct R0 as [R1 R2]. destruct (cells_total lo hi R1 R2) as (cs & C).
        destruct (for_each_spec g s lo hi fn cs I C) as (g' & out & stop & -> & I' & _). cbn. exists g'. auto. }
    cbn [bind]. apply IH; auto.
Qed.

Lemma grid_history : forall n os lo hi fn, same_boxes (fun _ => None) os -> Forall op_representable os ->
  representable_point lo -> representable_point hi ->
  let s := store (flat_map edits_of os) in
  exists g g' out stop, run rnd resolution (grid_new n) os = Ok g /\
    for_each rnd resolution g lo hi fn = Ok (g', out, stop) /\
    NoDup out /\ answered fn out stop /\ (forall i, In i out -> exists b, s i = Some b /\ cells_meet rnd resolution b (lo, hi)) /\
    (stop = false -> forall i b, s i = Some b -> overlap b (lo, hi) -> In i out).
Proof.
  intros n os lo hi fn D R R1 R2 s. destruct (run_spec os _ _ (inv_new n) D R) as (g & E & I).
  destruct (cells_total lo hi R1 R2) as (cs & C).
  destruct (for_each_spec g _ lo hi fn cs I C) as (g' & out & stop & F & _ & ND & AN & X & Y).
  exists g, g', out, stop. split; [auto|]. split; [auto|]. split; [auto|]. split; [auto|]. split.
  - intros i Q. destruct (X i Q) as (b & c & Z & Z1 & Z2). exists b. split; [exact Z|]. exists c. auto.
  - intros Q i b Z O. apply overlap_cells in O. destruct O as (c & O1 & O2). eapply Y; eauto.
Qed.

(** ** FaceGrid *)

Definition fg_inv (f : face_grid) (s : stored) : Prop :=
  inv (fg_grid f) s /\ (forall i b, s i = Some b -> nth_error (fg_box f) i = Some (Some b)) /\
  (forall i lo hi, s i = Some (lo, hi) -> representable_point lo /\ representable_point hi).

Lemma fg_inv_new : forall n, fg_inv (fg_new n) (fun _ => None).
Proof. intros n. split; [apply inv_new|]. split; discriminate. Qed.

Lemma nth_error_app_some : forall A (l k : list A) i x, nth_error l i = Some x -> nth_error (l ++ k) i = Some x.
Proof. intros. rewrite nth_error_app1; auto. apply nth_error_Some. congruence. Qed.

Lemma fg_inv_reserve : forall f s n, fg_inv f s -> fg_inv (fg_reserve f n) s /\ n <= length (fg_box (fg_reserve f n)).
Proof.
  intros f s n (I & B & R). split.
  - split; [apply inv_reserve; auto|]. split; [|auto]. intros i b Q. cbn. apply nth_error_app_some. auto.
  - cbn. rewrite app_length, repeat_length. lia.
Qed.

Lemma put_nth : forall A (l : list A) i x j, i < length l ->
  nth_error (firstn i l ++ x :: skipn (S i) l) j = if Nat.eqb j i then Some x else nth_error l j.
Proof.
  induction l as [|a l IH]; intros i x j H; [cbn in H; lia|]. destruct i as [|i]; destruct j as [|j]; auto.
  cbn in H. cbn. apply IH. lia.
Qed.

Lemma fg_run_spec : forall os f s, fg_inv f s -> disciplined s (flat_map fg_edits os) -> Forall fg_representable os ->
  exists f', fg_run rnd resolution f os = Ok f' /\ fg_inv f' (fold_left apply_edit (flat_map fg_edits os) s).
Proof.
  induction os as [|o os IH]; intros f s I D R; cbn [fg_run].
  - exists f. auto.
  - inversion R as [|? ? R0 R']; subst. cbn [flat_map]. rewrite fold_left_app.
    assert (exists f1, fg_step rnd resolution f o = Ok f1 /\ fg_inv f1 (fold_left apply_edit (fg_edits o) s) /\
            disciplined (fold_left apply_edit (fg_edits o) s) (flat_map fg_edits os)) as (f1 & -> & I1 & D1).
    { destruct o as [i lo hi|i|n|lo hi fn]; cbn [flat_map fg_edits app] in D; cbn in R0; cbn [fg_step fg_edits fold_left].
      - destruct D as [D0 D]. destruct R0 as [R1 R2]. destruct (cells_total lo hi R1 R2) as (cs & C).
        destruct (fg_inv_reserve f s (S i) I) as [(I1 & I2 & I3) L]. unfold fg_insert.
        assert (exists g1, insert rnd resolution (fg_grid (fg_reserve f (S i))) i lo hi = Ok g1) as (g1 & E) by (unfold insert; rewrite C; eexists; reflexivity).
        rewrite E. cbn [bind]. destruct (nth_error (fg_box (fg_reserve f (S i))) i) eqn:N; [|apply nth_error_None in N; lia].
        eexists. split; [reflexivity|]. split; [|auto]. split; [eapply inv_insert; eauto|]. split.
        + intros j b Q. cbn [fg_box]. rewrite put_nth by lia. cbn [apply_edit] in Q.
          destruct (Nat.eqb_spec j i); [injection Q as <-; reflexivity|apply I2; exact Q].
        + intros j lo' hi' Q. cbn [apply_edit] in Q. destruct (Nat.eqb_spec j i); [injection Q as <- <-; auto|eauto].
      - destruct D as [D0 D]. destruct I as (I1 & I2 & I3). destruct (s i) as [[lo hi]|] eqn:Si; [|congruence].
        destruct (I3 i lo hi Si) as [R1 R2].
        unfold fg_remove. rewrite (I2 _ _ Si). destruct (cells_total lo hi R1 R2) as (cs & C).
        assert (exists g1, remove rnd resolution (fg_grid f) i lo hi = Ok g1) as (g1 & E) by (unfold remove; rewrite C; eexists; reflexivity).
        rewrite E. cbn [bind]. eexists. split; [reflexivity|]. split; [|auto]. split; [eapply inv_remove; eauto|].
        split; intros j; cbn [apply_edit fg_box]; destruct (Nat.eqb j i); try discriminate; auto. intros; eauto.
      - eexists. split; [reflexivity|]. split; [apply fg_inv_reserve; auto|auto].
      - destruct I as (I1 & I2 & I3). destruct R0 as [R1 R2]. destruct (cells_total lo hi R1 R2) as (cs & C).
        unfold fg_for_each.
        destruct (for_each_spec _ s lo hi fn cs I1 C) as (g' & out & stop & -> & I' & _). cbn. eexists. split; [reflexivity|].
        split; [split; auto|auto]. }
    cbn [bind]. apply IH; auto.
Qed.

Lemma fg_history : forall n os lo hi fn, disciplined (fun _ => None) (flat_map fg_edits os) -> Forall fg_representable os ->
  representable_point lo -> representable_point hi ->
  let s := store (flat_map fg_edits os) in
  exists f f' out stop, fg_run rnd resolution (fg_new n) os = Ok f /\
    fg_for_each rnd resolution f lo hi fn = Ok (f', out, stop) /\
    NoDup out /\ answered fn out stop /\ (forall i, In i out -> exists b, s i = Some b /\ cells_meet rnd resolution b (lo, hi)) /\
    (stop = false -> forall i b, s i = Some b -> overlap b (lo, hi) -> In i out).
Proof.
  intros n os lo hi fn D R R1 R2 s. destruct (fg_run_spec os _ _ (fg_inv_new n) D R) as (f & E & I & _).
  destruct (cells_total lo hi R1 R2) as (cs & C).
  destruct (for_each_spec _ _ lo hi fn cs I C) as (g' & out & stop & F & _ & ND & AN & X & Y).
  exists f. eexists. exists out, stop. split; [auto|]. split; [unfold fg_for_each; rewrite F; reflexivity|]. split; [auto|]. split; [auto|]. split.
  - intros i Q. destruct (X i Q) as (b & c & Z & Z1 & Z2). exists b. split; [exact Z|]. exists c. auto.
  - intros Q i b Z O. apply overlap_cells in O. destruct O as (c & O1 & O2). eapply Y; eauto.
Qed.

Lemma fg_any_of : forall n os lo hi hits, disciplined (fun _ => None) (flat_map fg_edits os) -> Forall fg_representable os ->
  representable_point lo -> representable_point hi ->
  let s := store (flat_map fg_edits os) in
  exists f f' b, fg_run rnd resolution (fg_new n) os = Ok f /\ any_of rnd resolution f lo hi hits = Ok (f', b) /\
    (b = true -> exists i, s i <> None /\ hits i = true) /\
    (b = false -> forall i bx, s i = Some bx -> overlap bx (lo, hi) -> hits i = false).
Proof.
  intros n os lo hi hits D R R1 R2 s.
  destruct (fg_history n os lo hi (fun _ fi => negb (hits fi)) D R R1 R2) as (f & f' & out & stop & E & F & ND & AN & X & Y).
  exists f, f', stop. split; [auto|]. split; [unfold any_of; rewrite F; auto|]. split.
  - intros ->. destruct out as [|i out]; [destruct AN|]. destruct AN as [A _]. exists i. split; [destruct (X i (or_introl eq_refl)) as (b & Z & _); unfold s; congruence|].
    apply negb_false_iff. auto.
  - intros -> i bx Q O. specialize (Y eq_refl i bx Q O). cbn in AN. clear - AN Y.
    induction out as [|j out IH]; [destruct Y|]. destruct AN as [A AN]. destruct Y as [->|Y]; [apply negb_true_iff; auto|auto].
Qed.

End Grid.
