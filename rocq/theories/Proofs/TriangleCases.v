From Coq Require Import Reals List Arith Bool Lia Lra Psatz.
From Verif Require Import Proofs.LatticeTets Proofs.Clip.
From Verif Require Import Model.Outcome Model.Clip Model.PointTriangle Model.Predicates Spec.PointTriangle Spec.Predicates
  Proofs.PointTriangle Proofs.Predicates Proofs.TriangleIntersect.
Import ListNotations.
Local Open Scope R_scope.

Lemma same_corners_in : forall s t i j, In (i, j) (same_corners s t) <-> (i < 3)%nat /\ (j < 3)%nat /\ corner s i = corner t j.
Proof.
  intros s t i j. unfold same_corners. rewrite filter_In, pt_eqb_true. split.
  - intros [I E]. cbn in I. repeat (destruct I as [I|I]; [injection I as <- <-; repeat split; auto; lia|]). contradiction.
  - intros [Hi [Hj E]]. split; [|exact E]. destruct i as [|[|[|i]]]; [| | |lia]; (destruct j as [|[|[|j]]]; [| | |lia]); cbn; tauto.
Qed.
Lemma same_corners_nodup : forall s t, NoDup (same_corners s t).
Proof.
  intros. apply NoDup_filter. repeat (apply NoDup_cons; [cbn; intuition discriminate|]). constructor.
Qed.
Lemma corner_inj : forall t i j, distinct_corners t -> (i < 3)%nat -> (j < 3)%nat -> corner t i = corner t j -> i = j.
Proof.
  intros [[a b] c] i j [D1 [D2 D3]] Hi Hj E. destruct i as [|[|[|i]]]; [| | |lia]; (destruct j as [|[|[|j]]]; [| | |lia]); cbn in E; congruence.
Qed.
Lemma corner_in : forall t i, In (corner t i) (corners t).
Proof. intros [[a b] c] [|[|i]]; cbn; auto. Qed.
Lemma in_rotate : forall a b c x, in_triangle a b c x -> in_triangle b c a x.
Proof. intros a b c x [u [v [w [U [V [W [E [X [Y Z]]]]]]]]]. exists v, w, u. repeat split; lra. Qed.
Lemma in_swap : forall a b c x, in_triangle a b c x -> in_triangle b a c x.
Proof. intros a b c x [u [v [w [U [V [W [E [X [Y Z]]]]]]]]]. exists v, u, w. repeat split; lra. Qed.
Lemma inside_from : forall t i x, (i < 3)%nat -> inside t x <-> in_triangle (corner t i) (corner t ((i + 1) mod 3)) (corner t ((i + 2) mod 3)) x.
Proof.
  intros [[a b] c] i x Hi. destruct i as [|[|[|i]]]; [| | |lia]; cbn; split; auto using in_rotate.
Qed.
Lemma inside_apex : forall t i i' x, (i < 3)%nat -> (i' < 3)%nat -> i <> i' -> inside t x -> in_triangle (corner t i) (corner t i') (corner t (3 - i - i')) x.
Proof.
  intros [[a b] c] i i' x Hi Hi' N T. cbn in T.
  destruct i as [|[|[|i]]]; [| | |lia]; (destruct i' as [|[|[|i']]]; [| | |lia]); try congruence; cbn; auto using in_rotate, in_swap.
Qed.

Section Pair.
Variables s t : triangle.
Hypothesis Ds : distinct_corners s.
Hypothesis Dt : distinct_corners t.
Lemma pairs_fst : NoDup (map fst (same_corners s t)).
Proof.
  apply NoDup_map_in; [|apply same_corners_nodup]. intros [i j] [i' j'] I I' E. cbn in E. subst i'.
  apply same_corners_in in I, I'. destruct I as [Hi [Hj E]]. destruct I' as [_ [Hj' E']]. f_equal. apply (corner_inj t); auto. congruence.
Qed.
Lemma pairs_snd : NoDup (map snd (same_corners s t)).
Proof.
  apply NoDup_map_in; [|apply same_corners_nodup]. intros [i j] [i' j'] I I' E. cbn in E. subst j'.
  apply same_corners_in in I, I'. destruct I as [Hi [Hj E]]. destruct I' as [Hi' [_ E']]. f_equal. apply (corner_inj s); auto. congruence.
Qed.
Lemma pairs_few : (length (same_corners s t) <= 3)%nat.
Proof.
  rewrite <- (map_length fst). apply (NoDup_incl_length (l' := seq 0 3) pairs_fst).
  intros i I. apply in_map_iff in I. destruct I as [[i' j] [<- I]]. apply same_corners_in in I. apply in_seq. cbn. lia.
Qed.
Lemma apex_ok : forall r i i', (i < 3)%nat -> (i' < 3)%nat -> i <> i' -> apex r i i' = Ok (corner r (3 - i - i')).
Proof.
  intros r i i' Hi Hi' N. unfold apex. destruct (_ || _) eqn:E; [exfalso|reflexivity].
  apply orb_true_iff in E. destruct E as [E|E]; [apply Nat.eqb_eq in E|apply Nat.ltb_lt in E]; lia.
Qed.
Lemma no_throw : exists v, triangles_intersect s t = Ok v.
Proof.
  pose proof pairs_few as L. pose proof pairs_fst as N1. pose proof pairs_snd as N2. pose proof (same_corners_in s t) as I. unfold triangles_intersect.
  destruct s as [[a0 a1] a2] eqn:Es. destruct t as [[b0 b1] b2] eqn:Et. rewrite <- Es, <- Et in *.
  destruct (same_corners s t) as [|[i j] [|[i' j'] [|z [|z' l]]]]; cbn in L; [eauto|eauto| |eauto|lia].
  destruct (proj1 (I i j) (or_introl eq_refl)) as [Hi [Hj _]]. destruct (proj1 (I i' j') (or_intror (or_introl eq_refl))) as [Hi' [Hj' _]].
  cbn in N1, N2. assert (Ni : i <> i') by (intros ->; inversion N1; subst; cbn in *; tauto). assert (Nj : j <> j') by (intros ->; inversion N2; subst; cbn in *; tauto).
  rewrite apex_ok, apex_ok by assumption.
  cbn [bind]. eauto.
Qed.

Variable x : pt.
Hypothesis Is : inside s x.
Hypothesis It : inside t x.
Hypothesis Nx : ~ in_shared s t x.
Lemma intersect_complete : triangles_intersect s t = Ok true.
Proof.
  pose proof pairs_few as L. pose proof pairs_fst as N1. pose proof pairs_snd as N2. pose proof (same_corners_in s t) as I. unfold triangles_intersect.
  destruct s as [[a0 a1] a2] eqn:Es. destruct t as [[b0 b1] b2] eqn:Et.
  rewrite <- Es, <- Et in *.
  destruct (same_corners s t) as [|[i j] [|[i' j'] [|z [|z' l]]]] eqn:EL; cbn in L.
  - rewrite (triangle_triangle_complete a0 a1 a2 b0 b1 b2 x); [reflexivity|rewrite Es in Is; exact Is|rewrite Et in It; exact It].
  - destruct (proj1 (I i j) (or_introl eq_refl)) as [Hi [Hj E]]. f_equal.
    assert (X1 := proj1 (inside_from s i x Hi) Is). assert (X2 := proj1 (inside_from t j x Hj) It). rewrite <- E in X2.
    destruct (one_shared _ _ _ _ _ _ X1 X2) as [y [[Y1 Y2]|[Y1 Y2]]].
    { intros Ex. apply Nx. exists x, x, x. split; [|exists 1, 0, 0; repeat split; lra]. intros y Hy. cbn in Hy.
      assert (y = x) by intuition congruence. subst y. rewrite Ex. split; [apply corner_in|rewrite E; apply corner_in]. }
    + rewrite (segment_triangle_complete _ _ b0 b1 b2 y Y1); [reflexivity|]. rewrite E in Y2. apply (proj2 (inside_from t j y Hj)) in Y2. rewrite Et in Y2. exact Y2.
    + rewrite (segment_triangle_complete _ _ a0 a1 a2 y Y1); [apply orb_true_r|]. apply (proj2 (inside_from s i y Hi)) in Y2. rewrite Es in Y2. exact Y2.
  - destruct (proj1 (I i j) (or_introl eq_refl)) as [Hi [Hj E]]. destruct (proj1 (I i' j') (or_intror (or_introl eq_refl))) as [Hi' [Hj' E']].
    cbn in N1, N2. assert (Ni : i <> i') by (intros ->; inversion N1; subst; cbn in *; tauto). assert (Nj : j <> j') by (intros ->; inversion N2; subst; cbn in *; tauto).
    rewrite apex_ok, apex_ok by assumption. cbn [bind]. f_equal. apply (two_shared _ _ _ _ x).
    + apply inside_apex; assumption.
    + rewrite E, E'. apply inside_apex; assumption.
    + intros G. apply Nx. exists (corner s i), (corner s i'), (corner s i'). split; [|exact G]. intros y Hy. cbn in Hy.
      destruct Hy as [<-|[<-|[<-|[]]]]; (split; [apply corner_in|]); rewrite ?E, ?E'; apply corner_in.
  - exfalso. apply Nx. exists a0, a1, a2. split; [|rewrite Es in Is; exact Is].
    assert (A : forall k, (k < 3)%nat -> In (corner s k) (corners t)).
    { intros k Hk. assert (J : In k (map fst [(i, j); (i', j'); z])).
      { apply (NoDup_length_incl N1 (l' := seq 0 3)); [cbn; lia| |apply in_seq; lia].
        intros m Hm. apply in_map_iff in Hm. destruct Hm as [[m' o] [<- Hm]]. apply I in Hm. apply in_seq. cbn. lia. }
      apply in_map_iff in J. destruct J as [[k' o] [<- J]]. apply I in J. destruct J as [_ [_ J]]. cbn [fst]. rewrite J. apply corner_in. }
    pose proof (A 0%nat) as A0. pose proof (A 1%nat) as A1. pose proof (A 2%nat) as A2. rewrite Es in A0, A1, A2 |- *. cbn [corner corners] in *.
    intros y Hy. split; [exact Hy|]. cbn in Hy. destruct Hy as [<-|[<-|[<-|[]]]]; [apply A0|apply A1|apply A2]; lia.
  - lia.
Qed.
End Pair.

(** Away from the tolerance the answer is also right when it is yes. *)
Definition clear (tiny : R) (d : R) : Prop := tiny < Rabs d.
Lemma clear_cases : forall tiny d, 0 <= tiny -> clear tiny d -> d < - tiny \/ tiny < d.
Proof. intros tiny d T C. unfold clear, Rabs in C. destruct (Rcase_abs d); lra. Qed.
Lemma segment_sound : forall a b p q r,
  let scale := norm (extent a [b; p; q; r]) in let tiny := kTinyFactor * scale * scale * scale in
  segment_triangle_with a b p q r (orient3d a p q r) (orient3d b p q r) = true ->
  clear tiny (orient3d a p q r) -> clear tiny (orient3d b p q r) ->
  clear tiny (orient3d a b p q) -> clear tiny (orient3d a b q r) -> clear tiny (orient3d a b r p) ->
  exists x, in_segment a b x /\ in_triangle p q r x.
Proof.
  intros a b p q r scale tiny F CA CB C1 C2 C3. unfold segment_triangle_with in F. fold scale in F. fold tiny in F.
  assert (Tn : 0 <= tiny) by (apply tiny3_nonneg, norm_nonneg). clearbody tiny.
  set (A := orient3d a p q r) in *. set (B := orient3d b p q r) in *. set (D1 := orient3d a b p q) in *. set (D2 := orient3d a b q r) in *. set (D3 := orient3d a b r p) in *.
  destruct (_ || _) eqn:G in F; [discriminate|]. destruct (negb _) in F; [discriminate|].
  assert (E : D1 + D2 + D3 = A - B) by (unfold D1, D2, D3, A, B, orient3d, det3, sub3, px, py, pz; cbn [fst snd]; ring).
  assert (EC : forall i, D2 * coord p i + D3 * coord q i + D1 * coord r i = A * coord b i - B * coord a i).
  { intros i. unfold D1, D2, D3, A, B, orient3d, det3, sub3. destruct i as [|[|i]]; unfold coord, px, py, pz; cbn [fst snd]; ring. }
  clearbody A B D1 D2 D3.
  apply clear_cases in CA; [|exact Tn]. apply clear_cases in CB; [|exact Tn]. apply clear_cases in C1; [|exact Tn]. apply clear_cases in C2; [|exact Tn]. apply clear_cases in C3; [|exact Tn].
  assert (SD : (A < 0 /\ 0 < B) \/ (0 < A /\ B < 0)).
  { apply orb_false_iff in G. rewrite !andb_false_iff in G. destruct G as [G1 G2].
    destruct G1 as [G1|G1]; apply ltb_false in G1; destruct G2 as [G2|G2]; apply ltb_false in G2; lra. }
  assert (SS : (0 < D1 /\ 0 < D2 /\ 0 < D3) \/ (D1 < 0 /\ D2 < 0 /\ D3 < 0)).
  { unfold one_side in F. apply orb_true_iff in F. rewrite !andb_true_iff in F.
    destruct F as [[[F1 F2] F3]|[[F1 F2] F3]]; apply leb_true in F1, F2, F3; [right|left]; lra. }
  clear G F CA CB C1 C2 C3.
  assert (N : A - B <> 0) by lra.
  assert (pos : forall y, (0 <= y /\ 0 < A - B) \/ (y <= 0 /\ A - B < 0) -> 0 <= y / (A - B)).
  { intros y [[Y1 Y2]|[Y1 Y2]].
    - apply Rmult_le_pos; [exact Y1|left; apply Rinv_0_lt_compat; exact Y2].
    - replace (y / (A - B)) with (- y / (B - A)) by (field; lra). apply Rmult_le_pos; [lra|left; apply Rinv_0_lt_compat; lra]. }
  exists (mk (fun i => D2 / (A - B) * coord p i + D3 / (A - B) * coord q i + D1 / (A - B) * coord r i)).
  assert (Y : forall i, coord (mk (fun i => D2 / (A - B) * coord p i + D3 / (A - B) * coord q i + D1 / (A - B) * coord r i)) i =
    D2 / (A - B) * coord p i + D3 / (A - B) * coord q i + D1 / (A - B) * coord r i) by (intros [|[|i]]; reflexivity).
  split.
  - apply (in_coord _ _ _ _ (- B / (A - B)) (A / (A - B)) 0); [apply pos; lra|apply pos; lra|lra|field; exact N|].
    intros i. rewrite Y. replace (D2 / (A - B) * coord p i + D3 / (A - B) * coord q i + D1 / (A - B) * coord r i) with ((D2 * coord p i + D3 * coord q i + D1 * coord r i) / (A - B)) by (field; exact N).
    rewrite EC. field. exact N.
  - apply (in_coord _ _ _ _ (D2 / (A - B)) (D3 / (A - B)) (D1 / (A - B))); [apply pos; lra|apply pos; lra|apply pos; lra| |exact Y].
    replace (D2 / (A - B) + D3 / (A - B) + D1 / (A - B)) with ((D1 + D2 + D3) / (A - B)) by (field; exact N). rewrite E. field. exact N.
Qed.

(** The in-circle determinant against the circle itself. *)
Lemma incircle_spec : forall a b c d o rr,
  (fst a - fst o) ^ 2 + (snd a - snd o) ^ 2 = rr -> (fst b - fst o) ^ 2 + (snd b - snd o) ^ 2 = rr -> (fst c - fst o) ^ 2 + (snd c - snd o) ^ 2 = rr ->
  incircle a b c d = orient2d a b c * (rr - ((fst d - fst o) ^ 2 + (snd d - snd o) ^ 2)).
Proof.
  intros [a0 a1] [b0 b1] [c0 c1] [d0 d1] [o0 o1] rr Ha Hb Hc. cbn [fst snd] in *.
  set (k := rr - ((d0 - o0) ^ 2 + (d1 - o1) ^ 2)).
  assert (L : forall x y, (x - o0) ^ 2 + (y - o1) ^ 2 = rr -> (x - d0) * (x - d0) + (y - d1) * (y - d1) = k + 2 * (o0 - d0) * (x - d0) + 2 * (o1 - d1) * (y - d1)).
  { intros x y E. unfold k. rewrite <- E. ring. }
  unfold incircle, lifted, det3, orient2d. cbn [fst snd px py pz]. unfold px, py, pz. cbn [fst snd].
  rewrite (L a0 a1 Ha), (L b0 b1 Hb), (L c0 c1 Hc). ring.
Qed.

Lemma segment_exact : forall a b p q r, decisive a b p q r ->
  segment_triangle_with a b p q r (orient3d a p q r) (orient3d b p q r) = true -> exists x, in_segment a b x /\ in_triangle p q r x.
Proof.
  intros a b p q r D F. inversion D as [|? ? A1 D1]. inversion D1 as [|? ? A2 D2]. inversion D2 as [|? ? A3 D3]. inversion D3 as [|? ? A4 D4]. inversion D4 as [|? ? A5 D5]. subst.
  apply (segment_sound a b p q r F); assumption.
Qed.
Lemma segment_triangle_exact : forall a b p q r, decisive a b p q r ->
  (segment_triangle a b p q r = true <-> exists x, in_segment a b x /\ in_triangle p q r x).
Proof.
  intros a b p q r D. split; [|intros [x [X Y]]; apply (segment_triangle_complete a b p q r x X Y)].
  unfold segment_triangle. destruct (_ || _); [discriminate|]. apply segment_exact, D.
Qed.
Lemma segment_part : forall a b c x, in_segment a b x -> in_triangle a b c x.
Proof. intros a b c x [u [v [w [U [V [W [E [X [Y Z]]]]]]]]]. exists u, (v + w), 0. repeat split; lra. Qed.
Lemma triangle_triangle_exact : forall a b c p q r,
  decisive a b p q r -> decisive b c p q r -> decisive c a p q r -> decisive p q a b c -> decisive q r a b c -> decisive r p a b c ->
  (triangle_triangle a b c p q r = true <-> exists x, in_triangle a b c x /\ in_triangle p q r x).
Proof.
  intros a b c p q r D1 D2 D3 D4 D5 D6. split; [|intros [x [X Y]]; apply (triangle_triangle_complete a b c p q r x X Y)].
  unfold triangle_triangle. destruct (any_less _ _ || _); [discriminate|]. rewrite !orb_true_iff.
  intros [[[[[F|F]|F]|F]|F]|F]; [apply segment_exact in F; [|exact D1]|apply segment_exact in F; [|exact D2]|apply segment_exact in F; [|exact D3]
    |apply segment_exact in F; [|exact D4]|apply segment_exact in F; [|exact D5]|apply segment_exact in F; [|exact D6]]; destruct F as [x [X Y]]; exists x; (split; [|try assumption]);
    try assumption; auto using segment_part, in_rotate.
Qed.
