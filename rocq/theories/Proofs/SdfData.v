From Coq Require Import Reals List Arith ZArith Bool Lia Lra Psatz.
From Verif Require Import Model.Outcome Model.LinAlg Model.NormalEstimator Model.SdfData Spec.SdfData Proofs.LinAlg.
Import ListNotations.
Local Open Scope R_scope.

Lemma dot3 : forall v w, dot 3 v w = v 0%nat * w 0%nat + v 1%nat * w 1%nat + v 2%nat * w 2%nat.
Proof. intros. unfold dot. cbn. ring. Qed.
Lemma dot3_pos : forall v, 0 <= dot 3 v v.
Proof. intros. rewrite dot3. nra. Qed.
Lemma norm3_sq : forall v, norm3 v * norm3 v = dot 3 v v.
Proof. intros. apply sqrt_sqrt, dot3_pos. Qed.
Lemma norm3_nonneg : forall v, 0 <= norm3 v.
Proof. intros. apply sqrt_pos. Qed.
Lemma norm3_le : forall v w, norm3 v <= norm3 w <-> dot 3 v v <= dot 3 w w.
Proof.
  intros v w. split; intros L.
  - rewrite <- !norm3_sq. pose proof (norm3_nonneg v). pose proof (norm3_nonneg w). nra.
  - apply sqrt_le_1; auto using dot3_pos.
Qed.
Lemma cauchy3 : forall v w, dot 3 v w * dot 3 v w <= dot 3 v v * dot 3 w w.
Proof.
  intros v w. rewrite !dot3. set (a := v 0%nat). set (b := v 1%nat). set (c := v 2%nat). set (x := w 0%nat). set (y := w 1%nat). set (z := w 2%nat).
  pose proof (Rle_0_sqr (a * y - b * x)) as H1. pose proof (Rle_0_sqr (a * z - c * x)) as H2. pose proof (Rle_0_sqr (b * z - c * y)) as H3. unfold Rsqr in *. nra.
Qed.

Section G.
Variable n_points : nat.
Variable points normals : nat -> vec3.
Variable nearest : vec3 -> nat.
Hypothesis tree : nearest_row n_points points nearest.
Hypothesis apart : distinct n_points points.

Section Row.
Variable i : nat.
Hypothesis Hi : (i < n_points)%nat.
Hypothesis unit : norm3 (normals i) = 1.
Variable sign : R.
Hypothesis Hs : sign * sign = 1.
Definition gap (j : nat) : vec3 := sub3 (points j) (points i).
Definition ahead (j : nat) : R := sign * dot 3 (normals i) (gap j).
Definition beats (d : R) (j : nat) : bool := if Rle_dec (dot 3 (gap j) (gap j)) (2 * d * ahead j) then negb (Nat.eqb j i) else false.

Lemma unit_sq : dot 3 (normals i) (normals i) = 1.
Proof. rewrite <- norm3_sq, unit. ring. Qed.
Lemma own_distance : forall d, dot 3 (sub3 (along (points i) (normals i) sign d) (points i)) (sub3 (along (points i) (normals i) sign d) (points i)) = d * d.
Proof. intros d. pose proof unit_sq as U. rewrite dot3 in U |- *. unfold sub3, along. replace (d * d) with (sign * sign * (d * d) * 1) by (rewrite Hs; ring). rewrite <- U. ring. Qed.
Lemma other_distance : forall d j, dot 3 (sub3 (along (points i) (normals i) sign d) (points j)) (sub3 (along (points i) (normals i) sign d) (points j)) =
  d * d - 2 * d * ahead j + dot 3 (gap j) (gap j).
Proof.
  intros d j. pose proof unit_sq as U. unfold ahead. rewrite !dot3 in *. unfold sub3, along, gap, sub3.
  replace (d * d) with (sign * sign * (d * d) * 1) by (rewrite Hs; ring). rewrite <- U. ring.
Qed.
Lemma gap_pos : forall j, (j < n_points)%nat -> j <> i -> 0 < dot 3 (gap j) (gap j).
Proof.
  intros j J NE. specialize (apart j i J Hi NE). unfold dist3 in apart. fold (gap j) in apart. rewrite <- norm3_sq. nra.
Qed.
Lemma cosine : forall d j, 0 < d -> 0 < dot 3 (gap j) (gap j) -> dot 3 (normalized (sub3 (along (points i) (normals i) sign d) (points i))) (normalized (gap j)) = ahead j / norm3 (gap j).
Proof.
  intros d j D G. unfold normalized. rewrite own_distance. destruct (Rlt_dec 0 (d * d)); [|nra]. destruct (Rlt_dec 0 (dot 3 (gap j) (gap j))); [|lra].
  assert (norm3 (sub3 (along (points i) (normals i) sign d) (points i)) = d) as -> by (unfold norm3; rewrite own_distance; apply sqrt_square; lra).
  assert (0 < norm3 (gap j)) by (apply sqrt_lt_R0; auto). unfold ahead. rewrite !dot3. unfold sub3, along. field. split; lra.
Qed.
Lemma beats_less : forall d d', 0 < d' -> d' <= d -> forall j, beats d' j = true -> beats d j = true.
Proof.
  intros d d' D L j. unfold beats. destruct (Rle_dec (dot 3 (gap j) (gap j)) (2 * d' * ahead j)) as [B|B]; [|discriminate]. intros ->.
  pose proof (dot3_pos (gap j)). assert (0 <= ahead j) by nra. destruct (Rle_dec (dot 3 (gap j) (gap j)) (2 * d * ahead j)) as [|N]; [auto|]. exfalso. apply N. nra.
Qed.
Lemma count_less : forall (f g : nat -> bool) l, (forall j, f j = true -> g j = true) -> (length (filter f l) <= length (filter g l))%nat.
Proof. intros f g l H. induction l as [|x l IH]; cbn; auto. specialize (H x). destruct (f x); [rewrite H; cbn; [lia|auto]|destruct (g x); cbn; lia]. Qed.
Lemma count_less_strict : forall (f g : nat -> bool) l x, (forall j, f j = true -> g j = true) -> In x l -> f x = false -> g x = true -> (length (filter f l) < length (filter g l))%nat.
Proof.
  intros f g l x H I F G. induction l as [|y l IH]; [destruct I|]. destruct I as [->|I]; cbn.
  - rewrite F, G. cbn. pose proof (count_less f g l H). lia.
  - specialize (IH I). pose proof (H y) as HY. destruct (f y); [rewrite HY; cbn; [lia|auto]|destruct (g y); cbn; lia].
Qed.
Definition rivals (d : R) : nat := length (filter (beats d) (seq 0 n_points)).

Lemma shrink_spec : forall fuel d, 0 < d -> (rivals d <= fuel)%nat -> exists d', shrink points normals nearest fuel i sign d = Value d' /\ 0 < d' <= d /\ nearest (along (points i) (normals i) sign d') = i /\
  (d' = d \/ exists j, (j < n_points)%nat /\ j <> i /\ 495 / 1000 * dist3 (points j) (points i) <= d').
Proof.
  induction fuel as [|fuel IH]; intros d D F; cbn [shrink]; set (q := along (points i) (normals i) sign d); destruct (Nat.eqb_spec (nearest q) i) as [E|E].
  1, 3: exists d; split; [auto|]; split; [lra|]; split; auto.
  all: destruct (tree q) as [T1 T2]; specialize (T2 i Hi); unfold dist3 in T2; rewrite norm3_le in T2; unfold q in T2 at 1 2; rewrite other_distance in T2; unfold q in T2; rewrite own_distance in T2; fold q in T2.
  all: set (j := nearest q) in *; assert (beats d j = true) as B by (unfold beats; destruct (Rle_dec (dot 3 (gap j) (gap j)) (2 * d * ahead j)) as [|N]; [apply negb_true_iff, Nat.eqb_neq; auto|exfalso; apply N; lra]).
  - exfalso. unfold rivals in F. assert (In j (filter (beats d) (seq 0 n_points))) as I by (apply filter_In; split; auto; apply in_seq; lia). destruct (filter (beats d) (seq 0 n_points)); [destruct I|cbn in F; lia].
  - pose proof (gap_pos j T1 E) as G. cbv zeta. fold (gap j). pose proof (cosine d j D G) as CO. fold q in CO. rewrite CO. clear CO. assert (0 < norm3 (gap j)) as NP by (apply sqrt_lt_R0; auto).
    assert (0 < ahead j) as AP by nra. destruct (Req_EM_T (ahead j / norm3 (gap j)) 0) as [Z|_].
    { exfalso. assert (0 < ahead j / norm3 (gap j)) by (apply Rdiv_lt_0_compat; auto). lra. }
    set (d' := 99 / 100 * (norm3 (gap j) / 2) / (ahead j / norm3 (gap j))).
    assert (d' = 99 / 200 * (dot 3 (gap j) (gap j)) / ahead j) as DE. { unfold d'. rewrite <- norm3_sq. field. split; lra. }
    assert (2 * d' * ahead j = 99 / 100 * dot 3 (gap j) (gap j)) as DA by (rewrite DE; field; lra).
    assert (0 < d') as DP by (rewrite DE; apply Rdiv_lt_0_compat; lra).
    assert (d' <= d) as DL by nra.
    destruct (IH d' DP) as (d'' & S1 & S2 & S3 & S4).
    { enough (rivals d' < rivals d)%nat by lia. apply (count_less_strict (beats d') (beats d) _ j); auto; [apply beats_less; auto|apply in_seq; lia|].
      unfold beats. destruct (Rle_dec (dot 3 (gap j) (gap j)) (2 * d' * ahead j)); auto. lra. }
    exists d''. split; auto. split; [lra|]. split; auto. right. destruct S4 as [->|S4]; auto. exists j. split; auto. split; auto. unfold dist3. fold (gap j).
    rewrite DE. assert (ahead j <= norm3 (gap j)) as AL.
    { unfold ahead. pose proof (cauchy3 (normals i) (gap j)) as C. rewrite unit_sq in C. rewrite <- norm3_sq in C. set (x := dot 3 (normals i) (gap j)) in *. assert ((sign * x) * (sign * x) = x * x) by (replace ((sign * x) * (sign * x)) with (sign * sign * (x * x)) by ring; rewrite Hs; ring). nra. }
    rewrite <- norm3_sq. apply (Rmult_le_reg_r (ahead j)); auto. replace (99 / 200 * (norm3 (gap j) * norm3 (gap j)) / ahead j * ahead j) with (99 / 200 * (norm3 (gap j) * norm3 (gap j))) by (field; lra). nra.
Qed.
Lemma rivals_few : forall d, (rivals d < n_points)%nat.
Proof.
  intros d. unfold rivals. assert (length (filter (beats d) (seq 0 n_points)) < length (filter (fun _ => true) (seq 0 n_points)))%nat as L.
  { apply (count_less_strict _ _ _ i); auto; [apply in_seq; lia|]. unfold beats. rewrite Nat.eqb_refl. destruct (Rle_dec _ _); auto. }
  assert (forall l : list nat, length (filter (fun _ => true) l) = length l) as E by (induction l; cbn; auto). rewrite E, seq_length in L. auto.
Qed.
End Row.

Hypothesis units : unit_or_none n_points normals.
Variable knn : nat -> nat -> list R.
Variable offset : R.
Variable most : nat -> R.
Hypothesis starts : forall i, (i < n_points)%nat -> start n_points knn offset i = Ok (most i) /\ 0 < most i.
Variable fuel : nat.
Hypothesis enough : (n_points <= S fuel)%nat.
Lemma pass_spec : forall sign rows, sign * sign = 1 -> (forall i, In i rows -> (i < n_points)%nat) -> exists l, pass n_points points normals nearest knn offset fuel sign rows = Ok (Value l) /\
  Forall2 (offset_ok n_points points normals sign most) (filter (fun i => negb (is_zero (normals i))) rows) l.
Proof.
  intros sign rows Hs. induction rows as [|i rows IH]; intros R; cbn [pass filter]; [eauto|]. assert (i < n_points)%nat as Hi by (apply R; left; auto).
  destruct IH as (l & P & F); [intros; apply R; right; auto|]. destruct (is_zero (normals i)) eqn:Z; cbn [negb]; [eauto|]. destruct (starts i Hi) as [S0 S1]. rewrite S0. cbn [bind].
  assert (norm3 (normals i) = 1) as U by (destruct (units i Hi); [congruence|auto]).
  destruct (shrink_spec i Hi U sign Hs fuel (most i) S1) as (d & D1 & D2 & D3 & D4); [pose proof (rivals_few i Hi sign (most i)); lia|]. rewrite D1, P. cbn [bind].
  eexists. split; [reflexivity|]. constructor; auto. exists d. cbn [fst snd]. split; auto. split; auto. split.
  - unfold dist3, norm3. rewrite own_distance; auto. apply sqrt_square. lra.
  - split; [intros e; unfold along; auto|]. split; auto. intros j J. destruct (tree (along (points i) (normals i) sign d)) as [T1 T2]. rewrite D3 in T2. apply T2. auto.
Qed.
Theorem estimate_spec : exists data, estimate_impl n_points points normals nearest knn offset fuel = Ok (Value data) /\ data_ok n_points points normals most data.
Proof.
  unfold estimate_impl. destruct (pass_spec (-1) (seq 0 n_points)) as (l & P & F); [lra|intros i I; apply in_seq in I; lia|].
  destruct (pass_spec 1 (seq 0 n_points)) as (l' & P' & F'); [lra|intros i I; apply in_seq in I; lia|]. rewrite P, P'. cbn [bind].
  eexists. split; [reflexivity|]. exists l, l'. auto.
Qed.
End G.

Lemma start_given : forall n_points knn offset i, 0 < offset -> start n_points knn offset i = Ok offset.
Proof. intros. unfold start. destruct (Rle_dec offset 0); [lra|auto]. Qed.
Lemma fold_max_ge : forall l x, x <= fold_left Rmax l x /\ forall y, In y l -> y <= fold_left Rmax l x.
Proof.
  induction l as [|z l IH]; intros x; cbn; [split; [lra|intros y []]|]. destruct (IH (Rmax x z)) as [A B]. split; [pose proof (Rmax_l x z); lra|]. intros y [<-|Y]; [pose proof (Rmax_r x z); lra|auto].
Qed.
Lemma fold_max_in : forall l x, In (fold_left Rmax l x) (x :: l).
Proof.
  induction l as [|z l IH]; intros x; cbn; [auto|]. destruct (IH (Rmax x z)) as [A|A]; [|right; right; auto]. rewrite <- A. apply Rmax_case; auto.
Qed.
(** Without an offset, the distance to the farthest of the nearest six rows, itself among them. *)
Lemma start_found : forall n_points points knn offset, offset <= 0 -> (2 <= n_points)%nat -> knn_rows n_points points knn -> distinct n_points points ->
  forall i, (i < n_points)%nat -> exists d, start n_points knn offset i = Ok d /\ 0 < d /\ In d (knn i (min 6 n_points)) /\ forall y, In y (knn i (min 6 n_points)) -> y <= d.
Proof.
  intros n_points points knn offset O N K A i Hi. unfold start. destruct (Rle_dec offset 0); [|lra]. destruct (K i (min 6 n_points) Hi ltac:(lia)) as (rows & R1 & R2 & R3 & R4).
  destruct (knn i (min 6 n_points)) as [|x l] eqn:E; [symmetry in R4; apply map_eq_nil in R4; subst; cbn [length] in R2; lia|]. eexists. split; [reflexivity|].
  destruct (fold_max_ge l x) as [G1 G2]. assert (forall y, In y (x :: l) -> y <= fold_left Rmax l x) as G by (intros y [<-|Y]; auto). split; [|split; [apply fold_max_in|auto]].
  destruct rows as [|j [|j' rows]]; [cbn [length] in R2; lia|cbn [length] in R2; lia|]. inversion R1 as [|? ? N1 N2]; subst. assert (j <> j') as NE by (intros ->; apply N1; left; auto).
  rewrite R4 in G. assert (forall k, In k (j :: j' :: rows) -> k <> i -> 0 < fold_left Rmax l x) as P.
  { intros k I NI. eapply Rlt_le_trans; [apply (A k i); auto|]. apply G. apply in_map with (f := fun j => dist3 (points j) (points i)) in I. exact I. }
  destruct (Nat.eq_dec j i) as [->|NI]; [apply (P j'); [right; left; auto|auto]|apply (P j); [left; auto|auto]].
Qed.
Lemma starts_exist : forall n_points points knn offset, (0 < offset \/ (2 <= n_points)%nat) -> knn_rows n_points points knn -> distinct n_points points ->
  exists most, first_distance n_points knn offset most /\ forall i, (i < n_points)%nat -> start n_points knn offset i = Ok (most i) /\ 0 < most i.
Proof.
  intros n_points points knn offset O K A. destruct (Rlt_dec 0 offset) as [P|P].
  - exists (fun _ => offset). split; [intros i I; split; [auto|lra]|]. intros i I. rewrite start_given; auto.
  - destruct O as [O|O]; [contradiction|]. exists (fun i => match start n_points knn offset i with Ok d => d | _ => 0 end).
    split; intros i I; destruct (start_found n_points points knn offset ltac:(lra) O K A i I) as (d & D1 & D2 & D3 & D4); rewrite D1; [|auto]. split; [lra|auto].
Qed.
Theorem direct_spec : forall n_points points normals nearest knn offset fuel, (0 < offset \/ (2 <= n_points)%nat) ->
  nearest_row n_points points nearest -> knn_rows n_points points knn -> distinct n_points points -> unit_or_none n_points normals -> (n_points <= S fuel)%nat ->
  exists data most, estimate_impl n_points points normals nearest knn offset fuel = Ok (Value data) /\ first_distance n_points knn offset most /\ data_ok n_points points normals most data.
Proof.
  intros n_points points normals nearest knn offset fuel O T K A U F. destruct (starts_exist n_points points knn offset O K A) as (most & M1 & M2).
  destruct (estimate_spec n_points points normals nearest T A U knn offset most M2 fuel F) as (data & D1 & D2). exists data, most. auto.
Qed.
(** ** Anisotropy *)
Lemma apply_inverse : forall inverse a v e, inverse_of inverse a -> (e < 3)%nat -> apply inverse (apply a v) e = v e.
Proof.
  intros inverse a v e I E. unfold apply. cbn [rsum].
  pose proof (I e 0%nat E ltac:(lia)) as I0. pose proof (I e 1%nat E ltac:(lia)) as I1. pose proof (I e 2%nat E ltac:(lia)) as I2. cbn [rsum] in I0, I1, I2.
  transitivity (v 0%nat * (0 + inverse e 0%nat * a 0%nat 0%nat + inverse e 1%nat * a 1%nat 0%nat + inverse e 2%nat * a 2%nat 0%nat) +
                v 1%nat * (0 + inverse e 0%nat * a 0%nat 1%nat + inverse e 1%nat * a 1%nat 1%nat + inverse e 2%nat * a 2%nat 1%nat) +
                v 2%nat * (0 + inverse e 0%nat * a 0%nat 2%nat + inverse e 1%nat * a 1%nat 2%nat + inverse e 2%nat * a 2%nat 2%nat)); [ring|].
  rewrite I0, I1, I2. destruct e as [|[|[|e]]]; [| | |lia]; cbn [Nat.eqb]; ring.
Qed.
Lemma zero_sq : forall v, dot 3 v v = 0 -> forall e, (e < 3)%nat -> v e = 0.
Proof. intros v Z e E. rewrite dot3 in Z. destruct e as [|[|[|e]]]; [| | |lia]; nra. Qed.
Lemma apply_distinct : forall n_points points inverse a, inverse_of inverse a -> distinct n_points points -> distinct n_points (fun i => apply a (points i)).
Proof.
  intros n_points points inverse a I D i j Hi Hj NE. specialize (D i j Hi Hj NE). unfold dist3, norm3 in *. apply sqrt_lt_R0.
  destruct (Rle_lt_or_eq_dec 0 _ (dot3_pos (sub3 (apply a (points i)) (apply a (points j))))) as [L|L]; auto. exfalso. symmetry in L.
  assert (forall e, (e < 3)%nat -> apply a (sub3 (points i) (points j)) e = 0) as Z.
  { intros e E. rewrite <- (zero_sq _ L e E). unfold sub3, apply. cbn. ring. }
  assert (forall e, (e < 3)%nat -> sub3 (points i) (points j) e = 0) as V.
  { intros e E. rewrite <- (apply_inverse inverse a (sub3 (points i) (points j)) e I E). unfold apply at 1. cbn [rsum]. rewrite !Z by lia. ring. }
  revert D. rewrite dot3. rewrite !V by lia. replace (0 * 0 + 0 * 0 + 0 * 0) with 0 by ring. rewrite sqrt_0. lra.
Qed.
Lemma normalized_unit : forall v, 0 < dot 3 v v -> norm3 (normalized v) = 1.
Proof.
  intros v P. unfold normalized. destruct (Rlt_dec 0 (dot 3 v v)); [|lra]. unfold norm3 at 1. assert (0 < norm3 v) as N by (apply sqrt_lt_R0; auto).
  replace (dot 3 (fun e => v e / norm3 v) (fun e => v e / norm3 v)) with (dot 3 v v / (norm3 v * norm3 v)) by (rewrite !dot3; field; lra).
  rewrite norm3_sq. replace (dot 3 v v / dot 3 v v) with 1 by (field; lra). apply sqrt_1.
Qed.
Lemma not_zero : forall v, is_zero v = false -> 0 < dot 3 v v.
Proof.
  intros v Z. destruct (Rle_lt_or_eq_dec 0 _ (dot3_pos v)) as [L|L]; auto. exfalso. symmetry in L. assert (0 <= / 10 ^ 12) as T by (left; apply Rinv_0_lt_compat, pow_lt; lra).
  revert Z. unfold is_zero. rewrite !(zero_sq v L) by lia. rewrite Rabs_R0. destruct (Rle_dec 0 (/ 10 ^ 12)); [discriminate|contradiction].
Qed.
Lemma transformed_unit : forall n_points inverse normals, unit_or_none n_points (fun i => transformed_normal inverse (normals i)).
Proof.
  intros n_points inverse normals i I. unfold transformed_normal. cbv zeta. destruct (is_zero (apply (transpose inverse) (normals i))) eqn:Z; [auto|]. right. apply normalized_unit, not_zero, Z.
Qed.
Theorem aniso_spec : forall n_points points normals nearest knn offset aniso inverse fuel, (0 < offset \/ (2 <= n_points)%nat) -> 0 < det3 aniso -> is_identity aniso = false -> inverse_of inverse aniso ->
  let a_points := fun i => apply aniso (points i) in
  let a_normals := fun i => transformed_normal inverse (normals i) in
  nearest_row n_points a_points (nearest a_points) -> knn_rows n_points a_points (knn a_points) -> distinct n_points points -> (n_points <= S fuel)%nat ->
  exists data a_data most, sdf_data n_points n_points points normals nearest knn offset aniso inverse fuel = Ok (Value data) /\
  data = map (fun x => (apply inverse (fst x), snd x)) a_data /\ first_distance n_points (knn a_points) offset most /\ data_ok n_points a_points a_normals most a_data /\
  unit_or_none n_points a_normals /\
  (forall i, (i < n_points)%nat -> snd (nth i data (zero3, 1)) = 0 /\ forall e, (e < 3)%nat -> fst (nth i data (zero3, 1)) e = points i e).
Proof.
  intros n_points points normals nearest knn offset aniso inverse fuel O D ID IN a_points a_normals T K A F.
  unfold sdf_data. rewrite Nat.eqb_refl. cbn [negb]. destruct (Rlt_dec 0 (det3 aniso)); [|contradiction]. rewrite ID. fold a_points a_normals.
  pose proof (transformed_unit n_points inverse normals) as U. pose proof (apply_distinct n_points points inverse aniso IN A) as A'.
  destruct (direct_spec n_points a_points a_normals (nearest a_points) (knn a_points) offset fuel O T K A' U F) as (data & most & D1 & D2 & D3). rewrite D1. cbn [bind].
  exists (map (fun x => (apply inverse (fst x), snd x)) data), data, most. split; auto. split; auto. split; auto. split; auto. split; auto.
  intros i I. destruct D3 as (inside & outside & -> & _ & _). rewrite map_app, app_nth1 by (rewrite !map_length, seq_length; auto). rewrite map_map.
  set (f := fun x : nat => (apply inverse (fst (a_points x, 0)), snd (a_points x, 0))).
  rewrite (nth_indep _ _ (f 0%nat)) by (rewrite map_length, seq_length; auto). rewrite map_nth, seq_nth by auto. unfold f. cbn [fst snd Nat.add]. split; auto. intros e E. apply apply_inverse; auto.
Qed.
Theorem identity_spec : forall n_points points normals nearest knn offset aniso inverse fuel, 0 < det3 aniso -> is_identity aniso = true ->
  sdf_data n_points n_points points normals nearest knn offset aniso inverse fuel = estimate_impl n_points points normals (nearest points) (knn points) offset fuel.
Proof. intros. unfold sdf_data. rewrite Nat.eqb_refl. cbn [negb]. destruct (Rlt_dec 0 (det3 aniso)); [|contradiction]. rewrite H0. auto. Qed.
Theorem refuses : forall n_points n_normals points normals nearest knn offset aniso inverse fuel, n_normals <> n_points \/ det3 aniso <= 0 ->
  sdf_data n_points n_normals points normals nearest knn offset aniso inverse fuel = Throw ExInvalidArgument.
Proof.
  intros n_points n_normals points normals nearest knn offset aniso inverse fuel H. unfold sdf_data. destruct (Nat.eqb_spec n_normals n_points); cbn [negb]; auto.
  destruct H as [H|H]; [contradiction|]. destruct (Rlt_dec 0 (det3 aniso)); [lra|auto].
Qed.

(** ** What goes wrong otherwise *)
Definition axis (x : R) : vec3 := fun e => if Nat.eqb e 0 then x else 0.
Lemma dist_axis : forall x y, dist3 (axis x) (axis y) = Rabs (x - y).
Proof. intros x y. unfold dist3, norm3. rewrite dot3. unfold sub3, axis. cbn [Nat.eqb]. replace ((x - y) * (x - y) + (0 - 0) * (0 - 0) + (0 - 0) * (0 - 0)) with (Rsqr (x - y)) by (unfold Rsqr; ring). apply sqrt_Rsqr_abs. Qed.
Lemma along_axis : forall x n sign d, along (axis x) (axis n) sign d = axis (x + sign * d * n).
Proof. intros. apply FunctionalExtensionality.functional_extensionality. intros e. unfold along, axis. destruct (Nat.eqb e 0); ring. Qed.
Lemma sub_axis : forall x y, sub3 (axis x) (axis y) = axis (x - y).
Proof. intros. apply FunctionalExtensionality.functional_extensionality. intros e. unfold sub3, axis. destruct (Nat.eqb e 0); ring. Qed.
Lemma norm_axis : forall x, norm3 (axis x) = Rabs x.
Proof. intros x. unfold norm3. rewrite dot3. unfold axis. cbn [Nat.eqb]. replace (x * x + 0 * 0 + 0 * 0) with (Rsqr x) by (unfold Rsqr; ring). apply sqrt_Rsqr_abs. Qed.
Lemma normalized_axis : forall x, 0 < x -> normalized (axis x) = axis 1.
Proof.
  intros x P. unfold normalized. destruct (Rlt_dec 0 (dot 3 (axis x) (axis x))) as [L|L].
  - rewrite norm_axis, Rabs_right by lra. apply FunctionalExtensionality.functional_extensionality. intros e. unfold axis. destruct (Nat.eqb e 0); field; lra.
  - exfalso. apply L. rewrite dot3. unfold axis. cbn [Nat.eqb]. nra.
Qed.
(** Two points one unit apart on an axis, the normals along it of length two; the tree answers the nearer one. *)
Definition two (i : nat) : vec3 := match i with 0%nat => axis 0 | _ => axis 1 end.
Definition nearer (q : vec3) : nat := if Rle_dec (dist3 q (axis 1)) (dist3 q (axis 0)) then 1%nat else 0%nat.
Lemma nearer_ok : nearest_row 2 two nearer.
Proof.
  intros q. unfold nearer. destruct (Rle_dec (dist3 q (axis 1)) (dist3 q (axis 0))) as [L|L]; split; try lia; intros j J; (destruct j as [|[|j]]; [| |lia]); cbn [two]; lra.
Qed.
Lemma two_distinct : distinct 2 two.
Proof.
  intros i j I J NE. destruct i as [|[|i]], j as [|[|j]]; try lia; cbn [two]; rewrite dist_axis; [rewrite Rabs_left by lra; lra|rewrite Rabs_right by lra; lra].
Qed.
Theorem long_normals : nearest_row 2 two nearer /\ distinct 2 two /\ forall fuel, shrink two (fun _ => axis 2) nearer fuel 0 1 1 = NoFuel.
Proof.
  split; [exact nearer_ok|]. split; [exact two_distinct|].
  assert (forall d, 1 / 4 <= d -> nearer (along (axis 0) (axis 2) 1 d) = 1%nat) as NE.
  { intros d D. rewrite along_axis. unfold nearer. rewrite !dist_axis. destruct (Rle_dec (Rabs (0 + 1 * d * 2 - 1)) (Rabs (0 + 1 * d * 2 - 0))) as [|N]; auto. exfalso. apply N.
    rewrite (Rabs_right (0 + 1 * d * 2 - 0)) by lra. apply Rabs_le. lra. }
  assert (forall fuel d, 1 / 4 <= d -> shrink two (fun _ => axis 2) nearer fuel 0 1 d = NoFuel) as ALL.
  { induction fuel as [|fuel IH]; intros d D; cbn [shrink two]; rewrite NE by auto; cbn [Nat.eqb]; auto. cbn [two]. rewrite along_axis, !sub_axis. rewrite !normalized_axis by lra.
    assert (dot 3 (axis 1) (axis 1) = 1) as -> by (rewrite dot3; unfold axis; cbn [Nat.eqb]; ring). destruct (Req_EM_T 1 0); [lra|]. rewrite norm_axis, Rabs_right by lra. apply IH. lra. }
  intros fuel. apply ALL. lra.
Qed.
(** Coincident points. *)
Theorem coincident : forall nearest fuel, (forall q, nearest q = 1%nat) -> nearest_row 2 (fun _ => axis 0) nearest /\
  shrink (fun _ => axis 0) (fun _ => axis 1) nearest (S fuel) 0 1 1 = NotFinite.
Proof.
  intros nearest fuel N. split.
  - intros q. rewrite N. split; [lia|]. intros. lra.
  - cbn [shrink]. rewrite N. cbn [Nat.eqb]. rewrite along_axis, !sub_axis. assert (normalized (axis (0 - 0)) = axis 0) as ->.
    { unfold normalized. assert (0 - 0 = 0) as -> by ring. assert (dot 3 (axis 0) (axis 0) = 0) as -> by (rewrite dot3; unfold axis; cbn [Nat.eqb]; ring). destruct (Rlt_dec 0 0); [lra|auto]. }
    rewrite normalized_axis by lra. assert (dot 3 (axis 1) (axis 0) = 0) as -> by (rewrite dot3; unfold axis; cbn [Nat.eqb]; ring). destruct (Req_EM_T 0 0); [auto|lra].
Qed.
(** One point and no offset: the distance to itself, so that the point comes three times with the value zero. *)
Theorem single : forall p nearest, nearest_row 1 (fun _ => p) nearest -> let knn := fun (_ _ : nat) => [0] in
  exists data, estimate_impl 1 (fun _ => p) (fun _ => axis 1) nearest knn 0 0 = Ok (Value data) /\ length data = 3%nat /\ forall x, In x data -> snd x = 0 /\ forall e, fst x e = p e.
Proof.
  intros p nearest N knn. assert (is_zero (axis 1) = false) as Z.
  { unfold is_zero, axis. cbn [Nat.eqb]. rewrite Rabs_R1. destruct (Rle_dec 1 (/ 10 ^ 12)) as [L|L]; auto. exfalso. assert (/ 10 ^ 12 < / 1) by (apply Rinv_lt_contravar; lra). lra. }
  assert (forall q, nearest q = 0%nat) as N0 by (intros q; destruct (N q); lia).
  unfold estimate_impl. cbn [seq pass]. rewrite Z. unfold start. destruct (Rle_dec 0 0); [|lra]. cbn [knn fold_left bind shrink]. rewrite !N0. cbn [Nat.eqb bind app map]. eexists. split; [reflexivity|]. split; [reflexivity|].
  intros x [<-|[<-|[<-|[]]]]; cbn [fst snd]; (split; [ring|]); intros e; unfold along; ring.
Qed.
