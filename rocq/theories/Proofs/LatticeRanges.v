From Coq Require Import Reals ZArith List Bool Permutation Lia Lra.
From Verif Require Import Proofs.BoxPlane Proofs.Variogram Proofs.PrimitiveLattice.
From Verif Require Import Model.Outcome Model.Clip Model.PointTriangle Model.Predicates Model.Variogram Model.Lattice Model.PrimitiveLattice
  Spec.Lattice Spec.PrimitiveLattice.
Import ListNotations.
Local Open Scope R_scope.

(** * Ranges of integers *)
Lemma in_range : forall r z, In z (range r) <-> (fst r <= z <= snd r)%Z.
Proof.
  intros [a b] z. unfold range. cbn [fst snd]. rewrite in_map_iff. split.
  - intros (k & <- & I). apply in_seq in I. lia.
  - intros H. exists (Z.to_nat (z - a)). split; [lia|]. apply in_seq. lia.
Qed.
Lemma range_nodup : forall r, NoDup (range r).
Proof.
  intros [a b]. unfold range. cbn [fst snd]. apply FinFun.Injective_map_NoDup; [|apply seq_NoDup]. intros x y H. lia.
Qed.
Lemma layered_map : forall f a n k, (forall z, NoDup (f z) /\ Forall (fun x : lc => snd x = z) (f z)) ->
  layered (a + Z.of_nat k) (map f (map (fun k => (a + Z.of_nat k)%Z) (seq k n))).
Proof.
  intros f a n. induction n as [|n IH]; intros k H; cbn [seq map layered]; [exact I|].
  destruct (H (a + Z.of_nat k)%Z) as [A B]. split; [exact A|]. split; [exact B|].
  replace (a + Z.of_nat k + 1)%Z with (a + Z.of_nat (S k))%Z by lia. apply IH. exact H.
Qed.
Lemma nodup_flat : forall (f : Z -> list lc) xs, NoDup xs -> (forall z, NoDup (f z)) -> (forall z x, In x (f z) -> snd (fst x) = z) -> NoDup (flat_map f xs).
Proof.
  intros f xs N F G. induction xs as [|z xs IH]; cbn [flat_map]; [constructor|]. inversion N; subst.
  assert (K : forall l1 l2 : list lc, NoDup l1 -> NoDup l2 -> (forall x, In x l1 -> ~ In x l2) -> NoDup (l1 ++ l2)).
  { clear. induction l1 as [|x l1 IH]; intros l2 A B C; [exact B|]. cbn. inversion A; subst. constructor.
    - intros I. apply in_app_or in I. destruct I as [I|I]; [contradiction|apply (C x); [left; reflexivity|exact I]].
    - apply IH; auto. intros y I. apply C. right. exact I. }
  apply K; [apply F|apply IH; assumption|]. intros x I J. apply in_flat_map in J. destruct J as (w & W & J). apply G in I, J. congruence.
Qed.
Lemma within_box : forall a b x, within a b x = true <-> box a b x.
Proof.
  intros a b x. unfold within, box, leb. split.
  - intros H. repeat (apply andb_true_iff in H; destruct H as [H ?]).
    repeat match goal with H : (if Rle_dec ?a ?b then _ else _) = true |- _ => destruct (Rle_dec a b); [clear H|discriminate] end. repeat split; assumption.
  - intros ((A & B) & (C & E) & (F & G)). repeat match goal with |- context [Rle_dec ?a ?b] => destruct (Rle_dec a b); [|contradiction] end. reflexivity.
Qed.
Lemma extremes_bounds : forall xs l h, extremes xs = Ok (l, h) -> forall x, In x xs -> IZR l <= x <= IZR h.
Proof.
  intros [|x xs] l h H; [discriminate|]. cbn [extremes] in H. apply inv_bind in H. destruct H as (a & A & H). apply inv_bind in H. destruct H as (b & C & H).
  apply to_int_inv in A, C. inversion H; subst.
  assert (M : forall xs x, fold_left Rmin xs x <= x /\ (forall v, In v xs -> fold_left Rmin xs x <= v)).
  { clear. induction xs as [|y xs IH]; intros x; cbn [fold_left]; [split; [lra|intros v []]|]. destruct (IH (Rmin x y)) as [A B]. pose proof (Rmin_l x y). pose proof (Rmin_r x y).
    split; [lra|]. intros v [<-|I]; [lra|apply B; exact I]. }
  assert (N : forall xs x, x <= fold_left Rmax xs x /\ (forall v, In v xs -> v <= fold_left Rmax xs x)).
  { clear. induction xs as [|y xs IH]; intros x; cbn [fold_left]; [split; [lra|intros v []]|]. destruct (IH (Rmax x y)) as [A B]. pose proof (Rmax_l x y). pose proof (Rmax_r x y).
    split; [lra|]. intros v [<-|I]; [lra|apply B; exact I]. }
  destruct (M xs x) as [M1 M2], (N xs x) as [N1 N2]. pose proof (floor_range (fold_left Rmin xs x)). pose proof (ceil_range (fold_left Rmax xs x)).
  intros y [<-|I]; [lra|]. specialize (M2 y I). specialize (N2 y I). lra.
Qed.
Lemma extremes_between : forall xs l h, extremes xs = Ok (l, h) -> forall z v w, In v xs -> In w xs -> v <= IZR z <= w -> (l <= z <= h)%Z.
Proof.
  intros xs l h H z v w V W B. pose proof (extremes_bounds _ _ _ H v V). pose proof (extremes_bounds _ _ _ H w W). split; apply le_IZR; lra.
Qed.
Lemma fold_pick : forall (f : R -> R -> R), (forall x y, f x y = x \/ f x y = y) -> forall xs x, In (fold_left f xs x) (x :: xs).
Proof.
  intros f F. induction xs as [|y xs IH]; intros x; cbn [fold_left]; [left; reflexivity|]. destruct (IH (f x y)) as [E|I].
  - rewrite <- E. destruct (F x y) as [->| ->]; [left; reflexivity|right; left; reflexivity].
  - right. right. exact I.
Qed.
Lemma rmin_pick : forall x y, Rmin x y = x \/ Rmin x y = y. Proof. intros x y. unfold Rmin. destruct (Rle_dec x y); auto. Qed.
Lemma rmax_pick : forall x y, Rmax x y = x \/ Rmax x y = y. Proof. intros x y. unfold Rmax. destruct (Rle_dec x y); auto. Qed.
Lemma extremes_ok : forall xs, xs <> [] -> (forall x, In x xs -> -2147483647 <= x <= 2147483646) ->
  exists l h, extremes xs = Ok (l, h).
Proof.
  intros [|x xs] N H; [congruence|]. cbn [extremes]. rewrite floor_int by (apply H; apply fold_pick; apply rmin_pick). rewrite ceil_int by (apply H; apply fold_pick; apply rmax_pick).
  cbn [bind]. eexists. eexists. reflexivity.
Qed.

Section Ranges.
Variables lo hi : pt.
Variable basis : triangle.
Hypothesis D : det basis <> 0.
Hypothesis W : px lo <= px hi /\ py lo <= py hi /\ pz lo <= pz hi.
Hypothesis F : fits_int lo hi basis.
Notation origin := (origin lo hi basis).
Notation position := (position lo hi basis).
Notation unrounded := (unrounded lo hi basis).
Notation lo2 := (ext_lo lo basis 2).
Notation hi2 := (ext_hi hi basis 2).
Notation row0 := (fst (fst basis)).
Notation row1 := (snd (fst basis)).
Notation row2 := (snd basis).

Lemma wide : forall e, coord lo2 e < coord hi2 e.
Proof using D W.
  intros e. rewrite ext_lo_coord, ext_hi_coord. pose proof (extends basis D e). assert (coord lo e <= coord hi e) by (destruct W as (A & B & C); destruct e as [|[|e]]; assumption). lra.
Qed.

(** Lattice coordinates are affine. *)
Definition column (e : nat) : pt :=
  let '(a, b, c) := inverse basis in (coord a e, coord b e, coord c e).
Lemma coord_unrounded : forall q e, coord (unrounded q) e = dot3 (column e) q - coord origin e.
Proof using Type.
  clear D F. intros q e. unfold PrimitiveLattice.unrounded. rewrite coord_sub. f_equal. unfold column. destruct (inverse basis) as [[a b] c].
  unfold comb. destruct e as [|[|e]]; unfold coord; vec; ring.
Qed.
Lemma in_plane : forall q z, dot3 (cross row0 row1) q + - dot3 (cross row0 row1) (scale3 (pz origin + IZR z) row2) = 0 <-> pz (unrounded q) = IZR z.
Proof using D.
  intros q z. assert (E : dot3 (cross row0 row1) q + - dot3 (cross row0 row1) (scale3 (pz origin + IZR z) row2) = det basis * (pz (unrounded q) - IZR z)).
  { rewrite <- (comb_unrounded lo hi basis D q) at 1. set (u := unrounded q). set (o := origin). clearbody u o. clear. destruct basis as [[[[a b] c] [[d e] f]] [[g h] i]].
    unfold det, Predicates.det3, comb. vec. ring. }
  rewrite E. split; intros H; [|rewrite H; ring]. apply Rmult_integral in H. destruct H as [H|H]; [contradiction|lra].
Qed.
Lemma normal_nonzero : cross row0 row1 <> (0, 0, 0).
Proof using D.
  intros H. apply D. replace (det basis) with (dot3 (cross row0 row1) row2). { rewrite H. vec. ring. }
  clear. destruct basis as [[[[a b] c] [[d e] f]] [[g h] i]]. unfold det, Predicates.det3. vec. ring.
Qed.
Lemma edge_hits_eq : forall z, edge_hits lo hi basis z = plane_hits (cross row0 row1) (- dot3 (cross row0 row1) (scale3 (pz origin + IZR z) row2)) lo2 hi2.
Proof using Type. clear D F. intros z. unfold edge_hits. destruct basis as [[r0 r1] r2]. reflexivity. Qed.

Theorem third_range_ok : exists r3, third_range lo hi basis = Ok r3.
Proof using D W F.
  unfold third_range. edestruct (extremes_ok (map (fun i => pz (unrounded (corner_at lo2 hi2 i))) (seq 0 8))) as (l & h & E).
  - discriminate.
  - intros x I. apply in_map_iff in I. destruct I as (i & <- & _). apply (F _ 2%nat). apply corner_box; apply Rlt_le; [apply (wide 0)|apply (wide 1)|apply (wide 2)].
  - exists (l, h). exact E.
Qed.
Theorem third_covers : forall r3 q z, third_range lo hi basis = Ok r3 -> box lo2 hi2 q -> pz (unrounded q) = IZR z -> (fst r3 <= z <= snd r3)%Z.
Proof using Type.
  clear D W F. intros [l h] q z E B H. cbn [fst snd]. pose proof (coord_unrounded) as CU.
  destruct (corners_min lo2 hi2 q (column 2) B) as (i & Li & Ci). destruct (corners_min lo2 hi2 q (scale3 (-1) (column 2)) B) as (j & Lj & Cj).
  apply (extremes_between _ _ _ E z (pz (unrounded (corner_at lo2 hi2 i))) (pz (unrounded (corner_at lo2 hi2 j)))).
  - apply in_map_iff. exists i. split; [reflexivity|apply in_seq; lia].
  - apply in_map_iff. exists j. split; [reflexivity|apply in_seq; lia].
  - rewrite <- H. pose proof (CU q 2%nat) as E0. pose proof (CU (corner_at lo2 hi2 i) 2%nat) as E1. pose proof (CU (corner_at lo2 hi2 j) 2%nat) as E2. cbn [coord] in E0, E1, E2.
    rewrite E0, E1, E2. assert (S : forall x, dot3 (scale3 (-1) (column 2)) x = - dot3 (column 2) x) by (intros x; vec; ring). rewrite !S in Cj. lra.
Qed.
Lemma some_hit : forall q z c, box lo2 hi2 q -> pz (unrounded q) = IZR z -> exists v, In v (edge_hits lo hi basis z) /\ dot3 c v <= dot3 c q.
Proof using D W.
  intros q z c B H. rewrite edge_hits_eq. apply plane_min; [apply (wide 0)|apply (wide 1)|apply (wide 2)|apply normal_nonzero|exact B|]. apply in_plane. exact H.
Qed.
Theorem second_range_ok : forall q z, box lo2 hi2 q -> pz (unrounded q) = IZR z ->
  exists r, second_range lo hi basis z = Ok r /\ forall y, py (unrounded q) = IZR y -> (fst r <= y <= snd r)%Z.
Proof using D W F.
  intros q z B H. destruct (some_hit q z (column 1) B H) as (v & Iv & Cv). destruct (some_hit q z (scale3 (-1) (column 1)) B H) as (w & Iw & Cw).
  destruct (extremes_ok (map (fun v => py (unrounded v)) (edge_hits lo hi basis z))) as (l & h & E).
  - intros E. apply map_eq_nil in E. rewrite E in Iv. exact Iv.
  - intros x I. apply in_map_iff in I. destruct I as (u & <- & I). rewrite edge_hits_eq in I. apply hits_sound in I; [|apply Rlt_le, (wide 0)|apply Rlt_le, (wide 1)|apply Rlt_le, (wide 2)].
    apply (F u 1%nat). apply I.
  - exists (l, h). split; [exact E|]. intros y Y. apply (extremes_between _ _ _ E y (py (unrounded v)) (py (unrounded w))).
    + apply (in_map (fun v => py (unrounded v))). exact Iv.
    + apply (in_map (fun v => py (unrounded v))). exact Iw.
    + rewrite <- Y. pose proof (coord_unrounded q 1%nat) as E0. pose proof (coord_unrounded v 1%nat) as E1. pose proof (coord_unrounded w 1%nat) as E2. cbn [coord] in E0, E1, E2.
      rewrite E0, E1, E2. assert (S : forall x, dot3 (scale3 (-1) (column 1)) x = - dot3 (column 1) x) by (intros x; vec; ring). rewrite !S in Cw. lra.
Qed.
Theorem second_range_ub : forall z, second_range lo hi basis z = UB <-> ~ exists q, box lo2 hi2 q /\ pz (unrounded q) = IZR z.
Proof using D W F.
  intros z. split.
  - intros U (q & B & H). destruct (second_range_ok q z B H) as (r & E & _). congruence.
  - intros N. unfold second_range. destruct (edge_hits lo hi basis z) as [|v vs] eqn:E; [reflexivity|]. exfalso. apply N.
    assert (I : In v (edge_hits lo hi basis z)) by (rewrite E; left; reflexivity). rewrite edge_hits_eq in I.
    apply hits_sound in I; [|apply Rlt_le, (wide 0)|apply Rlt_le, (wide 1)|apply Rlt_le, (wide 2)]. exists v. split; [apply I|]. apply in_plane. apply I.
Qed.
Theorem lowest_layer : forall r3, third_range lo hi basis = Ok r3 -> (forall i, (i < 8)%nat -> pz (unrounded (corner_at lo2 hi2 i)) <> IZR (fst r3)) ->
  second_range lo hi basis (fst r3) = UB.
Proof using D W F.
  intros [l h] E N. apply second_range_ub. intros (q & B & H). cbn [fst] in *. destruct (corners_min lo2 hi2 q (column 2) B) as (i & Li & Ci). apply (N i Li).
  pose proof (coord_unrounded q 2%nat) as E0. pose proof (coord_unrounded (corner_at lo2 hi2 i) 2%nat) as E1. cbn [coord] in E0, E1.
  assert (L : IZR l <= pz (unrounded (corner_at lo2 hi2 i))). { apply (extremes_bounds _ _ _ E). apply in_map_iff. exists i. split; [reflexivity|apply in_seq; lia]. }
  lra.
Qed.
Theorem highest_layer : forall r3, third_range lo hi basis = Ok r3 -> (forall i, (i < 8)%nat -> pz (unrounded (corner_at lo2 hi2 i)) <> IZR (snd r3)) ->
  second_range lo hi basis (snd r3) = UB.
Proof using D W F.
  intros [l h] E N. apply second_range_ub. intros (q & B & H). cbn [snd] in *. destruct (corners_min lo2 hi2 q (scale3 (-1) (column 2)) B) as (i & Li & Ci). apply (N i Li).
  pose proof (coord_unrounded q 2%nat) as E0. pose proof (coord_unrounded (corner_at lo2 hi2 i) 2%nat) as E1. cbn [coord] in E0, E1.
  assert (L : pz (unrounded (corner_at lo2 hi2 i)) <= IZR h). { apply (extremes_bounds _ _ _ E). apply in_map_iff. exists i. split; [reflexivity|apply in_seq; lia]. }
  assert (S : forall x, dot3 (scale3 (-1) (column 2)) x = - dot3 (column 2) x) by (intros x; vec; ring). rewrite !S in Ci. lra.
Qed.

(** The line of a row. *)
Lemma bounds_line : forall q dir t, (forall e, coord lo2 e <= coord q e + t * coord dir e <= coord hi2 e) -> dir <> (0, 0, 0) ->
  exists m M, first_bounds lo hi basis q dir = (Some m, Some M) /\ m <= t <= M /\
    forall s, m <= s <= M -> box lo2 hi2 (add3 q (scale3 s dir)).
Proof using Type.
  clear D W F. intros q dir t T N. unfold first_bounds. set (step := fun (b : option R * option R) (i : nat) => _).
  set (inv := fun (done : nat -> Prop) (b : option R * option R) => match b with
    | (None, None) => forall i, done i -> coord dir i = 0
    | (Some m, Some M) => m <= t <= M /\ forall s, m <= s <= M -> forall i, done i -> coord lo2 i <= coord q i + s * coord dir i <= coord hi2 i
    | _ => False end).
  assert (S : forall done b i, inv done b -> inv (fun j => j = i \/ done j) (step b i)).
  { intros done b i H. unfold step, eqb. destruct (Req_EM_T (coord dir i) 0) as [Z|Z].
    - destruct b as [[m|] [M|]]; cbn [inv] in *; try contradiction.
      + destruct H as [H1 H2]. split; [exact H1|]. intros s Hs j [-> |J]; [|apply (H2 s Hs j J)]. specialize (T i). rewrite Z in *. lra.
      + intros j [-> |J]; [exact Z|exact (H j J)].
    - set (t0 := (coord lo2 i - coord q i) / coord dir i). set (t1 := (coord hi2 i - coord q i) / coord dir i). pose proof (T i) as Ti.
      assert (E0 : coord q i + t0 * coord dir i = coord lo2 i) by (unfold t0; field; exact Z). assert (E1 : coord q i + t1 * coord dir i = coord hi2 i) by (unfold t1; field; exact Z).
      clearbody t0 t1. unfold ltb.
      assert (K : let '(a, b) := if Rlt_dec t1 t0 then (t1, t0) else (t0, t1) in a <= t <= b /\ forall s, a <= s <= b -> coord lo2 i <= coord q i + s * coord dir i <= coord hi2 i).
      { destruct (Rtotal_order (coord dir i) 0) as [Ls|[E|Ls]]; [|contradiction|]; destruct (Rlt_dec t1 t0); (split; [|intros s Hs]; nra). }
      replace (if if Rlt_dec t1 t0 then true else false then (t1, t0) else (t0, t1)) with (if Rlt_dec t1 t0 then (t1, t0) else (t0, t1)) by (destruct (Rlt_dec t1 t0); reflexivity).
      destruct (if Rlt_dec t1 t0 then (t1, t0) else (t0, t1)) as [u v]. destruct K as [K1 K2]. destruct b as [[m|] [M|]]; cbn [inv fst snd] in *; try contradiction.
      + destruct H as [H1 H2]. pose proof (Rmax_l m u). pose proof (Rmax_r m u). pose proof (Rmin_l M v). pose proof (Rmin_r M v).
        split; [split; [apply Rmax_lub; lra|apply Rmin_glb; lra]|]. intros s Hs j [-> |J]; [apply K2; lra|apply H2; [lra|exact J]].
      + split; [exact K1|]. intros s Hs j [-> |J]; [apply K2; exact Hs|]. pose proof (T j) as Tj. rewrite (H j J) in *. lra. }
  pose proof (S _ _ 2%nat (S _ _ 1%nat (S (fun _ => False) (None, None) 0%nat (fun i I => match I with end)))) as R. cbn [fold_left].
  destruct (step (step (step (None, None) 0%nat) 1%nat) 2%nat) as [[m|] [M|]]; cbn [inv] in R; try contradiction.
  - exists m, M. split; [reflexivity|]. destruct R as [R1 R2]. split; [exact R1|]. intros s Hs. apply box_coord. intros e. rewrite coord_add, coord_scale.
    destruct e as [|[|e]]; [apply (R2 s Hs 0%nat); auto|apply (R2 s Hs 1%nat); auto|apply (R2 s Hs 2%nat); auto].
  - exfalso. apply N. apply pt_ext; [apply (R 0%nat); auto|apply (R 1%nat); auto|apply (R 2%nat); auto].
Qed.
Lemma row0_nonzero : row0 <> (0, 0, 0).
Proof using D.
  intros H. apply D. clear - H. destruct basis as [[r0 r1] r2]. cbn [fst] in H. rewrite H. unfold det, Predicates.det3. vec. ring.
Qed.
Theorem first_range_ok : forall a b c, box lo2 hi2 (position (a, b, c)) ->
  exists r, first_range lo hi basis b c = Ok r /\ (fst r <= a <= snd r)%Z.
Proof using D F.
  intros a b c B. set (q := add3 (scale3 (py origin + IZR b) row1) (scale3 (pz origin + IZR c) row2)).
  assert (P : forall s, add3 q (scale3 s row0) = comb (add3 origin (s - px origin, IZR b, IZR c)) basis).
  { intros s. unfold q. clear. set (o := origin). clearbody o. destruct basis as [[r0 r1] r2]. unfold comb. apply pt_ext; vec; ring. }
  assert (E : position (a, b, c) = add3 q (scale3 (px origin + IZR a) row0)). { rewrite P. unfold PrimitiveLattice.position. f_equal. f_equal. cbn [of_lc]. f_equal. f_equal. ring. }
  destruct (bounds_line q row0 (px origin + IZR a)) as (m & M & EB & T & S).
  - rewrite E in B. intros e. pose proof (proj1 (box_coord _ _ _) B e) as H. rewrite coord_add, coord_scale in H. exact H.
  - apply row0_nonzero.
  - assert (U : forall s, px (unrounded (add3 q (scale3 s row0))) = s - px origin) by (intros s; rewrite P, unrounded_comb by exact D; reflexivity).
    unfold first_range. replace (let '(b0, b1, b2) := basis in _) with
      (match first_bounds lo hi basis q row0 with
       | (Some min_t, Some max_t) =>
           let* a := to_int (floor (px (unrounded (add3 q (scale3 min_t row0))))) in
           let* b := to_int (ceil (px (unrounded (add3 q (scale3 max_t row0))))) in Ok (a, b)
       | _ => UB end) by (unfold q; clear; destruct basis as [[r0 r1] r2]; reflexivity).
    rewrite EB. rewrite floor_int by (apply (F _ 0%nat); apply S; lra). rewrite ceil_int by (apply (F _ 0%nat); apply S; lra). cbn [bind].
    eexists. split; [reflexivity|]. cbn [fst snd]. rewrite !U. split; [apply floor_below|apply ceil_above]; lra.
Qed.

(** * All nodes *)
Theorem layers_complete : forall r1 r2 r3, third_range lo hi basis = Ok r3 ->
  (forall z r, second_range lo hi basis z = Ok r -> r2 z = r) -> (forall y z r, first_range lo hi basis y z = Ok r -> r1 y z = r) ->
  layered (fst r3) (layers lo hi basis r1 r2 r3) /\ forall x, In x (concat (layers lo hi basis r1 r2 r3)) <-> box lo2 hi2 (position x).
Proof using D W F.
  intros r1 r2 r3 E3 E2 E1. split.
  - unfold layers, range. replace (fst r3) with (fst r3 + Z.of_nat 0)%Z at 1 by lia. apply layered_map. intros z. split.
    + unfold layer. apply NoDup_filter. apply nodup_flat.
      * apply range_nodup.
      * intros y. apply FinFun.Injective_map_NoDup; [intros u v H; congruence|apply range_nodup].
      * intros y x I. apply in_map_iff in I. destruct I as (w & <- & _). reflexivity.
    + apply Forall_forall. intros x I. apply filter_In in I. destruct I as [I _]. apply in_flat_map in I. destruct I as (y & _ & I). apply in_map_iff in I. destruct I as (w & <- & _). reflexivity.
  - intros [[a b] c]. rewrite in_concat. split.
    + intros (l & I & J). apply in_map_iff in I. destruct I as (z & <- & _). apply filter_In in J. apply within_box. apply J.
    + intros B. pose proof (unrounded_position lo hi basis D (a, b, c)) as U.
      assert (Ub : py (unrounded (position (a, b, c))) = IZR b) by (rewrite U; reflexivity). assert (Uc : pz (unrounded (position (a, b, c))) = IZR c) by (rewrite U; reflexivity).
      exists (layer lo hi basis r1 r2 c). split.
      * apply in_map. apply in_range. apply (third_covers _ _ _ E3 B Uc).
      * apply filter_In. split; [|apply within_box; exact B]. destruct (second_range_ok _ _ B Uc) as (s2 & S2 & H2). destruct (first_range_ok _ _ _ B) as (s1 & S1 & H1).
        apply in_flat_map. exists b. split; [apply in_range; rewrite (E2 _ _ S2); apply H2; exact Ub|]. apply in_map_iff. exists a. split; [reflexivity|]. apply in_range. rewrite (E1 _ _ _ S1). exact H1.
Qed.
End Ranges.
