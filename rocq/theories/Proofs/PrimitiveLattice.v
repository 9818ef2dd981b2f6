From Coq Require Import Reals ZArith List Bool Permutation Lia Lra.
From Verif Require Import Proofs.BoxPlane Proofs.Variogram.
From Verif Require Import Model.Outcome Model.Clip Model.PointTriangle Model.Predicates Model.Variogram Model.Lattice Model.PrimitiveLattice
  Spec.Lattice Spec.PrimitiveLattice.
Import ListNotations.
Local Open Scope R_scope.

(** * Numbers *)
Lemma floor_range : forall x, IZR (floor x) <= x < IZR (floor x) + 1.
Proof. intros x. unfold floor. destruct (base_Int_part x). split; lra. Qed.
Lemma ceil_range : forall x, IZR (ceil x) - 1 < x <= IZR (ceil x).
Proof. intros x. unfold ceil. destruct (base_Int_part (- x)). rewrite opp_IZR. split; lra. Qed.
Lemma floor_below : forall x z, x <= IZR z -> (floor x <= z)%Z.
Proof. intros x z H. apply le_IZR. pose proof (floor_range x). lra. Qed.
Lemma ceil_above : forall x z, IZR z <= x -> (z <= ceil x)%Z.
Proof. intros x z H. apply le_IZR. pose proof (ceil_range x). lra. Qed.
Lemma to_int_ok : forall z, (-2147483648 <= z <= 2147483647)%Z -> to_int z = Ok z.
Proof. intros z [A B]. unfold to_int. rewrite (proj2 (Z.leb_le _ _) A), (proj2 (Z.leb_le _ _) B). reflexivity. Qed.
Lemma to_int_inv : forall z w, to_int z = Ok w -> w = z.
Proof. intros z w H. unfold to_int in H. destruct (_ && _); [congruence|discriminate]. Qed.
Lemma floor_int : forall x, -2147483647 <= x <= 2147483646 -> to_int (floor x) = Ok (floor x).
Proof. intros x [A B]. apply to_int_ok. split; apply le_IZR; pose proof (floor_range x); lra. Qed.
Lemma ceil_int : forall x, -2147483647 <= x <= 2147483646 -> to_int (ceil x) = Ok (ceil x).
Proof. intros x [A B]. apply to_int_ok. split; apply le_IZR; pose proof (ceil_range x); lra. Qed.
Lemma round_near : forall x, Rabs (IZR (round x) - x) <= 1 / 2.
Proof.
  intros x. unfold round. apply Rabs_le. destruct (Rle_dec 0 x); [pose proof (floor_range (x + 1 / 2))|pose proof (ceil_range (x - 1 / 2))]; lra.
Qed.
Lemma round_unique : forall x z, Rabs (x - IZR z) < 1 / 2 -> round x = z.
Proof.
  intros x z H. apply Rabs_def2 in H. pose proof (round_near x) as N. assert (A : Rabs (IZR (round x) - x) <= 1 / 2) by exact N.
  assert (B : -1 < IZR (round x) - IZR z < 1). { unfold Rabs in N. destruct (Rcase_abs _); lra. }
  rewrite <- minus_IZR in B. destruct B as [B1 B2]. apply lt_IZR in B1, B2. lia.
Qed.

Lemma inv_bind : forall {A B} (x : outcome A) (f : A -> outcome B) r, bind x f = Ok r -> exists a, x = Ok a /\ f a = Ok r.
Proof. intros A B [a|e|] f r H; cbn in H; [exists a; auto|discriminate|discriminate]. Qed.

(** * Matrices *)
Ltac vec := unfold add3, sub3, scale3, dot3, cross, px, py, pz; cbn [fst snd].
Lemma pt_ext : forall a b : pt, px a = px b -> py a = py b -> pz a = pz b -> a = b.
Proof. intros [[a b] c] [[d e] f]. unfold px, py, pz. cbn. congruence. Qed.
Definition inv_by (k : R) (m : triangle) : triangle :=
  let '(r0, r1, r2) := m in transpose (scale3 k (cross r1 r2), scale3 k (cross r2 r0), scale3 k (cross r0 r1)).
Lemma inv_rows : forall k a b c d e f g h i, inv_by k ((a, b, c), (d, e, f), (g, h, i)) =
  ((k * (e * i - f * h), k * (h * c - i * b), k * (b * f - c * e)), (k * (f * g - d * i), k * (i * a - g * c), k * (c * d - a * f)),
   (k * (d * h - e * g), k * (g * b - h * a), k * (a * e - b * d))).
Proof. reflexivity. Qed.
Lemma comb_rows : forall x y z a b c d e f g h i,
  comb (x, y, z) ((a, b, c), (d, e, f), (g, h, i)) = (x * a + y * d + z * g, x * b + y * e + z * h, x * c + y * f + z * i).
Proof. reflexivity. Qed.
Lemma comb_inv_by : forall k m p, comb (comb p (inv_by k m)) m = scale3 (k * det m) p.
Proof.
  intros k [[[[a b] c] [[d e] f]] [[g h] i]] [[x y] z]. rewrite inv_rows, !comb_rows. unfold scale3, det, Predicates.det3, px, py, pz. cbn [fst snd].
  f_equal; [f_equal|]; ring.
Qed.
Lemma inv_by_comb : forall k m p, comb (comb p m) (inv_by k m) = scale3 (k * det m) p.
Proof.
  intros k [[[[a b] c] [[d e] f]] [[g h] i]] [[x y] z]. rewrite inv_rows, !comb_rows. unfold scale3, det, Predicates.det3, px, py, pz. cbn [fst snd].
  f_equal; [f_equal|]; ring.
Qed.
Lemma inverse_by : forall m, inverse m = inv_by (/ det m) m.
Proof. intros [[a b] c]. reflexivity. Qed.
Lemma scale3_1 : forall p, scale3 1 p = p.
Proof. intros [[x y] z]. vec. rewrite !Rmult_1_l. reflexivity. Qed.
Lemma comb_inverse : forall m p, det m <> 0 -> comb (comb p (inverse m)) m = p.
Proof. intros m p D. rewrite inverse_by, comb_inv_by, Rinv_l by exact D. apply scale3_1. Qed.
Lemma inverse_comb : forall m u, det m <> 0 -> comb (comb u m) (inverse m) = u.
Proof. intros m p D. rewrite inverse_by, inv_by_comb, Rinv_l by exact D. apply scale3_1. Qed.
Lemma comb_add : forall m u v, comb (add3 u v) m = add3 (comb u m) (comb v m).
Proof. intros [[a b] c] u v. unfold comb. vec. f_equal; [f_equal|]; ring. Qed.
Lemma comb_scale : forall m k u, comb (scale3 k u) m = scale3 k (comb u m).
Proof. intros [[a b] c] k u. unfold comb. vec. f_equal; [f_equal|]; ring. Qed.
Lemma comb_sub : forall m u v, comb (sub3 u v) m = sub3 (comb u m) (comb v m).
Proof. intros [[a b] c] u v. unfold comb. vec. f_equal; [f_equal|]; ring. Qed.

Section Frame.
Variables lo hi : pt.
Variable basis : triangle.
Hypothesis D : det basis <> 0.
Notation origin := (origin lo hi basis).
Notation position := (position lo hi basis).
Notation unrounded := (unrounded lo hi basis).

Lemma unrounded_comb : forall u, unrounded (comb (add3 origin u) basis) = u.
Proof using D.
  intros u. unfold PrimitiveLattice.unrounded. rewrite inverse_comb by exact D. apply pt_ext; vec; ring.
Qed.
Lemma comb_unrounded : forall p, comb (add3 origin (unrounded p)) basis = p.
Proof using D.
  intros p. unfold PrimitiveLattice.unrounded. replace (add3 origin (sub3 (comb p (inverse basis)) origin)) with (comb p (inverse basis)) by (apply pt_ext; vec; ring).
  apply comb_inverse. exact D.
Qed.
Theorem unrounded_position : forall x, unrounded (position x) = of_lc x.
Proof using D. intros x. apply unrounded_comb. Qed.
Theorem rounded_position : forall a b c, (-2147483648 <= a <= 2147483647)%Z -> (-2147483648 <= b <= 2147483647)%Z -> (-2147483648 <= c <= 2147483647)%Z ->
  rounded lo hi basis (position (a, b, c)) = Ok (a, b, c).
Proof using D.
  intros a b c A B C. unfold rounded. rewrite unrounded_position. cbn [of_lc]. unfold px, py, pz. cbn [fst snd].
  assert (R : forall z, round (IZR z) = z) by (intros z; apply round_unique; unfold Rminus; rewrite Rplus_opp_r, Rabs_R0; lra).
  rewrite !R, !to_int_ok by assumption. reflexivity.
Qed.
Theorem center_near : forall e, Rabs (coord (unrounded (center lo hi)) e) <= 1 / 2.
Proof using Type.
  intros e. unfold PrimitiveLattice.unrounded, PrimitiveLattice.origin. set (u := comb (center lo hi) (inverse basis)). clearbody u.
  pose proof (round_near (px u)). pose proof (round_near (py u)). pose proof (round_near (pz u)).
  destruct e as [|[|e]]; cbn [coord]; unfold sub3, px, py, pz in *; cbn [fst snd]; rewrite Rabs_minus_sym; assumption.
Qed.

(** * Clamping *)
Lemma clamp_spec : forall a m, m - 0.495 <= Rmin (Rmax a (m - 0.495)) (m + 0.495) <= m + 0.495 /\
  (m - 0.495 <= a <= m + 0.495 -> Rmin (Rmax a (m - 0.495)) (m + 0.495) = a).
Proof using Type.
  intros a m. unfold Rmin, Rmax. destruct (Rle_dec a (m - 0.495)), (Rle_dec _ (m + 0.495)); (split; [lra|intros [A B]; lra]).
Qed.
Theorem clamp_rounds : forall p a b c, (-2147483648 <= a <= 2147483647)%Z -> (-2147483648 <= b <= 2147483647)%Z -> (-2147483648 <= c <= 2147483647)%Z ->
  rounded lo hi basis (clamp_to_node lo hi basis p (a, b, c)) = Ok (a, b, c).
Proof using D.
  intros p a b c A B C. unfold rounded, clamp_to_node. rewrite unrounded_comb. cbn [of_lc]. unfold px, py, pz. cbn [fst snd].
  assert (R : forall x z, round (Rmin (Rmax x (IZR z - 0.495)) (IZR z + 0.495)) = z).
  { intros x z. apply round_unique. destruct (clamp_spec x (IZR z)) as [H _]. apply Rabs_def1; lra. }
  rewrite !R, !to_int_ok by assumption. reflexivity.
Qed.
Theorem clamp_keeps : forall p x, (forall e, Rabs (coord (unrounded p) e - coord (of_lc x) e) <= 0.495) -> clamp_to_node lo hi basis p x = p.
Proof using D.
  intros p x H. unfold clamp_to_node. rewrite <- (comb_unrounded p) at 4. f_equal. f_equal.
  assert (K : forall e, Rmin (Rmax (coord (unrounded p) e) (coord (of_lc x) e - 0.495)) (coord (of_lc x) e + 0.495) = coord (unrounded p) e).
  { intros e. apply clamp_spec. specialize (H e). unfold Rabs in H. destruct (Rcase_abs _); lra. }
  apply pt_ext; [apply (K 0%nat)|apply (K 1%nat)|apply (K 2%nat)].
Qed.

(** * The extended boxes *)
Notation nlo := (lo_of (hd (0, 0, 0) (neighbors basis)) (tl (neighbors basis))).
Notation nhi := (hi_of (hd (0, 0, 0) (neighbors basis)) (tl (neighbors basis))).
Lemma fold_box : forall xs x e, In e (x :: xs) -> box (lo_of x xs) (hi_of x xs) e.
Proof using Type.
  assert (G : forall xs l h, px l <= px h -> py l <= py h -> pz l <= pz h ->
     (forall e, box l h e \/ In e xs -> box (fold_left Predicates.lo2 xs l) (fold_left Predicates.hi2 xs h) e)).
  { induction xs as [|y xs IH]; intros l h X Y Z e H; cbn [fold_left].
    - destruct H as [H|[]]. exact H.
    - apply IH; cbn [Predicates.lo2 Predicates.hi2 px py pz fst snd].
      + unfold Predicates.lo2, Predicates.hi2, px, py, pz in *. cbn [fst snd]. pose proof (Rmin_l (fst (fst l)) (fst (fst y))). pose proof (Rmax_l (fst (fst h)) (fst (fst y))). lra.
      + unfold Predicates.lo2, Predicates.hi2, px, py, pz in *. cbn [fst snd]. pose proof (Rmin_l (snd (fst l)) (snd (fst y))). pose proof (Rmax_l (snd (fst h)) (snd (fst y))). lra.
      + unfold Predicates.lo2, Predicates.hi2, px, py, pz in *. cbn [fst snd]. pose proof (Rmin_l (snd l) (snd y)). pose proof (Rmax_l (snd h) (snd y)). lra.
      + destruct H as [H|[->|H]]; [left|left|right; auto].
        * unfold box, Predicates.lo2, Predicates.hi2, px, py, pz in *. cbn [fst snd].
          pose proof (Rmin_l (fst (fst l)) (fst (fst y))). pose proof (Rmax_l (fst (fst h)) (fst (fst y))).
          pose proof (Rmin_l (snd (fst l)) (snd (fst y))). pose proof (Rmax_l (snd (fst h)) (snd (fst y))).
          pose proof (Rmin_l (snd l) (snd y)). pose proof (Rmax_l (snd h) (snd y)). lra.
        * unfold box, Predicates.lo2, Predicates.hi2, px, py, pz in *. cbn [fst snd].
          pose proof (Rmin_r (fst (fst l)) (fst (fst e))). pose proof (Rmax_r (fst (fst h)) (fst (fst e))).
          pose proof (Rmin_r (snd (fst l)) (snd (fst e))). pose proof (Rmax_r (snd (fst h)) (snd (fst e))).
          pose proof (Rmin_r (snd l) (snd e)). pose proof (Rmax_r (snd h) (snd e)). lra. }
  intros xs x e H. apply G; try lra. destruct H as [->|H]; [left; unfold box; lra|auto].
Qed.
Lemma neighbor_box : forall d, In d deltas -> box nlo nhi (comb (of_lc d) basis).
Proof using Type. intros d I. apply fold_box. apply (in_map (fun d => comb (of_lc d) basis)) in I. exact I. Qed.

Lemma box_coord : forall l h x, box l h x <-> forall e, coord l e <= coord x e <= coord h e.
Proof using Type.
  intros l h x. split; [intros (A & B & C) [|[|e]]; assumption|intros H; exact (conj (H 0%nat) (conj (H 1%nat) (H 2%nat)))].
Qed.
Notation row0 := (fst (fst basis)).
Notation row1 := (snd (fst basis)).
Notation row2 := (snd basis).
Lemma coord_comb : forall u e, coord (comb u basis) e = px u * coord row0 e + py u * coord row1 e + pz u * coord row2 e.
Proof using Type. clear D. intros u e. destruct basis as [[r0 r1] r2]. destruct e as [|[|e]]; reflexivity. Qed.
Lemma coord_add : forall u v e, coord (add3 u v) e = coord u e + coord v e.
Proof using Type. intros u v [|[|e]]; reflexivity. Qed.
Lemma coord_sub : forall u v e, coord (sub3 u v) e = coord u e - coord v e.
Proof using Type. intros u v [|[|e]]; reflexivity. Qed.
Lemma coord_scale : forall k u e, coord (scale3 k u) e = k * coord u e.
Proof using Type. intros k u [|[|e]]; reflexivity. Qed.
Lemma axis_delta : forall e x y z, In (x, y, z) deltas ->
  coord nlo e <= IZR x * coord row0 e + IZR y * coord row1 e + IZR z * coord row2 e <= coord nhi e.
Proof using Type.
  intros e x y z I. pose proof (proj1 (box_coord _ _ _) (neighbor_box _ I) e) as H. rewrite coord_comb in H. exact H.
Qed.
Lemma axis_nonzero : forall e, coord row0 e <> 0 \/ coord row1 e <> 0 \/ coord row2 e <> 0.
Proof using D.
  intros e. destruct (Req_dec (coord row0 e) 0) as [A|]; [|left; assumption]. destruct (Req_dec (coord row1 e) 0) as [B|]; [|right; left; assumption].
  right. right. intros C. apply D. destruct basis as [[r0 r1] r2]. unfold det, Predicates.det3. cbn [fst snd] in A, B, C. destruct e as [|[|e]]; cbn [coord] in A, B, C; rewrite A, B, C; ring.
Qed.
Ltac delta e x y z := let H := fresh "A" in assert (H := axis_delta e x y z ltac:(unfold deltas; cbn [In]; tauto)).
Lemma extends : forall e, coord nlo e < 0 < coord nhi e.
Proof using D.
  intros e. destruct (axis_nonzero e) as [N|[N|N]].
  - delta e 1%Z 0%Z 0%Z. delta e (-1)%Z 0%Z 0%Z. destruct (Rtotal_order (coord row0 e) 0) as [L|[E|L]]; [lra|contradiction|lra].
  - delta e 0%Z 1%Z 0%Z. delta e 0%Z (-1)%Z 0%Z. destruct (Rtotal_order (coord row1 e) 0) as [L|[E|L]]; [lra|contradiction|lra].
  - delta e 0%Z 0%Z 1%Z. delta e 0%Z 0%Z (-1)%Z. destruct (Rtotal_order (coord row2 e) 0) as [L|[E|L]]; [lra|contradiction|lra].
Qed.
Lemma half_mult : forall u a, Rabs u <= 1 / 2 -> - Rabs a / 2 <= u * a <= Rabs a / 2.
Proof using Type.
  intros u a H. assert (A : Rabs (u * a) <= Rabs a / 2). { rewrite Rabs_mult. pose proof (Rabs_pos a). nra. }
  pose proof (Rle_abs (u * a)). pose proof (Rle_abs (- (u * a))). rewrite Rabs_Ropp in *. lra.
Qed.
Lemma half_cube : forall u, (forall e, Rabs (coord u e) <= 1 / 2) -> box nlo nhi (comb u basis).
Proof using Type.
  intros u H. apply box_coord. intros e. rewrite coord_comb.
  pose proof (half_mult _ (coord row0 e) (H 0%nat)) as P. pose proof (half_mult _ (coord row1 e) (H 1%nat)) as Q. pose proof (half_mult _ (coord row2 e) (H 2%nat)) as S. cbn [coord] in P, Q, S.
  delta e 1%Z 0%Z 0%Z. delta e (-1)%Z 0%Z 0%Z. delta e 0%Z 1%Z 0%Z. delta e 0%Z (-1)%Z 0%Z. delta e 0%Z 0%Z 1%Z. delta e 0%Z 0%Z (-1)%Z.
  delta e 1%Z 0%Z 1%Z. delta e (-1)%Z 0%Z (-1)%Z. delta e 1%Z 1%Z 0%Z. delta e (-1)%Z (-1)%Z 0%Z. delta e 0%Z 1%Z 1%Z. delta e 0%Z (-1)%Z (-1)%Z. delta e 1%Z 1%Z 1%Z. delta e (-1)%Z (-1)%Z (-1)%Z.
  unfold Rabs in P, Q, S. destruct (Rcase_abs (coord row0 e)), (Rcase_abs (coord row1 e)), (Rcase_abs (coord row2 e)); lra.
Qed.
Notation lo1 := (ext_lo lo basis 1).
Notation hi1 := (ext_hi hi basis 1).
Notation lo2 := (ext_lo lo basis 2).
Notation hi2 := (ext_hi hi basis 2).
Lemma ext_lo_coord : forall k e, coord (ext_lo lo basis k) e = coord lo e + k * 1.01 * coord nlo e.
Proof using Type. intros k e. unfold ext_lo. rewrite coord_add, coord_scale. reflexivity. Qed.
Lemma ext_hi_coord : forall k e, coord (ext_hi hi basis k) e = coord hi e + k * 1.01 * coord nhi e.
Proof using Type. intros k e. unfold ext_hi. rewrite coord_add, coord_scale. reflexivity. Qed.
Lemma near_sampled : forall p v, box lo hi p -> box nlo nhi v -> box lo1 hi1 (add3 p v).
Proof using D.
  intros p v P V. apply box_coord. intros e. rewrite coord_add, ext_lo_coord, ext_hi_coord. pose proof (proj1 (box_coord _ _ _) P e). pose proof (proj1 (box_coord _ _ _) V e).
  pose proof (extends e). lra.
Qed.
Theorem rounded_sampled : forall p x, box lo hi p -> rounded lo hi basis p = Ok x -> box lo1 hi1 (position x).
Proof using D.
  intros p x B H. replace (position x) with (add3 p (comb (sub3 (of_lc x) (unrounded p)) basis)).
  - apply near_sampled; [exact B|]. apply half_cube. intros e. rewrite coord_sub. unfold rounded in H.
    apply inv_bind in H. destruct H as (a & A & H). apply inv_bind in H. destruct H as (b & B' & H). apply inv_bind in H. destruct H as (c & C & H).
    apply to_int_inv in A, B', C. inversion H; subst. cbn [of_lc]. destruct e as [|[|e]]; unfold coord; apply round_near.
  - rewrite comb_sub. rewrite <- (comb_unrounded p) at 1. rewrite comb_add. unfold PrimitiveLattice.position. rewrite comb_add. apply pt_ext; vec; ring.
Qed.
Lemma of_lc_neighbor : forall x d, of_lc (lc_add x d) = add3 (of_lc x) (of_lc d).
Proof using Type. intros [[a b] c] [[d e] f]. unfold lc_add, of_lc. rewrite !plus_IZR. reflexivity. Qed.
Lemma position_delta : forall x d, position (lc_add x d) = add3 (position x) (comb (of_lc d) basis).
Proof using Type. intros x d. unfold PrimitiveLattice.position. rewrite of_lc_neighbor, !comb_add. apply pt_ext; vec; ring. Qed.
Lemma delta_in : forall e, (e < 14)%nat -> In (nth e deltas (0, 0, 0)%Z) deltas.
Proof using Type. intros e L. apply nth_In. exact L. Qed.
Theorem neighbor_sampled : forall x e, (e < 14)%nat -> box lo1 hi1 (position x) -> box lo2 hi2 (position (neighbor x e)).
Proof using D.
  intros x e L B. unfold neighbor. rewrite position_delta. pose proof (neighbor_box _ (delta_in e L)) as V. apply box_coord. intros k.
  pose proof (proj1 (box_coord _ _ _) B k) as P. pose proof (proj1 (box_coord _ _ _) V k) as Q. rewrite coord_add, ext_lo_coord, ext_hi_coord in *. pose proof (extends k). lra.
Qed.
End Frame.
