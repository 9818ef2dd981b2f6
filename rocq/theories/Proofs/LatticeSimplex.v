From Coq Require Import Reals ZArith List Bool Permutation Lia Lra.
From Verif Require Import Proofs.BoxPlane Proofs.Variogram Proofs.PrimitiveLattice Proofs.LatticeRanges Proofs.LatticeSurface.
From Verif Require Import Model.Outcome Model.Clip Model.PointTriangle Model.Predicates Model.Variogram Model.Lattice Model.PrimitiveLattice
  Spec.Lattice Spec.PrimitiveLattice.
Import ListNotations.
Local Open Scope R_scope.

Lemma frac_range : forall x, 0 <= frac x < 1.
Proof. intros x. unfold frac. pose proof (floor_range x). lra. Qed.
Lemma frac_floor : forall x, x = IZR (floor x) + frac x.
Proof. intros x. unfold frac. ring. Qed.

(** Barycentric coordinates are unique. *)
Theorem barycentric_mix : forall w a b c d, weights w -> volume a b c d <> 0 -> barycentric (mix w a b c d) a b c d = w.
Proof.
  intros [[[wa wb] wc] wd] a b c d (_ & _ & _ & _ & S) V. unfold barycentric. assert (E : wa = 1 - wb - wc - wd) by lra. clear S.
  assert (A : volume b d c (mix (wa, wb, wc, wd) a b c d) = wa * volume a b c d) by (subst wa; unfold volume, mix; vec; field).
  assert (B : volume a c d (mix (wa, wb, wc, wd) a b c d) = wb * volume a b c d) by (subst wa; unfold volume, mix; vec; field).
  assert (C : volume a d b (mix (wa, wb, wc, wd) a b c d) = wc * volume a b c d) by (subst wa; unfold volume, mix; vec; field).
  assert (F : volume a b c (mix (wa, wb, wc, wd) a b c d) = wd * volume a b c d) by (subst wa; unfold volume, mix; vec; field).
  rewrite A, B, C, F. f_equal; [f_equal; [f_equal|]|]; field; exact V.
Qed.

Section Simplex.
Variables lo hi : pt.
Variable basis : triangle.
Hypothesis D : det basis <> 0.
Notation origin := (origin lo hi basis).
Notation position := (position lo hi basis).
Notation unrounded := (unrounded lo hi basis).

Lemma position_steps : forall x d, position (lc_add x d) = comb (add3 (add3 origin (of_lc x)) (of_lc d)) basis.
Proof using Type. intros x d. unfold PrimitiveLattice.position. rewrite of_lc_neighbor. f_equal. apply pt_ext; vec; ring. Qed.
Lemma mix_comb : forall w a b c d, mix w (comb a basis) (comb b basis) (comb c basis) (comb d basis) = comb (mix w a b c d) basis.
Proof using Type. intros [[[wa wb] wc] wd] a b c d. unfold mix. rewrite !comb_add, !comb_scale. reflexivity. Qed.
Lemma volume_steps : forall o u v w, volume (comb o basis) (comb (add3 o u) basis) (comb (add3 o v) basis) (comb (add3 o w) basis) = Predicates.det3 u v w * det basis / 6.
Proof using Type.
  clear D. intros o u v w. unfold volume. rewrite !comb_add.
  replace (sub3 (add3 (comb o basis) (comb u basis)) (comb o basis)) with (comb u basis) by (apply pt_ext; vec; ring).
  replace (sub3 (add3 (comb o basis) (comb v basis)) (comb o basis)) with (comb v basis) by (apply pt_ext; vec; ring).
  replace (sub3 (add3 (comb o basis) (comb w basis)) (comb o basis)) with (comb w basis) by (apply pt_ext; vec; ring).
  f_equal. destruct basis as [[[[a b] c] [[d e] f]] [[g h] i]], u as [[u0 u1] u2], v as [[v0 v1] v2], w as [[w0 w1] w2]. rewrite !comb_rows. unfold det, Predicates.det3. vec. ring.
Qed.

Lemma comb_position : forall x, comb (add3 origin (of_lc x)) basis = position x.
Proof using Type. reflexivity. Qed.
Lemma tet_corners : forall p x d1 d2 w, let f := (px (unrounded p) - px (of_lc x), py (unrounded p) - py (of_lc x), pz (unrounded p) - pz (of_lc x)) in
  weights w -> mix w (0, 0, 0) (of_lc d1) (of_lc d2) (1, 1, 1) = f ->
  p = mix w (position x) (position (lc_add x d1)) (position (lc_add x d2)) (position (lc_add x (1, 1, 1)%Z)).
Proof using D.
  intros p x d1 d2 w f S M. rewrite !position_steps. rewrite <- comb_position. rewrite mix_comb. rewrite <- (comb_unrounded lo hi basis D p) at 1. f_equal.
  destruct w as [[[wa wb] wc] wd]. destruct S as (_ & _ & _ & _ & S). assert (E : wa = 1 - wb - wc - wd) by lra. clear S. subst wa. unfold mix in *. unfold f in M. clear f.
  change (of_lc (1, 1, 1)%Z) with (1, 1, 1). set (u := unrounded p) in *. set (o := origin) in *. set (y := of_lc x) in *. clearbody u o y.
  assert (A := f_equal px M). assert (B := f_equal py M). assert (C := f_equal pz M). clear M. revert A B C. vec. intros A B C.
  apply pt_ext; vec; lra.
Qed.

Lemma perm3 : forall i j k : nat, Permutation [i; j; k] [0; 1; 2]%nat ->
  In (i, j, k) [(0, 1, 2); (0, 2, 1); (1, 0, 2); (1, 2, 0); (2, 0, 1); (2, 1, 0)]%nat.
Proof using Type.
  clear D. intros i j k P.
  assert (N : NoDup [i; j; k]) by (apply (Permutation_NoDup (Permutation_sym P)); repeat constructor; cbn; intuition lia).
  assert (A : forall x, In x [i; j; k] -> (x < 3)%nat) by (intros x I; apply (Permutation_in _ P) in I; cbn in I; lia).
  assert (Ai := A i (or_introl eq_refl)). assert (Aj := A j (or_intror (or_introl eq_refl))). assert (Ak := A k (or_intror (or_intror (or_introl eq_refl)))). clear A P.
  inversion N as [|? ? N1 N2]; subst. inversion N2 as [|? ? N3 _]; subst. cbn in N1, N3.
  destruct i as [|[|[|i]]]; try lia; destruct j as [|[|[|j]]]; try lia; destruct k as [|[|[|k]]]; try lia; cbn; tauto.
Qed.
Lemma simplex_at : forall x a b c, In (a, b, c) [((1, 0, 0), (0, 1, 0), (0, 0, 1)); ((1, 0, 0), (0, 0, 1), (0, 1, 0)); ((0, 1, 0), (1, 0, 0), (0, 0, 1));
    ((0, 1, 0), (0, 0, 1), (1, 0, 0)); ((0, 0, 1), (1, 0, 0), (0, 1, 0)); ((0, 0, 1), (0, 1, 0), (1, 0, 0))]%Z ->
  simplex [x; lc_add x a; lc_add (lc_add x a) b; lc_add (lc_add (lc_add x a) b) c].
Proof using Type.
  clear D. intros x a b c I. exists x, a, b, c. split; [|reflexivity]. unfold axes.
  assert (S12 : forall (u v w : lc) l, Permutation [u; v; w] l -> Permutation [v; u; w] l) by (intros u v w l H; eapply perm_trans; [apply perm_swap|exact H]).
  assert (S23 : forall (u v w : lc) l, Permutation [u; v; w] l -> Permutation [u; w; v] l) by (intros u v w l H; eapply perm_trans; [apply perm_skip, perm_swap|exact H]).
  cbn [In] in I. repeat (destruct I as [I|I]; [inversion I; subst; clear I|]); [| | | | | |destruct I];
    first [apply Permutation_refl|apply S23, Permutation_refl|apply S12, Permutation_refl|apply S12, S23, Permutation_refl|apply S23, S12, Permutation_refl|apply S12, S23, S12, Permutation_refl].
Qed.

(** [S] is a tetrahedron of the lattice, its corners in the order of the code, with the coordinates [w] of [p]. *)
Theorem tetrahedron_spec : forall p r,
  (forall e, -2147483647 <= coord (unrounded p) e <= 2147483646) -> sorts_axes (unrounded p) r ->
  exists a b c d w, tetrahedron lo hi basis r p = Ok (a, b, c, d) /\
    (exists S, simplex S /\ Permutation S [a; b; c; d]) /\
    weights w /\ p = mix w (position a) (position b) (position c) (position d) /\
    volume (position a) (position b) (position c) (position d) = det basis / 6.
Proof using D.
  intros p [[i j] k] B [P O]. apply perm3 in P.
  set (a := floor (px (unrounded p))). set (b := floor (py (unrounded p))). set (c := floor (pz (unrounded p))). set (x := (a, b, c)).
  set (f0 := frac (px (unrounded p))). set (f1 := frac (py (unrounded p))). set (f2 := frac (pz (unrounded p))).
  assert (R0 : 0 <= f0 < 1) by apply frac_range. assert (R1 : 0 <= f1 < 1) by apply frac_range. assert (R2 : 0 <= f2 < 1) by apply frac_range.
  assert (FX : (px (unrounded p) - px (of_lc x), py (unrounded p) - py (of_lc x), pz (unrounded p) - pz (of_lc x)) = (f0, f1, f2)) by reflexivity.
  assert (T : forall d1 d2 w s1 s2 s3, 
    tetrahedron lo hi basis (i, j, k) p = Ok (x, lc_add x d1, lc_add x d2, lc_add x (1, 1, 1)%Z) ->
    weights w -> mix w (0, 0, 0) (of_lc d1) (of_lc d2) (1, 1, 1) = (f0, f1, f2) -> Predicates.det3 (of_lc d1) (of_lc d2) (1, 1, 1) = 1 ->
    In (s1, s2, s3) [((1, 0, 0), (0, 1, 0), (0, 0, 1)); ((1, 0, 0), (0, 0, 1), (0, 1, 0)); ((0, 1, 0), (1, 0, 0), (0, 0, 1));
      ((0, 1, 0), (0, 0, 1), (1, 0, 0)); ((0, 0, 1), (1, 0, 0), (0, 1, 0)); ((0, 0, 1), (0, 1, 0), (1, 0, 0))]%Z ->
    (d1 = s1 /\ d2 = lc_add s1 s2 \/ d2 = s1 /\ d1 = lc_add s1 s2) ->
    exists a b c d w, tetrahedron lo hi basis (i, j, k) p = Ok (a, b, c, d) /\
      (exists S, simplex S /\ Permutation S [a; b; c; d]) /\
      weights w /\ p = mix w (position a) (position b) (position c) (position d) /\
      volume (position a) (position b) (position c) (position d) = det basis / 6).
  { intros d1 d2 w s1 s2 s3 E S M V I C. exists x, (lc_add x d1), (lc_add x d2), (lc_add x (1, 1, 1)%Z), w. split; [exact E|]. split.
    - exists [x; lc_add x s1; lc_add (lc_add x s1) s2; lc_add (lc_add (lc_add x s1) s2) s3]. split; [apply simplex_at; exact I|].
      assert (A2 : lc_add (lc_add x s1) s2 = lc_add x (lc_add s1 s2)) by (destruct x as [[x0 x1] x2], s1 as [[u0 u1] u2], s2 as [[v0 v1] v2]; unfold lc_add; rewrite <- !Z.add_assoc; reflexivity).
      assert (A3 : lc_add (lc_add (lc_add x s1) s2) s3 = lc_add x (1, 1, 1)%Z).
      { clear - I. destruct x as [[x0 x1] x2]. cbn [In] in I. repeat (destruct I as [I|I]; [inversion I; subst; clear I; unfold lc_add; f_equal; [f_equal|]; lia|]). destruct I. }
      rewrite A3, A2. destruct C as [[-> ->]|[-> ->]]; [apply Permutation_refl|]. apply perm_skip. apply perm_swap.
    - split; [exact S|]. split; [apply tet_corners; [exact S|rewrite FX; exact M]|]. rewrite !position_steps, <- comb_position.
      change (of_lc (1, 1, 1)%Z) with (1, 1, 1). rewrite volume_steps, V. field. }
  assert (E0 : to_int a = Ok a) by (apply floor_int; apply (B 0%nat)). assert (E1 : to_int b = Ok b) by (apply floor_int; apply (B 1%nat)). assert (E2 : to_int c = Ok c) by (apply floor_int; apply (B 2%nat)).
  assert (W : forall u v w, 0 <= u <= v -> v <= w < 1 -> weights (1 - w, w - v, v - u, u)) by (intros u v w X Y; unfold weights; split; [lra|]; split; [lra|]; split; [lra|]; split; lra).
  assert (W' : forall u v w, 0 <= u <= v -> v <= w < 1 -> weights (1 - w, v - u, w - v, u)) by (intros u v w X Y; unfold weights; split; [lra|]; split; [lra|]; split; [lra|]; split; lra).
  cbn [In] in P. unfold tetrahedron in T. fold a b c in T. rewrite E0, E1, E2 in T. cbn [bind] in T. unfold tetrahedron. fold a b c. rewrite E0, E1, E2. cbn [bind]. fold x in T |- *.
  repeat (destruct P as [P|P]; [inversion P; subst i j k; clear P; cbn [coord] in O; fold f0 f1 f2 in O|]); [| | | | | |destruct P].
  - apply (T (0, 1, 1)%Z (0, 0, 1)%Z (1 - f2, f1 - f0, f2 - f1, f0) (0, 0, 1)%Z (0, 1, 0)%Z (1, 0, 0)%Z); [reflexivity|apply W'; lra|unfold mix; cbn [of_lc]; vec; f_equal; [f_equal|]; ring|unfold Predicates.det3; cbn [of_lc]; vec; ring|cbn [In]; tauto|right; split; reflexivity].
  - apply (T (0, 1, 0)%Z (0, 1, 1)%Z (1 - f1, f1 - f2, f2 - f0, f0) (0, 1, 0)%Z (0, 0, 1)%Z (1, 0, 0)%Z); [reflexivity|apply W; lra|unfold mix; cbn [of_lc]; vec; f_equal; [f_equal|]; ring|unfold Predicates.det3; cbn [of_lc]; vec; ring|cbn [In]; tauto|left; split; reflexivity].
  - apply (T (0, 0, 1)%Z (1, 0, 1)%Z (1 - f2, f2 - f0, f0 - f1, f1) (0, 0, 1)%Z (1, 0, 0)%Z (0, 1, 0)%Z); [reflexivity|apply W; lra|unfold mix; cbn [of_lc]; vec; f_equal; [f_equal|]; ring|unfold Predicates.det3; cbn [of_lc]; vec; ring|cbn [In]; tauto|left; split; reflexivity].
  - apply (T (1, 0, 1)%Z (1, 0, 0)%Z (1 - f0, f2 - f1, f0 - f2, f1) (1, 0, 0)%Z (0, 0, 1)%Z (0, 1, 0)%Z); [reflexivity|apply W'; lra|unfold mix; cbn [of_lc]; vec; f_equal; [f_equal|]; ring|unfold Predicates.det3; cbn [of_lc]; vec; ring|cbn [In]; tauto|right; split; reflexivity].
  - apply (T (1, 1, 0)%Z (0, 1, 0)%Z (1 - f1, f0 - f2, f1 - f0, f2) (0, 1, 0)%Z (1, 0, 0)%Z (0, 0, 1)%Z); [reflexivity|apply W'; lra|unfold mix; cbn [of_lc]; vec; f_equal; [f_equal|]; ring|unfold Predicates.det3; cbn [of_lc]; vec; ring|cbn [In]; tauto|right; split; reflexivity].
  - apply (T (1, 0, 0)%Z (1, 1, 0)%Z (1 - f0, f0 - f1, f1 - f2, f2) (1, 0, 0)%Z (0, 1, 0)%Z (0, 0, 1)%Z); [reflexivity|apply W; lra|unfold mix; cbn [of_lc]; vec; f_equal; [f_equal|]; ring|unfold Predicates.det3; cbn [of_lc]; vec; ring|cbn [In]; tauto|left; split; reflexivity].
Qed.

(** All corners of a tetrahedron with a corner, or a point of the box, are sampled. *)
Lemma mix_near : forall p w a b c d x S, weights w -> p = mix w (position a) (position b) (position c) (position d) ->
  simplex S -> Permutation S [a; b; c; d] -> box lo hi p -> In x S -> box (ext_lo lo basis 1) (ext_hi hi basis 1) (position x).
Proof using D.
  intros p [[[wa wb] wc] wd] a b c d x S (Wa & Wb & Wc & Wd & Ws) M SS P B I.
  assert (N : forall y, In y S -> box (lo_of (hd (0, 0, 0) (neighbors basis)) (tl (neighbors basis))) (hi_of (hd (0, 0, 0) (neighbors basis)) (tl (neighbors basis))) (sub3 (position x) (position y))).
  { intros y J. destruct (simplex_adjacent S y x SS J I) as [->|(e & L & ->)].
    - apply box_coord. intros k. rewrite coord_sub. pose proof (extends basis D k). lra.
    - unfold neighbor. rewrite position_delta. replace (sub3 (add3 (position y) (comb (of_lc (nth e deltas (0, 0, 0)%Z)) basis)) (position y)) with (comb (of_lc (nth e deltas (0, 0, 0)%Z)) basis) by (apply pt_ext; vec; ring).
      apply neighbor_box. apply delta_in. exact L. }
  replace (position x) with (add3 p (sub3 (position x) p)) by (apply pt_ext; vec; ring). apply near_sampled; [exact D|exact B|]. apply box_coord. intros k. rewrite coord_sub, M.
  assert (K : forall y, In y [a; b; c; d] -> coord (lo_of (hd (0, 0, 0) (neighbors basis)) (tl (neighbors basis))) k <= coord (position x) k - coord (position y) k <= coord (hi_of (hd (0, 0, 0) (neighbors basis)) (tl (neighbors basis))) k).
  { intros y J. rewrite <- coord_sub. apply (proj1 (box_coord _ _ _)). apply N. apply (Permutation_in _ (Permutation_sym P)). exact J. }
  pose proof (K a ltac:(cbn; auto)) as Ka. pose proof (K b ltac:(cbn; auto)) as Kb. pose proof (K c ltac:(cbn; auto)) as Kc. pose proof (K d ltac:(cbn; auto)) as Kd. clear K N.
  unfold mix. rewrite !coord_add, !coord_scale. set (X := coord (position x) k) in *. set (A := coord (position a) k) in *. set (B' := coord (position b) k) in *. set (C := coord (position c) k) in *. set (E := coord (position d) k) in *.
  set (L := coord (lo_of _ _) k) in *. set (H := coord (hi_of _ _) k) in *. clearbody X A B' C E L H. assert (Q : wa = 1 - wb - wc - wd) by lra.
  assert (T : X - (wa * A + wb * B' + wc * C + wd * E) = wa * (X - A) + wb * (X - B') + wc * (X - C) + wd * (X - E)) by (subst wa; ring). rewrite T.
  assert (L4 : L = wa * L + wb * L + wc * L + wd * L) by (subst wa; ring). assert (H4 : H = wa * H + wb * H + wc * H + wd * H) by (subst wa; ring).
  assert (G : forall w u, 0 <= w -> L <= u <= H -> w * L <= w * u <= w * H) by (intros w u V U; split; apply Rmult_le_compat_l; lra).
  pose proof (G _ _ Wa Ka). pose proof (G _ _ Wb Kb). pose proof (G _ _ Wc Kc). pose proof (G _ _ Wd Kd). lra.
Qed.
Theorem interior_full : forall S x y, simplex S -> In x S -> In y S -> box (ext_lo lo basis 1) (ext_hi hi basis 1) (position x) -> box (ext_lo lo basis 2) (ext_hi hi basis 2) (position y).
Proof using D.
  intros S x y SS I J B. destruct (simplex_adjacent S x y SS I J) as [->|(e & L & ->)]; [|apply neighbor_sampled; [exact D|exact L|exact B]].
  apply box_coord. intros k. pose proof (proj1 (box_coord _ _ _) B k) as Bk. rewrite ext_lo_coord, ext_hi_coord in *. pose proof (extends basis D k). lra.
Qed.
End Simplex.
