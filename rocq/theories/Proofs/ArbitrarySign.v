From Coq Require Import Reals List ZArith Bool Permutation Lia Lra.
From Verif Require Import Proofs.LatticeVertices Proofs.LatticeLayers Proofs.LatticeSurface Proofs.LatticeSimplex Proofs.PrimitiveLattice.
From Verif Require Import Model.Outcome Model.Clip Model.PointTriangle Model.Predicates Model.Variogram Model.Solver Model.Lattice Model.PrimitiveLattice Model.ArbitrarySign Spec.PrimitiveLattice Spec.Lattice Spec.ArbitrarySign.
Import ListNotations.
Local Open Scope R_scope.

(** ** Telling values *)
Lemma tell_length : forall tet vs x v, length (tell_values tet vs x v) = length vs.
Proof. induction tet as [|t tet IH]; intros [|o vs] x v; cbn; auto. destruct (lc_eqb t x); cbn; auto. Qed.
Lemma tell_nth : forall tet vs x v k t, NoDup tet -> length vs = length tet -> nth_error tet k = Some t ->
  nth_error (tell_values tet vs x v) k = if lc_eqb t x then Some (Some v) else nth_error vs k.
Proof.
  induction tet as [|t0 tet IH]; intros [|o vs] x v k t ND L K; try discriminate L; [destruct k; discriminate K|]. inversion ND; subst. cbn [tell_values]. destruct k as [|k]; cbn [nth_error] in *.
  - injection K as ->. destruct (lc_eqb t x); reflexivity.
  - destruct (lc_eqb t0 x) eqn:E0.
    + cbn [nth_error]. destruct (lc_eqb t x) eqn:E1; auto. apply lc_eqb_true in E0, E1. subst. exfalso. apply H1. eapply nth_error_In; eauto.
    + cbn [nth_error]. apply IH; auto.
Qed.
Definition told (field : lc -> num) (xs : list lc) (t : lc) : option num := if existsb (lc_eqb t) xs then Some (field t) else None.
Lemma tell_all_values : forall field xs i, NoDup (i_tet i) -> length (i_values i) = length (i_tet i) ->
  let j := tell_all field i xs in i_tet j = i_tet i /\ i_weights j = i_weights i /\ length (i_values j) = length (i_tet i) /\
  forall k t, nth_error (i_tet i) k = Some t -> nth_error (i_values j) k = if existsb (lc_eqb t) xs then Some (Some (field t)) else nth_error (i_values i) k.
Proof.
  intros field. unfold tell_all. induction xs as [|x xs IH]; intros i ND L; cbn [fold_left existsb].
  - split; auto.
  - destruct (IH (tell i x (field x))) as (A & B & C & D); cbn [tell i_tet i_values i_weights]; auto; [rewrite tell_length; auto|].
    cbn [tell i_tet i_values i_weights] in *. split; auto. split; auto. split; auto. intros k t K. rewrite (D k t K), (tell_nth _ _ x (field x) k t ND L K).
    destruct (lc_eqb t x) eqn:E; cbn [orb]; auto. apply lc_eqb_true in E. subst. destruct (existsb _ xs); auto.
Qed.
Lemma told_four : forall field xs a b c d w, NoDup [a; b; c; d] ->
  i_values (tell_all field (Interpolated [a; b; c; d] w [None; None; None; None]) xs) = map (told field xs) [a; b; c; d].
Proof.
  intros field xs a b c d w ND. destruct (tell_all_values field xs (Interpolated [a; b; c; d] w [None; None; None; None]) ND eq_refl) as (_ & _ & L & K). cbn [i_tet i_values] in *.
  set (vs := i_values _) in *. destruct vs as [|v0 [|v1 [|v2 [|v3 [|v4 vs]]]]]; try discriminate L.
  pose proof (K 0%nat a eq_refl) as K0. pose proof (K 1%nat b eq_refl) as K1. pose proof (K 2%nat c eq_refl) as K2. pose proof (K 3%nat d eq_refl) as K3. cbn [nth_error] in *.
  cbn [map]. unfold told. destruct (existsb _ xs); destruct (existsb _ xs); destruct (existsb _ xs); destruct (existsb _ xs); congruence.
Qed.
Lemma told_in : forall field xs t, told field xs t = None <-> ~ In t xs.
Proof.
  intros field xs t. unfold told. destruct (existsb (lc_eqb t) xs) eqn:E.
  - apply existsb_exists in E. destruct E as (y & Y & E). apply lc_eqb_true in E. subst. split; [discriminate|tauto].
  - split; auto. intros _ I0. assert (existsb (lc_eqb t) xs = true); [|congruence]. apply existsb_exists. exists t. split; auto. apply lc_eqb_true. auto.
Qed.
Lemma told_some : forall field xs t, In t xs -> told field xs t = Some (field t).
Proof. intros field xs t I0. unfold told. replace (existsb (lc_eqb t) xs) with true; auto. symmetry. apply existsb_exists. exists t. split; auto. apply lc_eqb_true. auto. Qed.
Lemma value_told : forall field xs a b c d wa wb wc wd, NoDup [a; b; c; d] ->
  let i := tell_all field (Interpolated [a; b; c; d] [wa; wb; wc; wd] [None; None; None; None]) xs in
  (incl [a; b; c; d] xs -> exists v, interpolated_value i = Ok v /\ mean_of (wa, wb, wc, wd) (field a) (field b) (field c) (field d) v) /\
  (~ incl [a; b; c; d] xs -> interpolated_value i = Throw ExRuntimeError).
Proof.
  intros field xs a b c d wa wb wc wd ND i. unfold interpolated_value, i. rewrite (told_four field xs a b c d _ ND).
  assert (W : i_weights (tell_all field (Interpolated [a; b; c; d] [wa; wb; wc; wd] [None; None; None; None]) xs) = [wa; wb; wc; wd]).
  { destruct (tell_all_values field xs (Interpolated [a; b; c; d] [wa; wb; wc; wd] [None; None; None; None]) ND eq_refl) as (_ & W & _). exact W. }
  rewrite W. clear W i. split.
  - intros I0. assert (T : forall t, In t [a; b; c; d] -> told field xs t = Some (field t)) by (intros t X; apply told_some, I0, X).
    cbn [map]. rewrite !T by (cbn; tauto). cbn [existsb orb]. eexists. split; [reflexivity|]. unfold mean_of. cbn [dot_values].
    destruct (field a), (field b), (field c), (field d); auto. f_equal. ring.
  - intros NI. destruct (existsb _ _) eqn:E; auto. exfalso. apply NI. intros t X. destruct (in_dec lc_dec t xs) as [Y|Y]; auto. exfalso.
    apply (told_in field) in Y. assert (Z : existsb (fun o : option num => match o with Some _ => false | None => true end) (map (told field xs) [a; b; c; d]) = true); [|congruence].
    apply existsb_exists. exists (told field xs t). split; [apply in_map; auto|rewrite Y; auto].
Qed.
Lemma mean_sign : forall w a b c d v s, weights w -> mean_of w a b c d v -> neg a = s -> neg b = s -> neg c = s -> neg d = s -> neg v = s.
Proof.
  intros [[[wa wb] wc] wd] a b c d v s (A & B & C & D & E) M Na Nb Nc Nd. unfold mean_of in M. destruct s.
  - assert (P : forall x, neg x = true -> exists r, x = Some r /\ r < 0) by (intros [r|] H; [|discriminate]; exists r; split; auto; unfold neg in H; destruct (Rlt_dec r 0); [auto|discriminate]).
    destruct (P a Na) as (ra & -> & Ra), (P b Nb) as (rb & -> & Rb), (P c Nc) as (rc & -> & Rc), (P d Nd) as (rd & -> & Rd). subst v. unfold neg. destruct (Rlt_dec _ 0) as [L|L]; auto. exfalso. apply L.
    assert (Q : forall w r, 0 <= w -> r < 0 -> w * r <= 0) by (intros w r H1 H2; nra).
    pose proof (Q wa ra A Ra). pose proof (Q wb rb B Rb). pose proof (Q wc rc C Rc). pose proof (Q wd rd D Rd).
    destruct (Rle_lt_or_eq_dec 0 wa A) as [G|G]; [nra|]. destruct (Rle_lt_or_eq_dec 0 wb B) as [G1|G1]; [nra|]. destruct (Rle_lt_or_eq_dec 0 wc C) as [G2|G2]; [nra|].
    assert (wd = 1) by lra. nra.
  - assert (P : forall r, neg (Some r) = false -> 0 <= r) by (intros r H; unfold neg in H; destruct (Rlt_dec r 0); [discriminate|lra]).
    destruct a as [a|], b as [b|], c as [c|], d as [d|]; subst v; auto. apply P in Na, Nb, Nc, Nd. unfold neg. destruct (Rlt_dec _ 0) as [L|L]; auto. exfalso.
    pose proof (Rmult_le_pos _ _ A Na). pose proof (Rmult_le_pos _ _ B Nb). pose proof (Rmult_le_pos _ _ C Nc). pose proof (Rmult_le_pos _ _ D Nd). lra.
Qed.

(** ** The tetrahedron of a point *)
Section Box.
Variables (lo hi : pt) (basis : triangle).
Hypothesis D : det basis <> 0.
Notation pos := (position lo hi basis).
Notation unrounded := (unrounded lo hi basis).
Lemma simplex_nodup : forall S, simplex S -> NoDup S.
Proof.
  intros S (x & a & b & c & P & ->). assert (Q : In (a, b, c) [((1, 0, 0), (0, 1, 0), (0, 0, 1)); ((1, 0, 0), (0, 0, 1), (0, 1, 0)); ((0, 1, 0), (1, 0, 0), (0, 0, 1));
    ((0, 1, 0), (0, 0, 1), (1, 0, 0)); ((0, 0, 1), (1, 0, 0), (0, 1, 0)); ((0, 0, 1), (0, 1, 0), (1, 0, 0))]%Z).
  { assert (IA : In a axes) by (apply (Permutation_in _ P); cbn; auto). assert (IB : In b axes) by (apply (Permutation_in _ P); cbn; auto). assert (IC : In c axes) by (apply (Permutation_in _ P); cbn; auto).
    assert (ND : NoDup [a; b; c]) by (apply (Permutation_NoDup (Permutation_sym P)); repeat constructor; cbn; intuition discriminate).
    inversion ND as [|? ? N1 N2]; subst. inversion N2 as [|? ? N3 N4]; subst. cbn in IA, IB, IC, N1, N3.
    destruct IA as [<-|[<-|[<-|[]]]], IB as [<-|[<-|[<-|[]]]], IC as [<-|[<-|[<-|[]]]]; cbn; tauto. }
  destruct x as [[x0 x1] x2]. cbn [In] in Q. repeat (destruct Q as [Q|Q]; [injection Q as <- <- <-; repeat constructor; cbn [In lc_add]; intros H; repeat (destruct H as [H|H]; [injection H; lia|]); destruct H|]). destruct Q.
Qed.
Lemma new_spec : forall p r, (forall e, -2147483647 <= coord (unrounded p) e <= 2147483646) -> sorts_axes (unrounded p) r ->
  exists a b c d wa wb wc wd S, tetrahedron lo hi basis r p = Ok (a, b, c, d) /\ new_interpolated lo hi basis r p = Ok (Interpolated [a; b; c; d] [wa; wb; wc; wd] [None; None; None; None]) /\
  simplex S /\ Permutation S [a; b; c; d] /\ NoDup [a; b; c; d] /\ weights (wa, wb, wc, wd) /\ p = mix (wa, wb, wc, wd) (pos a) (pos b) (pos c) (pos d) /\
  (box lo hi p -> forall x, In x [a; b; c; d] -> box (ext_lo lo basis 1) (ext_hi hi basis 1) (pos x)).
Proof.
  intros p r B O. destruct (tetrahedron_spec lo hi basis D p r B O) as (a & b & c & d & w & E & (S & SS & P) & W & M & V). destruct w as [[[wa wb] wc] wd].
  exists a, b, c, d, wa, wb, wc, wd, S. split; auto. split.
  - unfold new_interpolated. rewrite E. cbn [bind]. replace (barycentric p (pos a) (pos b) (pos c) (pos d)) with (wa, wb, wc, wd); auto. symmetry. rewrite M at 1. apply barycentric_mix; auto.
    rewrite V. apply Rmult_integral_contrapositive_currified; [exact D|lra].
  - split; auto. split; auto. split; [apply (Permutation_NoDup P), simplex_nodup; auto|]. split; auto. split; auto. intros Bp x I0.
    apply (mix_near lo hi basis D p (wa, wb, wc, wd) a b c d x S W M SS P Bp). apply (Permutation_in _ (Permutation_sym P)). exact I0.
Qed.
Theorem arbitrary_value : forall p r field xs, (forall e, -2147483647 <= coord (unrounded p) e <= 2147483646) -> sorts_axes (unrounded p) r ->
  exists a b c d w i, tetrahedron lo hi basis r p = Ok (a, b, c, d) /\ new_interpolated lo hi basis r p = Ok i /\ weights w /\ p = mix w (pos a) (pos b) (pos c) (pos d) /\
  (box lo hi p -> forall x, In x [a; b; c; d] -> box (ext_lo lo basis 1) (ext_hi hi basis 1) (pos x)) /\
  (incl [a; b; c; d] xs -> exists v, interpolated_value (tell_all field i xs) = Ok v /\ mean_of w (field a) (field b) (field c) (field d) v) /\
  (~ incl [a; b; c; d] xs -> interpolated_value (tell_all field i xs) = Throw ExRuntimeError).
Proof.
  intros p r field xs B O. destruct (new_spec p r B O) as (a & b & c & d & wa & wb & wc & wd & S & E & N & SS & P & ND & W & M & X).
  exists a, b, c, d, (wa, wb, wc, wd), (Interpolated [a; b; c; d] [wa; wb; wc; wd] [None; None; None; None]). split; auto. split; auto. split; auto. split; auto. split; auto.
  apply value_told. auto.
Qed.
(** No vertex: the sign is that of the corners. *)
Theorem arbitrary_sign : forall p r field xs vs, (forall e, -2147483647 <= coord (unrounded p) e <= 2147483646) -> sorts_axes (unrounded p) r ->
  one_vertex_per_edge (fun x => In x xs) (fun x => neg (field x)) vs -> vs = [] ->
  forall a b c d, tetrahedron lo hi basis r p = Ok (a, b, c, d) -> incl [a; b; c; d] xs ->
  exists i s, new_interpolated lo hi basis r p = Ok i /\ entire true (tell_all field i xs) = Ok s /\ forall x, In x [a; b; c; d] -> neg (field x) = s.
Proof.
  intros p r field xs vs B O [_ OV] -> a b c d T I0. destruct (new_spec p r B O) as (a' & b' & c' & d' & wa & wb & wc & wd & S & E & N & SS & P & ND & W & M & X).
  rewrite T in E. injection E as <- <- <- <-. destruct (value_told field xs a b c d wa wb wc wd ND) as [V _]. destruct (V I0) as (v & V1 & V2).
  assert (SAME : forall x, In x [a; b; c; d] -> neg (field x) = neg (field a)).
  { intros x X0. destruct (Bool.bool_dec (neg (field x)) (neg (field a))) as [Q|Q]; auto. exfalso.
    assert (XS : In x S) by (apply (Permutation_in _ (Permutation_sym P)); auto). assert (AS : In a S) by (apply (Permutation_in _ (Permutation_sym P)); left; auto).
    destruct (simplex_adjacent S x a SS XS AS) as [->|AD]; [auto|].
    destruct (OV x a) as (k & (v0 & K & _) & _); [|destruct k; discriminate K]. split; [apply I0; auto|]. split; [apply I0; left; auto|]. split; [apply adjacent_iff; auto|auto]. }
  eexists. exists (neg (field a)). split; [exact N|]. split.
  - unfold entire, value_sign. rewrite V1. cbn [bind]. f_equal. apply (mean_sign (wa, wb, wc, wd) (field a) (field b) (field c) (field d) v); auto; apply SAME; cbn; tauto.
  - exact SAME.
Qed.

(** ** Rounding *)
Lemma round_bit : forall x, (round x = floor x /\ (frac x < 1 / 2 \/ frac x = 1 / 2 /\ x < 0)) \/ (round x = (floor x + 1)%Z /\ (frac x > 1 / 2 \/ frac x = 1 / 2 /\ 0 <= x)).
Proof.
  intros x. unfold frac. pose proof (floor_range x) as [F1 F2]. destruct (Rlt_le_dec (x - IZR (floor x)) (1 / 2)) as [L|L].
  - left. split; auto. apply round_unique. rewrite Rabs_right; lra.
  - destruct (Rle_lt_or_eq_dec _ _ L) as [G|G].
    + right. split; [|left; lra]. apply round_unique. rewrite plus_IZR. rewrite Rabs_left; lra.
    + unfold round. destruct (Rle_dec 0 x) as [P|P].
      * right. split; [|right; split; lra]. pose proof (floor_range (x + 1 / 2)) as [A B]. assert (H : (floor x < floor (x + 1 / 2) < floor x + 2)%Z); [|lia]. split; apply lt_IZR; rewrite ?plus_IZR; lra.
      * left. split; [|right; split; lra]. pose proof (ceil_range (x - 1 / 2)) as [A B]. assert (H : (floor x - 1 < ceil (x - 1 / 2) < floor x + 1)%Z); [|lia]. split; apply lt_IZR; rewrite ?plus_IZR, ?minus_IZR; lra.
Qed.
Lemma rounded_corner : forall p r x, (forall e, -2147483647 <= coord (unrounded p) e <= 2147483646) -> sorts_axes (unrounded p) r -> ~ mixed_halves (unrounded p) -> rounded lo hi basis p = Ok x ->
  forall a b c d, tetrahedron lo hi basis r p = Ok (a, b, c, d) -> In x [a; b; c; d].
Proof.
  intros p r x B O NM RX a b c d T. unfold rounded in RX. unfold tetrahedron in T. cbv zeta in RX, T. set (u := unrounded p) in *.
  assert (M : forall e e', (e < 3)%nat -> (e' < 3)%nat -> frac (coord u e) <= frac (coord u e') -> ~ (round (coord u e) = (floor (coord u e) + 1)%Z /\ round (coord u e') = floor (coord u e'))).
  { intros e e' L L' F [Q Q']. destruct (round_bit (coord u e)) as [[R1 R2]|[R1 R2]]; [lia|]. destruct (round_bit (coord u e')) as [[R3 R4]|[R3 R4]]; [|lia].
    destruct R2 as [R2|[R2 R5]], R4 as [R4|[R4 R6]]; try lra. apply NM. exists e, e'. tauto. }
  change (px u) with (coord u 0) in *. change (py u) with (coord u 1) in *. change (pz u) with (coord u 2) in *.
  rewrite !floor_int in T by apply B. cbn [bind] in T.
  assert (RR : x = (round (coord u 0), round (coord u 1), round (coord u 2))).
  { unfold to_int in RX. destruct (_ && _); [cbn [bind] in RX|discriminate RX]. destruct (_ && _); [cbn [bind] in RX|discriminate RX]. destruct (_ && _); [cbn [bind] in RX|discriminate RX]. congruence. }
  rewrite RR. clear RR RX. destruct r as [[i j] k]. destruct O as [P [F1 F2]].
  assert (Q : In (i, j, k) [(0, 1, 2); (0, 2, 1); (1, 0, 2); (1, 2, 0); (2, 0, 1); (2, 1, 0)]%nat).
  { assert (IA : In i [0; 1; 2]%nat) by (apply (Permutation_in _ P); cbn; auto). assert (IB : In j [0; 1; 2]%nat) by (apply (Permutation_in _ P); cbn; auto). assert (IC : In k [0; 1; 2]%nat) by (apply (Permutation_in _ P); cbn; auto).
    assert (ND : NoDup [i; j; k]) by (apply (Permutation_NoDup (Permutation_sym P)); repeat constructor; cbn; intuition discriminate).
    inversion ND as [|? ? N1 N2]; subst. inversion N2 as [|? ? N3 N4]; subst. cbn in IA, IB, IC, N1, N3. clear - IA IB IC N1 N3.
    destruct IA as [<-|[<-|[<-|[]]]], IB as [<-|[<-|[<-|[]]]], IC as [<-|[<-|[<-|[]]]]; cbn; tauto. }
  pose proof (fun a b : nat => M a b) as MM.
  assert (R0 : round (coord u 0) = floor (coord u 0) \/ round (coord u 0) = (floor (coord u 0) + 1)%Z) by (destruct (round_bit (coord u 0)); tauto).
  assert (R1 : round (coord u 1) = floor (coord u 1) \/ round (coord u 1) = (floor (coord u 1) + 1)%Z) by (destruct (round_bit (coord u 1)); tauto).
  assert (R2 : round (coord u 2) = floor (coord u 2) \/ round (coord u 2) = (floor (coord u 2) + 1)%Z) by (destruct (round_bit (coord u 2)); tauto).
  assert (F3 : frac (coord u i) <= frac (coord u k)) by lra.
  assert (I3 : (i < 3)%nat /\ (j < 3)%nat /\ (k < 3)%nat).
  { clear - Q. cbn [In] in Q. repeat (destruct Q as [Q|Q]; [injection Q as <- <- <-; lia|]). destruct Q. }
  destruct I3 as (I1 & I2 & I3). pose proof (M i j I1 I2 F1) as M1. pose proof (M j k I2 I3 F2) as M2. pose proof (M i k I1 I3 F3) as M3. clear M MM F1 F2 F3 P NM B I1 I2 I3.
  clearbody u. unfold neighbor in T. cbn [In] in Q.
  repeat (destruct Q as [Q|Q]; [injection Q as <- <- <-; injection T as <- <- <- <-; cbn [nth deltas lc_add In]; clear - R0 R1 R2 M1 M2 M3;
    destruct R0 as [R0|R0]; destruct R1 as [R1|R1]; destruct R2 as [R2|R2];
    try (exfalso; first [apply M1; split; assumption | apply M2; split; assumption | apply M3; split; assumption]);
    rewrite R0, R1, R2, ?Z.add_0_r; tauto|]). destruct Q.
Qed.
Theorem seed_corners : forall p r x, (forall e, -2147483647 <= coord (unrounded p) e <= 2147483646) -> sorts_axes (unrounded p) r -> ~ mixed_halves (unrounded p) -> rounded lo hi basis p = Ok x ->
  forall a b c d, tetrahedron lo hi basis r p = Ok (a, b, c, d) -> forall y, In y [a; b; c; d] -> y = x \/ exists e, (e < 14)%nat /\ y = neighbor x e.
Proof.
  intros p r x B O NM RX a b c d T y Y. pose proof (rounded_corner p r x B O NM RX a b c d T) as X.
  destruct (new_spec p r B O) as (a' & b' & c' & d' & wa & wb & wc & wd & S & E & _ & SS & P & _). rewrite T in E. injection E as <- <- <- <-.
  destruct (simplex_adjacent S x y SS) as [->|H]; auto; apply (Permutation_in _ (Permutation_sym P)); auto.
Qed.
Theorem whole_box : forall p r field xs i, box lo hi p -> (forall e, -2147483647 <= coord (unrounded p) e <= 2147483646) -> sorts_axes (unrounded p) r ->
  (forall x, box (ext_lo lo basis 2) (ext_hi hi basis 2) (pos x) -> In x xs) -> new_interpolated lo hi basis r p = Ok i -> exists v, interpolated_value (tell_all field i xs) = Ok v.
Proof.
  intros p r field xs i Bp B O W N0. destruct (new_spec p r B O) as (a & b & c & d & wa & wb & wc & wd & S & E & N & SS & P & ND & _ & _ & X).
  rewrite N in N0. injection N0 as <-. destruct (value_told field xs a b c d wa wb wc wd ND) as [V _]. destruct V as (v & V & _); [|exists v; exact V].
  intros x I0. apply W. apply (interior_full lo hi basis D S x x); auto; apply (Permutation_in _ (Permutation_sym P)); auto.
Qed.
Theorem seed_value : forall p r x field xs i, (forall e, -2147483647 <= coord (unrounded p) e <= 2147483646) -> sorts_axes (unrounded p) r -> ~ mixed_halves (unrounded p) ->
  rounded lo hi basis p = Ok x -> In x xs -> (forall y, adjacent x y -> In y xs) -> new_interpolated lo hi basis r p = Ok i -> exists v, interpolated_value (tell_all field i xs) = Ok v.
Proof.
  intros p r x field xs i B O NM RX X1 X2 N0. destruct (new_spec p r B O) as (a & b & c & d & wa & wb & wc & wd & S & E & N & SS & P & ND & _).
  rewrite N in N0. injection N0 as <-. destruct (value_told field xs a b c d wa wb wc wd ND) as [V _]. destruct V as (v & V & _); [|exists v; exact V].
  intros y I0. destruct (seed_corners p r x B O NM RX a b c d E y I0) as [->|Q]; auto. apply X2, adjacent_iff. exact Q.
Qed.
End Box.
