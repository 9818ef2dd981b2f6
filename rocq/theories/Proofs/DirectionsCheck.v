From Coq Require Import Reals List Arith ZArith Bool Lia Lra Permutation.
From Verif Require Import Proofs.LinAlg Proofs.Variogram Model.Outcome Model.LinAlg Model.Variogram Model.Directions Spec.Variogram Spec.Directions.
Import ListNotations.
Local Open Scope R_scope.

(** ** A check by subdivision: every vector (2^k, x, y) with x in [i, i+1] and y in [j, j+w] is close to a row *)
Section Check.
Local Open Scope Z_scope.
Definition v3 : Type := Z * Z * Z.
Definition zdot (a b : v3) : Z := let '(a0, a1, a2) := a in let '(b0, b1, b2) := b in a0 * b0 + a1 * b1 + a2 * b2.
Definition turn (face : nat) (s x y : Z) : v3 := match face with O => (s, x, y) | 1%nat => (x, s, y) | _ => (x, y, s) end.
Definition neg (d : v3) : v3 := let '(d0, d1, d2) := d in (- d0, - d1, - d2).
(** [existsb] and [forallb] that stop early. *)
Fixpoint any {A : Type} (f : A -> bool) (l : list A) : bool := match l with [] => false | a :: l' => if f a then true else any f l' end.
Fixpoint every {A : Type} (f : A -> bool) (l : list A) : bool := match l with [] => true | a :: l' => if f a then every f l' else false end.
Lemma any_is : forall {A : Type} (f : A -> bool) l, any f l = existsb f l.
Proof. intros A f l. induction l as [|a l IH]; [reflexivity|]. cbn [any existsb]. rewrite IH. destruct (f a); reflexivity. Qed.
Lemma every_is : forall {A : Type} (f : A -> bool) l, every f l = forallb f l.
Proof. intros A f l. induction l as [|a l IH]; [reflexivity|]. cbn [every forallb]. rewrite IH. destruct (f a); reflexivity. Qed.
Definition inside (num den : Z) (d u : v3) : bool :=
  let m := zdot u d in if 0 <=? m then num * num * zdot u u * zdot d d <=? den * den * (m * m) else false.
Definition good (num den : Z) (face : nat) (s i j w : Z) (d : v3) : bool :=
  let c := [turn face s i j; turn face s (i + 1) j; turn face s i (j + w); turn face s (i + 1) (j + w)] in
  if 0 <=? zdot (turn face s i j) d then every (inside num den d) c else every (inside num den (neg d)) c.
Fixpoint cell (num den : Z) (table : list v3) (face fuel : nat) (s i j w : Z) : bool :=
  if any (good num den face s i j w) table then true else
  match fuel with
  | O => false
  | S f => forallb (fun i' => forallb (fun j' => cell num den table face f (2 * s) i' j' w) (if w =? 0 then [2 * j] else [2 * j; 2 * j + 1])) [2 * i; 2 * i + 1]
  end.
End Check.

Definition rdot (x y z : R) (d : v3) : R := let '(d0, d1, d2) := d in x * IZR d0 + y * IZR d1 + z * IZR d2.
Definition close (num den : Z) (d : v3) (x y z : R) : Prop :=
  IZR (num * num) * (x * x + y * y + z * z) * IZR (zdot d d) <= IZR (den * den) * (rdot x y z d * rdot x y z d).
Definition rturn {A : Type} (P : R -> R -> R -> A) (face : nat) (s x y : R) : A :=
  match face with O => P s x y | 1%nat => P x s y | _ => P x y s end.

(** The vectors within an angle of [d] form a convex cone. *)
Definition cone (num den : Z) (d : v3) (x y z : R) : Prop := 0 <= rdot x y z d /\ close num den d x y z.
Lemma cone_scale : forall num den d t x y z, 0 <= t -> cone num den d x y z -> cone num den d (t * x) (t * y) (t * z).
Proof.
  intros num den d t x y z T [H0 H]. unfold cone, close in *.
  replace (rdot (t * x) (t * y) (t * z) d) with (t * rdot x y z d) by (destruct d as [[d0 d1] d2]; cbn [rdot]; ring).
  split; [apply Rmult_le_pos; assumption|]. apply (Rmult_le_compat_l (t * t)) in H; [|apply Rmult_le_pos; assumption]. lra.
Qed.
Lemma product_bound : forall a b c p q, 0 <= a -> 0 <= b -> 0 <= c -> 0 <= p -> 0 <= q -> forall r, r * r <= p * q -> c * p <= a * a -> c * q <= b * b -> c * r <= a * b.
Proof.
  intros a b c p q A B C P Q r R0 HA HB. assert (0 <= a * b) by (apply Rmult_le_pos; assumption). destruct (Rle_dec (c * r) 0); [lra|].
  apply Rsqr_incr_0_var; [|assumption]. unfold Rsqr. apply Rle_trans with ((c * p) * (c * q)).
  - replace (c * r * (c * r)) with ((c * c) * (r * r)) by ring. replace (c * p * (c * q)) with ((c * c) * (p * q)) by ring.
    apply Rmult_le_compat_l; [apply Rmult_le_pos; assumption|assumption].
  - replace (a * b * (a * b)) with ((a * a) * (b * b)) by ring. apply Rmult_le_compat; [apply Rmult_le_pos; assumption|apply Rmult_le_pos; assumption|assumption|assumption].
Qed.
Lemma cone_add : forall num den d x y z x' y' z', den <> 0%Z -> cone num den d x y z -> cone num den d x' y' z' -> cone num den d (x + x') (y + y') (z + z').
Proof.
  intros num den d x y z x' y' z' N [H0 H] [H0' H']. unfold cone, close in *.
  replace (rdot (x + x') (y + y') (z + z') d) with (rdot x y z d + rdot x' y' z' d) by (destruct d as [[d0 d1] d2]; cbn [rdot]; ring).
  split; [lra|]. set (a := rdot x y z d) in *. set (b := rdot x' y' z' d) in *.
  assert (0 <= IZR (zdot d d)) as D by (apply IZR_le; destruct d as [[d0 d1] d2]; cbn [zdot]; nia).
  set (q := IZR (zdot d d)) in *. assert (0 < IZR (den * den)) as E by (apply IZR_lt; nia). set (e := IZR (den * den)) in *.
  assert (0 <= IZR (num * num)) as M by (apply IZR_le; nia). set (m := IZR (num * num)) in *.
  assert (m * q * (x * x' + y * y' + z * z') <= e * (a * b)) as X.
  { apply Rmult_le_reg_l with e; [exact E|]. replace (e * (e * (a * b))) with ((e * a) * (e * b)) by ring.
    replace (e * (m * q * (x * x' + y * y' + z * z'))) with ((e * (m * q)) * (x * x' + y * y' + z * z')) by ring.
    apply product_bound with (x * x + y * y + z * z) (x' * x' + y' * y' + z' * z').
    - apply Rmult_le_pos; lra.
    - apply Rmult_le_pos; lra.
    - apply Rmult_le_pos; [lra|]. apply Rmult_le_pos; assumption.
    - pose proof (Rle_0_sqr x). pose proof (Rle_0_sqr y). pose proof (Rle_0_sqr z). unfold Rsqr in *. lra.
    - pose proof (Rle_0_sqr x'). pose proof (Rle_0_sqr y'). pose proof (Rle_0_sqr z'). unfold Rsqr in *. lra.
    - pose proof (Rle_0_sqr (x * y' - y * x')). pose proof (Rle_0_sqr (x * z' - z * x')). pose proof (Rle_0_sqr (y * z' - z * y')). unfold Rsqr in *. lra.
    - apply (Rmult_le_compat_l e) in H; [|lra]. lra.
    - apply (Rmult_le_compat_l e) in H'; [|lra]. lra. }
  lra.
Qed.
Lemma cone_between : forall num den d t x y z x' y' z', den <> 0%Z -> 0 <= t <= 1 -> cone num den d x y z -> cone num den d x' y' z' ->
  cone num den d ((1 - t) * x + t * x') ((1 - t) * y + t * y') ((1 - t) * z + t * z').
Proof. intros num den d t x y z x' y' z' N T H H'. apply cone_add; [exact N| |]; apply cone_scale; auto; lra. Qed.
Lemma inside_cone : forall num den d u0 u1 u2, inside num den d (u0, u1, u2) = true -> cone num den d (IZR u0) (IZR u1) (IZR u2).
Proof.
  intros num den d u0 u1 u2 H. unfold inside in H. cbv zeta in H. destruct (Z.leb_spec 0 (zdot (u0, u1, u2) d)) as [H0|H0]; [|discriminate]. apply Z.leb_le in H.
  assert (IZR (zdot (u0, u1, u2) d) = rdot (IZR u0) (IZR u1) (IZR u2) d) as E.
  { destruct d as [[d0 d1] d2]. cbn [zdot rdot]. rewrite !plus_IZR, !mult_IZR. reflexivity. }
  apply IZR_le in H0. apply IZR_le in H. rewrite E in H0. split; [exact H0|]. unfold close. rewrite <- E.
  replace (IZR u0 * IZR u0 + IZR u1 * IZR u1 + IZR u2 * IZR u2) with (IZR (zdot (u0, u1, u2) (u0, u1, u2))) by (cbn [zdot]; rewrite !plus_IZR, !mult_IZR; reflexivity).
  rewrite <- !mult_IZR. exact H.
Qed.
Lemma inside_turn : forall num den face d s x y, inside num den d (turn face s x y) = true -> rturn (cone num den d) face (IZR s) (IZR x) (IZR y).
Proof. intros num den [|[|face]] d s x y H; cbn [turn rturn] in *; apply inside_cone; exact H. Qed.
Lemma rturn_between : forall num den face d t s x y x' y', den <> 0%Z -> 0 <= t <= 1 -> rturn (cone num den d) face s x y -> rturn (cone num den d) face s x' y' ->
  rturn (cone num den d) face s ((1 - t) * x + t * x') ((1 - t) * y + t * y').
Proof.
  intros num den [|[|face]] d t s x y x' y' N T H H'; cbn [rturn] in *; pose proof (cone_between _ _ _ t _ _ _ _ _ _ N T H H') as Q;
    replace ((1 - t) * s + t * s) with s in Q by ring; exact Q.
Qed.
Lemma corners : forall num den face d s i j w x y, den <> 0%Z -> (w = 0 \/ w = 1)%Z ->
  forallb (inside num den d) [turn face s i j; turn face s (i + 1) j; turn face s i (j + w); turn face s (i + 1) (j + w)] = true ->
  IZR i <= x <= IZR (i + 1) -> IZR j <= y <= IZR (j + w) -> rturn (cone num den d) face (IZR s) x y.
Proof.
  intros num den face d s i j w x y N W H Hx Hy. cbn [forallb] in H. rewrite !andb_true_iff in H. destruct H as [H1 [H2 [H3 [H4 _]]]].
  apply inside_turn in H1. apply inside_turn in H2. apply inside_turn in H3. apply inside_turn in H4. rewrite plus_IZR in Hx.
  assert (0 <= x - IZR i <= 1) as T by lra.
  pose proof (rturn_between _ _ _ _ _ _ _ _ _ _ N T H1 H2) as A. pose proof (rturn_between _ _ _ _ _ _ _ _ _ _ N T H3 H4) as B.
  assert (exists t, 0 <= t <= 1 /\ y = (1 - t) * IZR j + t * IZR (j + w)) as [t [Ht Ey]].
  { rewrite plus_IZR in *. destruct W as [-> | ->]; [exists 0|exists (y - IZR j)]; lra. }
  pose proof (rturn_between _ _ _ _ _ _ _ _ _ _ N Ht A B) as Q.
  match type of Q with rturn _ _ _ ?a ?b => replace a with x in Q by (rewrite plus_IZR; ring); replace b with y in Q by (rewrite Ey; ring) end. exact Q.
Qed.
Lemma cone_close : forall num den face d s x y, rturn (cone num den d) face s x y -> rturn (close num den d) face s x y.
Proof. intros num den [|[|face]] d s x y [_ H]; exact H. Qed.
Lemma close_neg : forall num den face d s x y, rturn (close num den (neg d)) face s x y -> rturn (close num den d) face s x y.
Proof.
  assert (forall num den d x y z, close num den (neg d) x y z -> close num den d x y z) as G.
  { intros num den [[d0 d1] d2] x y z H. unfold close in *. cbn [neg zdot rdot] in *.
    replace (- d0 * - d0 + - d1 * - d1 + - d2 * - d2)%Z with (d0 * d0 + d1 * d1 + d2 * d2)%Z in H by ring. rewrite !opp_IZR in H. lra. }
  intros num den [|[|face]] d s x y H; cbn [rturn] in *; apply G; exact H.
Qed.
Lemma good_sound : forall num den face s i j w d x y, den <> 0%Z -> (w = 0 \/ w = 1)%Z -> good num den face s i j w d = true ->
  IZR i <= x <= IZR (i + 1) -> IZR j <= y <= IZR (j + w) -> rturn (close num den d) face (IZR s) x y.
Proof.
  intros num den face s i j w d x y N W H Hx Hy. unfold good in H. cbv zeta in H. rewrite !every_is in H. destruct (0 <=? zdot (turn face s i j) d)%Z.
  - apply cone_close. apply corners with i j w; assumption.
  - apply close_neg. apply cone_close. apply corners with i j w; assumption.
Qed.

Lemma close_negate : forall num den d t x y z, t <> 0 -> close num den d (t * x) (t * y) (t * z) -> close num den d x y z.
Proof.
  intros num den d t x y z T H. unfold close in *.
  replace (rdot (t * x) (t * y) (t * z) d) with (t * rdot x y z d) in H by (destruct d as [[d0 d1] d2]; cbn [rdot]; ring).
  apply Rmult_le_reg_l with (t * t); [nra|]. lra.
Qed.
Definition some_close (num den : Z) (table : list v3) (x y z : R) : Prop := exists d, In d table /\ close num den d x y z.
Lemma some_close_scale : forall num den table t x y z, t <> 0 -> some_close num den table (t * x) (t * y) (t * z) -> some_close num den table x y z.
Proof. intros num den table t x y z T [d [Hd H]]. exists d. split; [exact Hd|]. apply close_negate with t; auto. Qed.
Lemma rturn_some : forall num den table face d s x y, In d table -> rturn (close num den d) face s x y -> rturn (some_close num den table) face s x y.
Proof. intros num den table [|[|face]] d s x y Hd H; exists d; auto. Qed.
Lemma rturn_scale : forall num den table face t s x y, t <> 0 -> rturn (some_close num den table) face (t * s) (t * x) (t * y) ->
  rturn (some_close num den table) face s x y.
Proof. intros num den table [|[|face]] t s x y T H; cbn [rturn] in *; apply some_close_scale with t; auto. Qed.

Lemma cell_sound : forall num den table face fuel, den <> 0%Z -> forall s i j w x y, (w = 0 \/ w = 1)%Z -> cell num den table face fuel s i j w = true ->
  IZR i <= x <= IZR (i + 1) -> IZR j <= y <= IZR (j + w) -> rturn (some_close num den table) face (IZR s) x y.
Proof.
  intros num den table face fuel N. induction fuel as [|fuel IH]; intros s i j w x y W H Hx Hy; cbn [cell] in H;
    rewrite any_is in H; destruct (existsb (good num den face s i j w) table) eqn:G; try discriminate H.
  1,2: apply existsb_exists in G; destruct G as [d [Hd G]]; apply rturn_some with d; [exact Hd|]; apply good_sound with i j w; auto.
  rewrite forallb_forall in H. apply rturn_scale with 2; [lra|]. replace (2 * IZR s) with (IZR (2 * s)) by (rewrite mult_IZR; reflexivity).
  assert (exists i', In i' [(2 * i)%Z; (2 * i + 1)%Z] /\ IZR i' <= 2 * x <= IZR (i' + 1)) as [i' [Hi Xi]].
  { rewrite plus_IZR in Hx. destruct (Rle_dec (2 * x) (2 * IZR i + 1)).
    - exists (2 * i)%Z. split; [left; reflexivity|]. rewrite plus_IZR, mult_IZR. lra.
    - exists (2 * i + 1)%Z. split; [right; left; reflexivity|]. rewrite !plus_IZR, mult_IZR. lra. }
  specialize (H i' Hi). rewrite forallb_forall in H.
  assert (exists j', In j' (if (w =? 0)%Z then [(2 * j)%Z] else [(2 * j)%Z; (2 * j + 1)%Z]) /\ IZR j' <= 2 * y <= IZR (j' + w)) as [j' [Hj Yj]].
  { rewrite plus_IZR in Hy. destruct W as [-> | ->]; cbn [Z.eqb].
    - exists (2 * j)%Z. split; [left; reflexivity|]. rewrite plus_IZR, mult_IZR. lra.
    - destruct (Rle_dec (2 * y) (2 * IZR j + 1)).
      + exists (2 * j)%Z. split; [left; reflexivity|]. rewrite plus_IZR, mult_IZR. lra.
      + exists (2 * j + 1)%Z. split; [right; left; reflexivity|]. rewrite !plus_IZR, mult_IZR. lra. }
  apply IH with i' j' w; auto.
Qed.

(** One face of the cube: x and y between -1 and 1. *)
Definition face_ok (num den : Z) (table : list v3) (fuel face : nat) : bool :=
  forallb (fun i => forallb (fun j => cell num den table face fuel 1 i j 1) [(-1)%Z; 0%Z]) [(-1)%Z; 0%Z].
Definition edge_ok (num den : Z) (table : list v3) (fuel face : nat) : bool :=
  forallb (fun i => cell num den table face fuel 1 i 0 0) [(-1)%Z; 0%Z].
Lemma halves : forall x, -1 <= x <= 1 -> exists i, In i [(-1)%Z; 0%Z] /\ IZR i <= x <= IZR (i + 1).
Proof.
  intros x H. destruct (Rle_dec x 0).
  - exists (-1)%Z. split; [left; reflexivity|]. cbn. lra.
  - exists 0%Z. split; [right; left; reflexivity|]. cbn. lra.
Qed.
Lemma face_sound : forall num den table fuel face, den <> 0%Z -> face_ok num den table fuel face = true -> forall x y, -1 <= x <= 1 -> -1 <= y <= 1 ->
  rturn (some_close num den table) face 1 x y.
Proof.
  intros num den table fuel face N H x y Hx Hy. unfold face_ok in H. rewrite forallb_forall in H. destruct (halves x Hx) as [i [Hi Bi]].
  specialize (H i Hi). rewrite forallb_forall in H. destruct (halves y Hy) as [j [Hj Bj]].
  apply cell_sound with fuel i j 1%Z; auto.
Qed.
Lemma edge_sound : forall num den table fuel face, den <> 0%Z -> edge_ok num den table fuel face = true -> forall x, -1 <= x <= 1 ->
  rturn (some_close num den table) face 1 x 0.
Proof.
  intros num den table fuel face N H x Hx. unfold edge_ok in H. rewrite forallb_forall in H. destruct (halves x Hx) as [i [Hi Bi]].
  apply cell_sound with fuel i 0%Z 0%Z; auto. cbn. lra.
Qed.

Lemma div_range : forall a b, a <> 0 -> Rabs b <= Rabs a -> -1 <= b / a <= 1.
Proof.
  intros a b A H. assert (Rabs (b / a) <= 1) as Q.
  { unfold Rdiv. rewrite Rabs_mult, Rabs_inv. pose proof (Rabs_pos_lt a A). apply Rmult_le_reg_r with (Rabs a); [lra|]. rewrite Rmult_assoc, Rinv_l by lra. lra. }
  unfold Rabs in Q. destruct (Rcase_abs (b / a)); lra.
Qed.
Lemma abs_zero : forall a b, a = 0 -> Rabs b <= Rabs a -> b = 0.
Proof. intros a b -> H. rewrite Rabs_R0 in H. destruct (Req_dec b 0) as [|n]; auto. pose proof (Rabs_pos_lt b n). lra. Qed.

Theorem cover_3 : forall num den table fuel d, den <> 0%Z -> In d table -> (forall face, (face < 3)%nat -> face_ok num den table fuel face = true) ->
  forall x y z, some_close num den table x y z.
Proof.
  intros num den table fuel d N Hd H x y z.
  assert (some_close num den table 0 0 0) as Z0.
  { exists d. split; [exact Hd|]. unfold close, rdot. destruct d as [[d0 d1] d2]. apply Req_le. ring. }
  assert (forall a b c, Rabs b <= Rabs a -> Rabs c <= Rabs a -> a = 0 -> b = 0 /\ c = 0) as ZZ.
  { intros a b c B C A. split; apply abs_zero with a; auto. }
  destruct (Rle_dec (Rabs y) (Rabs x)) as [Y|Y]; [destruct (Rle_dec (Rabs z) (Rabs x)) as [Z|Z]|destruct (Rle_dec (Rabs z) (Rabs y)) as [Z|Z]].
  - destruct (Req_dec x 0) as [E|E]; [destruct (ZZ x y z Y Z E); subst; exact Z0|].
    pose proof (face_sound _ _ _ _ 0 N (H 0%nat ltac:(lia)) (y / x) (z / x) (div_range _ _ E Y) (div_range _ _ E Z)) as Q. cbn [rturn] in Q.
    apply some_close_scale with (/ x); [apply Rinv_neq_0_compat; exact E|]. replace (/ x * x) with 1 by (field; exact E).
    replace (/ x * y) with (y / x) by (field; exact E). replace (/ x * z) with (z / x) by (field; exact E). exact Q.
  - assert (Rabs x <= Rabs z) by lra. assert (Rabs y <= Rabs z) by lra. assert (z <> 0) as E by (intros ->; rewrite Rabs_R0 in Z; pose proof (Rabs_pos x); lra).
    pose proof (face_sound _ _ _ _ 2 N (H 2%nat ltac:(lia)) (x / z) (y / z) (div_range z x E ltac:(lra)) (div_range z y E ltac:(lra))) as Q. cbn [rturn] in Q.
    apply some_close_scale with (/ z); [apply Rinv_neq_0_compat; exact E|]. replace (/ z * z) with 1 by (field; exact E).
    replace (/ z * x) with (x / z) by (field; exact E). replace (/ z * y) with (y / z) by (field; exact E). exact Q.
  - assert (y <> 0) as E by (intros ->; rewrite Rabs_R0 in Y; pose proof (Rabs_pos x); lra).
    pose proof (face_sound _ _ _ _ 1 N (H 1%nat ltac:(lia)) (x / y) (z / y) (div_range y x E ltac:(lra)) (div_range y z E ltac:(lra))) as Q. cbn [rturn] in Q.
    apply some_close_scale with (/ y); [apply Rinv_neq_0_compat; exact E|]. replace (/ y * y) with 1 by (field; exact E).
    replace (/ y * x) with (x / y) by (field; exact E). replace (/ y * z) with (z / y) by (field; exact E). exact Q.
  - assert (z <> 0) as E by (intros ->; rewrite Rabs_R0 in Z; pose proof (Rabs_pos y); lra).
    pose proof (face_sound _ _ _ _ 2 N (H 2%nat ltac:(lia)) (x / z) (y / z) (div_range z x E ltac:(lra)) (div_range z y E ltac:(lra))) as Q. cbn [rturn] in Q.
    apply some_close_scale with (/ z); [apply Rinv_neq_0_compat; exact E|]. replace (/ z * z) with 1 by (field; exact E).
    replace (/ z * x) with (x / z) by (field; exact E). replace (/ z * y) with (y / z) by (field; exact E). exact Q.
Qed.
Theorem cover_2 : forall num den table fuel d, den <> 0%Z -> In d table -> (forall face, (face < 2)%nat -> edge_ok num den table fuel face = true) ->
  forall x y, some_close num den table x y 0.
Proof.
  intros num den table fuel d N Hd H x y.
  assert (some_close num den table 0 0 0) as Z0.
  { exists d. split; [exact Hd|]. unfold close, rdot. destruct d as [[d0 d1] d2]. apply Req_le. ring. }
  destruct (Rle_dec (Rabs y) (Rabs x)) as [Y|Y].
  - destruct (Req_dec x 0) as [E|E]; [pose proof (abs_zero x y E Y); subst; exact Z0|].
    pose proof (edge_sound _ _ _ _ 0 N (H 0%nat ltac:(lia)) (y / x) (div_range _ _ E Y)) as Q. cbn [rturn] in Q.
    apply some_close_scale with (/ x); [apply Rinv_neq_0_compat; exact E|]. replace (/ x * x) with 1 by (field; exact E).
    replace (/ x * y) with (y / x) by (field; exact E). rewrite Rmult_0_r. exact Q.
  - assert (y <> 0) as E by (intros ->; rewrite Rabs_R0 in Y; pose proof (Rabs_pos x); lra).
    pose proof (edge_sound _ _ _ _ 1 N (H 1%nat ltac:(lia)) (x / y) (div_range y x E ltac:(lra))) as Q. cbn [rturn] in Q.
    apply some_close_scale with (/ y); [apply Rinv_neq_0_compat; exact E|]. replace (/ y * y) with 1 by (field; exact E).
    replace (/ y * x) with (x / y) by (field; exact E). rewrite Rmult_0_r. exact Q.
Qed.

(** ** The tables *)
Definition triple (r : list Z) : v3 := (nth 0 r 0%Z, nth 1 r 0%Z, nth 2 r 0%Z).
Definition triples (table : list (list Z)) : list v3 := map triple table.
Lemma check_3 : forall face, (face < 3)%nat -> face_ok 971 1000 (triples anisotropic_3) 8 face = true.
Proof. intros [|[|[|face]]] H; [| | |lia]; vm_compute; reflexivity. Qed.
Lemma check_2 : forall face, (face < 2)%nat -> edge_ok 98 100 (triples anisotropic_2) 14 face = true.
Proof. intros [|[|face]] H; [| |lia]; vm_compute; reflexivity. Qed.
