From Coq Require Import List NArith ZArith Lia Bool.
From Verif Require Import Model.Outcome Model.Io Spec.Io.
Import ListNotations.
Local Open Scope N_scope.

Lemma le_length : forall k x, length (le k x) = k.
Proof. induction k; intros; cbn; auto. Qed.

Lemma pow_succ_256 : forall k, 256 ^ N.of_nat (S k) = 256 * 256 ^ N.of_nat k.
Proof. intros. rewrite Nat2N.inj_succ, N.pow_succ_r'. reflexivity. Qed.

Lemma unle_le : forall k x, x < 256 ^ N.of_nat k -> unle (le k x) = x.
Proof.
  induction k; intros x H.
  - cbn in *. lia.
  - rewrite pow_succ_256 in H. cbn [le unle fold_right].
    fold (unle (le k (x / 256))). rewrite IHk.
    + rewrite (N.div_mod x 256) at 3 by lia. lia.
    + apply N.div_lt_upper_bound; lia.
Qed.

Lemma unle_le_mod : forall k x, unle (le k x) = x mod 256 ^ N.of_nat k.
Proof.
  induction k; intros x.
  - cbn. rewrite N.mod_1_r. reflexivity.
  - rewrite pow_succ_256. cbn [le unle fold_right]. fold (unle (le k (x / 256))). rewrite IHk.
    rewrite N.mod_mul_r; lia.
Qed.

Lemma firstn_app_l : forall {A} n (l1 l2 : list A), length l1 = n -> firstn n (l1 ++ l2) = l1.
Proof. intros; subst. rewrite firstn_app, Nat.sub_diag, firstn_all, firstn_O, app_nil_r; auto. Qed.

Lemma skipn_app_l : forall {A} n (l1 l2 : list A), length l1 = n -> skipn n (l1 ++ l2) = l2.
Proof. intros; subst. rewrite skipn_app, Nat.sub_diag, skipn_all; auto. Qed.

Lemma sread_full : forall n old bs tail, length bs = n -> length old = n ->
  sread n old (mk_stream (bs ++ tail) false) = (bs, mk_stream tail false).
Proof.
  intros. unfold sread; cbn [failed rest].
  rewrite firstn_app_l, skipn_app_l by assumption.
  rewrite skipn_all2 by lia. rewrite app_nil_r.
  replace (Nat.ltb (length bs) n) with false; auto. symmetry; apply PeanoNat.Nat.ltb_ge; lia.
Qed.

Lemma read_scalar_rt : forall k x old, x < 256 ^ N.of_nat k ->
  round_trip (write_scalar k) (read_scalar k) old x.
Proof.
  intros k x old H tail. unfold read_scalar, write_scalar.
  rewrite sread_full by apply le_length. rewrite unle_le; auto.
Qed.

Lemma wrap_lt : forall k z, wrap k z < 256 ^ N.of_nat k.
Proof.
  intros. unfold wrap.
  assert (0 < 256 ^ Z.of_nat k)%Z by (apply Z.pow_pos_nonneg; lia).
  pose proof (Z.mod_pos_bound z (256 ^ Z.of_nat k) H).
  apply N2Z.inj_lt. rewrite Z2N.id by lia.
  rewrite N2Z.inj_pow. rewrite nat_N_Z. cbn. lia.
Qed.

Lemma unwrap_wrap : forall k z, (- 256 ^ Z.of_nat k <= 2 * z < 256 ^ Z.of_nat k)%Z ->
  unwrap k (wrap k z) = z.
Proof.
  intros k z H. unfold unwrap, wrap.
  set (p := (256 ^ Z.of_nat k)%Z) in *.
  assert (0 < p)%Z by (apply Z.pow_pos_nonneg; lia).
  pose proof (Z.mod_pos_bound z p H0).
  rewrite Z2N.id by lia.
  destruct (Z_lt_dec z 0).
  - replace (z mod p)%Z with (z + p)%Z.
    + destruct (Z.ltb_spec (2 * (z + p)) p); lia.
    + symmetry. rewrite <- (Z.mod_small (z + p) p) by lia.
      rewrite <- (Z.mul_1_l p) at 2. rewrite Z.mod_add; lia.
  - rewrite Z.mod_small by lia. destruct (Z.ltb_spec (2 * z) p); lia.
Qed.

Lemma read_int_rt : forall k z old, (- 256 ^ Z.of_nat k <= 2 * z < 256 ^ Z.of_nat k)%Z ->
  round_trip (write_int k) (read_int k) old z.
Proof.
  intros k z old H tail. unfold read_int, write_int.
  pose proof (read_scalar_rt k (wrap k z) (wrap k old) (wrap_lt k z) tail) as E.
  unfold write_scalar in E. rewrite E. cbn. rewrite unwrap_wrap; auto.
Qed.

Lemma read_bool_rt : forall b old, round_trip write_bool read_bool old b.
Proof.
  intros b old tail. unfold read_bool, write_bool.
  pose proof (read_scalar_rt 1 (if b then 1 else 0) (if old then 1 else 0)) as E.
  unfold write_scalar, round_trip in E. rewrite E.
  - destruct b; reflexivity.
  - destruct b; cbn; lia.
Qed.

Lemma write_block_length : forall k xs, length (write_block k xs) = (k * length xs)%nat.
Proof.
  unfold write_block. induction xs; cbn [length flat_map]; [lia|].
  rewrite app_length, le_length, IHxs. lia.
Qed.

Lemma chunks_block : forall k xs, fits k xs -> chunks k (length xs) (write_block k xs) = xs.
Proof.
  induction xs; intros F; auto. inversion F; subst. cbn [length chunks write_block flat_map].
  fold (write_block k xs). rewrite firstn_app_l, skipn_app_l by apply le_length.
  rewrite unle_le, IHxs; auto.
Qed.

Lemma read_block_rt : forall k xs old, fits k xs -> length old = length xs ->
  round_trip (write_block k) (read_block k) old xs.
Proof.
  intros k xs old F L tail. unfold read_block. rewrite L.
  rewrite sread_full.
  - rewrite chunks_block; auto.
  - apply write_block_length.
  - rewrite write_block_length, L; auto.
Qed.

Section Env.

Variable d : nat.
Variable junk : nat -> N.
Variable max_elems : N.
Variable det_pos : list N -> bool.

Lemma uninit_length : forall n, length (uninit junk n) = n.
Proof. intros. unfold uninit. rewrite map_length, seq_length; auto. Qed.

Lemma size_fits : forall n, size_ok max_elems n -> N.of_nat n < 256 ^ N.of_nat 8.
Proof. intros n [_ H]. change (256 ^ N.of_nat 8) with (2 ^ 64). change (2 ^ 63) with 9223372036854775808 in H. change (2 ^ 64) with 18446744073709551616. lia. Qed.

Lemma size_not_gt : forall n, size_ok max_elems n -> max_elems <? N.of_nat n = false.
Proof. intros n [H _]. apply N.ltb_ge; auto. Qed.

Lemma resize_length : forall {A} n (old : list A) x,
  length (firstn n old ++ repeat x (n - length old)) = n.
Proof. intros. rewrite app_length, firstn_length, repeat_length. lia. Qed.

Lemma read_vec_rt : forall k xs old, size_ok max_elems (length xs) -> fits k xs ->
  round_trip (write_vec k) (read_vec max_elems k) old xs.
Proof.
  intros k xs old S F tail. unfold read_vec, write_vec. rewrite <- app_assoc.
  rewrite (read_scalar_rt 8 _ 0 (size_fits _ S)). cbn [bind fst snd].
  rewrite size_not_gt by auto. rewrite Nat2N.id.
  apply read_block_rt; auto. apply resize_length.
Qed.

Lemma read_each_rt : forall {A} (wr : A -> list N) (rd : reader A) xs olds tail,
  (forall x old, In x xs -> In old olds -> round_trip wr rd old x) ->
  length olds = length xs ->
  read_each rd olds (mk_stream (flat_map wr xs ++ tail) false) = Ok (xs, mk_stream tail false).
Proof.
  induction xs; intros olds tail H L; destruct olds as [|o olds]; try discriminate; cbn; auto.
  rewrite <- app_assoc. rewrite H; cbn; auto.
  rewrite IHxs; cbn; auto. intros; apply H; cbn; auto.
Qed.

Lemma in_firstn : forall {A} n (l : list A) x, In x (firstn n l) -> In x l.
Proof. intros. rewrite <- (firstn_skipn n l). apply in_or_app; auto. Qed.

Lemma read_objs_rt : forall {A} (P : A -> Prop) (dflt : A) (wr : A -> list N) rd xs old,
  (forall x o, In x xs -> P o -> round_trip wr rd o x) ->
  size_ok max_elems (length xs) -> P dflt -> Forall P old ->
  round_trip (write_objs wr) (read_objs max_elems dflt rd) old xs.
Proof.
  intros A P dflt wr rd xs old H S D O tail. unfold read_objs, write_objs. rewrite <- app_assoc.
  rewrite (read_scalar_rt 8 _ 0 (size_fits _ S)). cbn [bind fst snd].
  rewrite size_not_gt by auto. rewrite Nat2N.id.
  apply read_each_rt; [|apply resize_length].
  intros x o Ix Io. apply H; auto. apply in_app_or in Io. destruct Io as [Io|Io].
  - rewrite Forall_forall in O. apply O. eapply in_firstn; eauto.
  - apply repeat_spec in Io. subst; auto.
Qed.

Lemma read_dynmat_rt : forall cols t old, saveable_dynmat max_elems cols t ->
  round_trip write_dynmat (read_dynmat junk max_elems cols) old t.
Proof.
  intros cols [r cs] old (L & F & S1 & S2) tail. cbn [nrows coeffs] in *.
  unfold read_dynmat, write_dynmat. cbn [nrows coeffs]. rewrite <- app_assoc.
  rewrite read_int_rt.
  2:{ destruct S1 as [_ S1]. change (256 ^ Z.of_nat 8)%Z with 18446744073709551616%Z.
      change (2 ^ 63) with 9223372036854775808 in S1. lia. }
  cbn [bind fst snd].
  destruct (Z.ltb_spec (Z.of_nat r) 0); [lia|].
  replace (Z.to_N (Z.of_nat r) * N.of_nat cols) with (N.of_nat (r * cols)) by lia.
  rewrite size_not_gt by auto. rewrite Nat2Z.id.
  rewrite read_block_rt; auto.
  destruct (Nat.eqb (length (coeffs old)) (r * cols)) eqn:E.
  - apply PeanoNat.Nat.eqb_eq in E. lia.
  - rewrite uninit_length. lia.
Qed.

Lemma name_eqb_spec : forall a b, name_eqb a b = true <-> a = b.
Proof. intros. unfold name_eqb. destruct (list_eq_dec N.eq_dec a b); split; congruence. Qed.

Lemma is_in_spec : forall n l, is_in n l = true <-> In n l.
Proof.
  intros. unfold is_in. rewrite existsb_exists. split.
  - intros (x & I & E). apply name_eqb_spec in E. subst; auto.
  - intros I. exists n. split; auto. apply name_eqb_spec; auto.
Qed.

Lemma known_make : forall r, known (name r) -> length (params r) = 2%nat ->
  make_rbf d (name r) (params r) = Ok (mk_rbf (name r) (params r) (identity d)).
Proof.
  intros [n ps a] K L. cbn [name params] in *. unfold make_rbf.
  destruct ps as [|p [|q [|]]]; try discriminate.
  destruct (is_in n cov_names) eqn:E; auto.
  destruct K as [K|K].
  - apply is_in_spec in K. congruence.
  - apply is_in_spec in K. rewrite K. auto.
Qed.

Lemma known_props : forall n, known n -> length n = 3%nat /\ fits 1 n.
Proof.
  intros n [K|K]; cbn in K;
    repeat (destruct K as [K|K]; [subst; split; [reflexivity|repeat constructor; cbn; lia]|]);
    contradiction.
Qed.

Lemma read_rbf_rt : forall r old, saveable_rbf d max_elems det_pos r ->
  round_trip write_rbf (read_rbf d junk max_elems det_pos) old r.
Proof.
  intros r old (K & L & F & LA & FA & D & S) tail.
  pose proof (known_props _ K) as [L3 F1].
  assert (size_ok max_elems 2) as S2 by (unfold size_ok in *; lia).
  unfold read_rbf, write_rbf. rewrite <- !app_assoc.
  rewrite read_vec_rt by (auto; rewrite L3; auto). cbn [bind fst snd].
  rewrite read_vec_rt by (auto; rewrite L; auto). cbn [bind fst snd].
  unfold read_fixed, write_fixed.
  rewrite read_block_rt by (auto; rewrite uninit_length, LA; auto). cbn [bind fst snd].
  rewrite known_make by auto. cbn [bind]. unfold set_anisotropy. rewrite D. cbn.
  destruct r; reflexivity.
Qed.

Lemma read_model_rt : forall m old, saveable_model d max_elems det_pos m ->
  round_trip write_model (read_model d junk max_elems det_pos) old m.
Proof.
  intros [rs p n] old (S & F & P & N1) tail. cbn [rbfs poly_degree nugget] in *.
  unfold read_model, write_model. cbn [rbfs poly_degree nugget]. rewrite <- !app_assoc.
  rewrite (read_objs_rt (fun _ => True)).
  - cbn [bind fst snd]. rewrite read_int_rt.
    2:{ change (256 ^ Z.of_nat 4)%Z with 4294967296%Z.
        change (2 ^ 31)%Z with 2147483648%Z in P. lia. }
    cbn [bind fst snd]. rewrite (read_scalar_rt 8 n).
    + cbn. reflexivity.
    + change (256 ^ N.of_nat 8) with (2 ^ 64). auto.
  - intros x o Ix _. rewrite Forall_forall in F. apply read_rbf_rt; auto.
  - auto.
  - auto.
  - apply Forall_forall. auto.
Qed.

Lemma read_bbox_rt : forall b old, saveable_bbox d b ->
  length (bmin old) = d -> length (bmax old) = d ->
  round_trip write_bbox read_bbox old b.
Proof.
  intros [a b] old (L1 & F1 & L2 & F2) O1 O2 tail. cbn [bmin bmax] in *.
  unfold read_bbox, write_bbox, read_fixed, write_fixed. cbn [bmin bmax]. rewrite <- app_assoc.
  rewrite read_block_rt by (auto; lia). cbn [bind fst snd].
  rewrite read_block_rt by (auto; lia). reflexivity.
Qed.

Lemma read_interpolant_rt : forall t old, saveable_interpolant d max_elems det_pos t ->
  length (bmin (ibbox old)) = d -> length (bmax (ibbox old)) = d ->
  round_trip write_interpolant (read_interpolant d junk max_elems det_pos) old t.
Proof.
  intros [m f c g b w] old (HM & HC & HG & HB & HW) O1 O2 tail.
  unfold read_interpolant, write_interpolant.
  cbn [model_ fitted centers grad_centers ibbox weights] in *. rewrite <- !app_assoc.
  rewrite read_model_rt by auto. cbn [bind fst snd].
  rewrite read_bool_rt. cbn [bind fst snd].
  rewrite read_dynmat_rt by auto. cbn [bind fst snd].
  rewrite read_dynmat_rt by auto. cbn [bind fst snd].
  rewrite read_bbox_rt by auto. cbn [bind fst snd].
  rewrite read_dynmat_rt by auto. reflexivity.
Qed.

Lemma read_variogram_rt : forall v old, saveable_variogram d max_elems v ->
  length (direction old) = d ->
  round_trip write_variogram (read_variogram max_elems) old v.
Proof.
  intros [a b c e] old ([S1 F1] & [S2 F2] & [S3 F3] & L & F) O tail.
  unfold read_variogram, write_variogram. cbn [bin_distance bin_gamma bin_num_pairs direction] in *.
  rewrite <- !app_assoc.
  rewrite read_vec_rt by auto. cbn [bind fst snd].
  rewrite read_vec_rt by auto. cbn [bind fst snd].
  rewrite read_vec_rt by auto. cbn [bind fst snd].
  unfold read_fixed, write_fixed. rewrite read_block_rt by (auto; lia). reflexivity.
Qed.

Lemma read_variogram_set_rt : forall vs old, saveable_variogram_set d max_elems vs ->
  Forall (fun o => length (direction o) = d) old ->
  round_trip write_variogram_set (read_variogram_set d junk max_elems) old vs.
Proof.
  intros vs old [S F] O. unfold read_variogram_set, write_variogram_set.
  apply (read_objs_rt (fun o => length (direction o) = d)); auto.
  - intros x o Ix Lo. rewrite Forall_forall in F. apply read_variogram_rt; auto.
  - cbn. apply uninit_length.
Qed.

Lemma load_of_rt : forall {A} (wr : A -> list N) (rd : reader A) dflt x tail,
  round_trip wr rd dflt x -> load rd dflt (wr x ++ tail) = Ok x.
Proof. intros. unfold load. rewrite H. reflexivity. Qed.

Lemma default_bbox_lengths :
  length (bmin (default_bbox d)) = d /\ length (bmax (default_bbox d)) = d.
Proof. cbn. rewrite !repeat_length. auto. Qed.

(** ** Truncation *)

Lemma sread_short : forall n old bs, (length bs < n)%nat ->
  sread n old (mk_stream bs false) = (bs ++ skipn (length bs) old, mk_stream [] true).
Proof.
  intros. unfold sread; cbn [failed rest].
  rewrite firstn_all2 by lia. rewrite (skipn_all2 (n := n) bs) by lia.
  replace (Nat.ltb (length bs) n) with true; auto. symmetry; apply PeanoNat.Nat.ltb_lt; lia.
Qed.

Lemma cut_app : forall k a b, (k <= length b)%nat ->
  cut k (a ++ b) = a ++ firstn (length b - k) b.
Proof.
  intros. unfold cut. rewrite app_length, firstn_app.
  replace (length a + length b - k - length a)%nat with (length b - k)%nat by lia.
  rewrite firstn_all2 by lia. reflexivity.
Qed.

Lemma unle_app_zeros : forall l n, unle (l ++ repeat 0 n) = unle l.
Proof.
  intros. unfold unle. induction l; cbn [app fold_right].
  - induction n; cbn [repeat fold_right]; [auto|]. rewrite IHn. auto.
  - rewrite IHl. auto.
Qed.

Lemma firstn_le : forall j k x, (j <= k)%nat -> firstn j (le k x) = le j x.
Proof.
  induction j; intros k x H; cbn; auto.
  destruct k; [lia|]. cbn. rewrite IHj by lia. auto.
Qed.

Lemma skipn_zeros : forall j n, skipn j (repeat 0 n) = repeat 0 (n - j).
Proof. induction j; intros [|n]; cbn; auto. Qed.

Lemma le_zero : forall k, le k 0 = repeat 0 k.
Proof. induction k; cbn; auto. f_equal. exact IHk. Qed.

Lemma read_scalar_cut : forall j k x, (j <= k)%nat ->
  exists s, read_scalar k 0 (mk_stream (firstn j (le k x)) false)
            = Ok (x mod 256 ^ N.of_nat j, s).
Proof.
  intros j k x H. unfold read_scalar.
  assert (length (firstn j (le k x)) = j) as L by (rewrite firstn_length, le_length; lia).
  destruct (PeanoNat.Nat.eq_dec j k) as [->|].
  - rewrite firstn_all2 by (rewrite le_length; auto).
    pose proof (sread_full k (le k 0) (le k x) [] (le_length _ _) (le_length _ _)) as E.
    rewrite app_nil_r in E. rewrite E. rewrite unle_le_mod. eauto.
  - rewrite sread_short by lia. rewrite L, le_zero, skipn_zeros, unle_app_zeros.
    rewrite firstn_le by auto. rewrite unle_le_mod. eauto.
Qed.

Lemma cut_nugget : forall m k, saveable_model d max_elems det_pos m -> (k <= 8)%nat ->
  load_model d junk max_elems det_pos (cut k (write_model m))
  = Ok (mk_model (rbfs m) (poly_degree m) (nugget m mod 256 ^ N.of_nat (8 - k))).
Proof.
  intros [rs p n] k (S & F & P & N1) K. cbn [rbfs poly_degree nugget] in *.
  unfold load_model, load, write_model. cbn [rbfs poly_degree nugget].
  rewrite app_assoc. rewrite cut_app by (unfold write_scalar; rewrite le_length; auto).
  rewrite <- app_assoc. unfold read_model.
  rewrite (read_objs_rt (fun _ => True)); auto.
  2:{ intros x o Ix _. rewrite Forall_forall in F. apply read_rbf_rt; auto. }
  2:{ apply Forall_forall; auto. }
  cbn [bind fst snd]. rewrite read_int_rt.
  2:{ change (256 ^ Z.of_nat 4)%Z with 4294967296%Z.
      change (2 ^ 31)%Z with 2147483648%Z in P. lia. }
  cbn [bind fst snd].
  unfold write_scalar. rewrite le_length. change (nugget default_model) with 0.
  destruct (read_scalar_cut (8 - k) 8 n ltac:(lia)) as [s E]. rewrite E. reflexivity.
Qed.

Lemma chunks_app : forall k xs ys, fits k xs -> fits k ys ->
  chunks k (length xs + length ys) (write_block k xs ++ write_block k ys) = xs ++ ys.
Proof.
  intros. unfold write_block. rewrite <- flat_map_app. fold (write_block k (xs ++ ys)).
  rewrite <- app_length. apply chunks_block. apply Forall_app; auto.
Qed.

Lemma write_block_app : forall k xs ys, write_block k (xs ++ ys) = write_block k xs ++ write_block k ys.
Proof. intros. unfold write_block. apply flat_map_app. Qed.

Lemma skipn_write_block : forall k n xs,
  skipn (k * n) (write_block k xs) = write_block k (skipn n xs).
Proof.
  intros k n. induction n; intros xs.
  - rewrite PeanoNat.Nat.mul_0_r. reflexivity.
  - destruct xs.
    + cbn [skipn write_block flat_map]. apply skipn_nil.
    + cbn [skipn]. rewrite <- IHn. cbn [write_block flat_map].
      fold (write_block k xs).
      replace (k * S n)%nat with (k + k * n)%nat by lia.
      rewrite <- (le_length k n0) at 1.
      rewrite skipn_app. rewrite skipn_all2 by lia. cbn.
      f_equal. lia.
Qed.

Lemma firstn_write_block : forall k n xs,
  firstn (k * n) (write_block k xs) = write_block k (firstn n xs).
Proof.
  intros k n xs.
  destruct (Compare_dec.le_lt_dec (length xs) n).
  - rewrite !firstn_all2; auto. rewrite write_block_length. nia.
  - rewrite <- (firstn_skipn n xs) at 1. rewrite write_block_app.
    rewrite firstn_app_l; auto. rewrite write_block_length, firstn_length. f_equal. lia.
Qed.

Lemma read_dynmat_cut : forall t j, saveable_dynmat max_elems 1 t -> (j <= nrows t)%nat ->
  fits 8 (uninit junk (nrows t)) ->
  exists s, read_dynmat junk max_elems 1 (mk_dynmat 0 [])
              (mk_stream (write_int 8 (Z.of_nat (nrows t)) ++
                          firstn (8 * (nrows t - j)) (write_block 8 (coeffs t))) false)
            = Ok (mk_dynmat (nrows t) (firstn (nrows t - j) (coeffs t) ++
                                       skipn (nrows t - j) (uninit junk (nrows t))), s).
Proof.
  intros [r cs] j (L & F & S1 & S2) J FJ. cbn [nrows coeffs] in *.
  rewrite PeanoNat.Nat.mul_1_r in *.
  unfold read_dynmat. cbn [nrows coeffs].
  rewrite read_int_rt.
  2:{ destruct S1 as [_ S1]. change (256 ^ Z.of_nat 8)%Z with 18446744073709551616%Z.
      change (2 ^ 63) with 9223372036854775808 in S1. lia. }
  cbn [bind fst snd].
  destruct (Z.ltb_spec (Z.of_nat r) 0); [lia|].
  replace (Z.to_N (Z.of_nat r) * N.of_nat 1) with (N.of_nat r) by lia.
  rewrite size_not_gt by auto. rewrite Nat2Z.id. rewrite PeanoNat.Nat.mul_1_r.
  cbn [length].
  set (mem := if Nat.eqb 0 r then [] else uninit junk r).
  assert (mem = uninit junk r) as Em.
  { unfold mem. destruct r; reflexivity. }
  rewrite Em. unfold read_block. rewrite uninit_length.
  rewrite firstn_write_block.
  set (got := firstn (r - j) cs).
  assert (length got = (r - j)%nat) as Lg by (unfold got; rewrite firstn_length; lia).
  assert (fits 8 got) as Fg.
  { unfold got, fits in *. rewrite Forall_forall in *. intros x I. apply F. eapply in_firstn; eauto. }
  assert (fits 8 (skipn (r - j) (uninit junk r))) as Fs.
  { unfold fits in *. rewrite Forall_forall in *. intros x I. apply FJ.
    rewrite <- (firstn_skipn (r - j) (uninit junk r)). apply in_or_app; auto. }
  destruct (PeanoNat.Nat.eq_dec j 0) as [->|].
  - replace (r - 0)%nat with r in * by lia.
    pose proof (sread_full (8 * r) (write_block 8 (uninit junk r)) (write_block 8 got) []) as E.
    rewrite app_nil_r in E. rewrite E.
    + cbn [bind fst snd]. rewrite skipn_all2 by (rewrite uninit_length; auto).
      rewrite app_nil_r. pose proof (chunks_block 8 got Fg) as CB. rewrite Lg in CB. rewrite CB. eauto.
    + rewrite write_block_length. lia.
    + rewrite write_block_length, uninit_length. lia.
  - rewrite sread_short by (rewrite write_block_length; lia).
    rewrite write_block_length, Lg. rewrite skipn_write_block. cbn [bind fst snd].
    set (tl := skipn (r - j) (uninit junk r)) in *.
    assert (length tl = j) as Lt by (unfold tl; rewrite skipn_length, uninit_length; lia).
    pose proof (chunks_app 8 got tl Fg Fs) as CB.
    replace (length got + length tl)%nat with r in CB by lia. rewrite CB. eauto.
Qed.

Lemma cut_weights : forall t j, saveable_interpolant d max_elems det_pos t ->
  (j <= nrows (weights t))%nat -> fits 8 (uninit junk (nrows (weights t))) ->
  load_interpolant d junk max_elems det_pos (cut (8 * j) (write_interpolant t))
  = Ok (mk_interpolant (model_ t) (fitted t) (centers t) (grad_centers t) (ibbox t)
          (mk_dynmat (nrows (weights t))
             (firstn (nrows (weights t) - j) (coeffs (weights t)) ++
              skipn (nrows (weights t) - j) (uninit junk (nrows (weights t)))))).
Proof.
  intros [m f c g b w] j (HM & HC & HG & HB & HW) J FJ.
  cbn [model_ fitted centers grad_centers ibbox weights] in *.
  unfold load_interpolant, load, write_interpolant.
  cbn [model_ fitted centers grad_centers ibbox weights].
  unfold write_dynmat at 3. rewrite !app_assoc.
  pose proof HW as (LW & _). rewrite PeanoNat.Nat.mul_1_r in LW.
  rewrite cut_app by (rewrite write_block_length; lia).
  rewrite <- !app_assoc.
  unfold read_interpolant.
  rewrite read_model_rt by auto. cbn [bind fst snd].
  rewrite read_bool_rt. cbn [bind fst snd].
  rewrite read_dynmat_rt by auto. cbn [bind fst snd].
  rewrite read_dynmat_rt by auto. cbn [bind fst snd].
  rewrite read_bbox_rt by (auto; apply default_bbox_lengths). cbn [bind fst snd].
  change (weights (default_interpolant d)) with (mk_dynmat 0 []).
  rewrite write_block_length, LW.
  replace (8 * nrows w - 8 * j)%nat with (8 * (nrows w - j))%nat by lia.
  destruct (read_dynmat_cut w j HW J FJ) as [s E]. rewrite E. reflexivity.
Qed.

Lemma read_scalar_failed : forall k x s, failed s = true -> x < 256 ^ N.of_nat k -> read_scalar k x s = Ok (x, s).
Proof. intros k x s F H. unfold read_scalar, sread. rewrite F. rewrite unle_le by exact H. reflexivity. Qed.
Lemma failed_stream : forall old s, failed s = true -> saveable_model d max_elems det_pos old ->
  read_model d junk max_elems det_pos old s = Ok (mk_model [] (poly_degree old) (nugget old), s).
Proof.
  intros old s F [_ [_ [D N]]]. unfold read_model, read_objs. rewrite read_scalar_failed by (auto; reflexivity). cbn [bind fst snd].
  destruct (N.ltb_spec max_elems 0); [lia|]. cbn [N.to_nat firstn app Nat.sub repeat read_each bind fst snd].
  unfold read_int. rewrite read_scalar_failed by (auto; apply wrap_lt). cbn [bind fst snd]. rewrite unwrap_wrap by (change (256 ^ Z.of_nat 4)%Z with (2 * 2 ^ 31)%Z; lia).
  rewrite read_scalar_failed by (auto; exact N). reflexivity.
Qed.
Lemma polyharmonic_defaults : forall n, In n poly_names ->
  make_rbf d n [] = Ok (mk_rbf n [one; zero] (identity d)) /\ (forall p, make_rbf d n [p] = Ok (mk_rbf n [p; zero] (identity d))) /\
  (forall p q, make_rbf d n [p; q] = Ok (mk_rbf n [p; q] (identity d))) /\
  (forall p q r l, make_rbf d n (p :: q :: r :: l) = Throw ExInvalidArgument).
Proof.
  intros n H. unfold make_rbf. assert (is_in n cov_names = false) as ->.
  { cbn in H. destruct H as [<-|[<-|[<-|[<-|[]]]]]; reflexivity. }
  assert (is_in n poly_names = true) as -> by (apply is_in_spec; exact H). repeat split.
Qed.
Lemma covariance_parameters : forall n ps, In n cov_names -> make_rbf d n ps = if Nat.eqb (length ps) 2 then Ok (mk_rbf n ps (identity d)) else Throw ExInvalidArgument.
Proof.
  intros n ps H. unfold make_rbf. assert (is_in n cov_names = true) as -> by (apply is_in_spec; exact H). destruct ps as [|p [|q [|r ps]]]; reflexivity.
Qed.
Lemma empty_model_file : load_model d junk max_elems det_pos [] = Ok default_model.
Proof.
  unfold load_model, load, read_model, read_objs, read_scalar. cbn.
  destruct (N.ltb_spec max_elems 0); [lia|]. reflexivity.
Qed.

End Env.
