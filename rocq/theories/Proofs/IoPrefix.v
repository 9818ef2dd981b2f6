From Coq Require Import List NArith ZArith Lia Bool.
From Verif Require Import Proofs.Io.
From Verif Require Import Model.Outcome Model.Io Spec.Io.
Import ListNotations.
Local Open Scope N_scope.

(** What becomes of every proper prefix of a saved file. *)
Lemma firstn_cases : forall {A} k (a b : list A), (k < length (a ++ b))%nat ->
  ((k < length a)%nat /\ firstn k (a ++ b) = firstn k a) \/
  ((length a <= k)%nat /\ (k - length a < length b)%nat /\ firstn k (a ++ b) = a ++ firstn (k - length a) b).
Proof.
  intros A k a b H. rewrite app_length in H. rewrite firstn_app. destruct (Compare_dec.le_lt_dec (length a) k) as [L|L].
  - right. rewrite firstn_all2 by lia. split; [exact L|]. split; [lia|reflexivity].
  - left. split; [exact L|]. replace (k - length a)%nat with 0%nat by lia. rewrite firstn_O. apply app_nil_r.
Qed.
Lemma sread_failed : forall n old s, failed s = true -> sread n old s = (old, s).
Proof. intros n old s F. unfold sread. rewrite F. reflexivity. Qed.
Lemma read_scalar_failed : forall k old s, failed s = true -> old < 256 ^ N.of_nat k -> read_scalar k old s = Ok (old, s).
Proof. intros k old s F L. unfold read_scalar. rewrite (sread_failed _ _ _ F), unle_le by exact L. reflexivity. Qed.
Lemma read_scalar_short : forall j k x old, (j < k)%nat ->
  read_scalar k old (mk_stream (firstn j (le k x)) false) = Ok (unle (le j x ++ skipn j (le k old)), mk_stream [] true).
Proof.
  intros j k x old H. unfold read_scalar. rewrite firstn_le by lia. rewrite sread_short by (rewrite le_length; exact H).
  rewrite le_length. reflexivity.
Qed.
Lemma read_scalar_short0 : forall j k x, (j < k)%nat ->
  read_scalar k 0 (mk_stream (firstn j (le k x)) false) = Ok (x mod 256 ^ N.of_nat j, mk_stream [] true).
Proof.
  intros j k x H. rewrite read_scalar_short by exact H. rewrite le_zero, skipn_zeros, unle_app_zeros, unle_le_mod. reflexivity.
Qed.
Lemma read_block_failed : forall k old s, failed s = true -> exists ys, read_block k old s = Ok (ys, s).
Proof. intros k old s F. unfold read_block. rewrite (sread_failed _ _ _ F). eauto. Qed.
Lemma chunks_length : forall k n bs, length (chunks k n bs) = n.
Proof. induction n; intros; cbn; auto. Qed.
Lemma read_block_short : forall j k xs old, length old = length xs -> (j < length (write_block k xs))%nat ->
  read_block k old (mk_stream (firstn j (write_block k xs)) false)
  = Ok (chunks k (length old) (firstn j (write_block k xs) ++ skipn j (write_block k old)), mk_stream [] true).
Proof.
  intros j k xs old L H. unfold read_block. rewrite sread_short by (rewrite firstn_length; rewrite write_block_length in *; lia).
  rewrite firstn_length, PeanoNat.Nat.min_l by lia. reflexivity.
Qed.
Lemma chunks_firstn : forall k q n bs, (q <= n)%nat -> firstn q (chunks k n bs) = chunks k q (firstn (k * q) bs).
Proof.
  intros k. induction q as [|q IH]; intros n bs L; [reflexivity|]. destruct n as [|n]; [lia|]. cbn [chunks firstn].
  rewrite IH by lia. f_equal.
  - rewrite firstn_firstn, PeanoNat.Nat.min_l by lia. reflexivity.
  - f_equal. rewrite firstn_skipn_comm. f_equal. f_equal. lia.
Qed.
Lemma chunks_one : forall bs, chunks 1 (length bs) bs = bs.
Proof. induction bs as [|b bs IH]; [reflexivity|]. cbn [length chunks firstn skipn]. rewrite IH. f_equal. cbn. lia. Qed.
Lemma chunks_ones : forall n bs, length bs = n -> chunks 1 n bs = bs.
Proof. intros n bs <-. apply chunks_one. Qed.
Lemma block_one_zeros : forall n, write_block 1 (repeat 0 n) = repeat 0 n.
Proof. induction n as [|n IH]; [reflexivity|]. cbn [repeat write_block flat_map]. fold (write_block 1 (repeat 0 n)). rewrite IH. reflexivity. Qed.
Lemma le_bytes : forall k x, Forall (fun b => b < 256) (le k x).
Proof. induction k; intros x; cbn [le]; constructor; auto. apply N.mod_lt. lia. Qed.
Lemma unle_bound : forall bs, Forall (fun b => b < 256) bs -> unle bs < 256 ^ N.of_nat (length bs).
Proof.
  induction bs as [|b bs IH]; intros F; [cbn; lia|]. inversion F; subst. cbn [length]. rewrite pow_succ_256. cbn [unle fold_right].
  fold (unle bs). specialize (IH H2). nia.
Qed.
Lemma unle_app : forall a b, unle (a ++ b) = unle a + 256 ^ N.of_nat (length a) * unle b.
Proof.
  induction a as [|x a IH]; intros b; [cbn [app length]; change (256 ^ N.of_nat 0) with 1; cbn [unle fold_right]; lia|].
  cbn [app length]. rewrite pow_succ_256. cbn [unle fold_right]. fold (unle (a ++ b)) (unle a). rewrite IH. lia.
Qed.
(** The number of rows starts as -1 and stays negative unless all of its bytes are there. *)
Lemma read_rows_short : forall j z, (j < 8)%nat ->
  exists r, read_int 8 (-1)%Z (mk_stream (firstn j (write_int 8 z)) false) = Ok (r, mk_stream [] true) /\ (r < 0)%Z.
Proof.
  intros j z H. unfold read_int, write_int. rewrite read_scalar_short by exact H. cbn [bind fst snd]. eexists. split; [reflexivity|].
  replace (le 8 (wrap 8 (-1)%Z)) with (repeat 255 7 ++ [255]) by reflexivity.
  rewrite skipn_app. replace (j - length (repeat 255%N 7))%nat with 0%nat by (rewrite repeat_length; lia). cbn [skipn]. rewrite app_assoc.
  set (l := le j (wrap 8 z) ++ skipn j (repeat 255 7)).
  assert (length l = 7%nat) as L. { unfold l. rewrite app_length, le_length, skipn_length, repeat_length. lia. }
  assert (Forall (fun b => b < 256) l) as B.
  { unfold l. apply Forall_app. split; [apply le_bytes|]. apply Forall_forall. intros x I. assert (In x (repeat 255 7)) as I'.
    { rewrite <- (firstn_skipn j (repeat 255 7)). apply in_or_app. auto. }
    apply repeat_spec in I'. subst x. lia. }
  apply unle_bound in B. rewrite unle_app. rewrite L in B |- *. change (unle [255]) with 255. unfold unwrap.
  change (256 ^ N.of_nat 7) with 72057594037927936 in *. change (256 ^ Z.of_nat 8)%Z with 18446744073709551616%Z.
  destruct (Z.ltb_spec (2 * Z.of_N (unle l + 72057594037927936 * 255)) 18446744073709551616); lia.
Qed.
Lemma read_rows_failed : forall s, failed s = true -> read_int 8 (-1)%Z s = Ok ((-1)%Z, s).
Proof. intros s F. unfold read_int. rewrite read_scalar_failed; [reflexivity|exact F|reflexivity]. Qed.
Lemma read_bool_failed : forall s, failed s = true -> read_bool false s = Ok (false, s).
Proof. intros s F. unfold read_bool. rewrite read_scalar_failed; [reflexivity|exact F|reflexivity]. Qed.

Section Env.
Variable d : nat.
Variable junk : nat -> N.
Variable max_elems : N.
Variable det_pos : list N -> bool.

Lemma read_vec_any : forall k s, (exists ys s', read_vec max_elems k [] s = Ok (ys, s') /\ (failed s = true -> failed s' = true)) \/
  read_vec max_elems k [] s = Throw ExLengthError.
Proof.
  intros k s. unfold read_vec, read_scalar. destruct (sread 8 (le 8 0) s) as [bs s1] eqn:E. cbn [bind fst snd].
  destruct (max_elems <? unle bs); [auto|]. left. unfold read_block. destruct (sread _ _ s1) as [cs s2] eqn:E2. eexists _, _. split; [reflexivity|].
  intros F. rewrite (sread_failed _ _ _ F) in E. injection E as _ <-. rewrite (sread_failed _ _ _ F) in E2. congruence.
Qed.
Lemma read_vec_short : forall k xs j, size_ok max_elems (length xs) -> (j < length (write_vec k xs))%nat ->
  (exists ys s, read_vec max_elems k [] (mk_stream (firstn j (write_vec k xs)) false) = Ok (ys, s) /\ failed s = true /\
    (k = 1%nat -> ys = [] \/ In 0 ys)) \/
  read_vec max_elems k [] (mk_stream (firstn j (write_vec k xs)) false) = Throw ExLengthError.
Proof.
  intros k xs j S H. unfold write_vec in *. unfold write_scalar in *. apply firstn_cases in H. rewrite le_length in H. destruct H as [[H ->]|(H1 & H2 & ->)].
  - unfold read_vec. rewrite read_scalar_short0 by exact H. cbn [bind fst snd]. destruct (max_elems <? _); [auto|]. left.
    set (n := N.to_nat _). rewrite firstn_nil, PeanoNat.Nat.sub_0_r. cbn [app].
    unfold read_block. rewrite sread_failed by reflexivity. eexists _, _. split; [reflexivity|]. split; [reflexivity|]. intros ->.
    rewrite repeat_length, block_one_zeros. rewrite chunks_ones by apply repeat_length.
    destruct n; [left; reflexivity|right; left; reflexivity].
  - left. unfold read_vec. fold (write_scalar 8 (N.of_nat (length xs))). rewrite (read_scalar_rt 8 _ 0 (size_fits _ _ S)). cbn [bind fst snd].
    rewrite size_not_gt by exact S. rewrite Nat2N.id, firstn_nil, PeanoNat.Nat.sub_0_r. cbn [app].
    rewrite read_block_short by (try exact H2; apply repeat_length). eexists _, _. split; [reflexivity|]. split; [reflexivity|]. intros ->.
    rewrite write_block_length in H2.
    assert (length (firstn (j - 8) (write_block 1 xs) ++ skipn (j - 8) (write_block 1 (repeat 0 (length xs)))) = length xs) as L.
    { rewrite app_length, firstn_length, skipn_length, !write_block_length, repeat_length. lia. }
    rewrite repeat_length, chunks_ones by exact L. right. apply in_or_app. right. rewrite block_one_zeros, skipn_zeros.
    destruct (length xs - (j - 8))%nat eqn:E; [lia|]. left. reflexivity.
Qed.

Lemma known_nonzero : forall n, known n -> n <> [] /\ ~ In 0 n.
Proof.
  intros n [K|K]; cbn in K; repeat (destruct K as [K|K]; [subst; split; [discriminate|cbn; intuition discriminate]|]); contradiction.
Qed.
Lemma make_unknown : forall n ps, ~ known n -> make_rbf d n ps = Throw ExRuntimeError.
Proof.
  intros n ps K. unfold make_rbf. destruct (is_in n cov_names) eqn:E; [exfalso; apply K; left; apply is_in_spec, E|].
  destruct (is_in n poly_names) eqn:E2; [exfalso; apply K; right; apply is_in_spec, E2|reflexivity].
Qed.
Lemma make_name : forall n ps r, make_rbf d n ps = Ok r -> name r = n.
Proof.
  intros n ps r H. unfold make_rbf in H.
  destruct (is_in n cov_names); [|destruct (is_in n poly_names); [|discriminate]];
    destruct ps as [|a [|b [|]]]; try discriminate; injection H as <-; reflexivity.
Qed.

(** What read_rbf does after the two vectors have been read. *)
Lemma rbf_tail : forall n ps s,
  match (let* r3 := read_fixed (uninit junk (d * d)) s in
         let* r := make_rbf d n ps in let* r' := set_anisotropy det_pos r (fst r3) in Ok (r', snd r3)) with
  | UB => False
  | Throw _ => True
  | Ok (r', s') => name r' = n /\ known n /\ (failed s = true -> failed s' = true)
  end.
Proof.
  intros n ps s. unfold read_fixed, read_block. destruct (sread _ _ s) as [bs s1] eqn:E. cbn [bind fst snd].
  destruct (make_rbf d n ps) as [r| |] eqn:M; cbn [bind]; [|exact I|].
  - unfold set_anisotropy. destruct (det_pos _); cbn [bind]; [|exact I]. cbn [name]. split; [apply (make_name n ps), M|]. split.
    + unfold make_rbf in M. destruct (is_in n cov_names) eqn:C; [left; apply is_in_spec, C|].
      destruct (is_in n poly_names) eqn:C2; [right; apply is_in_spec, C2|discriminate].
    + intros F. rewrite (sread_failed _ _ _ F) in E. congruence.
  - unfold make_rbf in M. destruct (is_in n cov_names); [|destruct (is_in n poly_names); [|discriminate]];
      destruct ps as [|a [|b [|]]]; discriminate.
Qed.

Lemma read_rbf_failed : forall old s, failed s = true -> exists e, read_rbf d junk max_elems det_pos old s = Throw e.
Proof.
  intros old s F. unfold read_rbf.
  assert (read_vec max_elems 1 [] s = Ok ([], s)) as V.
  { unfold read_vec. rewrite read_scalar_failed by (try exact F; reflexivity). cbn [bind fst snd].
    destruct (N.ltb_spec max_elems 0); [lia|]. cbn. unfold read_block. cbn [length]. rewrite sread_failed by exact F. reflexivity. }
  rewrite V. cbn [bind fst snd]. destruct (read_vec_any 8 s) as [(ys & s' & -> & _)| ->]; cbn [bind fst snd]; [|eauto].
  pose proof (rbf_tail [] ys s') as T. destruct (let* _ := _ in _) as [[r' s2]|e|]; [|eauto|contradiction].
  destruct T as (_ & K & _). apply known_nonzero in K. destruct K as [K _]. contradiction.
Qed.

Lemma read_rbf_short : forall r old j, saveable_rbf d max_elems det_pos r -> (j < length (write_rbf r))%nat ->
  match read_rbf d junk max_elems det_pos old (mk_stream (firstn j (write_rbf r)) false) with
  | UB => False | Throw _ => True | Ok (r', s) => name r' = name r /\ failed s = true
  end.
Proof.
  intros r old j (K & L & F & LA & FA & Dt & S) H. pose proof (known_props _ K) as [L3 F1].
  assert (size_ok max_elems 2) as S2 by (unfold size_ok in *; lia).
  unfold write_rbf in *. apply firstn_cases in H. destruct H as [[H ->]|(H1 & H2 & ->)].
  - unfold read_rbf. destruct (read_vec_short 1 (name r) j) as [(ys & s & -> & Fs & Z)| ->]; [rewrite L3; exact S|exact H| |exact I].
    cbn [bind fst snd]. destruct (read_vec_any 8 s) as [(zs & s' & -> & _)| ->]; cbn [bind fst snd]; [|exact I].
    pose proof (rbf_tail ys zs s') as T. destruct (let* _ := _ in _) as [[r' s2]|e|]; [|exact I|contradiction].
    destruct T as (_ & Kn & _). apply known_nonzero in Kn. destruct Kn as [K1 K2]. destruct (Z eq_refl); contradiction.
  - unfold read_rbf. rewrite (read_vec_rt max_elems 1 (name r) []); [|rewrite L3; exact S|exact F1]. cbn [bind fst snd].
    apply firstn_cases in H2. destruct H2 as [[H ->]|(H3 & H4 & ->)].
    + destruct (read_vec_short 8 (params r) (j - length (write_vec 1 (name r)))) as [(ys & s & -> & Fs & _)| ->];
        [rewrite L; exact S2|exact H| |exact I]. cbn [bind fst snd].
      pose proof (rbf_tail (name r) ys s) as T. destruct (let* _ := _ in _) as [[r' s2]|e|]; [|exact I|contradiction]. tauto.
    + rewrite (read_vec_rt max_elems 8 (params r) []); [|rewrite L; exact S2|exact F]. cbn [bind fst snd].
      unfold read_fixed, write_fixed in *. rewrite read_block_short; [|rewrite uninit_length; auto|exact H4]. cbn [bind fst snd].
      rewrite known_make by (auto). cbn [bind]. unfold set_anisotropy.
      match goal with |- context [det_pos ?x] => destruct (det_pos x) end; cbn [bind]; [split; reflexivity|exact Logic.I].
Qed.

Lemma read_each_short : forall rs olds j, Forall (saveable_rbf d max_elems det_pos) rs -> length olds = length rs ->
  (j < length (flat_map write_rbf rs))%nat ->
  match read_each (read_rbf d junk max_elems det_pos) olds (mk_stream (firstn j (flat_map write_rbf rs)) false) with
  | UB => False | Throw _ => True
  | Ok (rs', s) => failed s = true /\ exists l r r', rs = l ++ [r] /\ rs' = l ++ [r'] /\ name r' = name r
  end.
Proof.
  induction rs as [|r rs IH]; intros olds j F L H; [cbn in H; lia|]. destruct olds as [|o olds]; [discriminate|].
  inversion F as [|a b Fr Frs]; subst. cbn [flat_map] in *. apply firstn_cases in H. cbn [read_each]. destruct H as [[H ->]|(H1 & H2 & ->)].
  - pose proof (read_rbf_short r o j Fr H) as R. destruct (read_rbf d junk max_elems det_pos o _) as [[r' s]|e|]; cbn [bind fst snd]; [|exact I|exact R].
    destruct R as [Nm Fs]. cbn in L. injection L as L. destruct olds as [|o2 olds].
    + cbn [read_each bind fst snd]. destruct rs; [|discriminate]. split; [exact Fs|]. exists [], r, r'. auto.
    + cbn [read_each]. destruct (read_rbf_failed o2 s Fs) as [e ->]. exact I.
  - rewrite (read_rbf_rt d junk max_elems det_pos r o Fr). cbn [bind fst snd]. cbn in L. injection L as L.
    specialize (IH olds _ Frs L H2). destruct (read_each _ olds _) as [[rs' s]|e|]; cbn [bind fst snd]; [|exact I|exact IH].
    destruct IH as (Fs & l & x & x' & -> & -> & Nm). split; [exact Fs|]. exists (r :: l), x, x'. auto.
Qed.
Lemma read_rbfs_short : forall rs j, size_ok max_elems (length rs) -> Forall (saveable_rbf d max_elems det_pos) rs ->
  (j < length (write_objs write_rbf rs))%nat ->
  match read_objs max_elems null_rbf (read_rbf d junk max_elems det_pos) [] (mk_stream (firstn j (write_objs write_rbf rs)) false) with
  | UB => False | Throw _ => True
  | Ok (rs', s) => failed s = true /\ (rs' = [] \/ exists l r r', rs = l ++ [r] /\ rs' = l ++ [r'] /\ name r' = name r)
  end.
Proof.
  intros rs j S F H. unfold write_objs in *. unfold write_scalar in *. apply firstn_cases in H. rewrite le_length in H. destruct H as [[H ->]|(H1 & H2 & ->)].
  - unfold read_objs. rewrite read_scalar_short0 by exact H. cbn [bind fst snd]. destruct (max_elems <? _); [exact I|].
    rewrite firstn_nil, PeanoNat.Nat.sub_0_r. cbn [app]. destruct (N.to_nat _) as [|n]; [cbn; auto|]. cbn [repeat read_each].
    destruct (read_rbf_failed null_rbf (mk_stream [] true) eq_refl) as [e ->]. exact I.
  - unfold read_objs. fold (write_scalar 8 (N.of_nat (length rs))). rewrite (read_scalar_rt 8 _ 0 (size_fits _ _ S)). cbn [bind fst snd].
    rewrite size_not_gt by exact S. rewrite Nat2N.id, firstn_nil, PeanoNat.Nat.sub_0_r. cbn [app].
    pose proof (read_each_short rs (repeat null_rbf (length rs)) _ F (repeat_length _ _) H2) as R.
    destruct (read_each _ _ _) as [[rs' s]|e|]; auto. tauto.
Qed.

Lemma write_model_length : forall m, length (write_model m) = (length (write_objs write_rbf (rbfs m)) + 12)%nat.
Proof. intros m. unfold write_model, write_int, write_scalar. rewrite !app_length, !le_length. lia. Qed.

Lemma read_model_short : forall m j, saveable_model d max_elems det_pos m -> (j < length (write_model m))%nat ->
  match read_model d junk max_elems det_pos default_model (mk_stream (firstn j (write_model m)) false) with
  | UB => False
  | Throw _ => (j < length (write_model m) - 12)%nat
  | Ok (m', s) => failed s = true /\
      if Nat.ltb j (length (write_model m) - 12)
      then poly_degree m' = 0%Z /\ nugget m' = 0 /\
           (rbfs m' = [] \/ exists l r r', rbfs m = l ++ [r] /\ rbfs m' = l ++ [r'] /\ name r' = name r)
      else rbfs m' = rbfs m /\ ((length (write_model m) - 8 <= j)%nat -> poly_degree m' = poly_degree m)
  end.
Proof.
  intros m j (S & F & P & N1) H. pose proof (write_model_length m) as WL. rewrite WL. rewrite WL in H.
  replace (length (write_objs write_rbf (rbfs m)) + 12 - 12)%nat with (length (write_objs write_rbf (rbfs m))) by lia.
  replace (length (write_objs write_rbf (rbfs m)) + 12 - 8)%nat with (length (write_objs write_rbf (rbfs m)) + 4)%nat by lia.
  rewrite <- WL in H. unfold write_model in H |- *. clear WL. apply firstn_cases in H.
  unfold read_model. change (rbfs default_model) with (@nil rbf). destruct H as [[H ->]|(H1 & H2 & ->)].
  - rewrite (proj2 (PeanoNat.Nat.ltb_lt _ _) H). pose proof (read_rbfs_short (rbfs m) j S F H) as R.
    destruct (read_objs _ _ _ _ _) as [[rs' s]|e|]; cbn [bind fst snd]; [|exact H|exact R]. destruct R as [Fs R].
    unfold read_int. rewrite read_scalar_failed; [|exact Fs|reflexivity]. cbn [bind fst snd].
    rewrite read_scalar_failed; [|exact Fs|reflexivity]. cbn [bind fst snd]. split; [exact Fs|]. split; [reflexivity|]. split; [reflexivity|exact R].
  - rewrite (proj2 (PeanoNat.Nat.ltb_ge _ _) H1). rewrite (read_objs_rt max_elems (fun _ => True)); auto.
    2:{ intros x o Ix _. rewrite Forall_forall in F. apply read_rbf_rt; auto. }
    cbn [bind fst snd]. apply firstn_cases in H2. destruct H2 as [[H ->]|(H3 & H4 & ->)].
    + unfold write_int in *. rewrite le_length in H. unfold read_int. rewrite read_scalar_short by exact H. cbn [bind fst snd].
      rewrite read_scalar_failed by reflexivity. cbn [bind fst snd failed rbfs poly_degree]. split; [reflexivity|]. split; [reflexivity|]. intros; lia.
    + rewrite read_int_rt.
      2:{ change (256 ^ Z.of_nat 4)%Z with 4294967296%Z. change (2 ^ 31)%Z with 2147483648%Z in P. lia. }
      cbn [bind fst snd]. unfold write_scalar in *. rewrite le_length in H4. change (nugget default_model) with 0.
      rewrite read_scalar_short0 by exact H4. cbn [bind fst snd failed rbfs poly_degree]. auto.
Qed.

Lemma model_prefixes : forall m j, saveable_model d max_elems det_pos m -> (j < length (write_model m))%nat ->
  match load_model d junk max_elems det_pos (firstn j (write_model m)) with
  | UB => False
  | Throw _ => (j < length (write_model m) - 12)%nat
  | Ok m' =>
      if Nat.ltb j (length (write_model m) - 12)
      then poly_degree m' = 0%Z /\ nugget m' = 0 /\
           (rbfs m' = [] \/ exists l r r', rbfs m = l ++ [r] /\ rbfs m' = l ++ [r'] /\ name r' = name r)
      else rbfs m' = rbfs m /\ ((length (write_model m) - 8 <= j)%nat -> poly_degree m' = poly_degree m)
  end.
Proof.
  intros m j S H. pose proof (read_model_short m j S H) as R. unfold load_model, load.
  destruct (read_model _ _ _ _ _ _) as [[m' s]|e|]; cbn [bind fst]; [|exact R|exact R]. tauto.
Qed.

(** * Interpolants *)
Lemma read_dynmat_failed : forall cols old s, failed s = true -> read_dynmat junk max_elems cols old s = UB.
Proof. intros cols old s F. unfold read_dynmat. rewrite read_rows_failed by exact F. reflexivity. Qed.
Lemma rows_range : forall n, size_ok max_elems n -> (- 256 ^ Z.of_nat 8 <= 2 * Z.of_nat n < 256 ^ Z.of_nat 8)%Z.
Proof.
  intros n [_ S1]. change (256 ^ Z.of_nat 8)%Z with 18446744073709551616%Z. change (2 ^ 63) with 9223372036854775808 in S1. lia.
Qed.
Lemma read_dynmat_short : forall cols t j, saveable_dynmat max_elems cols t -> (j < length (write_dynmat t))%nat ->
  if Nat.ltb j 8 then read_dynmat junk max_elems cols (mk_dynmat 0 []) (mk_stream (firstn j (write_dynmat t)) false) = UB
  else exists cs s, read_dynmat junk max_elems cols (mk_dynmat 0 []) (mk_stream (firstn j (write_dynmat t)) false) = Ok (mk_dynmat (nrows t) cs, s) /\
    failed s = true /\ length cs = length (coeffs t) /\ firstn ((j - 8) / 8) cs = firstn ((j - 8) / 8) (coeffs t).
Proof.
  intros cols [r cs] j (L & F & S1 & S2) H. cbn [nrows coeffs] in *. unfold write_dynmat in *. cbn [nrows coeffs] in *.
  apply firstn_cases in H. unfold write_int in H at 1. unfold write_int in H at 3. unfold write_int in H at 3. rewrite !le_length in H.
  destruct H as [[H E]|(H1 & H2 & E)].
  - rewrite (proj2 (PeanoNat.Nat.ltb_lt _ _) H). rewrite E. unfold read_dynmat.
    destruct (read_rows_short j (Z.of_nat r) H) as (z & -> & Neg). cbn [bind fst snd]. rewrite (proj2 (Z.ltb_lt _ _) Neg). reflexivity.
  - rewrite (proj2 (PeanoNat.Nat.ltb_ge _ _) H1). rewrite E. unfold write_int. rewrite !le_length. unfold read_dynmat.
    fold (write_int 8 (Z.of_nat r)). rewrite read_int_rt by (apply rows_range, S1). cbn [bind fst snd].
    destruct (Z.ltb_spec (Z.of_nat r) 0); [lia|]. replace (Z.to_N (Z.of_nat r) * N.of_nat cols) with (N.of_nat (r * cols)) by lia.
    rewrite size_not_gt by exact S2. rewrite Nat2Z.id. cbn [coeffs length].
    set (mem := if Nat.eqb 0 (r * cols) then [] else uninit junk (r * cols)).
    assert (length mem = length cs) as Em.
    { unfold mem. destruct (Nat.eqb_spec 0 (r * cols)) as [Z|Z]; cbn [length]; [lia|]. rewrite uninit_length. lia. }
    rewrite read_block_short by (auto). cbn [bind fst snd]. eexists _, _. split; [reflexivity|]. split; [reflexivity|].
    split; [rewrite chunks_length; exact Em|]. set (q := ((j - 8) / 8)%nat).
    assert (8 * q <= j - 8)%nat as Q by (apply PeanoNat.Nat.mul_div_le; lia).
    rewrite write_block_length in H2.
    rewrite chunks_firstn by lia. rewrite firstn_app, firstn_length, write_block_length.
    replace (8 * q - Nat.min (j - 8) (8 * length cs))%nat with 0%nat by lia. rewrite firstn_O, app_nil_r, firstn_firstn.
    rewrite PeanoNat.Nat.min_l by lia. rewrite firstn_write_block.
    pose proof (chunks_block 8 (firstn q cs)) as C. rewrite firstn_length, PeanoNat.Nat.min_l in C by lia. apply C.
    apply Forall_forall. intros x Ix. unfold fits in F. rewrite Forall_forall in F. apply F. eapply in_firstn; eauto.
Qed.
Lemma read_bbox_failed : forall old s, failed s = true -> exists b, read_bbox old s = Ok (b, s).
Proof.
  intros old s F. unfold read_bbox, read_fixed. destruct (read_block_failed 8 (bmin old) s F) as [x ->]. cbn [bind fst snd].
  destruct (read_block_failed 8 (bmax old) s F) as [y ->]. cbn [bind fst snd]. eauto.
Qed.
Lemma read_bbox_short : forall b old j, saveable_bbox d b -> length (bmin old) = d -> length (bmax old) = d ->
  (j < length (write_bbox b))%nat -> exists x s, read_bbox old (mk_stream (firstn j (write_bbox b)) false) = Ok (x, s) /\ failed s = true.
Proof.
  intros b old j (L1 & F1 & L2 & F2) O1 O2 H. unfold write_bbox, write_fixed in *. apply firstn_cases in H.
  unfold read_bbox, read_fixed. destruct H as [[H ->]|(H1 & H2 & ->)].
  - rewrite read_block_short by (try exact H; congruence). cbn [bind fst snd].
    destruct (read_block_failed 8 (bmax old) (mk_stream [] true) eq_refl) as [y ->]. cbn [bind fst snd]. eauto.
  - rewrite read_block_rt by (auto; congruence). cbn [bind fst snd]. rewrite read_block_short by (try exact H2; congruence). cbn [bind fst snd]. eauto.
Qed.

Lemma interpolant_prefixes : forall t j, saveable_interpolant d max_elems det_pos t -> (j < length (write_interpolant t))%nat ->
  let start := (length (write_interpolant t) - 8 * nrows (weights t))%nat in
  if Nat.ltb j start
  then load_interpolant d junk max_elems det_pos (firstn j (write_interpolant t)) = UB \/
       exists e, load_interpolant d junk max_elems det_pos (firstn j (write_interpolant t)) = Throw e
  else exists cs, load_interpolant d junk max_elems det_pos (firstn j (write_interpolant t))
         = Ok (mk_interpolant (model_ t) (fitted t) (centers t) (grad_centers t) (ibbox t) (mk_dynmat (nrows (weights t)) cs)) /\
       length cs = nrows (weights t) /\ firstn ((j - start) / 8) cs = firstn ((j - start) / 8) (coeffs (weights t)).
Proof.
  intros [m f c g b w] j (HM & HC & HG & HB & HW) H start. cbn [model_ fitted centers grad_centers ibbox weights] in *.
  pose proof HW as (LW & _). rewrite PeanoNat.Nat.mul_1_r in LW.
  assert (length (write_interpolant (mk_interpolant m f c g b w)) =
    length (write_model m) + (length (write_bool f) + (length (write_dynmat c) + (length (write_dynmat g) + (length (write_bbox b) + (8 + 8 * nrows w))))))%nat as WL.
  { unfold write_interpolant. cbn [model_ fitted centers grad_centers ibbox weights]. rewrite !app_length. unfold write_dynmat at 3.
    rewrite app_length, write_block_length, LW. unfold write_int at 1. rewrite le_length. lia. }
  assert (length (write_dynmat w) = 8 + 8 * nrows w)%nat as LD.
  { unfold write_dynmat. rewrite app_length, write_block_length, LW. unfold write_int. rewrite le_length. lia. }
  unfold start. clear start. rewrite WL. rewrite WL in H.
  unfold load_interpolant, load, read_interpolant.
  change (model_ (default_interpolant d)) with default_model. change (fitted (default_interpolant d)) with false.
  change (centers (default_interpolant d)) with (mk_dynmat 0 []). change (grad_centers (default_interpolant d)) with (mk_dynmat 0 []).
  change (weights (default_interpolant d)) with (mk_dynmat 0 []). change (ibbox (default_interpolant d)) with (default_bbox d).
  destruct (default_bbox_lengths d) as [O1 O2].
  rewrite <- WL in H. unfold write_interpolant in *. cbn [model_ fitted centers grad_centers ibbox weights] in *.
  set (goal_start := (length (write_model m) + (length (write_bool f) + (length (write_dynmat c) + (length (write_dynmat g) + (length (write_bbox b) + (8 + 8 * nrows w))))) - 8 * nrows w)%nat).
  assert (goal_start = length (write_model m) + (length (write_bool f) + (length (write_dynmat c) + (length (write_dynmat g) + (length (write_bbox b) + 8)))))%nat as GS by (unfold goal_start; lia).
  clearbody goal_start. subst goal_start. clear WL.
  apply firstn_cases in H. destruct H as [[H ->]|(H1 & H & ->)].
  { rewrite (proj2 (PeanoNat.Nat.ltb_lt _ _)) by lia. pose proof (read_model_short m j HM H) as R.
    destruct (read_model _ _ _ _ _ _) as [[m' s]|e|]; cbn [bind fst snd]; [|right; eauto|auto]. destruct R as [Fs _].
    rewrite read_bool_failed by exact Fs. cbn [bind fst snd]. rewrite read_dynmat_failed by exact Fs. left. reflexivity. }
  rewrite read_model_rt by exact HM. cbn [bind fst snd]. apply firstn_cases in H. destruct H as [[H ->]|(H2 & H & ->)].
  { rewrite (proj2 (PeanoNat.Nat.ltb_lt _ _)) by lia. left. unfold write_bool in *. rewrite le_length in H.
    unfold read_bool. rewrite read_scalar_short0 by exact H. cbn [bind fst snd].
    replace (j - length (write_model m))%nat with 0%nat by lia. cbn [N.of_nat]. change (256 ^ 0) with 1. rewrite N.mod_1_r. cbn [bind fst snd].
    rewrite read_dynmat_failed by reflexivity. reflexivity. }
  rewrite read_bool_rt. cbn [bind fst snd]. apply firstn_cases in H. destruct H as [[H ->]|(H3 & H & ->)].
  { rewrite (proj2 (PeanoNat.Nat.ltb_lt _ _)) by lia. left. pose proof (read_dynmat_short d c _ HC H) as R.
    destruct (Nat.ltb _ 8); [rewrite R; reflexivity|]. destruct R as (cs & s & -> & Fs & _). cbn [bind fst snd].
    rewrite read_dynmat_failed by exact Fs. reflexivity. }
  rewrite read_dynmat_rt by exact HC. cbn [bind fst snd]. apply firstn_cases in H. destruct H as [[H ->]|(H4 & H & ->)].
  { rewrite (proj2 (PeanoNat.Nat.ltb_lt _ _)) by lia. left. pose proof (read_dynmat_short d g _ HG H) as R.
    destruct (Nat.ltb _ 8); [rewrite R; reflexivity|]. destruct R as (cs & s & -> & Fs & _). cbn [bind fst snd].
    destruct (read_bbox_failed (default_bbox d) s Fs) as [x ->]. cbn [bind fst snd]. rewrite read_dynmat_failed by exact Fs. reflexivity. }
  rewrite read_dynmat_rt by exact HG. cbn [bind fst snd]. apply firstn_cases in H. destruct H as [[H ->]|(H5 & H & ->)].
  { rewrite (proj2 (PeanoNat.Nat.ltb_lt _ _)) by lia. left.
    destruct (read_bbox_short b (default_bbox d) _ HB O1 O2 H) as (x & s & -> & Fs). cbn [bind fst snd]. rewrite read_dynmat_failed by exact Fs. reflexivity. }
  rewrite (read_bbox_rt d) by (auto). cbn [bind fst snd].
  pose proof (read_dynmat_short 1 w _ HW H) as R. destruct (Nat.ltb_spec j (length (write_model m) + (length (write_bool f) + (length (write_dynmat c) + (length (write_dynmat g) + (length (write_bbox b) + 8)))))) as [J|J].
  - rewrite (proj2 (PeanoNat.Nat.ltb_lt _ _)) in R by lia. rewrite R. left. reflexivity.
  - rewrite (proj2 (PeanoNat.Nat.ltb_ge _ _)) in R by lia. destruct R as (cs & s & -> & Fs & Lc & Fc). cbn [bind fst snd]. exists cs.
    split; [reflexivity|]. split; [congruence|].
    match type of Fc with firstn (?x / 8) _ = _ => replace x with (j - (length (write_model m) + (length (write_bool f) + (length (write_dynmat c) + (length (write_dynmat g) + (length (write_bbox b) + 8))))))%nat in Fc by lia end.
    exact Fc.
Qed.
End Env.
