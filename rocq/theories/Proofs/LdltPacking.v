From Coq Require Import List Arith Lia Bool.
From Verif Require Import Model.Outcome Model.BinaryCache Model.LdltPacking Spec.BinaryCache.
From Verif Require Import Proofs.BinaryCache.
Import ListNotations.

Definition T (r : nat) : nat := r * (r + 1) / 2.

Lemma T_succ r : T (S r) = T r + r + 1.
Proof.
  unfold T. replace (S r * (S r + 1)) with (r * (r + 1) + (r + 1) * 2) by lia.
  rewrite Nat.div_add by lia. lia.
Qed.

Lemma T_double r : 2 * T r = r * (r + 1).
Proof. induction r as [|r IH]; [reflexivity|]. rewrite T_succ. lia. Qed.

Lemma T_mono r s : r <= s -> T r <= T s.
Proof. induction 1; [lia|]. rewrite T_succ. lia. Qed.

Section P.
Variable A : Type.

Lemma nth_error_firstn' (l : list A) n i :
  nth_error (firstn n l) i = if i <? n then nth_error l i else None.
Proof.
  revert l i. induction n as [|n IH]; intros l i; simpl.
  - now destruct i.
  - destruct l as [|x l], i as [|i]; simpl; try reflexivity.
    + now destruct (S i <? S n).
    + rewrite IH. reflexivity.
Qed.

Lemma nth_error_skipn' (l : list A) n i : nth_error (skipn n l) i = nth_error l (n + i).
Proof.
  revert l. induction n as [|n IH]; intros l; simpl; [reflexivity|].
  destruct l as [|x l]; [now destruct i|]. apply IH.
Qed.

Definition disjoint (dst src len : nat) : Prop := dst + len <= src \/ src + len <= dst.

Lemma memcpy_ok (a : list A) dst src len :
  dst + len <= length a -> src + len <= length a -> disjoint dst src len ->
  exists a', memcpy a dst src len = Ok a' /\ length a' = length a /\
    (forall i, dst <= i < dst + len -> nth_error a' i = nth_error a (src + (i - dst))) /\
    (forall i, i < dst \/ dst + len <= i -> nth_error a' i = nth_error a i).
Proof.
  intros Hd Hs Hdis. unfold memcpy.
  rewrite (proj2 (Nat.leb_le _ _) Hd), (proj2 (Nat.leb_le _ _) Hs). cbn [andb].
  replace ((dst + len <=? src) || (src + len <=? dst)) with true.
  2: { symmetry. apply orb_true_iff. rewrite !Nat.leb_le. exact Hdis. }
  eexists. split; [reflexivity|].
  assert (L1 : length (firstn dst a) = dst) by (rewrite firstn_length; lia).
  assert (L2 : length (firstn len (skipn src a)) = len)
    by (rewrite firstn_length, skipn_length; lia).
  split; [|split].
  - rewrite !app_length, L1, L2, skipn_length. lia.
  - intros i Hi. rewrite nth_error_app2, L1 by lia.
    rewrite nth_error_app1 by (rewrite L2; lia).
    rewrite nth_error_firstn', nth_error_skipn'.
    destruct (Nat.ltb_spec (i - dst) len); [reflexivity|lia].
  - intros i [Hi|Hi].
    + rewrite nth_error_app1 by lia. rewrite nth_error_firstn'.
      destruct (Nat.ltb_spec i dst); [reflexivity|lia].
    + rewrite nth_error_app2, L1 by lia. rewrite nth_error_app2, L2 by lia.
      rewrite nth_error_skipn'. f_equal. lia.
Qed.

(** Sizes: the ranges of a row never overlap unless n = 2. *)
Lemma rows_disjoint n r : n <> 2 -> 1 <= r < n -> T r + (r + 1) <= r * n.
Proof. intros Hn Hr. assert (H := T_double r). nia. Qed.

Lemma T_le_row n r : r < n -> T r <= r * n.
Proof. intros Hr. assert (H := T_double r). nia. Qed.

Lemma pack_inv n (a : list A) : n <> 2 -> length a = n * n ->
  forall k, 1 <= k <= n ->
  exists a', fold_rows (pack_row n) (seq 1 (k - 1)) a = Ok a' /\ length a' = n * n /\
    (forall r j, r < k -> j <= r -> nth_error a' (T r + j) = nth_error a (r * n + j)) /\
    (forall i, T k <= i -> nth_error a' i = nth_error a i).
Proof.
  intros Hn Ha k Hk. induction k as [|k IH]; [lia|].
  destruct (Nat.eq_dec k 0) as [->|Hk0].
  - exists a. simpl. split; [reflexivity|]. split; [assumption|]. split; [|auto].
    intros r j Hr Hj. assert (r = 0) by lia. assert (j = 0) by lia. subst. reflexivity.
  - destruct IH as [a1 [H1 [L1 [P1 Q1]]]]; [lia|].
    replace (S k - 1) with (S (k - 1)) by lia. rewrite seq_S.
    replace (1 + (k - 1)) with k by lia.
    assert (Hf : forall l1 l2 (b : list A), fold_rows (pack_row n) (l1 ++ l2) b =
               bind (fold_rows (pack_row n) l1 b) (fold_rows (pack_row n) l2)).
    { induction l1 as [|x l1 IHl]; intros l2 b; simpl; [reflexivity|].
      destruct (pack_row n b x); simpl; auto. }
    rewrite Hf, H1. cbn [bind fold_rows].
    assert (Hdis := rows_disjoint n k Hn ltac:(lia)).
    assert (Hkn : k * n + n <= n * n) by nia.
    unfold pack_row at 1. change (k * (k + 1) / 2) with (T k).
    destruct (memcpy_ok a1 (T k) (k * n) (k + 1)) as [a2 [H2 [L2 [P2 Q2]]]];
      [lia|lia|left; lia|].
    rewrite H2. cbn [bind]. exists a2. split; [reflexivity|]. split; [lia|]. split.
    + intros r j Hr Hj. destruct (Nat.eq_dec r k) as [->|Hne].
      * rewrite P2 by lia. rewrite Q1.
        -- f_equal. lia.
        -- lia.
      * rewrite Q2.
        -- apply P1; lia.
        -- left. assert (T (S r) <= T k) by (apply T_mono; lia). rewrite T_succ in H. lia.
    + intros i Hi. rewrite T_succ in Hi. rewrite Q2 by lia. apply Q1. lia.
Qed.

Lemma unpack_inv n (p : list A) : n <> 2 -> length p = n * n ->
  forall k, k < n ->
  exists a', fold_rows (unpack_row n) (rev (seq (n - k) k)) p = Ok a' /\ length a' = n * n /\
    (forall r j, n - k <= r < n -> j <= r -> nth_error a' (r * n + j) = nth_error p (T r + j)) /\
    (forall i, i < T (n - k) -> nth_error a' i = nth_error p i).
Proof.
  intros Hn Hp k. induction k as [|k IH]; intros Hk.
  - exists p. simpl. split; [reflexivity|]. split; [assumption|]. split; [lia|auto].
  - destruct IH as [a1 [H1 [L1 [P1 Q1]]]]; [lia|].
    set (r := n - S k). assert (Hr : 1 <= r < n) by lia.
    cbn [seq rev]. replace (S r) with (n - k) by lia.
    assert (Hf : forall l1 l2 (b : list A), fold_rows (unpack_row n) (l1 ++ l2) b =
               bind (fold_rows (unpack_row n) l1 b) (fold_rows (unpack_row n) l2)).
    { induction l1 as [|x l1 IHl]; intros l2 b; simpl; [reflexivity|].
      destruct (unpack_row n b x); simpl; auto. }
    rewrite Hf, H1. cbn [bind fold_rows].
    assert (Hdis := rows_disjoint n r Hn Hr).
    assert (Hrn : r * n + n <= n * n) by nia.
    unfold unpack_row at 1. change (r * (r + 1) / 2) with (T r).
    destruct (memcpy_ok a1 (r * n) (T r) (r + 1)) as [a2 [H2 [L2 [P2 Q2]]]];
      [lia|lia|right; lia|].
    rewrite H2. cbn [bind]. exists a2. split; [reflexivity|]. split; [lia|].
    assert (HT : T (n - k) = T r + r + 1).
    { replace (n - k) with (S r) by lia. apply T_succ. }
    split.
    + intros r' j Hr' Hj. destruct (Nat.eq_dec r' r) as [->|Hne].
      * rewrite P2 by lia. rewrite Q1 by lia. f_equal. lia.
      * rewrite Q2.
        -- apply P1; lia.
        -- right. assert (S r <= r') by lia. nia.
    + intros i Hi. rewrite Q2 by lia. apply Q1. lia.
Qed.

Lemma pack_ok n (a : list A) : n <> 2 -> length a = n * n ->
  exists p, pack n a = Ok p /\ length p = n * n /\
    (forall r j, r < n -> j <= r -> nth_error p (T r + j) = nth_error a (r * n + j)).
Proof.
  intros Hn Ha. destruct n as [|n].
  - exists a. simpl. split; [reflexivity|]. split; [assumption|]. lia.
  - destruct (pack_inv (S n) a Hn Ha (S n)) as [p [H [L [P _]]]]; [lia|]. eauto.
Qed.

Lemma unpack_ok n (p : list A) : n <> 2 -> length p = n * n ->
  exists a, unpack n p = Ok a /\ length a = n * n /\
    (forall r j, r < n -> j <= r -> nth_error a (r * n + j) = nth_error p (T r + j)).
Proof.
  intros Hn Hp. destruct n as [|n].
  - exists p. simpl. split; [reflexivity|]. split; [assumption|]. lia.
  - destruct (unpack_inv (S n) p Hn Hp n) as [a [H [L [P Q]]]]; [lia|].
    unfold unpack. replace (S n - 1) with n by lia.
    replace (S n - n) with 1 in * by lia.
    exists a. split; [exact H|]. split; [exact L|].
    intros r j Hr Hj. destruct (Nat.eq_dec r 0) as [->|Hr0].
    + assert (j = 0) by lia. subst j. apply (Q 0). unfold T. simpl. lia.
    + apply P; lia.
Qed.

Lemma T_n_le n : T n <= n * n.
Proof. assert (H := T_double n). nia. Qed.

(** Round trip through the cache. *)
Lemma save_load n (a junk : list A) before after : n <> 2 ->
  length a = n * n -> length junk = n * n ->
  Forall complete before -> Forall complete after ->
  exists ids0 c0 id c1 ids c2 a',
    puts init before = Ok (ids0, c0) /\ save n a c0 = Ok (id, c1) /\
    puts c1 after = Ok (ids, c2) /\ load n junk c2 id = Ok a' /\ length a' = n * n /\
    (forall r j, r < n -> j <= r -> nth_error a' (r * n + j) = nth_error a (r * n + j)).
Proof.
  intros Hn Ha Hj Hb Haf.
  destruct (pack_ok n a Hn Ha) as [p [Hp [Lp Pp]]].
  assert (HT := T_n_le n).
  set (data := firstn (T n) p).
  assert (Ld : length data = T n) by (unfold data; rewrite firstn_length; lia).
  destruct (get_put A before after data junk Hb Haf) as
    [id [c1 [c2 [ids [[ids0 [c0 [H0 [H1 _]]]] [H2 [_ H3]]]]]]]; [lia|].
  set (b := received data junk) in *.
  assert (Lb : length b = n * n).
  { unfold b, received. rewrite app_length, skipn_length. lia. }
  destruct (unpack_ok n b Hn Lb) as [a' [Hu [La' Pa']]].
  exists ids0, c0, id, c1, ids, c2, a'.
  split; [exact H0|]. split; [|split; [exact H2|split; [|split; [exact La'|]]]].
  - unfold save. rewrite Hp. cbn [bind]. fold (T n).
    destruct (Nat.leb_spec (T n) (length p)); [|lia]. fold data.
    now rewrite <- Ld.
  - unfold load. fold (T n). rewrite <- Ld, H3. cbn [bind]. exact Hu.
  - intros r j Hr Hjr. rewrite Pa' by assumption.
    assert (HTr : T r + r + 1 <= T n).
    { rewrite <- T_succ. apply T_mono. lia. }
    unfold b, received. rewrite nth_error_app1 by lia.
    unfold data. rewrite nth_error_firstn'.
    destruct (Nat.ltb_spec (T r + j) (T n)); [|lia]. now apply Pp.
Qed.

Lemma pack_two_ub (a : list A) : length a = 4 -> pack 2 a = UB.
Proof.
  intros H. do 4 (destruct a as [|? a]; [discriminate|]). destruct a; [|discriminate]. reflexivity.
Qed.

End P.
