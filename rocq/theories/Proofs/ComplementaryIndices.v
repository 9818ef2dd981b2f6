From Coq Require Import ZArith List Sorted Permutation Lia.
From Verif Require Import Model.Outcome Model.ComplementaryIndices Spec.ComplementaryIndices.
Import ListNotations.
Local Open Scope Z_scope.

Lemma insert_z_perm x l : Permutation (x :: l) (insert_z x l).
Proof.
  induction l as [|y l IH]; simpl; [reflexivity|].
  destruct (x <=? y); [reflexivity|].
  rewrite perm_swap. now constructor.
Qed.

Lemma sort_z_perm l : Permutation l (sort_z l).
Proof.
  induction l as [|x l IH]; simpl; [reflexivity|].
  rewrite <- insert_z_perm. now constructor.
Qed.

Lemma insert_z_sorted x l : StronglySorted Z.le l -> StronglySorted Z.le (insert_z x l).
Proof.
  induction 1 as [|y l Hl IH Hy]; simpl.
  - repeat constructor.
  - destruct (Z.leb_spec x y) as [Hxy|Hxy].
    + constructor; [constructor; assumption|].
      constructor; [assumption|].
      eapply Forall_impl; [|exact Hy]. intros z; lia.
    + constructor; [assumption|].
      rewrite Forall_forall in *. intros z Hz.
      apply (Permutation_in z (Permutation_sym (insert_z_perm x l))) in Hz.
      destruct Hz as [<-|Hz]; [lia|auto].
Qed.

Lemma sort_z_sorted l : StronglySorted Z.le (sort_z l).
Proof. induction l; simpl; [constructor|now apply insert_z_sorted]. Qed.

Lemma set_difference_nil_l ys : set_difference [] ys = [].
Proof. now destruct ys. Qed.

Lemma set_difference_nil_r xs : set_difference xs [] = xs.
Proof. induction xs as [|x xs IH]; simpl; [reflexivity|now rewrite IH]. Qed.

(** On a strictly sorted universe the merge loop is plain filtering. *)
Lemma set_difference_filter xs : forall ys,
  StronglySorted Z.lt xs -> StronglySorted Z.le ys ->
  set_difference xs ys = filter (fun x => negb (existsb (Z.eqb x) ys)) xs.
Proof.
  induction xs as [|x xs IHx]; intros ys Hx Hy; [apply set_difference_nil_l|].
  induction ys as [|y ys IHy].
  - rewrite set_difference_nil_r. cbn [existsb negb filter]. f_equal.
    clear. induction xs; simpl; congruence.
  - assert (Hx' := StronglySorted_inv Hx). destruct Hx' as [Hxs Hxall].
    assert (Hy' := StronglySorted_inv Hy). destruct Hy' as [Hys Hyall].
    rewrite Forall_forall in Hxall, Hyall.
    cbn [set_difference].
    destruct (Z.ltb_spec x y) as [Hlt|Hge].
    + rewrite IHx by assumption. cbn [filter].
      replace (existsb (Z.eqb x) (y :: ys)) with false; [reflexivity|].
      symmetry. apply Bool.not_true_iff_false. rewrite existsb_exists.
      intros [z [Hz Heq]]. apply Z.eqb_eq in Heq. subst z.
      destruct Hz as [->|Hz]; [lia|]. specialize (Hyall _ Hz). lia.
    + destruct (Z.ltb_spec y x) as [Hlt'|Hge'].
      * change ((fix inner (ys0 : list Z) : list Z :=
                   match ys0 with
                   | [] => x :: set_difference xs []
                   | y0 :: ys' =>
                       if x <? y0 then x :: set_difference xs (y0 :: ys')
                       else if y0 <? x then inner ys' else set_difference xs ys'
                   end) ys) with (set_difference (x :: xs) ys).
        rewrite IHy by assumption.
        apply filter_ext_in. intros z Hz. f_equal. cbn [existsb].
        replace (z =? y) with false; [reflexivity|].
        symmetry. apply Z.eqb_neq. destruct Hz as [<-|Hz]; [lia|].
        specialize (Hxall _ Hz). lia.
      * assert (x = y) by lia. subst y.
        rewrite IHx by assumption. cbn [filter existsb].
        rewrite Z.eqb_refl. cbn [orb negb].
        apply filter_ext_in. intros z Hz. f_equal.
        replace (z =? x) with false; [reflexivity|].
        symmetry. apply Z.eqb_neq. specialize (Hxall _ Hz). lia.
Qed.

Lemma irange_sorted n : StronglySorted Z.lt (irange n).
Proof.
  unfold irange. generalize 0%nat as k.
  induction n as [|n IH]; intros k; simpl; [constructor|].
  constructor; [apply IH|].
  rewrite Forall_forall. intros z Hz.
  apply in_map_iff in Hz. destruct Hz as [m [<- Hm]].
  apply in_seq in Hm. lia.
Qed.

Lemma in_irange n i : In i (irange n) <-> 0 <= i < Z.of_nat n.
Proof.
  unfold irange. rewrite in_map_iff. split.
  - intros [m [<- Hm]]. apply in_seq in Hm. lia.
  - intros H. exists (Z.to_nat i). split; [lia|]. apply in_seq. lia.
Qed.

Lemma length_irange n : length (irange n) = n.
Proof. unfold irange. now rewrite map_length, seq_length. Qed.

Lemma strongly_sorted_filter {A} (R : A -> A -> Prop) f l :
  StronglySorted R l -> StronglySorted R (filter f l).
Proof.
  induction 1 as [|x l Hl IH Hx]; simpl; [constructor|].
  destruct (f x); [|assumption].
  constructor; [assumption|].
  rewrite Forall_forall in *. intros y Hy. apply filter_In in Hy. apply Hx, Hy.
Qed.

Lemma strongly_sorted_lt_nodup l : StronglySorted Z.lt l -> NoDup l.
Proof.
  induction 1 as [|x l Hl IH Hx]; constructor; [|assumption].
  intros Hin. rewrite Forall_forall in Hx. specialize (Hx _ Hin). lia.
Qed.

Definition diff (indices : list Z) (n : nat) : list Z :=
  set_difference (irange n) (sort_z indices).

Lemma diff_filter indices n :
  diff indices n = filter (fun x => negb (existsb (Z.eqb x) indices)) (irange n).
Proof.
  unfold diff. rewrite set_difference_filter;
    [|apply irange_sorted|apply sort_z_sorted].
  apply filter_ext. intros x. f_equal.
  destruct (existsb (Z.eqb x) indices) eqn:E.
  - rewrite existsb_exists in E |- *. destruct E as [z [Hz Ez]]. exists z.
    split; [|assumption]. eapply Permutation_in; [apply sort_z_perm|assumption].
  - apply Bool.not_true_iff_false. apply Bool.not_true_iff_false in E.
    rewrite existsb_exists in E |- *. intros [z [Hz Ez]]. apply E. exists z.
    split; [|assumption]. eapply Permutation_in; [apply Permutation_sym, sort_z_perm|assumption].
Qed.

Lemma in_diff indices n i :
  In i (diff indices n) <-> (0 <= i < Z.of_nat n /\ ~ In i indices).
Proof.
  rewrite diff_filter, filter_In, in_irange, Bool.negb_true_iff, <- Bool.not_true_iff_false,
    existsb_exists.
  split; intros [H1 H2]; (split; [assumption|]).
  - intros Hin. apply H2. exists i. split; [assumption|apply Z.eqb_refl].
  - intros [z [Hz Ez]]. apply Z.eqb_eq in Ez. subst z. contradiction.
Qed.

Lemma diff_sorted indices n : StronglySorted Z.lt (diff indices n).
Proof. rewrite diff_filter. apply strongly_sorted_filter, irange_sorted. Qed.

Lemma filter_partition_length {A} (f : A -> bool) l :
  (length (filter f l) + length (filter (fun x => negb (f x)) l) = length l)%nat.
Proof. induction l as [|x l IH]; simpl; [reflexivity|]. destruct (f x); simpl; lia. Qed.

(** The entries of [irange n] that are removed are distinct members of [indices]. *)
Lemma removed_length indices n :
  (length (filter (fun x => existsb (Z.eqb x) indices) (irange n)) + length (diff indices n) = n)%nat.
Proof.
  rewrite diff_filter. rewrite <- (length_irange n) at 3.
  apply filter_partition_length.
Qed.

Lemma removed_incl indices n :
  incl (filter (fun x => existsb (Z.eqb x) indices) (irange n)) indices.
Proof.
  intros x Hx. apply filter_In in Hx. destruct Hx as [_ Hx].
  apply existsb_exists in Hx. destruct Hx as [z [Hz Ez]].
  apply Z.eqb_eq in Ez. now subst z.
Qed.

Lemma removed_nodup indices n :
  NoDup (filter (fun x => existsb (Z.eqb x) indices) (irange n)).
Proof. apply strongly_sorted_lt_nodup, strongly_sorted_filter, irange_sorted. Qed.

Lemma valid_diff_length indices n :
  valid_index_set indices n -> (length indices + length (diff indices n) = n)%nat.
Proof.
  intros [Hnd Hr].
  assert (Hle : (length indices <= length (filter (fun x => existsb (Z.eqb x) indices) (irange n)))%nat).
  { apply NoDup_incl_length; [assumption|].
    intros x Hx. apply filter_In. split; [apply in_irange; auto|].
    apply existsb_exists. exists x. split; [assumption|apply Z.eqb_refl]. }
  assert (Hge := NoDup_incl_length (removed_nodup indices n) (removed_incl indices n)).
  assert (Hs := removed_length indices n). lia.
Qed.

Lemma diff_length_valid indices n :
  (length indices + length (diff indices n) <= n)%nat -> valid_index_set indices n.
Proof.
  intros H.
  set (rem := filter (fun x => existsb (Z.eqb x) indices) (irange n)).
  assert (Hs := removed_length indices n). fold rem in Hs.
  assert (Hlen : (length indices <= length rem)%nat) by lia.
  assert (Hnd : NoDup rem) by apply removed_nodup.
  assert (Hincl : incl rem indices) by apply removed_incl.
  split.
  - eapply NoDup_incl_NoDup; eassumption.
  - intros i Hi.
    assert (Hi' : In i rem).
    { eapply NoDup_length_incl; [exact Hnd| |exact Hincl|exact Hi]. lia. }
    apply filter_In in Hi'. apply in_irange. apply Hi'.
Qed.

Lemma complementary_indices_ok indices n :
  valid_index_set indices n ->
  exists r, complementary_indices indices n = Ok r /\ is_complement indices n r.
Proof.
  intros Hv. exists (diff indices n).
  assert (Hlen := valid_diff_length _ _ Hv).
  split.
  - unfold complementary_indices. fold (diff indices n).
    destruct (Nat.ltb_spec n (length indices)); [lia|].
    destruct (Nat.leb_spec (length (diff indices n)) (n - length indices)); [|lia].
    replace (n - length indices - length (diff indices n))%nat with 0%nat by lia.
    simpl. now rewrite app_nil_r.
  - split; [apply diff_sorted|]. intros i. apply in_diff.
Qed.

Lemma complementary_indices_invalid indices n :
  ~ valid_index_set indices n ->
  complementary_indices indices n =
    (if Nat.ltb n (length indices) then Throw ExLengthError else UB).
Proof.
  intros Hv. unfold complementary_indices. fold (diff indices n).
  destruct (Nat.ltb_spec n (length indices)) as [H|H]; [reflexivity|].
  destruct (Nat.leb_spec (length (diff indices n)) (n - length indices)) as [H'|H']; [|reflexivity].
  exfalso. apply Hv. apply diff_length_valid. lia.
Qed.
