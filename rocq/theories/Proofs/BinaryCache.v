From Coq Require Import List Arith Lia.
From Verif Require Import Model.Outcome Model.BinaryCache Spec.BinaryCache.
Import ListNotations.

Section P.
Variable Byte : Type.
Notation cache := (cache Byte).

(** Abstract state: the byte strings stored so far, oldest first. *)
Fixpoint layout_from (o : nat) (l : list (list Byte)) : list (nat * nat) :=
  match l with [] => [] | d :: l' => (o, length d) :: layout_from (o + length d) l' end.

Definition Rep (c : cache) (ds : list (list Byte)) : Prop :=
  file c = concat ds /\ records c = (0, 0) :: layout_from 0 ds.

Lemma rep_init : Rep init [].
Proof. split; reflexivity. Qed.

Lemma layout_from_app o l l' :
  layout_from o (l ++ l') = layout_from o l ++ layout_from (o + length (concat l)) l'.
Proof.
  revert o. induction l as [|d l IH]; intros o; simpl.
  - now rewrite Nat.add_0_r.
  - rewrite IH, app_length, Nat.add_assoc. reflexivity.
Qed.

Lemma layout_last ds : exists o s r, rev ((0, 0) :: layout_from 0 ds) = (o, s) :: r /\
                                     o + s = length (concat ds).
Proof.
  destruct ds as [|d ds] using rev_ind.
  - exists 0, 0, []. split; reflexivity.
  - rewrite layout_from_app. cbn [layout_from].
    rewrite app_comm_cons, rev_app_distr. cbn [rev app].
    do 3 eexists. split; [reflexivity|]. rewrite concat_app, app_length. simpl.
    rewrite app_nil_r. lia.
Qed.

Lemma layout_from_length o l : length (layout_from o l) = length l.
Proof. revert o. induction l as [|d l IH]; intros o; simpl; [reflexivity|now rewrite IH]. Qed.

Lemma put_rep c ds d : Rep c ds ->
  exists c', put c d (length d) = Ok (S (length ds), c') /\ Rep c' (ds ++ [d]).
Proof.
  intros [Hf Hr]. unfold put. rewrite Hr.
  destruct (layout_last ds) as [o [s [r [Hl Ho]]]]. rewrite Hl.
  eexists. split.
  - cbn [length]. rewrite layout_from_length. reflexivity.
  - split; cbn [file records].
    + rewrite Hf, concat_app, firstn_all. simpl. now rewrite app_nil_r.
    + rewrite layout_from_app. simpl. now rewrite Ho.
Qed.

Lemma puts_rep ps : forall c ds, Rep c ds -> Forall complete ps ->
  exists c', puts c ps = Ok (seq (S (length ds)) (length ps), c') /\ Rep c' (ds ++ map fst ps).
Proof.
  induction ps as [|[d w] ps IH]; intros c ds HR Hc; simpl.
  - exists c. rewrite app_nil_r. auto.
  - inversion Hc as [|x xs Hw Hps]; subst. unfold complete in Hw. simpl in Hw. subst w.
    destruct (put_rep c ds d HR) as [c1 [-> HR1]]. cbn [bind fst snd].
    destruct (IH c1 (ds ++ [d]) HR1 Hps) as [c2 [-> HR2]]. cbn [bind fst snd].
    exists c2. split.
    + rewrite app_length. simpl. rewrite Nat.add_1_r. reflexivity.
    + rewrite <- app_assoc in HR2. exact HR2.
Qed.

Lemma layout_nth l : forall o i d, nth_error l i = Some d ->
  nth_error (layout_from o l) i = Some (o + length (concat (firstn i l)), length d).
Proof.
  induction l as [|x l IH]; intros o [|i] d H; simpl in *; try discriminate.
  - injection H as <-. now rewrite Nat.add_0_r.
  - rewrite (IH _ _ _ H), app_length, Nat.add_assoc. reflexivity.
Qed.

Lemma skipn_concat (l : list (list Byte)) i d :
  nth_error l i = Some d ->
  firstn (length d) (skipn (length (concat (firstn i l))) (concat l)) = d.
Proof.
  revert i. induction l as [|x l IH]; intros [|i] H; simpl in *; try discriminate.
  - injection H as <-. rewrite firstn_app, Nat.sub_diag, firstn_all. simpl. now rewrite app_nil_r.
  - rewrite app_length, skipn_app.
    rewrite skipn_all2 by lia. simpl.
    replace (length x + length (concat (firstn i l)) - length x)
      with (length (concat (firstn i l))) by lia.
    now apply IH.
Qed.

Lemma get_rep c ds i d buf : Rep c ds -> nth_error ds i = Some d -> length d <= length buf ->
  get c (S i) buf (length d) = Ok (received d buf).
Proof.
  intros [Hf Hr] Hd Hb. unfold get. rewrite Hr. cbn [nth_error].
  rewrite (layout_nth _ _ _ _ Hd), Nat.min_id, Nat.add_0_l, Hf, (skipn_concat _ _ _ Hd).
  destruct (Nat.leb_spec (length d) (length buf)); [reflexivity|lia].
Qed.

Lemma get_put (before after : list (list Byte * nat)) (data buf : list Byte) :
  Forall complete before -> Forall complete after -> length data <= length buf ->
  exists id c1 c2 ids,
    (exists ids0 c0, puts init before = Ok (ids0, c0) /\ put c0 data (length data) = Ok (id, c1) /\
                     ~ In id ids0) /\
    puts c1 after = Ok (ids, c2) /\ ~ In id ids /\
    get c2 id buf (length data) = Ok (received data buf).
Proof.
  intros Hb Ha Hl.
  destruct (puts_rep before init [] rep_init Hb) as [c0 [H0 R0]]. simpl in H0, R0.
  destruct (put_rep c0 _ data R0) as [c1 [H1 R1]].
  destruct (puts_rep after c1 _ R1 Ha) as [c2 [H2 R2]].
  rewrite map_length in H1. rewrite app_length, map_length in H2. simpl in H2.
  exists (S (length before)), c1, c2. eexists. split; [|split; [exact H2|split]].
  - do 2 eexists. split; [exact H0|]. split; [exact H1|]. rewrite in_seq. lia.
  - rewrite in_seq. lia.
  - apply get_rep with (ds := (map fst before ++ [data]) ++ map fst after).
    + exact R2.
    + rewrite nth_error_app1; rewrite ?app_length, ?map_length; simpl; [|lia].
      rewrite nth_error_app2; rewrite map_length; [|lia]. now rewrite Nat.sub_diag.
    + exact Hl.
Qed.

Lemma get_unknown (ps : list (list Byte * nat)) ids c id buf n :
  puts init ps = Ok (ids, c) -> ~ In id ids -> id <> 0 ->
  get c id buf n = Throw ExOutOfRange.
Proof.
  intros Hp Hni H0.
  assert (Hgen : forall ps0 (c0 c1 : cache) ids0, records c0 <> [] -> puts c0 ps0 = Ok (ids0, c1) ->
            ids0 = seq (length (records c0)) (length ps0) /\
            length (records c1) = length (records c0) + length ps0).
  { clear. induction ps0 as [|[d w] ps0 IH]; intros c0 c1 ids0 Hne H; simpl in H.
    - injection H as <- <-. simpl. auto.
    - destruct (put c0 d w) as [[i c']| |] eqn:Ep; try discriminate. cbn [bind fst snd] in H.
      destruct (puts c' ps0) as [[is c'']| |] eqn:Eps; try discriminate.
      cbn [bind fst snd] in H. injection H as <- <-.
      unfold put in Ep. destruct (rev (records c0)) as [|[o s] r] eqn:Er; [discriminate|].
      injection Ep as <- <-.
      assert (Hne' : records c0 ++ [(o + s, length d)] <> [])
        by (intros E; exact (app_cons_not_nil _ _ _ (eq_sym E))).
      destruct (IH (mk_cache (file c0 ++ firstn w d) (records c0 ++ [(o + s, length d)])) c'' is Hne' Eps)
        as [-> Hl].
      cbn [records] in *. rewrite app_length in *. simpl in *.
      rewrite Nat.add_1_r. split; [reflexivity|]. lia. }
  destruct (Hgen ps init c ids) as [-> Hl]; [easy|assumption|].
  unfold get. replace (nth_error (records c) id) with (@None (nat * nat)); [reflexivity|].
  symmetry. apply nth_error_None. rewrite Hl. simpl in Hni |- *.
  rewrite in_seq in Hni. lia.
Qed.

End P.

Lemma short_write_refuted :
  exists (d1 d2 : list nat) (w : nat) ids c,
    w < length d1 /\ puts init [(d1, w); (d2, length d2)] = Ok (ids, c) /\
    get c (nth 1 ids 0) [0; 0] (length d2) = Ok [6; 0] /\ d2 = [5; 6].
Proof.
  exists [1; 2], [5; 6], 1, [1; 2], (mk_cache [1; 5; 6] [(0, 0); (0, 2); (2, 2)]).
  repeat split; simpl; lia.
Qed.
