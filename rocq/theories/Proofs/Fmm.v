From Coq Require Import List Arith NArith Reals Bool Lia Lra Permutation.
From Verif Require Import Model.Outcome Model.Solver Model.Fmm Spec.Fmm Proofs.Solver Proofs.LatticeVertices.
Import ListNotations.

(** ** Numbered lists *)

Lemma numbered_length : forall A B (f : A -> nat -> B) l k, length (numbered f k l) = length l.
Proof. induction l as [|x l IH]; intros k; cbn; auto. Qed.
Lemma numbered_nth : forall A B (f : A -> nat -> B) l k m, nth_error (numbered f k l) m = option_map (fun x => f x (k + m)) (nth_error l m).
Proof.
  induction l as [|x l IH]; intros k m; cbn; [destruct m; auto|]. destruct m as [|m]; cbn; [rewrite Nat.add_0_r; auto|].
  rewrite IH. rewrite Nat.add_succ_r. reflexivity.
Qed.
Lemma numbered_map : forall A B C (g : B -> C) (f : A -> nat -> B) l k, map g (numbered f k l) = numbered (fun x m => g (f x m)) k l.
Proof. induction l as [|x l IH]; intros k; cbn; auto. rewrite IH. auto. Qed.
Lemma numbered_seq : forall A (l : list A) k, numbered (fun _ m => m) k l = seq k (length l).
Proof. induction l as [|x l IH]; intros k; cbn; auto. rewrite IH. auto. Qed.
Lemma numbered_ext : forall A B (f g : A -> nat -> B) l k, (forall m x, nth_error l m = Some x -> f x (k + m) = g x (k + m)) -> numbered f k l = numbered g k l.
Proof.
  induction l as [|x l IH]; intros k H; cbn; auto. f_equal.
  - specialize (H 0 x eq_refl). rewrite Nat.add_0_r in H. auto.
  - apply IH. intros m y Y. specialize (H (S m) y Y). rewrite Nat.add_succ_r in H. auto.
Qed.

(** ** Sums *)

Lemma fold_plus : forall A (f : A -> R) l a, fold_left (fun acc x => (acc + f x)%R) l a = (a + fold_right Rplus 0 (map f l))%R.
Proof. induction l as [|x l IH]; intros a; cbn; [ring|]. rewrite IH. ring. Qed.
Lemma sum_perm : forall (l l' : list R), Permutation l l' -> fold_right Rplus 0%R l = fold_right Rplus 0%R l'.
Proof. induction 1; cbn; try congruence; ring. Qed.
Lemma sum_ext : forall n f g, (forall k, k < n -> f k = g k) -> sum n f = sum n g.
Proof. intros n f g H. unfold sum. f_equal. apply map_ext_in. intros k K. apply in_seq in K. apply H. lia. Qed.
Lemma seq_map_nth : forall A (l : list A) (f : A -> R), map (fun k => match nth_error l k with Some x => f x | None => 0%R end) (seq 0 (length l)) = map f l.
Proof.
  induction l as [|x l IH]; intros f; cbn; auto. f_equal. rewrite <- seq_shift, map_map. cbn. apply IH.
Qed.

(** ** Writing results *)

Lemma write_ok : forall v k x, k < length v -> exists v', write v k x = Ok v' /\ length v' = length v /\
  nth_error v' k = Some x /\ forall m, m <> k -> nth_error v' m = nth_error v m.
Proof.
  intros v k x K. unfold write. destruct (Nat.ltb_spec k (length v)); [|lia]. eexists. split; [reflexivity|].
  assert (length (firstn k v) = k) as L by (rewrite firstn_length; lia). split; [|split].
  - rewrite app_length. cbn [length]. rewrite L, skipn_length. lia.
  - rewrite nth_error_app2 by lia. rewrite L, Nat.sub_diag. reflexivity.
  - intros m M. destruct (lt_dec m k).
    + rewrite nth_error_app1 by lia. rewrite <- (firstn_skipn k v) at 2. rewrite nth_error_app1; auto. lia.
    + rewrite nth_error_app2 by lia. rewrite L. destruct (m - k) as [|d] eqn:D; [lia|]. cbn [nth_error].
      rewrite <- (firstn_skipn (S k) v) at 2. rewrite nth_error_app2; rewrite firstn_length; [|lia].
      f_equal. lia.
Qed.
Lemma writes_ok : forall ws v, NoDup (map fst ws) -> (forall k x, In (k, x) ws -> k < length v) ->
  exists v', writes v ws = Ok v' /\ length v' = length v /\ (forall k x, In (k, x) ws -> nth_error v' k = Some x) /\
    forall m, ~ In m (map fst ws) -> nth_error v' m = nth_error v m.
Proof.
  induction ws as [|[k x] ws IH]; intros v N B; cbn.
  - exists v. repeat split; auto. intros k x [].
  - cbn in N. apply NoDup_cons_iff in N. destruct N as [N1 N2].
    destruct (write_ok v k x) as (v1 & E1 & L1 & A1 & O1); [apply (B k x); left; auto|]. rewrite E1. cbn.
    destruct (IH v1 N2) as (v2 & E2 & L2 & A2 & O2). { intros m y I. rewrite L1. apply (B m y). right; auto. }
    exists v2. split; auto. split; [lia|]. split.
    + intros m y [I|I]; [|auto]. injection I as <- <-. rewrite O2; auto.
    + intros m M. rewrite O2 by tauto. apply O1. intros ->. tauto.
Qed.

Section Fmm.
Variable P : Type.
Variable E : fenv P.
Notation kn := (kn P E).
Notation km := (km P E).

Lemma potentials_ok : forall n ids out, Permutation ids (seq 0 n) -> exists y, potentials P E n ids out = Ok y /\ length y = kn * n /\
  forall k id i, nth_error ids k = Some id -> i < kn -> nth_error y (kn * id + i) = Some (out k i).
Proof.
  intros n ids out PE. unfold potentials.
  set (ws := concat _).
  assert (forall m x, In (m, x) ws <-> exists k id i, nth_error ids k = Some id /\ i < kn /\ m = kn * id + i /\ x = out k i) as W.
  { intros m x. unfold ws. rewrite in_concat. split.
    - intros (l & L & I). apply In_nth_error in L. destruct L as [k L]. rewrite numbered_nth in L.
      destruct (nth_error ids k) as [id|] eqn:D; [|discriminate]. injection L as <-. apply in_map_iff in I.
      destruct I as (i & Q & I). injection Q as <- <-. apply in_seq in I. exists k, id, i. split; auto. split; [lia|]. auto.
    - intros (k & id & i & D & I & -> & ->). exists (map (fun i => (kn * id + i, out k i)) (seq 0 kn)). split.
      + apply (nth_error_In _ k). rewrite numbered_nth, D. reflexivity.
      + apply in_map_iff. exists i. split; auto. apply in_seq. lia. }
  assert (NoDup (map fst ws)) as N.
  { unfold ws. rewrite concat_map, numbered_map.
    assert (forall l z, numbered (fun id k => map fst (map (fun i => (kn * id + i, out k i)) (seq 0 kn))) z l = map (fun id => map (fun i => kn * id + i) (seq 0 kn)) l) as ->.
    { induction l as [|a l IH]; intros z; cbn [numbered map]; auto. rewrite IH. rewrite map_map. reflexivity. }
    rewrite <- flat_map_concat_map. apply NoDup_flat_map.
    - apply (Permutation_NoDup (l := seq 0 n)); [apply Permutation_sym; auto|apply seq_NoDup].
    - intros a _. apply FinFun.Injective_map_NoDup; [|apply seq_NoDup]. intros i j. lia.
    - intros a b z A B I J. apply in_map_iff in I. apply in_map_iff in J. destruct I as (i & <- & I). destruct J as (j & Q & J).
      apply in_seq in I, J. nia. }
  destruct (writes_ok ws (repeat 0%R (kn * n)) N) as (y & E1 & L & A & _).
  { intros m x I. apply W in I. destruct I as (k & id & i & D & I & -> & _). rewrite repeat_length.
    apply nth_error_In in D. apply (Permutation_in _ PE) in D. apply in_seq in D. nia. }
  rewrite repeat_length in L. exists y. split; auto. split; auto. intros k id i D I. apply A. apply W. exists k, id, i. auto.
Qed.

(** ** Direct summation *)

Lemma contribution_sum : forall x q i, contribution P E x q i = sum km (fun j => (nth j (p_in q) 0 * kernel P E x (p_pos q) i j)%R).
Proof. intros. unfold contribution. rewrite fold_plus. unfold sum. ring. Qed.
Lemma direct_sum : forall src x i, direct_at P E src x i = fold_right Rplus 0%R (map (fun q => contribution P E x q i) src).
Proof. intros. unfold direct_at. rewrite fold_plus. ring. Qed.

Definition ins_of (w : list R) (k : nat) : list R := map (fun i => nth (km * k + i) w 0%R) (seq 0 km).
Lemma ins_nth : forall w k j, j < km -> nth j (ins_of w k) 0%R = nth (km * k + j) w 0%R.
Proof.
  intros w k j J. apply nth_error_nth. unfold ins_of. rewrite nth_error_map.
  assert (nth_error (seq 0 km) j = Some j) as ->; [|reflexivity].
  rewrite (nth_error_nth' _ 0) by (rewrite seq_length; auto). rewrite seq_nth; auto.
Qed.

Lemma potential_numbered : forall pts w x i,
  fold_right Rplus 0%R (map (fun q => contribution P E x q i) (numbered (fun x k => Particle x (ins_of w k) k) 0 pts)) = potential P E pts w x i.
Proof.
  intros pts w x i. unfold potential, sum. f_equal. rewrite numbered_map.
  apply nth_ext with (d := 0%R) (d' := 0%R); [rewrite numbered_length, map_length, seq_length; auto|].
  intros n N. rewrite numbered_length in N. destruct (nth_error pts n) as [q|] eqn:Q; [|apply nth_error_None in Q; lia].
  erewrite nth_error_nth by (rewrite numbered_nth, Q; reflexivity).
  symmetry. erewrite nth_error_nth.
  2: { rewrite nth_error_map. rewrite (nth_error_nth' _ 0) by (rewrite seq_length; auto). rewrite seq_nth by auto. reflexivity. }
  cbn [plus]. rewrite Q. rewrite contribution_sum. apply sum_ext. intros j J. cbn [p_in p_pos]. rewrite ins_nth by auto. reflexivity.
Qed.

Lemma direct_loaded : forall pts w ps x i, loaded P E pts w ps -> direct_at P E ps x i = potential P E pts w x i.
Proof.
  intros pts w ps x i L. rewrite direct_sum, <- potential_numbered. apply sum_perm. apply Permutation_map. exact L.
Qed.

(** ** Search *)

Lemma fold_max_spec : forall A (f : A -> R) l m a, (fold_left (fun m x => Rmax m (f x)) l m <= a)%R <-> (m <= a)%R /\ forall x, In x l -> (f x <= a)%R.
Proof.
  induction l as [|x l IH]; intros m a; cbn.
  - split; [intros; split; auto; intros x []|tauto].
  - rewrite IH. split.
    + intros [A1 B]. split; [eapply Rle_trans; [apply Rmax_l|apply A1]|]. intros y [<-|Y]; [eapply Rle_trans; [apply Rmax_r|apply A1]|auto].
    + intros [A1 B]. split; [apply Rmax_lub; auto|auto].
Qed.
Lemma fold_max2_spec : forall A (f : A -> nat -> R) l n m a,
  (fold_left (fun m x => fold_left (fun m i => Rmax m (f x i)) (seq 0 n) m) l m <= a)%R <-> (m <= a)%R /\ forall x i, In x l -> i < n -> (f x i <= a)%R.
Proof.
  induction l as [|x l IH]; intros n m a; cbn [fold_left].
  - split; [intros; split; auto; intros x i []|tauto].
  - rewrite IH, fold_max_spec. split.
    + intros [[M A1] B]. split; auto. intros y i [<-|Y] I; [|auto]. apply A1. apply in_seq. lia.
    + intros [M B]. split; [split; auto|]. { intros i I. apply in_seq in I. apply B; [left; auto|lia]. } intros y i Y I. apply B; auto. right; auto.
Qed.
Lemma error_spec : forall ps c xs a, (0 <= a)%R -> ((error P E ps c xs <= a)%R <-> forall x, In x xs -> within P E c ps a x).
Proof.
  intros ps c xs a A. unfold error. rewrite (fold_max2_spec _ (fun x i => Rabs (far P E c ps ps x i - direct_at P E ps x i))). unfold within.
  split; [intros [_ H]; auto|]. intros H. split; auto.
Qed.
Lemma error_nonneg : forall ps c xs, (0 <= error P E ps c xs)%R.
Proof.
  intros ps c xs. destruct (Rle_dec 0 (error P E ps c xs)) as [H|H]; auto.
  pose proof (proj1 (fold_max2_spec _ (fun x i => Rabs (far P E c ps ps x i - direct_at P E ps x i)) xs kn 0 (error P E ps c xs)) (Rle_refl _)). lra.
Qed.

Hypothesis OK : env_ok P E.


Lemma sample_ok : forall ps, exists xs, sample P E ps = Ok xs /\ (forall x, In x xs -> In x (map p_pos ps)) /\
  length xs = N.to_nat (N.min (N.of_nat (length ps)) 10000) /\
  ((N.of_nat (length ps) <= 10000)%N -> forall q, In q ps -> In (p_pos q) xs).
Proof.
  intros ps. unfold sample. set (k := N.to_nat _). set (n := length ps). pose proof (shuffled_ok P E OK n) as SH.
  assert (length (shuffled P E n) = n) as LS by (rewrite (Permutation_length SH); apply seq_length).
  assert (k <= n) as KN by (unfold k, n; lia).
  assert (forall i, In i (firstn k (shuffled P E n)) -> i < n) as B.
  { intros i I. assert (In i (shuffled P E n)) as J by (rewrite <- (firstn_skipn k); apply in_or_app; auto).
    apply (Permutation_in _ SH) in J. apply in_seq in J. lia. }
  destruct (elems_defined ps (firstn k (shuffled P E n)) B) as (qs & Q). rewrite Q. cbn. exists (map p_pos qs). split; auto.
  destruct (elems_spec _ _ _ Q) as [L G]. rewrite firstn_length in L. split; [|split].
  - intros x X. apply in_map_iff in X. destruct X as (q & <- & X). apply in_map. apply In_nth_error in X. destruct X as [m X].
    destruct (nth_error (firstn k (shuffled P E n)) m) as [i|] eqn:I.
    + specialize (G m i I). rewrite X in G. symmetry in G. apply nth_error_In in G. auto.
    + apply nth_error_None in I. rewrite firstn_length in I. assert (nth_error qs m <> None) as Y by congruence.
      apply nth_error_Some in Y. lia.
  - rewrite map_length. rewrite L. lia.
  - intros LE q I. apply in_map. apply In_nth_error in I. destruct I as [m I].
    assert (In m (shuffled P E n)) as J.
    { apply (Permutation_in (l := seq 0 n)); [apply Permutation_sym; auto|]. apply in_seq. split; [lia|]. apply nth_error_Some. fold n. congruence. }
    assert (k = n) as -> by (unfold k, n in *; lia).
    rewrite firstn_all2 in G by lia. apply In_nth_error in J. destruct J as [z J]. specialize (G z m J). rewrite I in G. eapply nth_error_In; eauto.
Qed.

Lemma first_good_spec : forall ps a xs cs, match first_good P E ps a xs cs with
  | Ok c => In c cs /\ (error P E ps c xs <= a)%R
  | Throw e => e = ExRuntimeError /\ forall c, In c cs -> (a < error P E ps c xs)%R
  | UB => False
  end.
Proof.
  induction cs as [|c cs IH]; cbn; [split; auto; intros c []|].
  destruct (Rle_dec (error P E ps c xs) a) as [L|L]; [auto|].
  destruct (first_good P E ps a xs cs) as [c'|e|]; [tauto| |auto]. destruct IH as [-> IH]. split; auto. intros c' [<-|I]; auto. lra.
Qed.

Lemma candidates_spec : forall h c, In c (candidates h) -> c_height c = h /\ 8 <= c_order c.
Proof.
  intros h c I. unfold candidates in I. apply in_flat_map in I. destruct I as (o & O & I).
  assert (8 <= o) as G by (cbn in O; lia). destruct (12 <=? o).
  - apply in_map_iff in I. destruct I as (d & <- & _). cbn. auto.
  - destruct I as [<-|[]]. cbn. auto.
Qed.

Theorem search_spec : forall a ps h, match search P E a ps h with
  | Ok c => c_height c = h /\ 6 <= c_order c
  | Throw e => e = ExRuntimeError
  | UB => False
  end.
Proof.
  intros a ps h. unfold search. destruct a as [a|]; [|cbn; auto]. destruct (Req_EM_T a 0); [cbn; lia|].
  destruct (sample_ok ps) as (xs & -> & _). cbn [bind]. pose proof (first_good_spec ps a xs (candidates h)) as F.
  destruct (first_good P E ps a xs (candidates h)) as [c|e|]; [|tauto|auto]. destruct F as [F _]. apply candidates_spec in F. lia.
Qed.

(** A positive accuracy: the configuration found meets it at the sampled source points, which are all of
    them if there are at most 10000; the search throws only if no candidate does. *)
Theorem search_accurate : forall a ps h, (0 < a)%R -> exists xs, length xs = N.to_nat (N.min (N.of_nat (length ps)) 10000) /\
  (forall x, In x xs -> In x (map p_pos ps)) /\ ((N.of_nat (length ps) <= 10000)%N -> forall q, In q ps -> In (p_pos q) xs) /\
  match search P E (Some a) ps h with
  | Ok c => In c (candidates h) /\ forall x, In x xs -> within P E c ps a x
  | Throw e => e = ExRuntimeError /\ forall c, In c (candidates h) -> ~ forall x, In x xs -> within P E c ps a x
  | UB => False
  end.
Proof.
  intros a ps h A. destruct (sample_ok ps) as (xs & EX & I & L & C). exists xs. split; auto. split; auto. split; auto.
  unfold search. destruct (Req_EM_T a 0); [lra|]. rewrite EX. cbn [bind]. pose proof (first_good_spec ps a xs (candidates h)) as F.
  destruct (first_good P E ps a xs (candidates h)) as [c|e|]; [| |auto].
  - destruct F as [F1 F2]. split; auto. apply error_spec; auto. lra.
  - destruct F as [-> F]. split; auto. intros c IC W. apply error_spec in W; [|lra]. specialize (F c IC). lra.
Qed.

(** ** Invariant *)

Definition best_ok (a : option R) (Q : list (particle P) -> Prop) (fine : Prop) (b : nat -> option config) : Prop :=
  forall h c, b h = Some c -> (c = no_config /\ ~ fine) \/
    (c_height c = h /\ 6 <= c_order c /\ exists ps, Q ps /\ search P E a ps h = Ok c).
Definition src_ok (v : view P) (ps : list (particle P)) : Prop :=
  match v_weights v with Some w => loaded P E (v_src v) w ps | None => points_in P (v_src v) ps end.
Definition cfg_ok (c : config) (o : option config) : Prop := c = no_config \/ (0 < c_height c /\ 6 <= c_order c /\ o = Some c).
Record inv (v : view P) (Q : list (particle P) -> Prop) (fine : Prop) (s : state P) : Prop := {
  i_acc : accuracy P s = v_accuracy v;
  i_src : src_ok v (src P s);
  i_trg : Permutation (trg P s) (numbered (fun x k => Target x k) 0 (v_trg v));
  i_st : src_tree P s = None;
  i_tt : trg_tree P s = None;
  i_cfg : cfg_ok (cfg P s) (operator P s);
  i_best : best_ok (v_accuracy v) Q fine (best P s) }.

Lemma src_ok_points : forall v ps, src_ok v ps -> points_in P (v_src v) ps.
Proof. intros v ps. unfold src_ok. destruct (v_weights v) as [w|]; auto. intros L. exists (ins_of w). exact L. Qed.
Lemma points_length : forall pts ps, points_in P pts ps -> length ps = length pts.
Proof. intros pts ps (ins & H). apply Permutation_length in H. rewrite numbered_length in H. auto. Qed.
Lemma src_ok_perm : forall v ps ps', Permutation ps' ps -> src_ok v ps -> src_ok v ps'.
Proof.
  intros v ps ps' H. unfold src_ok, loaded, points_in. destruct (v_weights v) as [w|].
  - intros L. eapply perm_trans; eauto.
  - intros (ins & L). exists ins. eapply perm_trans; eauto.
Qed.

Lemma inv_new : inv (new_view P) (points_in P []) True (new_state P).
Proof.
  split; cbn; auto.
  - exists (fun _ => []). constructor.
  - left. reflexivity.
  - intros h c; discriminate.
Qed.

Lemma map_out_spec : forall A B (f : A -> outcome B) (g : A -> B) l, (forall x, In x l -> f x = Ok (g x)) -> map_out f l = Ok (map g l).
Proof. induction l as [|x l IH]; intros H; cbn; auto. rewrite H by (left; auto). cbn. rewrite IH by (intros y Y; apply H; right; auto). reflexivity. Qed.

Lemma with_inputs_spec : forall w n q, length w = km * n -> p_id q < n -> with_inputs P E w q = Ok (Particle (p_pos q) (ins_of w (p_id q)) (p_id q)).
Proof.
  intros w n q L I. unfold with_inputs. destruct (elems_defined w (map (fun i => km * p_id q + i) (seq 0 km))) as (xs & X).
  { intros i J. apply in_map_iff in J. destruct J as (k & <- & J). apply in_seq in J. rewrite L. nia. }
  rewrite X. cbn. destruct (elems_spec _ _ _ X) as [LX G]. rewrite map_length, seq_length in LX. f_equal. f_equal.
  apply nth_ext with (d := 0%R) (d' := 0%R); [unfold ins_of; rewrite map_length, seq_length; auto|]. intros k K. rewrite LX in K.
  rewrite ins_nth by auto. specialize (G k (km * p_id q + k)). rewrite nth_error_map in G.
  rewrite (nth_error_nth' _ 0) in G by (rewrite seq_length; auto). rewrite seq_nth in G by auto. specialize (G eq_refl).
  destruct (nth_error xs k) as [z|] eqn:Z; [|apply nth_error_None in Z; lia]. rewrite (nth_error_nth _ _ _ Z). symmetry in G.
  rewrite (nth_error_nth _ _ _ G). reflexivity.
Qed.

Lemma numbered_In : forall A B (f : A -> nat -> B) l z, In z (numbered f 0 l) -> exists k x, nth_error l k = Some x /\ k < length l /\ z = f x k.
Proof.
  intros A B f l z I. apply In_nth_error in I. destruct I as [k I]. rewrite numbered_nth in I.
  destruct (nth_error l k) as [x|] eqn:X; [|discriminate]. injection I as <-. exists k, x. split; auto. split; auto. apply nth_error_Some. congruence.
Qed.

Lemma reload : forall w pts ps, length w = km * length pts -> points_in P pts ps ->
  exists ps', map_out (with_inputs P E w) ps = Ok ps' /\ loaded P E pts w ps'.
Proof.
  intros w pts ps L (ins & H). exists (map (fun q => Particle (p_pos q) (ins_of w (p_id q)) (p_id q)) ps). split.
  - apply map_out_spec. intros q Q. apply (Permutation_in _ H) in Q. apply numbered_In in Q. destruct Q as (k & x & X & K & ->).
    apply (with_inputs_spec w (length pts)); auto.
  - unfold loaded. eapply perm_trans; [apply Permutation_map; apply H|]. rewrite numbered_map. cbn. apply Permutation_refl.
Qed.

Definition failed (r : option (list R + exn)) : Prop := exists e, r = Some (inr e).
Lemma trg_ids : forall ts trg, Permutation ts (numbered (fun x k => Target x k) 0 trg) -> Permutation (map (@t_id P) ts) (seq 0 (length trg)).
Proof. intros ts trg H. apply (Permutation_map (@t_id P)) in H. rewrite numbered_map in H. cbn in H. rewrite numbered_seq in H. auto. Qed.
Lemma outputs : forall trg ts f, Permutation ts (numbered (fun x k => Target x k) 0 trg) ->
  exists y, potentials P E (length ts) (map (@t_id P) ts) (out_at P f ts) = Ok y /\ lists P E y trg f.
Proof.
  intros trg ts f H. assert (length ts = length trg) as L by (apply Permutation_length in H; rewrite numbered_length in H; auto).
  rewrite L. destruct (potentials_ok (length trg) (map (@t_id P) ts) (out_at P f ts) (trg_ids _ _ H)) as (y & Y & LY & G).
  exists y. split; auto. split; auto. intros j t i J I.
  assert (In (Target t j) ts) as T.
  { apply (Permutation_in (l := numbered (fun x k => Target x k) 0 trg)); [apply Permutation_sym; auto|]. apply (nth_error_In _ j). rewrite numbered_nth, J. reflexivity. }
  apply In_nth_error in T. destruct T as [k T]. specialize (G k j i). rewrite nth_error_map, T in G. specialize (G eq_refl I). rewrite G.
  unfold out_at. rewrite T. reflexivity.
Qed.

Lemma config_eqb_eq : forall a b, config_eqb a b = true <-> a = b.
Proof.
  intros [h o d] [h' o' d']. unfold config_eqb. cbn. rewrite !andb_true_iff, !Nat.eqb_eq. split.
  - intros [[-> ->] D]. destruct d, d'; try discriminate; auto. apply Nat.eqb_eq in D. subst. auto.
  - intros Q. injection Q as -> -> ->. destruct d'; auto. rewrite Nat.eqb_refl. auto.
Qed.

Lemma best_ok_weaken : forall a Q (f f' : Prop) b, (f' -> f) -> best_ok a Q f b -> best_ok a Q f' b.
Proof. intros a Q f f' b H B h c C. destruct (B h c C) as [[-> N]|G]; [left; split; auto|right; auto]. Qed.
Lemma inv_weaken : forall v Q (f f' : Prop) s, (f' -> f) -> inv v Q f s -> inv v Q f' s.
Proof. intros v Q f f' s H [A1 A2 A3 A4 A5 A6 A7]. split; auto. eapply best_ok_weaken; eauto. Qed.

(** [correct] of the specification, with a given property of the sources for which the configuration was found. *)
Definition chosen_for (v : view P) (Q : list (particle P) -> Prop) (h : nat) (c : config) : Prop :=
  exists ps, Q ps /\ search P E (v_accuracy v) ps h = Ok c.
Definition correct_for (v : view P) (Q : list (particle P) -> Prop) (w y : list R) : Prop :=
  lists P E y (v_trg v) (potential P E (v_src v) w) \/
  (exists c ps, ~ (N.of_nat (length (v_src v)) * N.of_nat (length (v_trg v)) < 1048576)%N /\
     chosen_for v Q (height_of P E (Nat.max (length (v_src v)) (length (v_trg v)))) c /\
     loaded P E (v_src v) w ps /\ lists P E y (v_trg v) (far P E c ps ps)).

Lemma evaluate_spec : forall v (Q : list (particle P) -> Prop) fine s, (forall ps, src_ok v ps -> Q ps) -> inv v Q fine s -> match evaluate P E s with
  | Ok (s', inl y) => inv v Q fine s' /\ forall w, v_weights v = Some w -> correct_for v Q w y
  | Ok (s', inr e) => e = ExRuntimeError /\ inv v Q False s'
  | Throw _ => False
  | UB => ~ fine
  end.
Proof.
  intros v Q fine s HQ I. unfold evaluate, prepare, small.
  assert (length (src P s) = length (v_src v)) as LS by (apply points_length; apply src_ok_points; apply I).
  assert (length (trg P s) = length (v_trg v)) as LT by (rewrite (Permutation_length (i_trg _ _ _ _ I)); apply numbered_length).
  rewrite LS, LT. destruct (N.ltb_spec (N.of_nat (length (v_src v)) * N.of_nat (length (v_trg v))) 1048576) as [SM|SM].
  { cbn [bind cfg c_height no_config Nat.ltb Nat.leb src trg dirty].
    destruct (outputs (v_trg v) (trg P s) (direct_at P E (src P s)) (i_trg _ _ _ _ I)) as (y & Y & G). rewrite Y. cbn [bind]. split.
    - destruct I. split; cbn; auto. left; auto.
    - intros w W. left. pose proof (i_src _ _ _ _ I) as L. unfold src_ok in L. rewrite W in L. destruct G as [G1 G2]. split; auto.
      intros j t i J K. rewrite (G2 j t i J K). f_equal. apply direct_loaded. auto. }
  set (h := height_of P E (Nat.max (length (v_src v)) (length (v_trg v)))).
  set (s1 := if src_level P s <? h - 1 then _ else s). set (s2 := if trg_level P s1 <? h - 1 then _ else s1).
  assert (inv v Q fine s2) as I2.
  { assert (inv v Q fine s1) as I1.
    { unfold s1. destruct (src_level P s <? h - 1); auto. destruct I. split; cbn; auto. eapply src_ok_perm; [apply (sort_src_ok P E OK)|auto]. }
    unfold s2. destruct (trg_level P s1 <? h - 1); auto. destruct I1. split; cbn; auto.
    eapply perm_trans; [apply (sort_trg_ok P E OK)|auto]. }
  clearbody s2. clear s1 I LS LT. rename I2 into I.
  assert (length (trg P s2) = length (v_trg v)) as LT by (rewrite (Permutation_length (i_trg _ _ _ _ I)); apply numbered_length).
  assert (2 <= h) as H2 by apply (height_ok P E OK).
  (* what happens once a configuration is there *)
  assert (forall s' c, inv v Q fine s' ->
    (c = no_config /\ ~ fine) \/ (c_height c = h /\ 6 <= c_order c /\ chosen_for v Q h c) ->
    match (if negb (config_eqb c (cfg P s')) && (c_order c =? 0) then UB else
        let s := if config_eqb c (cfg P s') then s'
                 else State P (accuracy P s') (src P s') (trg P s') (src_level P s') (trg_level P s') (dirty P s') c (Some c) None None (best P s') in
        let s := match src_tree P s with
                 | Some _ => s
                 | None => State P (accuracy P s) (src P s) (trg P s) (src_level P s) (trg_level P s) true (cfg P s) (operator P s) (Some (Stree P (src P s) None)) (trg_tree P s) (best P s)
                 end in
        let s := match trg_tree P s with
                 | Some _ => s
                 | None => State P (accuracy P s) (src P s) (trg P s) (src_level P s) (trg_level P s) (dirty P s) (cfg P s) (operator P s) (src_tree P s) (Some (trg P s)) (best P s)
                 end in
        Ok (s, @None exn)) with
    | Ok (s3, None) => accuracy P s3 = accuracy P s' /\ src P s3 = src P s' /\ trg P s3 = trg P s' /\ dirty P s3 = true /\
         cfg P s3 = c /\ cfg_ok (cfg P s3) (operator P s3) /\ src_tree P s3 = Some (Stree P (src P s') None) /\ trg_tree P s3 = Some (trg P s') /\ best P s3 = best P s'
    | UB => ~ fine
    | _ => False
    end) as G.
  { intros s' c I' C. pose proof (i_st _ _ _ _ I') as Q1. pose proof (i_tt _ _ _ _ I') as Q2.
    destruct (config_eqb c (cfg P s')) eqn:EC.
    - apply config_eqb_eq in EC. cbn [negb andb]. rewrite Q1. cbn -[cfg_ok]. rewrite Q2. cbn -[cfg_ok]. split; auto. split; auto. split; auto. split; auto.
      split; auto. split; [apply I'|]. auto.
    - cbn [negb andb]. destruct (c_order c =? 0) eqn:OZ.
      + apply Nat.eqb_eq in OZ. destruct C as [[_ C]|C]; auto. lia.
      + cbn -[cfg_ok]. split; auto. split; auto. split; auto. split; auto. split; auto. split; [|auto].
        destruct C as [[-> _]|(C1 & C2 & _)]; [discriminate|]. right. split; [lia|]. auto. }
  (* and the evaluation after it *)
  assert (forall s' s3 c, inv v Q fine s' -> accuracy P s3 = accuracy P s' -> src P s3 = src P s' -> trg P s3 = trg P s' -> dirty P s3 = true ->
         cfg P s3 = c -> cfg_ok (cfg P s3) (operator P s3) -> src_tree P s3 = Some (Stree P (src P s') None) -> trg_tree P s3 = Some (trg P s') -> best P s3 = best P s' ->
         (c = no_config /\ ~ fine) \/ (c_height c = h /\ 6 <= c_order c /\ chosen_for v Q h c) ->
    match (if 0 <? c_height (cfg P s3) then
        match src_tree P s3, trg_tree P s3, operator P s3 with
        | Some st, Some ts, Some c =>
            let* m := if dirty P s3 then Ok (st_particles P st) else of_option (st_multipoles P st) in
            let* y := potentials P E (length (trg P s3)) (map t_id ts) (out_at P (far P E c m (st_particles P st)) ts) in
            Ok (release P s3 false, inl y)
        | _, _, _ => UB
        end
      else
        let* y := potentials P E (length (trg P s3)) (map t_id (trg P s3)) (out_at P (direct_at P E (src P s3)) (trg P s3)) in
        Ok (release P s3 (dirty P s3), @inl (list R) exn y)) with
    | Ok (s', inl y) => inv v Q fine s' /\ forall w, v_weights v = Some w -> correct_for v Q w y
    | Ok (s', inr e) => e = ExRuntimeError /\ inv v Q False s'
    | Throw _ => False
    | UB => ~ fine
    end) as K.
  { intros s' s3 c I' A1 A2 A3 A4 A5 A6 A7 A8 A9 C. rewrite A2, A3, A4, A5, A7, A8. rewrite A5 in A6.
    assert (forall d, inv v Q fine (release P s3 d)) as IR.
    { intros d. destruct I'. split; cbn; rewrite ?A1, ?A2, ?A3, ?A5, ?A9; auto. }
    destruct C as [[-> NF]|(C1 & C2 & C3)].
    - cbn [no_config c_height Nat.ltb Nat.leb].
      destruct (outputs (v_trg v) (trg P s') (direct_at P E (src P s')) (i_trg _ _ _ _ I')) as (y & Y & G'). rewrite Y. cbn [bind]. split; auto.
      intros w W. left. pose proof (i_src _ _ _ _ I') as L. unfold src_ok in L. rewrite W in L. destruct G' as [G1 G2]. split; auto.
      intros j t i J K. rewrite (G2 j t i J K). f_equal. apply direct_loaded. auto.
    - destruct (Nat.ltb_spec 0 (c_height c)) as [_|]; [|lia]. destruct A6 as [->|(_ & _ & ->)]; [cbn in C1; lia|]. cbn [st_particles bind].
      destruct (outputs (v_trg v) (trg P s') (far P E c (src P s') (src P s')) (i_trg _ _ _ _ I')) as (y & Y & G'). rewrite Y. cbn [bind].
      split; auto. intros w W. right. exists c, (src P s'). split; [lia|]. split; auto. split; auto.
      pose proof (i_src _ _ _ _ I') as L. unfold src_ok in L. rewrite W in L. auto. }
  unfold find_best. destruct (best P s2 h) as [c|] eqn:B.
  - cbn [bind]. assert ((c = no_config /\ ~ fine) \/ (c_height c = h /\ 6 <= c_order c /\ chosen_for v Q h c)) as C.
    { destruct (i_best _ _ _ _ I h c B) as [C|(C1 & C2 & C3)]; [left; auto|right]. auto. }
    specialize (G s2 c I C). specialize (fun s3 => K s2 s3 c I).
    match goal with H : match ?x with _ => _ end |- _ => destruct x as [[s3 [e|]]|e|]; cbn [bind]; try contradiction; try exact H end.
    destruct G as (A1 & A2 & A3 & A4 & A5 & A6 & A7 & A8 & A9). apply K; auto.
  - pose proof (search_spec (accuracy P s2) (src P s2) h) as S. destruct (search P E (accuracy P s2) (src P s2) h) as [c|e|] eqn:SE; [| |contradiction].
    + cbn [bind]. rewrite (i_acc _ _ _ _ I) in SE. destruct S as [S1 S2].
      assert (chosen_for v Q h c) as CH. { exists (src P s2). split; auto. apply HQ. apply I. }
      assert (inv v Q fine (with_best P s2 (upd_nat (best P s2) h (Some c)))) as I'.
      { destruct I. split; cbn; auto. intros h' c' H'. unfold upd_nat in H'. destruct (h' =? h) eqn:HH; auto.
        apply Nat.eqb_eq in HH. injection H' as <-. right. split; [congruence|]. split; auto. rewrite HH. exact CH. }
      assert ((c = no_config /\ ~ fine) \/ (c_height c = h /\ 6 <= c_order c /\ chosen_for v Q h c)) as C by (right; auto).
      specialize (G _ c I' C). specialize (fun s3 => K _ s3 c I').
      match goal with H : match ?x with _ => _ end |- _ => destruct x as [[s3 [e|]]|e|]; cbn [bind]; try contradiction; try exact H end.
      destruct G as (A1 & A2 & A3 & A4 & A5 & A6 & A7 & A8 & A9). apply K; auto.
    + cbn [bind]. split; auto. destruct I. split; cbn; auto. intros h' c' H'. unfold upd_nat in H'. destruct (h' =? h) eqn:HH.
      * injection H' as <-. left. auto.
      * destruct (i_best0 h' c' H') as [[-> _]|R]; [left; auto|right; auto].
Qed.

Definition holds (b : bool) : Prop := b = true.
Definition clean1 (b : bool) (o : op P) (r : option (list R + exn)) : bool :=
  match o, r with SetAccuracy _, _ | SetSource _, _ => true | Evaluate, Some (inr _) => false | _, _ => b end.
Lemma clean_cons : forall o os r rs b, clean P b (o :: os) (r :: rs) = clean P (clean1 b o r) os rs.
Proof. intros [a|p|p|w|] os [[y|e]|] rs b; reflexivity. Qed.

Lemma step_spec : forall v b s o, sized P E v o -> inv v (points_in P (v_src v)) (holds b) s -> match step P E s o with
  | Ok (s', r) => inv (see P v o) (points_in P (v_src (see P v o))) (holds (clean1 b o r)) s' /\ (o = Evaluate -> exists q, r = Some q) /\
      (forall y w, o = Evaluate -> r = Some (inl y) -> v_weights v = Some w -> correct P E v w y)
  | Throw _ => False
  | UB => o = Evaluate /\ b = false
  end.
Proof.
  intros v b s o Z I. destruct o as [a|p|p|w|]; cbn [step].
  - split; [|split; intros; discriminate]. destruct I. split; cbn; auto. intros h c; discriminate.
  - split; [|split; intros; discriminate]. destruct I. split; cbn; auto; [|intros h c; discriminate]. exists (stale P E). apply Permutation_refl.
  - split; [|split; intros; discriminate]. destruct I. split; cbn; auto.
  - unfold set_weights. rewrite (i_st _ _ _ _ I). destruct (reload w (v_src v) (src P s)) as (ps & PS & L); [exact Z|apply src_ok_points; apply I|].
    rewrite PS. cbn [bind]. split; [|split; intros; discriminate]. destruct I. split; cbn; auto.
  - pose proof (evaluate_spec v _ (holds b) s (src_ok_points v) I) as EV. destruct (evaluate P E s) as [[s' [y|e]]|e|]; cbn [bind fst snd].
    + destruct EV as [EV1 EV2]. split; [exact EV1|]. split; [eauto|]. intros y' w _ Q W. injection Q as <-. exact (EV2 w W).
    + destruct EV as [-> EV]. split; [|split; [eauto|intros; discriminate]]. cbn [clean1 see]. eapply inv_weaken; [|apply EV]. unfold holds. discriminate.
    + auto.
    + split; auto. unfold holds in EV. destruct b; auto. exfalso. auto.
Qed.

Lemma run_spec : forall os v b s, well_sized P E v os -> inv v (points_in P (v_src v)) (holds b) s -> forall s' rs, run P E s os = Ok (s', rs) ->
  inv (fold_left (see P) os v) (points_in P (v_src (fold_left (see P) os v))) (holds (clean P b os rs)) s'.
Proof.
  induction os as [|o os IH]; intros v b s Z I s' rs H; cbn in H.
  - injection H as <- <-. exact I.
  - destruct Z as [Z1 Z2]. pose proof (step_spec v b s o Z1 I) as S. destruct (step P E s o) as [[s1 r]|e|]; cbn in H; try discriminate.
    destruct (run P E s1 os) as [[s2 rs2]|e|] eqn:RE; cbn in H; try discriminate. injection H as <- <-.
    rewrite clean_cons. cbn [fold_left]. destruct S as (S1 & _). apply (IH _ _ s1 Z2 S1 s2 rs2 RE).
Qed.

(** ** Results *)

Theorem evaluation_correct : forall os s rs, well_sized P E (new_view P) os -> run P E (new_state P) os = Ok (s, rs) ->
  match evaluate P E s with
  | Ok (_, inl y) => forall w, v_weights (seen P os) = Some w -> correct P E (seen P os) w y
  | Ok (_, inr e) => e = ExRuntimeError
  | Throw _ => False
  | UB => clean P true os rs = false
  end.
Proof.
  intros os s rs Z H. assert (inv (seen P os) (points_in P (v_src (seen P os))) (holds (clean P true os rs)) s) as I.
  { apply (run_spec os (new_view P) true (new_state P) Z); auto. eapply inv_weaken; [|apply inv_new]. auto. }
  pose proof (evaluate_spec _ _ _ _ (src_ok_points _) I) as EV. destruct (evaluate P E s) as [[s' [y|e]]|e|]; try tauto. unfold holds in EV. destruct (clean P true os rs); auto. exfalso. auto.
Qed.

(** A history only gets stuck in an evaluation after a failed one. *)
Theorem setters_defined : forall os o s rs, well_sized P E (new_view P) (os ++ [o]) -> run P E (new_state P) os = Ok (s, rs) -> o <> Evaluate ->
  exists s', step P E s o = Ok (s', None).
Proof.
  intros os o s rs Z H N.
  assert (forall os v, well_sized P E v (os ++ [o]) -> well_sized P E v os /\ sized P E (fold_left (see P) os v) o) as SP.
  { clear. induction os as [|a os IH]; intros v; cbn; [tauto|]. intros [A B]. destruct (IH _ B). tauto. }
  destruct (SP os _ Z) as [Z1 Z2].
  assert (inv (seen P os) (points_in P (v_src (seen P os))) (holds (clean P true os rs)) s) as I.
  { apply (run_spec os (new_view P) true (new_state P) Z1); auto. eapply inv_weaken; [|apply inv_new]. auto. }
  pose proof (step_spec _ _ s o Z2 I) as S. destruct o as [a|p|p|w|]; cbn [step] in *; eauto; [|contradiction].
  destruct (set_weights P E s w) as [s'|e|]; cbn in *; eauto; [contradiction|]. destruct S; discriminate.
Qed.

(** Small problems are summed exactly, whatever happened before. *)
Theorem small_exact : forall os s rs w, well_sized P E (new_view P) os -> run P E (new_state P) os = Ok (s, rs) ->
  (N.of_nat (length (v_src (seen P os))) * N.of_nat (length (v_trg (seen P os))) < 1048576)%N -> v_weights (seen P os) = Some w ->
  exists s' y, evaluate P E s = Ok (s', inl y) /\ lists P E y (v_trg (seen P os)) (potential P E (v_src (seen P os)) w).
Proof.
  intros os s rs w Z H SM W. pose proof (evaluation_correct os s rs Z H) as EV.
  assert (inv (seen P os) (points_in P (v_src (seen P os))) (holds (clean P true os rs)) s) as I.
  { apply (run_spec os (new_view P) true (new_state P) Z); auto. eapply inv_weaken; [|apply inv_new]. auto. }
  assert (exists s' y, evaluate P E s = Ok (s', inl y)) as (s' & y & EQ).
  { unfold evaluate, prepare, small.
    assert (length (src P s) = length (v_src (seen P os))) as -> by (apply points_length; apply src_ok_points; apply I).
    assert (length (trg P s) = length (v_trg (seen P os))) as LT by (rewrite (Permutation_length (i_trg _ _ _ _ I)); apply numbered_length).
    rewrite LT. destruct (N.ltb_spec (N.of_nat (length (v_src (seen P os))) * N.of_nat (length (v_trg (seen P os)))) 1048576); [|lia].
    cbn [bind cfg c_height no_config Nat.ltb Nat.leb src trg dirty]. 
    destruct (outputs (v_trg (seen P os)) (trg P s) (direct_at P E (src P s)) (i_trg _ _ _ _ I)) as (y & Y & _). rewrite Y. cbn. eauto. }
  rewrite EQ in EV. exists s', y. split; auto. destruct (EV w W) as [C|(c & ps & N & _)]; auto. lia.
Qed.
End Fmm.
