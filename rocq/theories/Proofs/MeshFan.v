From Coq Require Import List Arith Bool Lia Permutation Relations.
From Verif Require Import Model.Outcome Model.MeshDefects Spec.DisjointSets Spec.MeshDefects Proofs.MeshDefects.
Import ListNotations.

Lemma steps_in : forall us i j, In (i, j) (steps us) <-> exists pre suf, us = pre ++ i :: j :: suf.
Proof.
  unfold steps. induction us as [|a us IH]; intros i j.
  - cbn. split; [tauto|]. intros (pre & suf & E). destruct pre; discriminate.
  - destruct us as [|b us].
    + cbn. split; [tauto|]. intros (pre & suf & E). destruct pre as [|? [|]]; discriminate.
    + cbn [combine tl In] in *. rewrite IH. split.
      * intros [E|(pre & suf & E)]; [injection E as -> ->; exists [], us; auto|]. exists (a :: pre), suf. cbn. congruence.
      * intros (pre & suf & E). destruct pre as [|c pre]; cbn in E.
        -- left. congruence.
        -- right. exists pre, suf. congruence.
Qed.

Lemma NoDup_split_unique : forall (x : nat) l1 l2 k1 k2, NoDup (l1 ++ x :: l2) ->
  l1 ++ x :: l2 = k1 ++ x :: k2 -> l1 = k1 /\ l2 = k2.
Proof.
  intros x. induction l1 as [|a l1 IH]; intros l2 k1 k2 ND E.
  - destruct k1 as [|b k1]; cbn in E; [injection E as E2; auto|]. injection E as E1 E2.
    exfalso. subst. cbn in ND. inversion ND; subst. apply H1. apply in_app_iff. right. left. auto.
  - destruct k1 as [|b k1]; cbn in E; injection E as E1 E2.
    + exfalso. subst. cbn in ND. inversion ND; subst. apply H1. apply in_app_iff. right. left. auto.
    + cbn in ND. inversion ND; subst. destruct (IH _ _ _ H2 E2). subst. auto.
Qed.

(** Position of an element of a chain: neighbours before and after, if any. *)
Lemma steps_next_unique : forall us i j j', NoDup us -> In (i, j) (steps us) -> In (i, j') (steps us) -> j = j'.
Proof.
  intros us i j j' ND H H'. apply steps_in in H. apply steps_in in H'.
  destruct H as (p & q & E), H' as (p' & q' & E'). subst us.
  destruct (NoDup_split_unique _ _ _ _ _ ND E') as [_ Q]. congruence.
Qed.

Lemma steps_prev_unique : forall us i j j', NoDup us -> In (j, i) (steps us) -> In (j', i) (steps us) -> j = j'.
Proof.
  intros us i j j' ND H H'. apply steps_in in H. apply steps_in in H'.
  destruct H as (p & q & E), H' as (p' & q' & E').
  assert (us = (p ++ [j]) ++ i :: q) as E1 by (rewrite <- app_assoc; auto).
  assert (us = (p' ++ [j']) ++ i :: q') as E2 by (rewrite <- app_assoc; auto).
  rewrite E1 in ND. destruct (NoDup_split_unique i (p ++ [j]) q (p' ++ [j']) q' ND) as [Q _]; [congruence|].
  apply app_inj_tail in Q. tauto.
Qed.

Lemma steps_irrefl : forall us i, NoDup us -> ~ In (i, i) (steps us).
Proof.
  intros us i ND H. apply steps_in in H. destruct H as (p & q & ->).
  apply NoDup_remove_2 in ND. apply ND, in_app_iff. right. left. auto.
Qed.

Lemma steps_asym : forall us i j, NoDup us -> In (i, j) (steps us) -> ~ In (j, i) (steps us).
Proof.
  intros us i j ND H H'. apply steps_in in H. apply steps_in in H'.
  destruct H as (p & q & E), H' as (p' & q' & E').
  assert (us = (p' ++ [j]) ++ i :: q') as E2 by (rewrite <- app_assoc; auto).
  rewrite E in ND, E2. destruct (NoDup_split_unique _ _ _ _ _ ND E2) as [-> <-].
  rewrite <- app_assoc in ND. cbn in ND. apply NoDup_remove_2 in ND. apply ND, in_app_iff. cbn. tauto.
Qed.

Lemma steps_NoDup : forall us, NoDup us -> NoDup (map unordered (steps us)).
Proof.
  induction us as [|a us IH]; intros ND; [constructor|]. destruct us as [|b us]; [constructor|].
  pose proof ND as ND0. inversion ND; subst. change (steps (a :: b :: us)) with ((a, b) :: steps (b :: us)). cbn [map].
  constructor; [|auto].
  intros I. apply in_map_iff in I. destruct I as ([x y] & E & I).
  assert (In a (b :: us)) as Q.
  { apply unordered_eq in E. destruct E as [[-> ->]|[-> ->]].
    - apply in_combine_l in I. auto.
    - apply in_combine_r in I. cbn [tl] in I. right. auto. }
  auto.
Qed.

Lemma steps_range : forall us i j, In (i, j) (steps us) -> In i us /\ In j us.
Proof.
  intros us i j H. apply steps_in in H. destruct H as (p & q & ->). rewrite !in_app_iff. cbn. auto.
Qed.

Lemma in_pos : forall us (x : nat), In x us -> exists l1 l2, us = l1 ++ x :: l2 /\
  (l1 = [] \/ exists a l1', l1 = l1' ++ [a]) /\ (l2 = [] \/ exists b l2', l2 = b :: l2').
Proof.
  intros us x I. apply in_split in I. destruct I as (l1 & l2 & ->). exists l1, l2. split; [auto|]. split.
  - destruct l1 as [|c l1]; [auto|right]. destruct (exists_last (l := c :: l1)) as (l' & a & E); [discriminate|]. eauto.
  - destruct l2; eauto.
Qed.

Lemma hd_last_app : forall (l : list nat) a, last (l ++ [a]) 0 = a.
Proof. intros. apply last_last. Qed.

(** ** A simple connected graph of maximal degree two is a chain *)
Section Chain.
Variables (n : nat) (es : list (nat * nat)).
Hypothesis B : forall i j, adjacent es i j -> i < n.
Hypothesis Irr : forall i, ~ adjacent es i i.
Hypothesis Con : forall i j, i < n -> j < n -> joined es i j.
Hypothesis Two : forall i a b c, adjacent es i a -> adjacent es i b -> adjacent es i c -> a <> b -> c = a \/ c = b.

Definition chain (us : list nat) : Prop := NoDup us /\ forall i j, In (i, j) (steps us) -> adjacent es i j.

Lemma chain_rev : forall us, chain us -> chain (rev us).
Proof.
  intros us [ND C]. split; [apply NoDup_rev; auto|]. intros i j H. apply steps_in in H. destruct H as (p & q & E).
  apply adjacent_sym, C. apply steps_in. exists (rev q), (rev p).
  rewrite <- (rev_involutive us), E, rev_app_distr. cbn. rewrite <- !app_assoc. auto.
Qed.

Lemma chain_cons : forall a x us, chain (x :: us) -> adjacent es a x -> ~ In a (x :: us) -> chain (a :: x :: us).
Proof.
  intros a x us [ND C] A NI. split; [constructor; auto|]. intros i j [E|H]; [injection E as <- <-; auto|].
  apply C. auto.
Qed.

Lemma chain_length : forall us, chain us -> (forall x, In x us -> x < n) -> length us <= n.
Proof.
  intros us [ND _] H. rewrite <- (seq_length n 0). apply NoDup_incl_length; auto.
  intros x X. apply in_seq. specialize (H x X). lia.
Qed.

Lemma adjacent_dec : forall i j, {adjacent es i j} + {~ adjacent es i j}.
Proof. intros. apply in_dec, pdec. Qed.

Lemma extend : forall k x us, chain (x :: us) -> (forall y, In y (x :: us) -> y < n) -> n - length (x :: us) <= k ->
  exists y vs, chain (y :: vs) /\ (forall z, In z (y :: vs) -> z < n) /\ incl (x :: us) (y :: vs) /\
    last (y :: vs) 0 = last (x :: us) 0 /\ (forall z, adjacent es y z -> In z (y :: vs)).
Proof.
  induction k as [|k IH]; intros x us C BU K.
  all: destruct (existsb (fun z => if adjacent_dec x z then negb (existsb (Nat.eqb z) (x :: us)) else false) (seq 0 n)) eqn:X.
  2, 4: exists x, us; split; [auto|]; split; [auto|]; split; [apply incl_refl|]; split; [auto|];
    intros z A; destruct (in_dec Nat.eq_dec z (x :: us)) as [|NI]; [auto|exfalso];
    apply not_true_iff_false in X; apply X; apply existsb_exists; exists z; split;
    [apply in_seq; split; [lia|apply (B z x), adjacent_sym, A]|];
    destruct (adjacent_dec x z); [|contradiction]; apply negb_true_iff, not_true_iff_false; intros Q;
    apply existsb_exists in Q; destruct Q as (w & W & E); apply Nat.eqb_eq in E; subst w; contradiction.
  all: apply existsb_exists in X; destruct X as (z & Z & E); destruct (adjacent_dec x z) as [A|]; [|discriminate];
    apply negb_true_iff, not_true_iff_false in E;
    assert (~ In z (x :: us)) as NI by (intros Q; apply E, existsb_exists; exists z; split; [auto|apply Nat.eqb_refl]);
    assert (chain (z :: x :: us)) as C' by (apply chain_cons; auto using adjacent_sym);
    assert (forall y, In y (z :: x :: us) -> y < n) as BU'
      by (intros y [<-|Y]; [apply in_seq in Z; lia|auto]);
    pose proof (chain_length _ C' BU') as L.
  - cbn [length] in *. lia.
  - destruct (IH z (x :: us) C' BU') as (y & vs & X1 & X2 & X3 & X4 & X5); [cbn [length] in *; lia|].
    exists y, vs. split; [auto|]. split; [auto|]. split; [|split; auto].
    intros w W. apply X3. right. auto.
Qed.

Lemma maximal : 0 < n -> exists us, chain us /\ us <> [] /\ (forall z, In z us -> z < n) /\
  (forall z, adjacent es (hd 0 us) z -> In z us) /\ (forall z, adjacent es (last us 0) z -> In z us).
Proof.
  intros N.
  destruct (extend n 0 []) as (y & vs & C & BU & _ & _ & M1).
  - split; [constructor; [tauto|constructor]|]. intros i j [].
  - intros y [<-|[]]. auto.
  - cbn. lia.
  - assert (exists x us, rev (y :: vs) = x :: us) as (x & us & E).
    { destruct (rev (y :: vs)) eqn:E; eauto. exfalso. apply (f_equal (@length nat)) in E. rewrite rev_length in E. discriminate. }
    destruct (extend n x us) as (z & ws & C2 & BU2 & I2 & L2 & M2).
    + rewrite <- E. apply chain_rev. auto.
    + intros w W. apply BU. rewrite <- E in W. apply in_rev in W. auto.
    + lia.
    + exists (z :: ws). split; [auto|]. split; [discriminate|]. split; [auto|]. split; [auto|].
      rewrite L2, <- E. cbn [rev]. rewrite last_last. intros w A. apply I2. rewrite <- E. apply -> in_rev. auto.
Qed.

(** Neighbours of an inner vertex of the chain are its two chain neighbours. *)
Lemma inner : forall l1 a x b l2 y, chain ((l1 ++ [a]) ++ x :: b :: l2) -> adjacent es x y ->
  y = a \/ y = b.
Proof.
  intros l1 a x b l2 y [ND C] A. apply (Two x a b y); auto.
  - apply adjacent_sym, C. apply steps_in. exists l1, (b :: l2). rewrite <- app_assoc. auto.
  - apply C. apply steps_in. exists (l1 ++ [a]), l2. auto.
  - intros ->. rewrite <- app_assoc in ND. apply NoDup_remove_2 in ND. apply ND, in_app_iff. right. right. left. auto.
Qed.

Lemma chain_closed : forall us, chain us ->
  (forall z, adjacent es (hd 0 us) z -> In z us) -> (forall z, adjacent es (last us 0) z -> In z us) ->
  forall x y, adjacent es x y -> In x us -> In y us.
Proof.
  intros us C H1 H2 x y A I. destruct (in_pos us x I) as (l1 & l2 & -> & L1 & L2).
  destruct L1 as [->|(a & l1' & ->)]; [apply H1; auto|].
  destruct L2 as [->|(b & l2' & ->)]; [apply H2; rewrite last_last; auto|].
  destruct (inner _ _ _ _ _ _ C A) as [->| ->]; rewrite !in_app_iff; cbn; auto.
Qed.

(** Edges are chain steps, or join the two ends. *)
Lemma chain_edges : forall us, chain us -> (forall x, x < n -> In x us) ->
  forall x y, adjacent es x y ->
  In (x, y) (steps us) \/ In (y, x) (steps us) \/ (x = hd 0 us /\ y = last us 0) \/ (y = hd 0 us /\ x = last us 0).
Proof.
  intros us C Cov x y A.
  assert (forall x y, adjacent es x y -> In (x, y) (steps us) \/ In (y, x) (steps us) \/ x = hd 0 us \/ x = last us 0) as H.
  { clear x y A. intros x y A. destruct (in_pos us x (Cov x (B _ _ A))) as (l1 & l2 & E & L1 & L2).
    destruct L1 as [->|(a & l1' & ->)]; [subst; auto|].
    destruct L2 as [->|(b & l2' & ->)]; [subst; rewrite last_last; auto|].
    rewrite E in C. destruct (inner _ _ _ _ _ _ C A) as [->| ->].
    - right. left. rewrite E. apply steps_in. exists l1', (b :: l2'). rewrite <- app_assoc. auto.
    - left. rewrite E. apply steps_in. exists (l1' ++ [a]), l2'. auto. }
  assert (x <> y) as NE by (intros ->; apply (Irr _ A)).
  destruct (H x y A) as [|[|Hx]]; auto. destruct (H y x (adjacent_sym _ _ _ A)) as [|[|Hy]]; auto.
  destruct Hx as [-> | ->], Hy as [Hy|Hy]; auto; congruence.
Qed.

Lemma graph_chain : 0 < n -> (forall i, i < n -> exists j, adjacent es i j) ->
  exists us, NoDup us /\
    ((forall i j, adjacent es i j <-> adjacent (steps us) i j) \/
     (3 <= length us /\ forall i j, adjacent es i j <-> adjacent ((last us 0, hd 0 us) :: steps us) i j)).
Proof.
  intros N Nb. destruct (maximal N) as (us & C & NN & BU & M1 & M2). exists us. split; [apply C|].
  assert (forall x, x < n -> In x us) as Cov.
  { intros x Hx. destruct us as [|u us]; [congruence|].
    apply (joined_closed es (fun x => In x (u :: us))) with (i := u) (j := x).
    - apply chain_closed; auto.
    - apply Con; auto. apply BU. left; auto.
    - left; auto. }
  assert (forall i j, adjacent (steps us) i j -> adjacent es i j) as S1.
  { intros i j A. apply adjacent_iff in A. destruct A as [A|A]; [|apply adjacent_sym]; apply C; auto. }
  destruct (adjacent_dec (last us 0) (hd 0 us)) as [A|NA].
  - destruct us as [|u0 [|u1 us]]; [congruence| |].
    + exfalso. apply (Irr u0). exact A.
    + destruct us as [|u2 us].
      * left. intros i j. split; [|auto]. intros E. apply adjacent_iff.
        destruct (chain_edges _ C Cov i j E) as [Q|[Q|[[-> ->]|[-> ->]]]]; cbn; auto.
      * right. split; [cbn; lia|]. intros i j. split.
        -- intros E. apply adjacent_iff. cbn [In].
           destruct (chain_edges _ C Cov i j E) as [Q|[Q|[[-> ->]|[-> ->]]]]; auto.
        -- intros E. apply adjacent_iff in E. destruct E as [[E|E]|[E|E]].
           ++ injection E as <- <-. auto.
           ++ apply S1, adjacent_iff. auto.
           ++ injection E as <- <-. apply adjacent_sym. auto.
           ++ apply S1, adjacent_iff. auto.
  - left. intros i j. split; [|auto]. intros E. apply adjacent_iff.
    destruct (chain_edges _ C Cov i j E) as [Q|[Q|[[-> ->]|[-> ->]]]]; auto; exfalso; apply NA; auto using adjacent_sym.
Qed.

End Chain.

(** ** The test on graphs *)

Lemma same_edges_adjacent : forall es fs, NoDup (map unordered es) -> NoDup (map unordered fs) ->
  (forall i j, adjacent es i j <-> adjacent fs i j) -> same_edges es fs.
Proof.
  intros es fs N1 N2 H. apply NoDup_Permutation; auto.
  assert (forall es x, In x (map unordered es) <-> unordered x = x /\ adjacent es (fst x) (snd x)) as K.
  { clear. intros es x. unfold adjacent. rewrite <- surjective_pairing. split.
    - intros I. assert (unordered x = x) as E; [|rewrite E; auto].
      apply in_map_iff in I. destruct I as (y & <- & _). apply unordered_idem.
    - intros [E I]. rewrite E in I. auto. }
  intros x. rewrite !K, H. tauto.
Qed.

Lemma same_edges_adj : forall es fs, same_edges es fs -> forall i j, adjacent es i j <-> adjacent fs i j.
Proof.
  intros es fs H i j. unfold adjacent. split; apply Permutation_in; [|apply Permutation_sym]; auto.
Qed.

Definition two_neighbours (es : list (nat * nat)) : Prop :=
  forall i a b c, adjacent es i a -> adjacent es i b -> adjacent es i c -> a <> b -> c = a \/ c = b.

Lemma degree_two : forall es i, length (filter (incident i) (map unordered es)) <= 2 ->
  forall a b c, adjacent es i a -> adjacent es i b -> adjacent es i c -> a <> b -> c = a \/ c = b.
Proof.
  intros es i D a b c A1 A2 A3 NE.
  destruct (Nat.eq_dec c a); auto. destruct (Nat.eq_dec c b); auto. exfalso.
  assert (forall x, adjacent es i x -> In (unordered (i, x)) (filter (incident i) (map unordered es))) as K.
  { intros x A. apply filter_In. split; auto. unfold incident, unordered. cbn [fst snd].
    apply orb_true_iff. rewrite !Nat.eqb_eq. lia. }
  assert (length [unordered (i, a); unordered (i, b); unordered (i, c)] <= length (filter (incident i) (map unordered es))) as L.
  { apply NoDup_incl_length.
    - assert (forall x y, unordered (i, x) = unordered (i, y) -> x = y) as U.
      { intros x y E. apply unordered_eq in E. destruct E as [[_ ->]|[-> ->]]; auto. }
      assert (forall x y, x <> y -> unordered (i, x) <> unordered (i, y)) as U2 by (intros x y Q E; apply Q, U, E).
      apply NoDup_cons; [intros [Q|[Q|[]]]; revert Q; apply U2; auto|].
      apply NoDup_cons; [intros [Q|[]]; revert Q; apply U2; auto|].
      apply NoDup_cons; [intros []|apply NoDup_nil].
    - intros p [<-|[<-|[<-|[]]]]; auto. }
  cbn in L. lia.
Qed.

(** In a closed or open chain every vertex has at most two incident edges. *)
Lemma incident_le : forall es i a b, NoDup (map unordered es) ->
  (forall x, adjacent es i x -> x = a \/ x = b) -> length (filter (incident i) (map unordered es)) <= 2.
Proof.
  intros es i a b ND H.
  change 2 with (length [unordered (i, a); unordered (i, b)]). apply NoDup_incl_length.
  - apply NoDup_filter. auto.
  - intros [x y] I. apply filter_In in I. destruct I as [I Q].
    assert (unordered (x, y) = (x, y)) as U.
    { apply in_map_iff in I. destruct I as (e & <- & _). apply unordered_idem. }
    unfold incident in Q. cbn [fst snd] in Q. apply orb_true_iff in Q. rewrite !Nat.eqb_eq in Q.
    assert (exists w, adjacent es i w /\ (x, y) = unordered (i, w)) as (w & A & ->).
    { destruct Q as [-> | ->].
      - exists y. unfold adjacent. rewrite U. auto.
      - exists x. unfold adjacent. rewrite unordered_swap, U. auto. }
    destruct (H w A) as [->| ->]; [left|right; left]; auto.
Qed.

(** Successor and predecessor in the chain, with a default. *)
Lemma steps_neighbours : forall us i, NoDup us -> exists a b,
  forall x, adjacent (steps us) i x -> x = a \/ x = b.
Proof.
  intros us i ND. destruct (in_dec Nat.eq_dec i us) as [I|NI].
  - destruct (in_pos us i I) as (l1 & l2 & E & L1 & L2).
    exists (last l1 0), (hd 0 l2). intros x A. apply adjacent_iff in A. destruct A as [A|A].
    + right. apply steps_in in A. destruct A as (p & q & E'). rewrite E in ND.
      destruct (NoDup_split_unique i l1 l2 p (x :: q) ND) as [_ ->]; [congruence|]. auto.
    + left. apply steps_in in A. destruct A as (p & q & E'). rewrite E in ND.
      destruct (NoDup_split_unique i l1 l2 (p ++ [x]) q ND) as [-> _]; [rewrite <- app_assoc; cbn; congruence|].
      rewrite last_last. auto.
  - exists 0, 0. intros x A. apply adjacent_iff in A. destruct A as [A|A]; apply steps_range in A; tauto.
Qed.

Lemma closed_NoDup : forall us, NoDup us -> 3 <= length us ->
  NoDup (map unordered ((last us 0, hd 0 us) :: steps us)).
Proof.
  intros us ND L. cbn [map]. constructor; [|apply steps_NoDup; auto].
  intros I. change (adjacent (steps us) (last us 0) (hd 0 us)) in I. apply adjacent_iff in I.
  destruct us as [|u0 us]; [cbn in L; lia|].
  destruct (exists_last (l := us)) as (l & z & ->); [destruct us; cbn in L; [lia|discriminate]|].
  rewrite app_comm_cons, last_last in I. cbn [hd] in I.
  destruct I as [I|I]; apply steps_in in I; destruct I as (p & q & E).
  - assert (p ++ [z] = []) as Q.
    { symmetry. apply (NoDup_split_unique u0 [] (l ++ [z]) (p ++ [z]) q); [cbn; auto|]. cbn. rewrite <- app_assoc. auto. }
    destruct p; discriminate.
  - destruct (NoDup_split_unique u0 [] (l ++ [z]) p (z :: q)) as [_ Q]; [cbn; auto|exact E|].
    assert (l = []) as ->.
    { destruct l as [|y l]; auto. cbn in Q. injection Q as -> Q. exfalso. cbn in ND. inversion ND; subst. inversion H2; subst.
      apply H3. apply in_app_iff. right. left. auto. }
    cbn in L. lia.
Qed.

Lemma closed_neighbours : forall us i, NoDup us -> 3 <= length us -> exists a b,
  forall x, adjacent ((last us 0, hd 0 us) :: steps us) i x -> x = a \/ x = b.
Proof.
  intros us i ND L.
  assert (forall x, adjacent ((last us 0, hd 0 us) :: steps us) i x ->
          (i = last us 0 /\ x = hd 0 us) \/ (i = hd 0 us /\ x = last us 0) \/ adjacent (steps us) i x) as K.
  { intros x A. apply adjacent_iff in A. cbn in A. rewrite (adjacent_iff (steps us)).
    destruct A as [[A|A]|[A|A]]; auto; injection A as -> ->; auto. }
  destruct us as [|u0 us]; [cbn in L; lia|].
  destruct (exists_last (l := us)) as (l & z & ->); [destruct us; cbn in L; [lia|discriminate]|].
  destruct l as [|y l]; [cbn in L; lia|].
  rewrite app_comm_cons, last_last in *. cbn [hd] in *.
  set (us := u0 :: (y :: l) ++ [z]) in *.
  assert (u0 <> z) as NE.
  { intros ->. cbn in ND. inversion ND; subst. apply H1. right. apply in_app_iff. right. left. auto. }
  destruct (Nat.eq_dec i z) as [->|N1]; [|destruct (Nat.eq_dec i u0) as [->|N2]].
  - exists u0, (last (u0 :: y :: l) 0). intros x A. destruct (K x A) as [[_ E]|[[E _]|A']]; [left; exact E|symmetry in E; contradiction|].
    right. apply adjacent_iff in A'. destruct A' as [A'|A']; apply steps_in in A'; destruct A' as (p & q & E).
    + exfalso. destruct (NoDup_split_unique z (u0 :: y :: l) [] p (x :: q)) as [_ Q]; [exact ND|exact E|discriminate].
    + destruct (NoDup_split_unique z (u0 :: y :: l) [] (p ++ [x]) q) as [Q _]; [exact ND|rewrite <- app_assoc; exact E|].
      rewrite Q, last_last. auto.
  - exists z, y. intros x A. destruct (K x A) as [[E _]|[[_ E]|A']]; [contradiction|left; exact E|].
    right. apply adjacent_iff in A'. destruct A' as [A'|A']; apply steps_in in A'; destruct A' as (p & q & E).
    + destruct (NoDup_split_unique u0 [] ((y :: l) ++ [z]) p (x :: q)) as [_ Q]; [exact ND|exact E|]. cbn in Q. congruence.
    + exfalso. destruct (NoDup_split_unique u0 [] ((y :: l) ++ [z]) (p ++ [x]) q) as [Q _]; [exact ND|rewrite <- app_assoc; exact E|].
      destruct p; discriminate.
  - destruct (steps_neighbours us i ND) as (a & b & H). exists a, b. intros x A.
    destruct (K x A) as [[E _]|[[E _]|A']]; [contradiction|contradiction|auto].
Qed.

Lemma steps_joined : forall us x y, In x us -> In y us -> joined (steps us) x y.
Proof.
  induction us as [|u us IH]; intros x y X Y; [destruct X|].
  assert (forall a b, joined (steps us) a b -> joined (steps (u :: us)) a b) as MO.
  { intros a b H. induction H as [p q H|p|p q H IH'|p q r H1 IH1 H2 IH2]; [|apply rst_refl|apply rst_sym; auto|eapply rst_trans; eauto].
    apply rst_step. apply steps_in in H. destruct H as (l1 & l2 & ->). apply steps_in. exists (u :: l1), l2. auto. }
  assert (forall z, In z us -> joined (steps (u :: us)) u z) as R.
  { intros z Z. destruct us as [|v us]; [destruct Z|]. eapply rst_trans; [apply rst_step; left; reflexivity|].
    apply MO, IH; auto. left; auto. }
  destruct X as [<-|X], Y as [<-|Y]; [apply rst_refl|apply R; auto|apply rst_sym, R; auto|apply MO, IH; auto].
Qed.

Lemma joined_adjacent_mono : forall es fs, (forall i j, adjacent es i j -> adjacent fs i j) ->
  forall x y, joined es x y -> joined fs x y.
Proof.
  intros es fs H x y J. induction J as [p q A|p|p q A IH'|p q r H1 IH1 H2 IH2];
    [apply adjacent_joined, H, adjacent_iff; auto|apply rst_refl|apply rst_sym; auto|eapply rst_trans; eauto].
Qed.

Definition good (n : nat) (es : list (nat * nat)) : Prop :=
  simple es /\ (forall i j, i < n -> j < n -> joined es i j) /\
  forall i, i < n -> length (filter (incident i) (map unordered es)) <= 2.

Lemma good_fan : forall n es, 0 < n -> (forall i j, adjacent es i j -> i < n) ->
  (forall i, i < n -> exists j, adjacent es i j) -> (good n es <-> fan es).
Proof.
  intros n es N B Nb. split.
  - intros ((ND & Irr) & Con & Deg).
    assert (two_neighbours es) as Two.
    { intros i a b c A1. apply degree_two; auto. apply Deg. eapply B; eauto. }
    destruct (graph_chain n es B Irr Con Two N Nb) as (us & NDu & H). exists us. split; [auto|].
    destruct H as [H|[L H]]; [left|right; split; [auto|]]; apply same_edges_adjacent; auto.
    + apply steps_NoDup; auto.
    + apply closed_NoDup; auto.
  - intros (us & NDu & H).
    assert (NoDup (map unordered es) /\ (forall i, ~ adjacent es i i) /\ (forall x y, In x us -> In y us -> joined es x y) /\
            (forall i j, adjacent es i j -> In i us) /\
            forall i, exists a b, forall x, adjacent es i x -> x = a \/ x = b) as (X1 & X2 & X3 & X4 & X5).
    { destruct H as [H|[L H]]; pose proof (same_edges_adj _ _ H) as A.
      - split; [|split; [|split; [|split]]].
        + eapply Permutation_NoDup; [apply Permutation_sym; exact H|]. apply steps_NoDup; auto.
        + intros i Q. apply A, adjacent_iff in Q. destruct Q as [Q|Q]; eapply steps_irrefl; eauto.
        + intros x y X Y. apply (joined_adjacent_mono (steps us)); [intros; apply A; auto|]. apply steps_joined; auto.
        + intros i j Q. apply A, adjacent_iff in Q. destruct Q as [Q|Q]; apply steps_range in Q; tauto.
        + intros i. destruct (steps_neighbours us i NDu) as (a & b & K). exists a, b. intros x Q. apply K, A. auto.
      - split; [|split; [|split; [|split]]].
        + eapply Permutation_NoDup; [apply Permutation_sym; exact H|]. apply closed_NoDup; auto.
        + intros i Q. apply A, adjacent_iff in Q. cbn in Q.
          assert ((last us 0, hd 0 us) <> (i, i)) as NE.
          { intros E. injection E as E1 E2.
            pose proof (closed_NoDup us NDu L) as _.
            destruct us as [|u0 us]; [cbn in L; lia|].
            destruct (exists_last (l := us)) as (l & z & ->); [destruct us; cbn in L; [lia|discriminate]|].
            rewrite app_comm_cons, last_last in E1. cbn in E2. subst. inversion NDu; subst. apply H2, in_app_iff. right. left. auto. }
          destruct Q as [[Q|Q]|[Q|Q]]; try contradiction; eapply steps_irrefl; eauto.
        + intros x y X Y. apply (joined_adjacent_mono (steps us)); [|apply steps_joined; auto].
          intros i j Q. apply A. apply adjacent_iff in Q. apply adjacent_iff. cbn. tauto.
        + intros i j Q. apply A, adjacent_iff in Q.
          assert (In (last us 0) us /\ In (hd 0 us) us) as [I1 I2].
          { destruct us as [|u0 us]; [cbn in L; lia|]. split; [|left; auto].
            destruct (exists_last (l := u0 :: us)) as (l & z & E); [discriminate|]. rewrite E, last_last. apply in_app_iff. right. left. auto. }
          destruct Q as [[Q|Q]|[Q|Q]].
          * injection Q as <- _. auto.
          * apply steps_range in Q. tauto.
          * injection Q as _ <-. auto.
          * apply steps_range in Q. tauto.
        + intros i. destruct (closed_neighbours us i NDu L) as (a & b & K). exists a, b. intros x Q. apply K, A. auto. }
    split; [split; auto|]. split.
    + intros i j Hi Hj. destruct (Nb i Hi) as (i' & Ai). destruct (Nb j Hj) as (j' & Aj). apply X3; eapply X4; eauto.
    + intros i _. destruct (X5 i) as (a & b & K). eapply incident_le; eauto.
Qed.
