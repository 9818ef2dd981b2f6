From Coq Require Import List Arith Bool Lia Permutation Relations.
From Verif Require Import Model.Outcome Model.MeshDefects Spec.DisjointSets Spec.MeshDefects.
Import ListNotations.

Definition pdec : forall p q : nat * nat, {p = q} + {p <> q}.
Proof. decide equality; apply Nat.eq_dec. Qed.

(** The matrix holds the multiplicities of the unordered edges. *)
Definition is_matrix (es : list (nat * nat)) (m : matrix) : Prop :=
  forall a b, m a b = count_occ pdec (map unordered es) (a, b).

Definition adjacent (es : list (nat * nat)) (i j : nat) : Prop := In (unordered (i, j)) (map unordered es).

Lemma unordered_swap : forall i j, unordered (j, i) = unordered (i, j).
Proof. intros. unfold unordered. cbn. f_equal; lia. Qed.

Lemma unordered_idem : forall p, unordered (unordered p) = unordered p.
Proof. intros [i j]. unfold unordered. cbn. f_equal; lia. Qed.

Lemma unordered_diag : forall i, unordered (i, i) = (i, i).
Proof. intros. unfold unordered. cbn. f_equal; lia. Qed.

Lemma unordered_eq : forall i j a b, unordered (i, j) = unordered (a, b) -> (i = a /\ j = b) \/ (i = b /\ j = a).
Proof. intros i j a b H. unfold unordered in H. cbn in H. injection H. lia. Qed.

Lemma adjacent_sym : forall es i j, adjacent es i j -> adjacent es j i.
Proof. unfold adjacent. intros. rewrite unordered_swap. auto. Qed.

Lemma adjacent_iff : forall es i j, adjacent es i j <-> In (i, j) es \/ In (j, i) es.
Proof.
  intros es i j. unfold adjacent. rewrite in_map_iff. split.
  - intros ([a b] & H & I). apply unordered_eq in H. destruct H as [[-> ->]|[-> ->]]; auto.
  - intros [H|H]; [exists (i, j)|exists (j, i)]; auto using unordered_swap.
Qed.

Lemma is_matrix_new : is_matrix [] (fun _ _ => 0).
Proof. intros a b. auto. Qed.

Lemma is_matrix_add : forall es m i j, is_matrix es m -> is_matrix (es ++ [(i, j)]) (add_edge m i j).
Proof.
  intros es m i j H a b. rewrite map_app, count_occ_app. unfold add_edge.
  assert ((if j <? i then (j, i) else (i, j)) = unordered (i, j)) as ->.
  { unfold unordered. cbn [fst snd]. destruct (Nat.ltb_spec j i); f_equal; lia. }
  cbn [map count_occ]. change (unordered (i, j)) with (Nat.min i j, Nat.max i j). cbv beta iota. rewrite !H.
  destruct (pdec (Nat.min i j, Nat.max i j) (a, b)) as [E|N].
  - injection E as <- <-. rewrite !Nat.eqb_refl. cbn [andb]. rewrite Nat.add_1_r. reflexivity.
  - destruct (Nat.eqb_spec a (Nat.min i j)) as [-> |]; [destruct (Nat.eqb_spec b (Nat.max i j)) as [-> |]|]; cbn [andb]; try (rewrite Nat.add_0_r; reflexivity).
    congruence.
Qed.

Lemma has_edge_iff : forall es m i j, is_matrix es m -> has_edge m i j = true <-> adjacent es i j.
Proof.
  intros es m i j H. unfold has_edge, adjacent.
  assert ((if j <? i then (j, i) else (i, j)) = unordered (i, j)) as ->.
  { unfold unordered. cbn [fst snd]. destruct (Nat.ltb_spec j i); f_equal; lia. }
  rewrite (count_occ_In pdec). change (unordered (i, j)) with (Nat.min i j, Nat.max i j). cbv beta iota.
  rewrite H, negb_true_iff, Nat.eqb_neq.
  generalize (count_occ pdec (map unordered es) (Nat.min i j, Nat.max i j)). lia.
Qed.

Lemma joined_closed : forall es (P : nat -> Prop), (forall i j, adjacent es i j -> P i -> P j) ->
  forall i j, joined es i j -> (P i <-> P j).
Proof.
  intros es P C i j H. induction H as [u v H|u|u v H IH|u v w H1 IH1 H2 IH2].
  - split; apply C; apply adjacent_iff; auto.
  - tauto.
  - tauto.
  - tauto.
Qed.

Lemma adjacent_joined : forall es i j, adjacent es i j -> joined es i j.
Proof. intros es i j H. apply adjacent_iff in H. destruct H; [apply rst_step|apply rst_sym, rst_step]; auto. Qed.

Lemma upd_same : forall A (f : nat -> A) i x, upd f i x i = x.
Proof. intros. unfold upd. rewrite Nat.eqb_refl. auto. Qed.
Lemma upd_other : forall A (f : nat -> A) i x j, j <> i -> upd f i x j = f j.
Proof. intros. unfold upd. destruct (Nat.eqb_spec j i); congruence. Qed.

Section Graph.
Variables (n : nat) (m : matrix) (es : list (nat * nat)).
Hypothesis M : is_matrix es m.
Hypothesis B : forall i j, adjacent es i j -> i < n.

Let HE : forall i j, has_edge m i j = true <-> adjacent es i j.
Proof. intros. apply has_edge_iff; auto. Qed.
Let B2 : forall i j, adjacent es i j -> j < n.
Proof. intros i j H. apply (B j i), adjacent_sym, H. Qed.

(** ** is_connected *)

Definition unvisited (vis : nat -> bool) : nat := length (filter (fun j => negb (vis j)) (seq 0 n)).

Lemma filter_upd : forall (vis : nat -> bool) i l, NoDup l -> In i l -> vis i = false ->
  S (length (filter (fun j => negb (upd vis i true j)) l)) = length (filter (fun j => negb (vis j)) l).
Proof.
  intros vis i l. induction l as [|a l IH]; intros ND I V; [destruct I|]. inversion ND; subst. cbn [filter].
  destruct (Nat.eq_dec a i) as [->|NE].
  - rewrite upd_same, V. cbn. f_equal. clear - H1. induction l as [|b l IH]; auto. cbn.
    rewrite upd_other by (intros ->; apply H1; left; auto).
    assert (~ In i l) by (intros Q; apply H1; right; auto). destruct (negb (vis b)); cbn; auto.
  - rewrite upd_other by auto. destruct I as [->|I]; [congruence|]. destruct (negb (vis a)); cbn; rewrite <- IH; auto.
Qed.

Definition stacked_ok (vis : nat -> bool) (st : list nat) : Prop :=
  forall pre k suf, st = pre ++ k :: suf -> vis k = true ->
  forall y, adjacent es k y -> vis y = true \/ In y pre.

Lemma filter_none : forall A (f : A -> bool) l, (forall x, In x l -> f x = false) -> filter f l = [].
Proof.
  induction l as [|a l IH]; intros H; auto. cbn. rewrite (H a (or_introl eq_refl)). apply IH.
  intros; apply H; right; auto.
Qed.

Lemma filter_le_n : forall (f : nat -> bool), length (filter f (seq 0 n)) <= n.
Proof.
  intros f. rewrite <- (seq_length n 0) at 2. generalize (seq 0 n).
  induction l as [|a l IH]; cbn; auto. destruct (f a); cbn; lia.
Qed.

Lemma dfs_spec : forall fuel vis st,
  (forall x, In x st -> x < n) -> stacked_ok vis st ->
  (forall x y, vis x = true -> adjacent es x y -> vis y = true \/ In y st) ->
  unvisited vis * n + length st <= fuel ->
  exists vis', dfs fuel n m vis st = Some vis' /\
    (forall x, vis x = true -> vis' x = true) /\ (forall x, In x st -> vis' x = true) /\
    (forall x y, vis' x = true -> adjacent es x y -> vis' y = true) /\
    (forall P : nat -> Prop, (forall x y, adjacent es x y -> P x -> P y) -> (forall x, In x st -> P x) ->
       (forall x, vis x = true -> P x) -> forall x, vis' x = true -> P x).
Proof.
  induction fuel as [|fuel IH]; intros vis st BS OK CL FU.
  - destruct st as [|i st]; [|cbn in FU; lia]. exists vis. cbn.
    split; auto. split; auto. split; [tauto|]. split; auto.
    intros x y V A. destruct (CL x y V A) as [|[]]; auto.
  - destruct st as [|i st].
    + exists vis. cbn. split; auto. split; auto. split; [tauto|]. split; auto.
      intros x y V A. destruct (CL x y V A) as [|[]]; auto.
    + cbn [dfs]. set (vis1 := upd vis i true).
      set (new := rev (filter (fun j => has_edge m i j && negb (vis1 j)) (seq 0 n))).
      assert (forall x, vis x = true -> vis1 x = true) as V1.
      { intros x V. unfold vis1, upd. destruct (Nat.eqb x i); auto. }
      assert (vis1 i = true) as Vi by apply upd_same.
      assert (forall y, In y new <-> adjacent es i y /\ vis1 y = false) as NEW.
      { intros y. unfold new. rewrite <- in_rev, filter_In, andb_true_iff, HE, negb_true_iff, in_seq.
        split; [tauto|]. intros [A V]. pose proof (B2 _ _ A). intuition lia. }
      assert (stacked_ok vis1 (new ++ st)) as OK1.
      { intros pre k suf E V y A.
        destruct (vis1 y) eqn:Vy; auto. right.
        (* k is not among the new ones *)
        assert (~ In k new) as NK by (rewrite NEW; intros [_ Q]; congruence).
        assert (exists pre', pre = new ++ pre' /\ st = pre' ++ k :: suf) as (pre' & -> & ->).
        { clear - E NK. revert pre E. induction new as [|a l IH]; intros pre E; [exists pre; auto|].
          destruct pre as [|b pre]; cbn in E; injection E as -> E; [exfalso; apply NK; left; auto|].
          destruct (IH (fun Q => NK (or_intror Q)) pre E) as (p' & -> & ->). exists p'. auto. }
        apply in_app_iff. destruct (Nat.eq_dec k i) as [->|NE].
        - left. apply NEW. auto.
        - unfold vis1 in V. rewrite upd_other in V by auto.
          destruct (OK (i :: pre') k suf eq_refl V y A) as [Q|[Q|Q]]; auto.
          + apply V1 in Q. congruence.
          + subst. congruence. }
      assert (forall x y, vis1 x = true -> adjacent es x y -> vis1 y = true \/ In y (new ++ st)) as CL1.
      { intros x y V A. destruct (vis1 y) eqn:Vy; auto. right. apply in_app_iff.
        destruct (Nat.eq_dec x i) as [->|NE].
        - left. apply NEW. auto.
        - unfold vis1 in V. rewrite upd_other in V by auto. destruct (CL x y V A) as [Q|[Q|Q]]; auto.
          + apply V1 in Q. congruence.
          + subst. congruence. }
      assert (i < n) as Hi by (apply BS; left; auto).
      destruct (IH vis1 (new ++ st)) as (vis' & E & X1 & X2 & X3 & X4); auto.
      * intros x X. apply in_app_iff in X. destruct X as [X|X]; [apply NEW in X; eapply B2, X|]. apply BS. right; auto.
      * rewrite app_length. destruct (vis i) eqn:V.
        -- assert (new = []) as ->.
           { destruct new as [|y l] eqn:EN; auto. exfalso.
             destruct (proj1 (NEW y) (or_introl eq_refl)) as [A Q].
             destruct (OK [] i st eq_refl V y A) as [Z|[]]. apply V1 in Z. congruence. }
           assert (unvisited vis1 = unvisited vis) as ->.
           { unfold unvisited. f_equal. apply filter_ext. intros j. unfold vis1, upd.
             destruct (Nat.eqb_spec j i); subst; auto. rewrite V. auto. }
           cbn in *. lia.
        -- assert (S (unvisited vis1) = unvisited vis) as U.
           { apply filter_upd; auto; [apply seq_NoDup|]. apply in_seq. lia. }
           assert (length new <= n) by (unfold new; rewrite rev_length; apply filter_le_n).
           cbn in FU. rewrite <- U in FU. cbn in FU. lia.
      * exists vis'. split; [exact E|]. split; [auto|]. split; [|split; [auto|]].
        -- intros x [<-|X]; auto. apply X2, in_app_iff. auto.
        -- intros P C S0 V0. apply X4; auto.
           ++ intros x X. apply in_app_iff in X. destruct X as [X|X]; [|apply S0; right; auto].
              apply NEW in X. apply (C i); [tauto|]. apply S0. left; auto.
           ++ intros x V. unfold vis1, upd in V. destruct (Nat.eqb_spec x i) as [E0|NE0]; [apply S0; left; symmetry; exact E0|auto].
Qed.

Lemma is_connected_spec : 0 < n ->
  exists b, is_connected (n * n + 1) n m = Some b /\
            (b = true <-> forall i j, i < n -> j < n -> joined es i j).
Proof.
  intros N. unfold is_connected.
  destruct (dfs_spec (n * n + 1) (fun _ => false) [0]) as (vis & -> & _ & X2 & X3 & X4).
  - intros x [<-|[]]; auto.
  - intros pre k suf _ Q. discriminate.
  - discriminate.
  - assert (unvisited (fun _ => false) <= n) by apply filter_le_n. cbn [length]. nia.
  - eexists. split; [reflexivity|]. rewrite forallb_forall. split.
    + intros H i j Hi Hj.
      assert (forall x, x < n -> joined es 0 x) as R.
      { intros x Hx. apply (X4 (fun x => joined es 0 x)).
        - intros a b A J. eapply rst_trans; [exact J|]. apply adjacent_joined; auto.
        - intros a [<-|[]]. apply rst_refl.
        - discriminate.
        - apply H, in_seq. lia. }
      eapply rst_trans; [apply rst_sym, R|apply R]; auto.
    + intros J x X. apply in_seq in X. apply (joined_closed es (fun x => vis x = true)) with (i := 0) (j := x).
      * intros a b A V. eapply X3; eauto.
      * apply J; lia.
      * apply X2. left; auto.
Qed.

(** ** connected_components *)

Definition unlabelled (comp : nat -> option nat) : nat :=
  length (filter (fun j => match comp j with None => true | _ => false end) (seq 0 n)).

Lemma label_row_spec : forall c i js comp st, NoDup js -> (forall j, In j js -> j < n) ->
  exists new, snd (label_row m c i js comp st) = new ++ st /\
    let comp' := fst (label_row m c i js comp st) in
    (forall j, In j new <-> In j js /\ adjacent es i j /\ comp j = None) /\
    (forall j, (In j new -> comp' j = Some c) /\ (~ In j new -> comp' j = comp j)) /\
    unlabelled comp' + length new = unlabelled comp.
Proof.
  intros c i. induction js as [|j js IH]; intros comp st ND BJ; cbn [label_row].
  - exists []. cbn. split; auto. split; [intros; tauto|]. split; [intros; tauto|]. lia.
  - inversion ND; subst.
    assert (forall j, In j js -> j < n) as BJ' by (intros; apply BJ; right; auto).
    destruct (has_edge m i j && match comp j with None => true | _ => false end) eqn:E.
    + apply andb_true_iff in E. destruct E as [E C]. apply HE in E. destruct (comp j) eqn:CJ; [discriminate|].
      destruct (IH (upd comp j (Some c)) (j :: st) H2 BJ') as (new & E1 & E2 & E3 & E4).
      exists (new ++ [j]). rewrite E1, <- app_assoc. split; [auto|]. cbn in E2, E3, E4. cbn zeta.
      assert (forall k, In k new <-> In k js /\ adjacent es i k /\ comp k = None) as E2'.
      { intros k. rewrite E2. split; intros (X & Y & Z); split; auto; split; auto.
        - destruct (Nat.eq_dec k j) as [->|NE]; auto. rewrite upd_other in Z; auto.
        - rewrite upd_other; auto. intros ->. auto. }
      split; [|split].
      * intros k. rewrite in_app_iff, E2'. cbn. intuition (subst; auto).
      * intros k. rewrite in_app_iff. split.
        -- intros [K|[<-|[]]]; [apply E3; auto|]. rewrite (proj2 (E3 j)); [apply upd_same|].
           rewrite E2'. tauto.
        -- intros K. rewrite (proj2 (E3 k)) by tauto. apply upd_other. intros ->. apply K. right. left. auto.
      * rewrite app_length. cbn [length]. rewrite Nat.add_assoc, E4. rewrite Nat.add_1_r. unfold unlabelled.
        set (vis := fun k => match comp k with Some _ => true | None => false end).
        rewrite (filter_ext _ (fun k => negb (upd vis j true k))), (filter_ext (fun j0 => match comp j0 with Some _ => _ | None => _ end) (fun k => negb (vis k))).
        -- apply filter_upd; [apply seq_NoDup|apply in_seq; split; [lia|apply BJ; left; auto]|unfold vis; rewrite CJ; auto].
        -- intros k. unfold vis. destruct (comp k); auto.
        -- intros k. unfold upd, vis. destruct (Nat.eqb k j); auto. destruct (comp k); auto.
    + destruct (IH comp st H2 BJ') as (new & E1 & E2 & E3 & E4). exists new. split; auto. split; [|split; auto].
      intros k. rewrite E2. cbn. split; [tauto|]. intros ([<-|K] & A & C); [|tauto].
      exfalso. apply HE in A. rewrite A, C in E. discriminate.
Qed.

Lemma flood_spec : forall fuel c comp st,
  (forall x, In x st -> comp x = Some c /\ x < n) ->
  (forall x y, comp x = Some c -> adjacent es x y -> In x st \/ comp y <> None) ->
  unlabelled comp + length st <= fuel ->
  exists comp', flood fuel n m c comp st = Some comp' /\
    (forall x k, comp x = Some k -> comp' x = Some k) /\
    (forall x k, comp' x = Some k -> comp x = Some k \/ (k = c /\ x < n)) /\
    (forall x y, comp' x = Some c -> adjacent es x y -> comp' y <> None) /\
    (forall P : nat -> Prop, (forall x y, adjacent es x y -> P x -> P y) ->
       (forall x, comp x = Some c -> P x) -> forall x, comp' x = Some c -> P x).
Proof.
  induction fuel as [|fuel IH]; intros c comp st S1 S2 FU.
  - destruct st; [|cbn in FU; lia]. exists comp. cbn. split; auto. split; auto. split; auto. split; auto.
    intros x y C A. destruct (S2 x y C A) as [[]|]; auto.
  - destruct st as [|i st].
    + exists comp. cbn. split; auto. split; auto. split; auto. split; auto.
      intros x y C A. destruct (S2 x y C A) as [[]|]; auto.
    + cbn [flood].
      destruct (label_row_spec c i (seq 0 n) comp st (seq_NoDup n 0)) as (new & E1 & E2 & E3 & E4).
      { intros j J. apply in_seq in J. lia. }
      destruct (label_row m c i (seq 0 n) comp st) as [comp1 st1]. cbn in E1, E2, E3, E4. subst st1.
      destruct (S1 i (or_introl eq_refl)) as [Ci Hi].
      assert (forall j, In j new <-> adjacent es i j /\ comp j = None) as E2'.
      { intros j. rewrite E2, in_seq. split; [tauto|]. intros [A C]. pose proof (B2 _ _ A). intuition lia. }
      assert (forall x k, comp x = Some k -> comp1 x = Some k) as K1.
      { intros x k C. rewrite (proj2 (E3 x)); auto. rewrite E2'. intros [_ Q]. congruence. }
      destruct (IH c comp1 (new ++ st)) as (comp' & F & X1 & X2 & X3 & X4).
      * intros x X. apply in_app_iff in X. destruct X as [X|X].
        -- split; [apply E3; auto|]. apply E2' in X. eapply B2, X.
        -- destruct (S1 x (or_intror X)). split; auto.
      * intros x y C A. destruct (in_dec Nat.eq_dec x new) as [I|NI]; [left; apply in_app_iff; auto|].
        rewrite (proj2 (E3 x) NI) in C. destruct (S2 x y C A) as [[<-|I]|Q].
        -- right. destruct (in_dec Nat.eq_dec y new) as [J|NJ].
           ++ rewrite (proj1 (E3 y) J). discriminate.
           ++ rewrite (proj2 (E3 y) NJ). intros Z. apply NJ, E2'. auto.
        -- left. apply in_app_iff. auto.
        -- right. destruct (comp y) eqn:Cy; [|congruence]. rewrite (K1 _ _ Cy). discriminate.
      * rewrite app_length. cbn in FU. lia.
      * exists comp'. split; auto. split; auto. split; [|split; auto].
        -- intros x k C. destruct (X2 x k C) as [Q|]; auto.
           destruct (in_dec Nat.eq_dec x new) as [I|NI].
           ++ rewrite (proj1 (E3 x) I) in Q. injection Q as <-. right. split; auto. apply E2' in I. eapply B2, I.
           ++ rewrite (proj2 (E3 x) NI) in Q. auto.
        -- intros P C P0 x Cx. apply X4; auto. intros y Cy.
           destruct (in_dec Nat.eq_dec y new) as [I|NI].
           ++ apply E2' in I. apply (C i); [tauto|]. auto.
           ++ rewrite (proj2 (E3 y) NI) in Cy. auto.
Qed.

(** Labels so far: classes of the equivalence, closed under edges. *)
Definition labelled (comp : nat -> option nat) (count : nat) : Prop :=
  (forall x k, comp x = Some k -> k < count /\ x < n) /\
  (forall x y k, comp x = Some k -> adjacent es x y -> comp y = Some k) /\
  (forall x y k, comp x = Some k -> comp y = Some k -> joined es x y) /\
  (forall k, k < count -> exists x, comp x = Some k).

Lemma components_from_spec : forall ss comp count, labelled comp count -> (forall s, In s ss -> s < n) ->
  exists comp' count', components_from (n + 1) n m ss comp count = Some (comp', count') /\
    labelled comp' count' /\ (forall x, comp x <> None -> comp' x <> None) /\
    (forall s, In s ss -> comp' s <> None).
Proof.
  induction ss as [|s ss IH]; intros comp count L BS; cbn [components_from].
  - exists comp, count. split; [auto|]. split; [auto|]. split; [auto|]. intros s [].
  - assert (forall s, In s ss -> s < n) as BS' by (intros; apply BS; right; auto).
    destruct (comp s) as [k|] eqn:Cs.
    + destruct (IH comp count L BS') as (c' & k' & -> & L' & X & Y). exists c', k'. split; auto. split; auto.
      split; auto. intros t [<-|T]; auto. apply X. congruence.
    + destruct L as (L1 & L2 & L3 & L4).
      assert (forall x, comp x = Some count -> False) as NC by (intros x C; apply L1 in C; lia).
      set (comp0 := upd comp s (Some count)).
      assert (forall x, comp0 x = Some count -> x = s) as U0.
      { intros x C. unfold comp0, upd in C. destruct (Nat.eqb_spec x s); auto. apply NC in C. destruct C. }
      assert (s < n) as Hs by (apply BS; left; auto).
      destruct (flood_spec (n + 1) count comp0 [s]) as (comp' & -> & X1 & X2 & X3 & X4).
      * intros x [<-|[]]. split; [apply upd_same|auto].
      * intros x y C A. apply U0 in C. left. left. auto.
      * assert (unlabelled comp0 <= n) by apply filter_le_n. cbn [length]. lia.
      * assert (forall x k, comp x = Some k -> comp' x = Some k) as K.
        { intros x k C. apply X1. unfold comp0. rewrite upd_other; auto. congruence. }
        assert (forall x k, comp' x = Some k -> comp x = Some k \/ (k = count /\ x < n)) as K2.
        { intros x k C. destruct (X2 x k C) as [Q|]; auto. unfold comp0, upd in Q.
          destruct (Nat.eqb_spec x s) as [->|]; auto. injection Q as <-. auto. }
        assert (forall x, comp' x = Some count -> joined es s x) as R.
        { apply X4.
          - intros x y A J. eapply rst_trans; [exact J|apply adjacent_joined; auto].
          - intros x C. apply U0 in C. subst. apply rst_refl. }
        assert (labelled comp' (S count)) as L'.
        { split; [|split; [|split]].
          - intros x k C. destruct (K2 x k C) as [Q|[-> H]]; [apply L1 in Q|]; lia.
          - intros x y k C A. destruct (K2 x k C) as [Q|[-> H]]; [apply K; eapply L2; eauto|].
            destruct (comp' y) as [k|] eqn:Cy; [|exfalso; eapply X3; eauto].
            destruct (K2 y k Cy) as [Q|[-> _]]; auto. exfalso.
            pose proof (L2 _ _ _ Q (adjacent_sym _ _ _ A)) as Z.
            pose proof (K _ _ Z) as Z'. rewrite C in Z'. injection Z' as <-. eapply NC; eauto.
          - intros x y k Cx Cy. destruct (K2 x k Cx) as [Q|[-> H]].
            + destruct (K2 y k Cy) as [Q'|[-> H']]; [eapply L3; eauto|]. exfalso. eapply NC; eauto.
            + eapply rst_trans; [apply rst_sym|]; apply R; auto.
          - intros k H. destruct (Nat.eq_dec k count) as [->|NE].
            + exists s. apply X1, upd_same.
            + destruct (L4 k) as (x & Q); [lia|]. exists x. auto. }
        destruct (IH comp' (S count) L' BS') as (c2 & k2 & -> & L2' & Y & Z).
        exists c2, k2. split; auto. split; auto. split.
        -- intros x C. apply Y. destruct (comp x) eqn:Q; [|congruence]. rewrite (K _ _ Q). discriminate.
        -- intros t [<-|T]; auto. apply Y. rewrite (X1 s count (upd_same _ _ _ _)). discriminate.
Qed.

Lemma perm_classes : forall (lab : nat -> nat) count l, (forall x, In x l -> lab x < count) ->
  Permutation (concat (map (fun c => filter (fun i => Nat.eqb (lab i) c) l) (seq 0 count))) l.
Proof.
  intros lab. induction count as [|count IH]; intros l H.
  - destruct l as [|a l]; auto. exfalso. specialize (H a (or_introl eq_refl)). lia.
  - rewrite seq_S, map_app, concat_app. cbn [map concat Nat.add]. rewrite app_nil_r.
    set (l' := filter (fun i => negb (Nat.eqb (lab i) count)) l).
    rewrite (map_ext_in _ (fun c => filter (fun i => Nat.eqb (lab i) c) l')).
    + rewrite IH.
      * unfold l'. clear. induction l as [|a l IH]; auto. cbn. destruct (Nat.eqb (lab a) count); cbn.
        -- rewrite <- Permutation_middle. auto.
        -- auto.
      * intros x X. apply filter_In in X. destruct X as [X Y]. specialize (H x X).
        destruct (Nat.eqb_spec (lab x) count); [discriminate|lia].
    + intros c C. apply in_seq in C. unfold l'. clear - C. induction l as [|a l IH]; auto. cbn.
      destruct (Nat.eqb_spec (lab a) count) as [E|NE]; cbn.
      * destruct (Nat.eqb_spec (lab a) c); [lia|auto].
      * destruct (Nat.eqb (lab a) c); [f_equal|]; auto.
Qed.

Lemma connected_components_spec :
  exists gs, connected_components (n + 1) n m = Some gs /\ classes es n gs.
Proof.
  unfold connected_components.
  destruct (components_from_spec (seq 0 n) (fun _ => None) 0) as (comp & count & -> & (L1 & L2 & L3 & L4) & _ & Z).
  - split; [discriminate|]. split; [discriminate|]. split; [discriminate|]. intros k H. lia.
  - intros s S. apply in_seq in S. lia.
  - eexists. split; [reflexivity|].
    assert (forall x, x < n -> exists k, comp x = Some k /\ k < count) as T.
    { intros x X. destruct (comp x) as [k|] eqn:C.
      - exists k. split; auto. apply L1 in C. tauto.
      - exfalso. apply (Z x); auto. apply in_seq. lia. }
    split; [|split].
    + set (lab := fun i => match comp i with Some k => k | None => 0 end).
      rewrite (map_ext_in _ (fun c => filter (fun i => Nat.eqb (lab i) c) (seq 0 n))).
      * apply perm_classes. intros x X. apply in_seq in X. destruct (T x) as (k & C & K); [lia|]. unfold lab. rewrite C. auto.
      * intros c _. apply filter_ext_in. intros x X. apply in_seq in X. destruct (T x) as (k & C & K); [lia|].
        unfold lab. rewrite C. auto.
    + apply Forall_forall. intros g G. apply in_map_iff in G. destruct G as (k & <- & K). apply in_seq in K.
      destruct (L4 k) as (x & C); [lia|]. intros E.
      assert (In x []) as []. rewrite <- E. apply filter_In. rewrite C, Nat.eqb_refl. split; auto.
      apply in_seq. apply L1 in C. lia.
    + intros i j Hi Hj. destruct (T i Hi) as (k & Ci & Hk). split.
      * intros J. exists (filter (fun i => match comp i with Some c' => Nat.eqb c' k | None => false end) (seq 0 n)).
        assert (comp j = Some k) as Cj.
        { apply (joined_closed es (fun x => comp x = Some k)) with (i := i) (j := j); [|exact J|exact Ci].
          intros a b A C. eapply L2; eauto. }
        split; [apply in_map_iff; exists k; split; auto; apply in_seq; lia|].
        rewrite !filter_In, Ci, Cj, Nat.eqb_refl, !in_seq. intuition lia.
      * intros (g & G & I & J). apply in_map_iff in G. destruct G as (c & <- & _).
        apply filter_In in I. apply filter_In in J. destruct I as [_ I], J as [_ J].
        rewrite Ci in I. apply Nat.eqb_eq in I. subst c.
        destruct (comp j) as [kj|] eqn:Cj; [|discriminate]. apply Nat.eqb_eq in J. subst kj. eapply L3; eauto.
Qed.

(** ** is_simple, max_degree *)

Definition simple : Prop := NoDup (map unordered es) /\ forall i, ~ adjacent es i i.

Lemma is_simple_spec : is_simple n m = true <-> simple.
Proof.
  unfold is_simple, simple. rewrite forallb_forall. split.
  - intros H. split.
    + apply (NoDup_count_occ pdec). intros [a b].
      destruct (in_dec pdec (a, b) (map unordered es)) as [I|NI].
      * assert (a <= b /\ adjacent es a b) as [LE A].
        { split.
          - apply in_map_iff in I. destruct I as ([x y] & E & _). unfold unordered in E. cbn in E. injection E. lia.
          - unfold adjacent. unfold unordered at 1. cbn.
            apply in_map_iff in I. destruct I as ([x y] & E & I). unfold unordered in E. cbn in E. injection E as E1 E2.
            replace (Nat.min a b) with a by lia. replace (Nat.max a b) with b by lia.
            apply in_map_iff. exists (x, y). split; auto. unfold unordered. cbn. congruence. }
        pose proof (B _ _ A) as Ha. pose proof (B2 _ _ A) as Hb.
        specialize (H a). rewrite in_seq, andb_true_iff, Nat.eqb_eq, forallb_forall in H.
        destruct H as [H1 H2]; [lia|].
        rewrite <- M. destruct (Nat.eq_dec a b) as [<-|NE]; [lia|].
        apply Nat.leb_le, H2, in_seq. lia.
      * rewrite (proj1 (count_occ_not_In pdec _ _) NI). lia.
    + intros i A. pose proof (B _ _ A). specialize (H i). rewrite in_seq, andb_true_iff, Nat.eqb_eq in H.
      destruct H as [H _]; [lia|]. rewrite M in H. apply (count_occ_not_In pdec) in H. apply H.
      unfold adjacent in A. rewrite unordered_diag in A. auto.
  - intros [ND NL] i I. rewrite andb_true_iff, Nat.eqb_eq, forallb_forall. split.
    + rewrite M. apply count_occ_not_In. intros Q. apply (NL i). unfold adjacent. rewrite unordered_diag. auto.
    + intros j _. apply Nat.leb_le. rewrite M. apply (NoDup_count_occ pdec). auto.
Qed.

Definition incident (i : nat) (e : nat * nat) : bool := Nat.eqb (fst e) i || Nat.eqb (snd e) i.

Lemma sum_add : forall (f g : nat -> nat) l, sum (map (fun k => f k + g k) l) = sum (map f l) + sum (map g l).
Proof. induction l as [|a l IH]; cbn; auto. unfold sum in *. lia. Qed.

Lemma sum_ext : forall (f g : nat -> nat) l, (forall k, In k l -> f k = g k) -> sum (map f l) = sum (map g l).
Proof. intros. f_equal. apply map_ext_in. auto. Qed.

Lemma sum_indicator : forall a l, NoDup l -> sum (map (fun k => if Nat.eqb k a then 1 else 0) l) =
  if in_dec Nat.eq_dec a l then 1 else 0.
Proof.
  intros a. induction l as [|b l IH]; intros ND; auto. inversion ND; subst. cbn [map sum fold_right].
  change (fold_right Nat.add 0) with sum. rewrite IH by auto.
  destruct (Nat.eqb_spec b a) as [->|NE].
  - destruct (in_dec Nat.eq_dec a l); [tauto|]. destruct (in_dec Nat.eq_dec a (a :: l)) as [|Q]; auto.
    exfalso; apply Q; left; auto.
  - destruct (in_dec Nat.eq_dec a l), (in_dec Nat.eq_dec a (b :: l)) as [I|I]; auto.
    + exfalso; apply I; right; auto.
    + destruct I; congruence.
Qed.

Lemma sum_seq_indicator : forall a, a < n -> sum (map (fun k => if Nat.eqb k a then 1 else 0) (seq 0 n)) = 1.
Proof.
  intros a H. rewrite sum_indicator by apply seq_NoDup. destruct (in_dec Nat.eq_dec a (seq 0 n)) as [|Q]; auto.
  exfalso. apply Q, in_seq. lia.
Qed.

Lemma sum_zero : forall (l : list nat), sum (map (fun _ => 0) l) = 0.
Proof. induction l; auto. Qed.

Lemma col_sum : forall i (L : list (nat * nat)), (forall e, In e L -> fst e < n) ->
  sum (map (fun k => count_occ pdec L (k, i)) (seq 0 n)) = length (filter (fun e => Nat.eqb (snd e) i) L).
Proof.
  intros i. induction L as [|[a b] L IH]; intros H; [apply sum_zero|].
  rewrite (sum_ext _ (fun k => (if Nat.eqb b i then if Nat.eqb k a then 1 else 0 else 0) + count_occ pdec L (k, i))).
  - rewrite sum_add, IH by (intros; apply H; right; auto). cbn [filter snd]. destruct (Nat.eqb b i).
    + rewrite sum_seq_indicator; auto. apply (H (a, b)). left; auto.
    + rewrite sum_zero. auto.
  - intros k _. cbn [count_occ]. destruct (pdec (a, b) (k, i)) as [E|NE].
    + injection E as -> ->. rewrite !Nat.eqb_refl. auto.
    + destruct (Nat.eqb_spec b i) as [->|]; auto. destruct (Nat.eqb_spec k a) as [->|]; auto. congruence.
Qed.

Lemma row_sum : forall i (L : list (nat * nat)), (forall e, In e L -> snd e < n) ->
  sum (map (fun k => count_occ pdec L (i, k)) (seq 0 n)) = length (filter (fun e => Nat.eqb (fst e) i) L).
Proof.
  intros i. induction L as [|[a b] L IH]; intros H; [apply sum_zero|].
  rewrite (sum_ext _ (fun k => (if Nat.eqb a i then if Nat.eqb k b then 1 else 0 else 0) + count_occ pdec L (i, k))).
  - rewrite sum_add, IH by (intros; apply H; right; auto). cbn [filter fst]. destruct (Nat.eqb a i).
    + rewrite sum_seq_indicator; auto. apply (H (a, b)). left; auto.
    + rewrite sum_zero. auto.
  - intros k _. cbn [count_occ]. destruct (pdec (a, b) (i, k)) as [E|NE].
    + injection E as -> ->. rewrite !Nat.eqb_refl. auto.
    + destruct (Nat.eqb_spec a i) as [->|]; auto. destruct (Nat.eqb_spec k b) as [->|]; auto. congruence.
Qed.

Lemma incident_count : forall i (L : list (nat * nat)),
  length (filter (fun e => Nat.eqb (snd e) i) L) + length (filter (fun e => Nat.eqb (fst e) i) L)
  - count_occ pdec L (i, i) = length (filter (incident i) L).
Proof.
  intros i L. assert (forall L, count_occ pdec L (i, i) <= length (filter (fun e => Nat.eqb (snd e) i) L)) as LE.
  { clear. induction L as [|[a b] L IH]; auto. cbn. destruct (pdec (a, b) (i, i)) as [E|]; cbn.
    - injection E as -> ->. rewrite Nat.eqb_refl. cbn. lia.
    - destruct (Nat.eqb b i); cbn; lia. }
  induction L as [|[a b] L IH]; auto. pose proof (LE L). cbn [filter count_occ fst snd]. unfold incident at 1. cbn [fst snd].
  destruct (pdec (a, b) (i, i)) as [E|NE].
  - injection E as -> ->. rewrite Nat.eqb_refl. cbn [orb length]. lia.
  - destruct (Nat.eqb_spec a i) as [->|]; destruct (Nat.eqb_spec b i) as [->|]; cbn [orb length]; try lia. congruence.
Qed.

Lemma degree_spec : forall i, degree n m i = length (filter (incident i) (map unordered es)).
Proof.
  intros i. unfold degree. rewrite <- incident_count.
  assert (forall e, In e (map unordered es) -> adjacent es (fst e) (snd e)) as A.
  { intros e I. unfold adjacent. apply in_map_iff in I. destruct I as (x & <- & I). rewrite <- surjective_pairing, unordered_idem.
    apply in_map_iff. eauto. }
  rewrite <- col_sum, <- row_sum.
  - rewrite <- M. f_equal. f_equal; apply sum_ext; intros; apply M.
  - intros e I. eapply B2, A, I.
  - intros e I. eapply B, A, I.
Qed.

Lemma max_degree_spec : forall d, max_degree n m <= d <-> forall i, i < n -> degree n m i <= d.
Proof.
  intros d. unfold max_degree.
  assert (forall l z, fold_left (fun d i => Nat.max d (degree n m i)) l z <= d <->
                      z <= d /\ forall i, In i l -> degree n m i <= d) as H.
  { induction l as [|a l IH]; intros z; cbn [fold_left].
    - split; [intros; split; auto; intros i []|tauto].
    - rewrite IH. split.
      + intros [H1 H2]. split; [lia|]. intros i [<-|I]; auto. lia.
      + intros [H1 H2]. split; [pose proof (H2 a (or_introl eq_refl)); lia|]. intros; apply H2; right; auto. }
  rewrite H. split.
  - intros [_ Q] i I. apply Q, in_seq. lia.
  - intros Q. split; [lia|]. intros i I. apply Q. apply in_seq in I. lia.
Qed.

End Graph.
