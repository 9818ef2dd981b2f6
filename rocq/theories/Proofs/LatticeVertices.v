From Coq Require Import List Arith ZArith Reals Bool Lia Lra.
From Verif Require Import Model.Outcome Model.MeshDefects Model.Solver Model.Lattice Spec.VertexClusterer Spec.Lattice Proofs.MeshDefects.
Import ListNotations.

Lemma NoDup_app : forall (A : Type) (l m : list A), NoDup l -> NoDup m -> (forall x, In x l -> ~ In x m) -> NoDup (l ++ m).
Proof.
  intros A l m H. induction H as [|a l NI ND IH]; intros Hm D; cbn; auto. constructor.
  - rewrite in_app_iff. intros [X|X]; [auto|]. apply (D a); [left; auto|auto].
  - apply IH; auto. intros x X. apply D. right. auto.
Qed.

(** ** Edges of the lattice *)

Lemma lt14 : forall P : nat -> Prop,
  P 0 -> P 1 -> P 2 -> P 3 -> P 4 -> P 5 -> P 6 -> P 7 -> P 8 -> P 9 -> P 10 -> P 11 -> P 12 -> P 13 ->
  forall e, e < 14 -> P e.
Proof. intros. do 14 (destruct e as [|e]; [assumption|]). lia. Qed.
Lemma lt7 : forall P : nat -> Prop, P 0 -> P 1 -> P 2 -> P 3 -> P 4 -> P 5 -> P 6 -> forall e, e < 7 -> P e.
Proof. intros. do 7 (destruct e as [|e]; [assumption|]). lia. Qed.

Lemma lc_eqb_true : forall a b, lc_eqb a b = true <-> a = b.
Proof.
  intros [[a0 a1] a2] [[b0 b1] b2]. cbn. rewrite !andb_true_iff, !Z.eqb_eq. split; [intros [[-> ->] ->]; auto|].
  intros H. injection H as <- <- <-. auto.
Qed.
Lemma lc_eqb_false : forall a b, lc_eqb a b = false <-> a <> b.
Proof. intros a b. rewrite <- lc_eqb_true. destruct (lc_eqb a b); intuition congruence. Qed.
Lemma lc_dec : forall a b : lc, {a = b} + {a <> b}.
Proof. intros a b. destruct (lc_eqb a b) eqn:E; [left; apply lc_eqb_true|right; apply lc_eqb_false]; auto. Qed.

Lemma upd_lc_same : forall (A : Type) (f : lc -> A) x a, upd_lc f x a x = a.
Proof. intros A f x a. unfold upd_lc. assert (lc_eqb x x = true) as -> by (apply lc_eqb_true; auto). auto. Qed.
Lemma upd_lc_other : forall (A : Type) (f : lc -> A) x a y, y <> x -> upd_lc f x a y = f y.
Proof. intros A f x a y H. unfold upd_lc. apply lc_eqb_false in H. rewrite H. auto. Qed.

Ltac lcs := cbn; repeat match goal with |- (_, _) = (_, _) => apply f_equal2 end; try lia; auto.

Lemma neighbor_opposite : forall x e, e < 14 -> neighbor (neighbor x e) (opposite e) = x.
Proof. intros [[a b] c]. apply lt14; lcs. Qed.
Lemma opposite_lt : forall e, e < 14 -> opposite e < 14.
Proof. apply lt14; cbn; lia. Qed.
Lemma opposite_opposite : forall e, e < 14 -> opposite (opposite e) = e.
Proof. apply lt14; auto. Qed.
Lemma opposite_side : forall e, e < 14 -> (7 <= opposite e <-> e < 7).
Proof. apply lt14; cbn; lia. Qed.
Lemma neighbor_neq : forall x e, e < 14 -> neighbor x e <> x.
Proof. intros [[a b] c]. apply (lt14 (fun e => neighbor (a, b, c) e <> (a, b, c))); cbn; intros H; injection H; lia. Qed.
Lemma less_iff : forall x e, e < 14 -> lc_less (neighbor x e) x = (7 <=? e).
Proof.
  intros [[a b] c]. apply (lt14 (fun e => lc_less (neighbor (a, b, c) e) (a, b, c) = (7 <=? e))); cbn;
    repeat match goal with |- context [(?p <? ?q)%Z] => destruct (Z.ltb_spec p q); try lia
                         | |- context [(?p =? ?q)%Z] => destruct (Z.eqb_spec p q); try lia end; auto.
Qed.

Definition E := (lc * nat)%type.
Definition eid (x : lc) (e : nat) : E := if e <? 7 then (x, e) else (neighbor x e, e - 7).
Definition ev (v : lc * nat * num) : E := eid (fst (fst v)) (snd (fst v)).

Lemma eid_opposite : forall x e, e < 14 -> eid (neighbor x e) (opposite e) = eid x e.
Proof. intros [[a b] c]. apply lt14; unfold eid; cbn -[Z.add]; auto; lcs. Qed.
Lemma eid_hi : forall x e, 7 <= e < 14 -> eid x e = (neighbor x e, e - 7).
Proof. intros x e H. unfold eid. destruct (Nat.ltb_spec e 7); [lia|auto]. Qed.
Lemma eid_lo : forall x e, e < 7 -> eid x e = (x, e).
Proof. intros x e H. unfold eid. destruct (Nat.ltb_spec e 7); [auto|lia]. Qed.
Lemma delta_hi : forall x y e, neighbor x e = neighbor y e -> x = y.
Proof.
  intros [[a b] c] [[a' b'] c'] e. unfold neighbor. destruct (nth e deltas _) as [[d0 d1] d2]. cbn.
  intros H. injection H. intros. lcs.
Qed.
Lemma opposite_hi : forall e, e < 7 -> opposite e = e + 7.
Proof. apply lt7; auto. Qed.
Lemma opposite_lo : forall e, 7 <= e < 14 -> opposite e = e - 7.
Proof. intros e [H1 H2]. revert e H2 H1. apply (lt14 (fun e => 7 <= e -> opposite e = e - 7)); intros; lia || auto. Qed.

Lemma eid_inj : forall x e y f, e < 14 -> f < 14 -> eid x e = eid y f ->
  (y = x /\ f = e) \/ (y = neighbor x e /\ f = opposite e).
Proof.
  intros x e y f He Hf H. destruct (Nat.lt_ge_cases e 7), (Nat.lt_ge_cases f 7).
  - rewrite !eid_lo in H by auto. injection H as <- <-. auto.
  - rewrite (eid_lo x), (eid_hi y) in H by auto. injection H as -> ->. right.
    rewrite <- (neighbor_opposite y f) at 1 by auto. rewrite opposite_lo by auto. rewrite opposite_hi by lia.
    split; [auto|lia].
  - rewrite (eid_hi x), (eid_lo y) in H by auto. injection H as <- <-. right. rewrite opposite_lo by auto. auto.
  - rewrite !eid_hi in H by auto. injection H as Q1 Q2. assert (f = e) as -> by lia. left. split; auto.
    symmetry. eapply delta_hi; eauto.
Qed.
Lemma eid_inj_hi : forall x e y f, 7 <= e < 14 -> 7 <= f < 14 -> eid x e = eid y f -> y = x /\ f = e.
Proof.
  intros x e y f He Hf H. apply eid_inj in H; try lia. destruct H as [H|[_ H]]; auto.
  apply proj2 in Hf as Hf'. pose proof (opposite_lo e He). lia.
Qed.

(** ** Packed vertex numbers of a node *)

Definition opt {A : Type} (o : option A) : list A := match o with Some a => [a] | None => [] end.
Definition packed (T : nat -> option nat) (n : node) : Prop :=
  (forall e, n_near n e = true <-> e < 14 /\ T e <> None) /\ n_vis n = flat_map (fun e => opt (T e)) (seq 0 14).

Lemma rank_ext : forall f g e, (forall k, k < e -> f k = g k) -> rank f e = rank g e.
Proof.
  intros f g e H. unfold rank. f_equal. apply filter_ext_in. intros k K. apply in_seq in K. apply H. lia.
Qed.
Lemma rank_packed : forall (T : nat -> option nat) f e, (forall k, k < e -> (f k = true <-> T k <> None)) ->
  rank f e = length (flat_map (fun e => opt (T e)) (seq 0 e)).
Proof.
  intros T f e. unfold rank. assert (forall k, In k (seq 0 e) -> k < e) as B by (intros k K; apply in_seq in K; lia).
  revert B. generalize (seq 0 e). intros l. induction l as [|k l IH]; intros B H; cbn [filter flat_map]; auto.
  rewrite app_length, <- IH; auto; [|intros x X; apply B; right; auto].
  assert (k < e) as K by (apply B; left; auto). specialize (H k K). destruct (f k), (T k); cbn; auto; exfalso; intuition congruence.
Qed.
Lemma seq14 : forall e, e < 14 -> seq 0 14 = seq 0 e ++ e :: seq (S e) (13 - e).
Proof. apply lt14; auto. Qed.

Lemma flat_map_ext_in : forall (A B : Type) (f g : A -> list B) l, (forall x, In x l -> f x = g x) -> flat_map f l = flat_map g l.
Proof. intros A B f g l H. induction l as [|a l IH]; cbn; auto. rewrite (H a), IH; auto; [intros; apply H; right; auto|left; auto]. Qed.

Lemma insert_packed : forall T n e vi, packed T n -> e < 14 -> T e = None ->
  exists n', insert_vertex n vi e = Ok n' /\ packed (upd T e (Some vi)) n' /\ n_value n' = n_value n /\ n_all n' = n_all n.
Proof.
  intros T n e vi [P1 P2] L N. unfold insert_vertex.
  assert (rank (upd (n_near n) e true) e = length (flat_map (fun e => opt (T e)) (seq 0 e))) as R.
  { rewrite (rank_ext _ (n_near n)).
    - apply rank_packed. intros k K. rewrite P1. intuition lia.
    - intros k K. rewrite upd_other by lia. auto. }
  rewrite R, P2. rewrite (seq14 e L), flat_map_app. cbn [flat_map]. rewrite N. cbn [opt app].
  set (A := flat_map _ (seq 0 e)). set (B := flat_map _ (seq (S e) _)).
  rewrite app_length. destruct (Nat.leb_spec (length A) (length A + length B)); [|lia].
  rewrite firstn_app, Nat.sub_diag, firstn_O, app_nil_r, firstn_all.
  rewrite skipn_app, Nat.sub_diag, skipn_all, skipn_O. cbn [app].
  eexists. split; [reflexivity|]. cbn. split; auto. split.
  - intros k. cbn. destruct (Nat.eq_dec k e) as [->|D].
    + rewrite !upd_same. intuition congruence.
    + rewrite !upd_other by auto. apply P1.
  - cbn [n_vis]. rewrite (seq14 e L), flat_map_app. cbn [flat_map]. rewrite upd_same. cbn [opt app]. unfold A, B. f_equal; [|f_equal].
    + apply flat_map_ext_in. intros k K. apply in_seq in K. rewrite upd_other by lia. auto.
    + apply flat_map_ext_in. intros k K. apply in_seq in K. rewrite upd_other by lia. auto.
Qed.

Lemma vertex_packed : forall T n e vi, packed T n -> e < 14 -> T e = Some vi -> n_near n e = true /\ vertex n e = Ok vi.
Proof.
  intros T n e vi [P1 P2] L N. split; [apply P1; split; auto; congruence|]. unfold vertex.
  rewrite (rank_packed T) by (intros k K; rewrite P1; intuition lia).
  match goal with |- context [nth_error _ ?k] => assert (Q : nth_error (n_vis n) k = Some vi) end.
  { rewrite P2, (seq14 e L), flat_map_app. cbn [flat_map]. rewrite N. cbn [opt app]. rewrite nth_error_app2, Nat.sub_diag by lia. auto. }
  destruct (n_vis n) as [|a l]; [destruct (length _) in Q; discriminate|]. rewrite Q. reflexivity.
Qed.

(** ** The lattice while vertices are generated *)

Definition ids (l : lattice) : list E := map ev (l_vertices l).
Definition inv (T : lc -> nat -> option nat) (l : lattice) : Prop :=
  (forall x n, l_nodes l x = Some n -> packed (T x) n) /\
  (forall x e vi, T x e = Some vi <-> e < 14 /\ exists t, nth_error (l_vertices l) vi = Some (x, e, t)) /\
  NoDup (ids l) /\
  (forall x e t, In (x, e, t) (l_vertices l) -> e < 14) /\
  (forall x n e, l_nodes l x = Some n -> (n_all n e = true <-> e < 14 /\ In (eid x e) (ids l))).
Definition same_nodes (l l' : lattice) : Prop :=
  forall x, option_map n_value (l_nodes l' x) = option_map n_value (l_nodes l x).

Lemma same_refl : forall l, same_nodes l l.
Proof. intros l x. auto. Qed.
Lemma same_trans : forall a b c, same_nodes a b -> same_nodes b c -> same_nodes a c.
Proof. intros a b c H1 H2 x. rewrite H2. auto. Qed.
Lemma same_some : forall a b x, same_nodes a b -> (l_nodes b x <> None <-> l_nodes a x <> None).
Proof. intros a b x H. specialize (H x). destruct (l_nodes a x), (l_nodes b x); cbn in H; intuition congruence. Qed.

Definition made (c : crossing) : lc * nat * num :=
  if below_half (c_t c) then (c_lc0 c, c_ei c, c_t c) else (c_lc1 c, opposite (c_ei c), nsub (Some 1%R) (c_t c)).
Definition cid (c : crossing) : E := eid (c_lc0 c) (c_ei c).
Definition proper (c : crossing) : Prop := 7 <= c_ei c < 14 /\ c_lc1 c = neighbor (c_lc0 c) (c_ei c).

Lemma ev_made : forall c, proper c -> ev (made c) = cid c.
Proof.
  intros c [H1 H2]. unfold made, cid, ev. destruct (below_half (c_t c)); cbn [fst snd]; auto. rewrite H2. apply eid_opposite. lia.
Qed.

Lemma packed_set : forall T n e, packed T n -> packed T (set_intersection n e).
Proof. intros T n e H. exact H. Qed.

Lemma add_crossing_inv : forall T l c, inv T l -> proper c -> l_nodes l (c_lc0 c) <> None -> l_nodes l (c_lc1 c) <> None ->
  ~ In (cid c) (ids l) ->
  exists l' T', add_crossing l c = Ok l' /\ inv T' l' /\ same_nodes l l' /\ l_pending l' = l_pending l /\
    l_vertices l' = l_vertices l ++ [made c].
Proof.
  intros T l c I PC H0 H1 NI. pose proof (ev_made c PC) as EM. destruct PC as [LE E1]. destruct I as (I1 & I2 & I3 & I4 & I5).
  assert (c_lc1 c <> c_lc0 c) as ND by (rewrite E1; apply neighbor_neq; lia).
  unfold add_crossing, at_.
  destruct (l_nodes l (c_lc0 c)) as [n0|] eqn:N0; [|congruence]. destruct (l_nodes l (c_lc1 c)) as [n1|] eqn:N1; [|congruence].
  cbn [bind]. clear H0 H1.
  set (vi := length (l_vertices l)). set (e := c_ei c) in *. set (x0 := c_lc0 c) in *. set (x1 := c_lc1 c) in *.
  assert (opposite e < 14) as LO by (apply opposite_lt; lia).
  assert (forall y f, f < 14 -> eid y f = eid x0 e -> T y f = None) as FRESH.
  { intros y f Lf Ef. destruct (T y f) as [v|] eqn:Q; auto. exfalso. apply I2 in Q. destruct Q as (_ & t & Q).
    apply NI. unfold cid. fold x0 e. rewrite <- Ef. apply nth_error_In in Q. apply (in_map ev) in Q. exact Q. }
  assert (T x0 e = None) as F0 by (apply FRESH; auto; lia).
  assert (T x1 (opposite e) = None) as F1 by (apply FRESH; auto; rewrite E1; apply eid_opposite; lia).
  assert (forall y f t, made c = (y, f, t) -> (y = x0 /\ f = e) \/ (y = x1 /\ f = opposite e)) as WH.
  { intros y f t. unfold made. fold x0 x1 e. destruct (below_half _); intros Q; injection Q as <- <- _; auto. }
  (* the common end of both branches *)
  assert (forall (y : lc) (f : nat) t (m0 m1 : node), made c = (y, f, t) ->
    packed (if lc_eqb x0 y then upd (T x0) f (Some vi) else T x0) m0 ->
    packed (if lc_eqb x1 y then upd (T x1) f (Some vi) else T x1) m1 ->
    n_value m0 = n_value n0 -> n_value m1 = n_value n1 -> n_all m0 = n_all n0 -> n_all m1 = n_all n1 ->
    exists l' T', Ok (Lattice (upd_lc (upd_lc (l_nodes l) x0 (Some (set_intersection m0 e))) x1 (Some (set_intersection m1 (opposite e))))
                              (l_pending l) (l_vertices l ++ [(y, f, t)])) = Ok l' /\ inv T' l' /\ same_nodes l l' /\
      l_pending l' = l_pending l /\ l_vertices l' = l_vertices l ++ [made c]) as FIN.
  { intros y f t m0 m1 MK K0 K1 V0 V1 A0 A1.
    assert (f < 14) as LF by (destruct (WH _ _ _ MK) as [[_ ->]|[_ ->]]; auto; lia).
    assert (eid y f = eid x0 e) as EY.
    { destruct (WH _ _ _ MK) as [[-> ->]|[-> ->]]; auto. rewrite E1. apply eid_opposite. lia. }
    eexists. exists (fun x => if lc_eqb x y then upd (T x) f (Some vi) else T x). split; [reflexivity|]. split.
    - split; [|split; [|split; [|split]]]; cbn [l_nodes l_vertices].
      + intros x n. destruct (lc_dec x x1) as [->|D1].
        { rewrite upd_lc_same. intros Q. injection Q as <-. apply packed_set. auto. }
        rewrite upd_lc_other by auto. destruct (lc_dec x x0) as [->|D0].
        { rewrite upd_lc_same. intros Q. injection Q as <-. apply packed_set. auto. }
        rewrite upd_lc_other by auto. intros Q. assert (lc_eqb x y = false) as ->; [|auto].
        apply lc_eqb_false. destruct (WH _ _ _ MK) as [[-> _]|[-> _]]; auto.
      + intros x k j. unfold vi. destruct (lc_eqb x y) eqn:Q.
        * apply lc_eqb_true in Q. subst x. destruct (Nat.eq_dec k f) as [->|D].
          -- rewrite upd_same. split.
             ++ intros Q. injection Q as <-. split; auto. exists t. rewrite nth_error_app2, Nat.sub_diag by lia. auto.
             ++ intros (_ & t' & Q). f_equal. destruct (Nat.lt_ge_cases j (length (l_vertices l))).
                ** rewrite nth_error_app1 in Q by auto. exfalso. assert (T y f = Some j) as X by (apply I2; eauto).
                   rewrite FRESH in X; auto. discriminate.
                ** rewrite nth_error_app2 in Q by auto. destruct (j - length (l_vertices l)) as [|d] eqn:DD; [lia|].
                   destruct d; discriminate.
          -- rewrite upd_other by auto. rewrite I2. split; intros (L & t' & Q); split; auto; exists t'.
             ++ rewrite nth_error_app1; auto. apply nth_error_Some. congruence.
             ++ destruct (Nat.lt_ge_cases j (length (l_vertices l))); [rewrite nth_error_app1 in Q by auto; auto|].
                rewrite nth_error_app2 in Q by auto. destruct (j - length (l_vertices l)) as [|d]; [|destruct d; discriminate].
                cbn in Q. injection Q as Q _. congruence.
        * apply lc_eqb_false in Q. rewrite I2. split; intros (L & t' & P); split; auto; exists t'.
          -- rewrite nth_error_app1; auto. apply nth_error_Some. congruence.
          -- destruct (Nat.lt_ge_cases j (length (l_vertices l))); [rewrite nth_error_app1 in P by auto; auto|].
             rewrite nth_error_app2 in P by auto. destruct (j - length (l_vertices l)) as [|d]; [|destruct d; discriminate].
             cbn in P. injection P as P _. congruence.
      + unfold ids. cbn [l_vertices]. rewrite map_app. cbn [map]. apply NoDup_app; auto.
        * constructor; [auto|constructor].
        * intros z Z1 [Z2|[]]. subst z. apply NI. unfold cid. fold x0 e. rewrite <- EY. exact Z1.
      + intros x k t' Q. apply in_app_iff in Q. destruct Q as [Q|[Q|[]]]; [eauto|]. injection Q as _ <- _. auto.
      + unfold ids. cbn [l_vertices]. intros x n k Q. rewrite map_app, in_app_iff. cbn [map In].
        unfold ev at 2. cbn [fst snd]. rewrite EY.
        assert (k < 14 -> (eid x0 e = eid x k <-> (x = x0 /\ k = e) \/ (x = x1 /\ k = opposite e))) as W.
        { intros LK. split; [|intros [[-> ->]|[-> ->]]; auto; rewrite E1; symmetry; apply eid_opposite; lia].
          intros W. apply eid_inj in W; try lia. rewrite <- E1 in W. auto. }
        destruct (lc_dec x x1) as [->|D1].
        { rewrite upd_lc_same in Q. injection Q as <-. unfold set_intersection. cbn [n_all]. rewrite A1.
          destruct (Nat.eq_dec k (opposite e)) as [->|D].
          - rewrite upd_same. split; auto. intros _. split; auto. right. left. apply W; auto.
          - rewrite upd_other by auto. rewrite (I5 _ _ _ N1). unfold ids. split; intros (L & Q); split; auto.
            destruct Q as [Q|[Q|[]]]; auto. apply W in Q; auto. destruct Q as [[Q _]|[_ Q]]; congruence. }
        rewrite upd_lc_other in Q by auto. destruct (lc_dec x x0) as [->|D0].
        { rewrite upd_lc_same in Q. injection Q as <-. unfold set_intersection. cbn [n_all]. rewrite A0.
          destruct (Nat.eq_dec k e) as [->|D].
          - rewrite upd_same. split; auto. intros _. split; [lia|]. right. left. apply W; auto. lia.
          - rewrite upd_other by auto. rewrite (I5 _ _ _ N0). unfold ids. split; intros (L & Q); split; auto.
            destruct Q as [Q|[Q|[]]]; auto. apply W in Q; auto. destruct Q as [[_ Q]|[Q _]]; congruence. }
        rewrite upd_lc_other in Q by auto. rewrite (I5 _ _ _ Q). unfold ids. split; intros (L & Q'); split; auto.
        destruct Q' as [Q'|[Q'|[]]]; auto. apply W in Q'; auto. destruct Q' as [[Q' _]|[Q' _]]; congruence.
    - split; [|split; [auto|rewrite MK; auto]]. intros x. cbn [l_nodes]. destruct (lc_dec x x1) as [->|D1].
      { rewrite upd_lc_same, N1. cbn. congruence. }
      rewrite upd_lc_other by auto. destruct (lc_dec x x0) as [->|D0]; [|rewrite upd_lc_other by auto; auto].
      rewrite upd_lc_same, N0. cbn. congruence. }
  destruct (below_half (c_t c)) eqn:B; cbn [set_node l_nodes l_pending l_vertices].
  - destruct (insert_packed (T x0) n0 e vi) as (m & -> & P & V & A); auto; [lia|]. cbn [bind]. apply (FIN x0 e (c_t c) m n1); auto.
    + unfold made. rewrite B. auto.
    + assert (lc_eqb x0 x0 = true) as -> by (apply lc_eqb_true; auto). auto.
    + assert (lc_eqb x1 x0 = false) as -> by (apply lc_eqb_false; auto). auto.
  - destruct (insert_packed (T x1) n1 (opposite e) vi) as (m & -> & P & V & A); auto. cbn [bind].
    apply (FIN x1 (opposite e) (nsub (Some 1%R) (c_t c)) n0 m); auto.
    + unfold made. rewrite B. auto.
    + assert (lc_eqb x0 x1 = false) as -> by (apply lc_eqb_false; auto). auto.
    + assert (lc_eqb x1 x1 = true) as -> by (apply lc_eqb_true; auto). auto.
Qed.

Lemma add_crossings_inv : forall cs T l, inv T l -> Forall proper cs ->
  (forall c, In c cs -> l_nodes l (c_lc0 c) <> None /\ l_nodes l (c_lc1 c) <> None) ->
  NoDup (map cid cs) -> (forall c, In c cs -> ~ In (cid c) (ids l)) ->
  exists l' T', add_crossings l cs = Ok l' /\ inv T' l' /\ same_nodes l l' /\ l_pending l' = l_pending l /\
    l_vertices l' = l_vertices l ++ map made cs.
Proof.
  induction cs as [|c cs IH]; intros T l I P NN ND FR; cbn [add_crossings map].
  - exists l, T. rewrite app_nil_r. split; [auto|]. split; [auto|]. split; [apply same_refl|auto].
  - inversion P as [|? ? Pc Pcs]; subst. inversion ND as [|? ? NI ND']; subst.
    destruct (NN c (or_introl eq_refl)) as [A0 A1].
    destruct (add_crossing_inv T l c I Pc A0 A1 (FR c (or_introl eq_refl))) as (l1 & T1 & -> & I1 & S1 & P1 & V1). cbn [bind].
    destruct (IH T1 l1 I1 Pcs) as (l2 & T2 & E2 & I2 & S2 & P2 & V2); auto.
    + intros d Hd. rewrite !(same_some l l1) by auto. apply NN. right. auto.
    + intros d Hd. unfold ids. rewrite V1, map_app, in_app_iff. cbn [map In]. rewrite ev_made by auto. intros [Q|[Q|[]]].
      * apply (FR d); [right; auto|auto].
      * apply NI. rewrite Q. apply in_map. auto.
    + exists l2, T2. split; [auto|]. split; [auto|]. split; [eapply same_trans; eauto|]. split; [congruence|].
      rewrite V2, V1, <- app_assoc. auto.
Qed.

(** ** The crossings found by the parallel loop *)

Definition valued (field : lc -> num) (l : lattice) : Prop := forall x n, l_nodes l x = Some n -> n_value n = Some (field x).
Lemma valued_same : forall field l l', valued field l -> same_nodes l l' -> valued field l'.
Proof.
  intros field l l' V S x n H. specialize (S x). rewrite H in S. destruct (l_nodes l x) as [m|] eqn:Q; cbn in S; [|discriminate].
  injection S as S. rewrite S. eapply V; eauto.
Qed.

Definition sgn (field : lc -> num) (x : lc) : bool := neg (field x).
Definition crossing_of (field : lc -> num) (x : lc) (e : nat) : crossing :=
  Crossing x (neighbor x e) e (ndiv (field x) (nsub (field x) (field (neighbor x e)))).
Definition found (field : lc -> num) (l : lattice) (x : lc) (e : nat) : bool :=
  (7 <=? e) && exists_at l (neighbor x e) && negb (Bool.eqb (sgn field x) (sgn field (neighbor x e))).

Lemma crossings_at_eq : forall field l x es, valued field l -> Forall (fun e => e < 14) es ->
  crossings_at l x (field x) es = Ok (flat_map (fun e => if found field l x e then [crossing_of field x e] else []) es).
Proof.
  intros field l x es V. induction es as [|e es IH]; intros H; cbn [crossings_at flat_map]; auto.
  inversion H as [|? ? L H']; subst. rewrite less_iff by auto. unfold found at 1, exists_at.
  destruct (7 <=? e); cbn [andb app]; auto.
  destruct (l_nodes l (neighbor x e)) as [n1|] eqn:Q; cbn [andb app]; auto.
  unfold value. rewrite (V _ _ Q). cbn [bind]. rewrite IH by auto. cbn [bind].
  unfold sgn. destruct (Bool.eqb (neg (field x)) (neg (field (neighbor x e)))); auto.
Qed.

Definition found_all (field : lc -> num) (l : lattice) (xs : list lc) : list crossing :=
  flat_map (fun x => flat_map (fun e => if found field l x e then [crossing_of field x e] else []) (seq 0 14)) xs.

Lemma all_crossings_eq : forall field l xs, valued field l -> (forall x, In x xs -> l_nodes l x <> None) ->
  all_crossings l xs = Ok (found_all field l xs).
Proof.
  intros field l xs V. induction xs as [|x xs IH]; intros H; cbn [all_crossings found_all flat_map]; auto.
  unfold at_. destruct (l_nodes l x) as [n|] eqn:Q; [|exfalso; apply (H x); [left; auto|auto]]. cbn [bind].
  unfold value. rewrite (V _ _ Q). cbn [bind].
  rewrite crossings_at_eq; auto; [|apply Forall_forall; intros e K; apply in_seq in K; lia]. cbn [bind].
  rewrite IH by (intros y Y; apply H; right; auto). auto.
Qed.

Lemma in_found : forall field l xs c, In c (found_all field l xs) <->
  exists x e, In x xs /\ 7 <= e < 14 /\ l_nodes l (neighbor x e) <> None /\
    sgn field x <> sgn field (neighbor x e) /\ c = crossing_of field x e.
Proof.
  intros field l xs c. unfold found_all. rewrite in_flat_map. split.
  - intros (x & X & H). apply in_flat_map in H. destruct H as (e & He & H). apply in_seq in He.
    destruct (found field l x e) eqn:F; [|destruct H]. destruct H as [<-|[]]. unfold found, exists_at in F.
    apply andb_true_iff in F. destruct F as [F F3]. apply andb_true_iff in F. destruct F as [F1 F2].
    apply Nat.leb_le in F1. exists x, e. split; auto. split; [lia|]. split; [destruct (l_nodes l (neighbor x e)); congruence|].
    split; auto. apply negb_true_iff, eqb_false_iff in F3. auto.
  - intros (x & e & X & L & NN & S & ->). exists x. split; auto. apply in_flat_map. exists e. split; [apply in_seq; lia|].
    assert (found field l x e = true) as ->; [|left; auto]. unfold found, exists_at.
    destruct (l_nodes l (neighbor x e)); [|congruence]. apply andb_true_iff. split; [apply andb_true_iff; split; auto; apply Nat.leb_le; lia|].
    apply negb_true_iff, eqb_false_iff. auto.
Qed.

Lemma NoDup_flat_map : forall (A B : Type) (f : A -> list B) l, NoDup l -> (forall x, In x l -> NoDup (f x)) ->
  (forall x y b, In x l -> In y l -> In b (f x) -> In b (f y) -> x = y) -> NoDup (flat_map f l).
Proof.
  intros A B f l ND. induction ND as [|a l NI ND IH]; intros H1 H2; cbn [flat_map]; [constructor|].
  apply NoDup_app; auto.
  - apply H1. left. auto.
  - apply IH; intros; [apply H1; right; auto|eapply H2; eauto; right; auto].
  - intros b B1 B2. apply in_flat_map in B2. destruct B2 as (y & Y & B2). apply NI.
    rewrite (H2 a y b); auto; [left; auto|right; auto].
Qed.

Lemma found_NoDup : forall field l xs, NoDup xs -> NoDup (map cid (found_all field l xs)).
Proof.
  intros field l xs ND. unfold found_all. rewrite flat_map_concat_map, concat_map, map_map, <- flat_map_concat_map.
  apply NoDup_flat_map; auto.
  - intros x _. rewrite flat_map_concat_map, concat_map, map_map, <- flat_map_concat_map. apply NoDup_flat_map; [apply seq_NoDup| |].
    + intros e _. destruct (found _ _ _ _); cbn; repeat constructor; auto.
    + intros e f b He Hf. apply in_seq in He, Hf. unfold found.
      destruct (Nat.leb_spec 7 e), (Nat.leb_spec 7 f); cbn [andb]; try (intros []; fail); try (intros _ []; fail).
      destruct (_ && _); cbn; [|tauto]. intros [<-|[]]. destruct (_ && _); cbn; [|tauto]. intros [Q|[]].
      unfold cid, crossing_of in Q. cbn in Q. apply eid_inj_hi in Q; lia.
  - intros x y b X Y. rewrite !in_map_iff. intros (c & <- & C1) (d & D & D1).
    assert (In c (found_all field l [x])) as C2 by (unfold found_all; cbn [flat_map]; rewrite app_nil_r; auto).
    assert (In d (found_all field l [y])) as D2 by (unfold found_all; cbn [flat_map]; rewrite app_nil_r; auto).
    apply in_found in C2, D2. destruct C2 as (x' & e & [<-|[]] & L & _ & _ & ->). destruct D2 as (y' & f & [<-|[]] & L' & _ & _ & ->).
    unfold cid, crossing_of in D. cbn in D. apply eid_inj_hi in D; auto. destruct D; congruence.
Qed.

(** ** Position on the edge *)

Lemma neg_some : forall x, neg (Some x) = true <-> (x < 0)%R.
Proof. intros x. cbn. destruct (Rlt_dec x 0); intuition congruence. Qed.

Lemma made_at_crossing : forall field x e, e < 14 -> sgn field x <> sgn field (neighbor x e) ->
  at_crossing field (made (crossing_of field x e)).
Proof.
  intros field x e L S. unfold made, crossing_of. cbn [c_t c_lc0 c_lc1 c_ei]. unfold sgn in S.
  destruct (field x) as [a|] eqn:A.
  2:{ cbn [nsub lift2 ndiv below_half at_crossing]. intros p q _ Hq. rewrite neighbor_opposite in Hq by auto. congruence. }
  destruct (field (neighbor x e)) as [b|] eqn:B.
  2:{ cbn [nsub lift2 ndiv below_half at_crossing]. intros p q Hp _. congruence. }
  assert ((a < 0 /\ 0 <= b) \/ (b < 0 /\ 0 <= a))%R as C.
  { unfold neg in S. destruct (Rlt_dec a 0), (Rlt_dec b 0); try congruence; lra. }
  unfold nsub, lift2, ndiv. destruct (Req_EM_T (a - b) 0) as [Z|NZ]; [exfalso; lra|].
  set (t := (a / (a - b))%R). assert (a + t * (b - a) = 0)%R as TE by (unfold t; field; auto).
  assert (0 <= t <= 1)%R as TB.
  { unfold t. destruct C as [[C1 C2]|[C1 C2]].
    - split; [apply Rlt_le; replace (a / (a - b))%R with ((- a) / (b - a))%R by (field; lra); apply Rdiv_lt_0_compat; lra|].
      apply Rmult_le_reg_r with (b - a)%R; [lra|]. replace (a / (a - b) * (b - a))%R with (- a)%R by (field; lra). lra.
    - split; [apply Rmult_le_reg_r with (a - b)%R; [lra|]; replace (a / (a - b) * (a - b))%R with a by (field; lra); lra|].
      apply Rmult_le_reg_r with (a - b)%R; [lra|]. replace (a / (a - b) * (a - b))%R with a by (field; lra). lra. }
  unfold below_half. destruct (Rlt_dec t (1 / 2)) as [H|H]; cbn [at_crossing].
  - intros p q Hp Hq. assert (p = a) as -> by congruence. assert (q = b) as -> by congruence.
    exists t. split; auto. split; [lra|auto].
  - intros p q Hp Hq. rewrite neighbor_opposite in Hq by auto. assert (p = b) as -> by congruence. assert (q = a) as -> by congruence.
    exists (1 - t)%R. split; auto. split; [lra|]. lra.
Qed.

Lemma gen_spec : forall field T l xs, inv T l -> valued field l -> NoDup xs ->
  (forall x, In x xs -> l_nodes l x <> None) ->
  (forall x e, In x xs -> 7 <= e < 14 -> ~ In (eid x e) (ids l)) ->
  Forall (at_crossing field) (l_vertices l) ->
  exists l' T', generate_vertices l xs = Ok l' /\ inv T' l' /\ same_nodes l l' /\ l_pending l' = l_pending l /\
    Forall (at_crossing field) (l_vertices l') /\
    forall id, In id (ids l') <-> In id (ids l) \/
      exists x e, In x xs /\ 7 <= e < 14 /\ l_nodes l (neighbor x e) <> None /\ sgn field x <> sgn field (neighbor x e) /\ id = eid x e.
Proof.
  intros field T l xs I V ND P FR AC. unfold generate_vertices. rewrite (all_crossings_eq field) by auto. cbn [bind].
  destruct (add_crossings_inv (found_all field l xs) T l I) as (l' & T' & -> & I' & S' & P' & V').
  - apply Forall_forall. intros c C. apply in_found in C. destruct C as (x & e & _ & L & _ & _ & ->). split; cbn; auto.
  - intros c C. apply in_found in C. destruct C as (x & e & X & _ & NN & _ & ->). cbn. auto.
  - apply found_NoDup. auto.
  - intros c C. apply in_found in C. destruct C as (x & e & X & L & _ & _ & ->). unfold cid. cbn. auto.
  - exists l', T'. split; auto. split; auto. split; auto. split; auto. split.
    + rewrite V'. apply Forall_app. split; auto. apply Forall_forall. intros v Hv. apply in_map_iff in Hv.
      destruct Hv as (c & <- & C). apply in_found in C. destruct C as (x & e & _ & L & _ & S & ->). apply made_at_crossing; auto. lia.
    + intros id. unfold ids at 1. rewrite V', map_app, in_app_iff. fold (ids l). split; (intros [H|H]; [left; auto|right]).
      * apply in_map_iff in H. destruct H as (v & <- & H). apply in_map_iff in H. destruct H as (c & <- & C).
        pose proof C as C'. apply in_found in C'. destruct C' as (x & e & X & L & NN & S & ->). exists x, e.
        split; auto. split; auto. split; auto. split; auto. rewrite ev_made; [auto|split; cbn; auto].
      * destruct H as (x & e & X & L & NN & S & ->). apply in_map_iff. exists (made (crossing_of field x e)). split.
        { rewrite ev_made; [auto|split; cbn; auto]. }
        apply in_map. apply in_found. exists x, e. auto.
Qed.

(** ** Removing free nodes *)

Lemma free_iff : forall T l x n, inv T l -> l_nodes l x = Some n ->
  (is_free n = false <-> exists e, e < 14 /\ In (eid x e) (ids l)).
Proof.
  intros T l x n (_ & _ & _ & _ & I5) H. unfold is_free. rewrite negb_false_iff, existsb_exists. split.
  - intros (e & He & A). apply (I5 _ _ _ H) in A. eauto.
  - intros (e & L & A). exists e. split; [apply in_seq; lia|]. apply (I5 _ _ _ H). auto.
Qed.

Lemma inv_remove : forall T l x, inv T l -> inv T (set_node l x None).
Proof.
  intros T l x (I1 & I2 & I3 & I4 & I5). split; [|split; [|split; [|split]]]; cbn [set_node l_nodes l_vertices]; auto.
  - intros y n. destruct (lc_dec y x) as [->|D]; [rewrite upd_lc_same; discriminate|rewrite upd_lc_other by auto; auto].
  - intros y n e. destruct (lc_dec y x) as [->|D]; [rewrite upd_lc_same; discriminate|rewrite upd_lc_other by auto; apply I5].
Qed.

Lemma remove_spec : forall xs T l, inv T l -> NoDup xs -> (forall x, In x xs -> l_nodes l x <> None) ->
  exists l', remove_free_nodes l xs = Ok l' /\ inv T l' /\ l_pending l' = l_pending l /\ l_vertices l' = l_vertices l /\
    (forall x n, l_nodes l' x = Some n -> l_nodes l x = Some n) /\
    forall x, l_nodes l' x <> None <-> l_nodes l x <> None /\ (~ In x xs \/ exists e, e < 14 /\ In (eid x e) (ids l)).
Proof.
  induction xs as [|x xs IH]; intros T l I ND P; cbn [remove_free_nodes].
  - exists l. split; auto. split; auto. split; auto. split; auto. split; auto. intros x. cbn. intuition.
  - inversion ND as [|? ? NI ND']; subst. destruct (l_nodes l x) as [n|] eqn:Q; [|exfalso; apply (P x); [left; auto|auto]].
    set (l1 := if is_free n then set_node l x None else l).
    assert (inv T l1) as I1 by (unfold l1; destruct (is_free n); auto; apply inv_remove; auto).
    assert (forall y, y <> x -> l_nodes l1 y = l_nodes l y) as O1.
    { intros y D. unfold l1. destruct (is_free n); auto. cbn. rewrite upd_lc_other by auto. auto. }
    assert (l_nodes l1 x <> None <-> exists e, e < 14 /\ In (eid x e) (ids l)) as O2.
    { rewrite <- (free_iff T l x n I Q). unfold l1. destruct (is_free n); [cbn; rewrite upd_lc_same|rewrite Q]; intuition congruence. }
    assert (ids l1 = ids l) as ID by (unfold l1; destruct (is_free n); auto).
    destruct (IH T l1 I1 ND') as (l' & E' & I' & P' & V' & K' & H').
    { intros y Y. rewrite O1 by (intros ->; auto). apply P. right. auto. }
    exists l'. split; auto. split; auto. split; [rewrite P'; unfold l1; destruct (is_free n); auto|].
    split; [rewrite V'; unfold l1; destruct (is_free n); auto|]. split.
    { intros y m Hy. apply K' in Hy. destruct (lc_dec y x) as [->|D]; [|rewrite O1 in Hy by auto; auto].
      unfold l1 in Hy. destruct (is_free n); auto. cbn in Hy. rewrite upd_lc_same in Hy. discriminate. }
    intros y. rewrite H', ID. cbn [In]. destruct (lc_dec y x) as [->|D].
    + rewrite O2. rewrite Q. split; [intros [A _]; split; [congruence|auto]|].
      intros [_ [A|A]]; [exfalso; auto|]. split; auto.
    + rewrite O1 by auto. intuition.
Qed.
