(** Snapping a mesh to points: the vertices on edges and in faces, and the cached triangulations. *)
From Coq Require Import List Arith Bool Lia Permutation Sorted.
From Verif.Model Require Import Outcome Snapper.
From Verif.Spec Require Import Snapper.
From Verif.Proofs Require Import Snapper.
Import ListNotations.

Section Proofs.
Context {P A T : Type}.
Variable E : env P A T.
Notation cand := (candidate A T).
Notation st := (state P A T).

(** ** Edges *)

Lemma edge_eqb_spec : forall e e', reflect (e = e') (edge_eqb e e').
Proof.
  intros [a b] [c d]. unfold edge_eqb. cbn [fst snd].
  destruct (Nat.eqb_spec a c) as [->|N]; cbn [andb]; [|constructor; congruence].
  destruct (Nat.eqb_spec b d) as [->|N]; constructor; congruence.
Qed.

Lemma set_edge_same : forall {B} (f : edge -> B) e x, set_edge f e x e = x.
Proof. intros. unfold set_edge. destruct (edge_eqb_spec e e); congruence. Qed.
Lemma set_edge_other : forall {B} (f : edge -> B) e x e', e' <> e -> set_edge f e x e' = f e'.
Proof. intros. unfold set_edge. destruct (edge_eqb_spec e' e); congruence. Qed.
Lemma set_same : forall {B} (f : nat -> B) e x, set f e x e = x.
Proof. intros. unfold set. rewrite Nat.eqb_refl. reflexivity. Qed.
Lemma set_other : forall {B} (f : nat -> B) e x e', e' <> e -> set f e x e' = f e'.
Proof. intros. unfold set. destruct (Nat.eqb_spec e' e); congruence. Qed.

Lemma edge_of_sym : forall u w, edge_of u w = edge_of w u.
Proof. intros u w. unfold edge_of. destruct (Nat.ltb_spec u w), (Nat.ltb_spec w u); try reflexivity; try lia. replace w with u by lia. reflexivity. Qed.

Definition edge_in (f : tri3) (e : edge) : Prop := exists k, k < 3 /\ e = edge_of (corner f k) (corner f ((k + 1) mod 3)).

Lemma along_rev : forall (s : st) u w, u <> w -> along s w u = rev (along s u w).
Proof.
  intros s u w N. unfold along. rewrite (edge_of_sym w u). destruct (Nat.ltb_spec u w), (Nat.ltb_spec w u); try lia.
  - reflexivity.
  - rewrite rev_involutive. reflexivity.
Qed.

Lemma along_in : forall (s : st) u w r, In r (along s u w) <-> exists t, In (t, r) (s_chain s (edge_of u w)).
Proof.
  intros s u w r. assert (X : In r (along s u w) <-> In r (map snd (s_chain s (edge_of u w)))).
  { unfold along. destruct (u <? w); [reflexivity|]. rewrite <- in_rev. reflexivity. }
  rewrite X, in_map_iff. split; [intros ([t r'] & <- & I); eauto|intros (t & I); exists (t, r); auto].
Qed.

Lemma boundary_in : forall (s : st) f r, In r (boundary s f) <->
  (exists k, k < 3 /\ r = corner f k) \/ (exists e t, edge_in f e /\ In (t, r) (s_chain s e)).
Proof.
  intros s f r. unfold boundary. cbn [In]. rewrite in_app_iff. cbn [In]. rewrite in_app_iff. cbn [In].
  unfold side. rewrite !along_in. split.
  - intros [<-|[(t & H)|[<-|[(t & H)|[<-|(t & H)]]]]].
    + left. exists 0. auto.
    + right. do 2 eexists. split; [exists 0; split; [lia|reflexivity]|exact H].
    + left. exists 1. auto.
    + right. do 2 eexists. split; [exists 1; split; [lia|reflexivity]|exact H].
    + left. exists 2. auto.
    + right. do 2 eexists. split; [exists 2; split; [lia|reflexivity]|exact H].
  - intros [(k & L & ->)|(e & t & (k & L & ->) & H)]; destruct k as [|[|[|k]]]; try lia; eauto 10.
Qed.

Lemma triangulate_ext : forall (s s' : st) fi,
  (forall e, edge_in (face E fi) e -> s_chain s' e = s_chain s e) -> s_interior s' fi = s_interior s fi ->
  (forall r, In r (patch_rows E s fi) -> s_aq s' r = s_aq s r) -> triangulate E s' fi = triangulate E s fi.
Proof.
  intros s s' fi C I Q.
  assert (C' : forall k, k < 3 -> s_chain s' (edge_of (corner (face E fi) k) (corner (face E fi) ((k + 1) mod 3))) =
                       s_chain s (edge_of (corner (face E fi) k) (corner (face E fi) ((k + 1) mod 3)))).
  { intros k L. apply C. exists k. auto. }
  assert (S' : forall k, k < 3 -> side s' (face E fi) k = side s (face E fi) k).
  { intros k L. unfold side, along. rewrite C' by exact L. reflexivity. }
  assert (B : boundary s' (face E fi) = boundary s (face E fi)).
  { unfold boundary. rewrite !S' by lia. reflexivity. }
  assert (BE : boundary_edges s' (face E fi) = boundary_edges s (face E fi)).
  { unfold boundary_edges. rewrite !S' by lia. reflexivity. }
  unfold triangulate. assert (U : unsplit E s' fi = unsplit E s fi).
  { unfold unsplit. rewrite I. pose proof (C' 0 ltac:(lia)) as C0. pose proof (C' 1 ltac:(lia)) as C1.
    pose proof (C' 2 ltac:(lia)) as C2. change ((0 + 1) mod 3) with 1 in C0. change ((1 + 1) mod 3) with 2 in C1.
    change ((2 + 1) mod 3) with 0 in C2. rewrite C0, C1, C2. reflexivity. }
  rewrite U. destruct (unsplit E s fi); [reflexivity|]. rewrite B, BE, I.
  replace (map (s_aq s') (boundary s (face E fi))) with (map (s_aq s) (boundary s (face E fi))).
  2:{ apply map_ext_in. intros r J. symmetry. apply Q. unfold patch_rows. apply in_app_iff. left. exact J. }
  replace (map (s_aq s') (s_interior s fi)) with (map (s_aq s) (s_interior s fi)); [reflexivity|].
  apply map_ext_in. intros r J. symmetry. apply Q. unfold patch_rows. apply in_app_iff. right. exact J.
Qed.

(** ** Faces on both sides of an edge *)

Lemma runs_spec : forall f a b, runs f a b = true <-> exists k, k < 3 /\ corner f k = a /\ corner f ((k + 1) mod 3) = b.
Proof.
  intros f a b. unfold runs. rewrite existsb_exists. split.
  - intros (k & I & H). apply andb_true_iff in H. destruct H as (H & K). apply Nat.eqb_eq in H, K. exists k.
    split; [|auto]. cbn [In] in I. lia.
  - intros (k & L & <- & <-). exists k. split; [cbn [In]; lia|]. rewrite !Nat.eqb_refl. reflexivity.
Qed.

Lemma side_faces_in : oriented E -> forall fi a b, fi < num_faces E -> runs (face E fi) a b = true -> In fi (side_faces E a b).
Proof.
  intros Or fi a b L H. unfold side_faces.
  assert (I : In fi (filter (fun fj => runs (face E fj) a b) (seq 0 (num_faces E)))).
  { apply filter_In. split; [apply in_seq; lia|exact H]. }
  destruct (filter _ _) as [|fj l] eqn:Q; [destruct I|]. cbn [firstn]. left.
  assert (J : In fj (filter (fun fj => runs (face E fj) a b) (seq 0 (num_faces E)))) by (rewrite Q; left; reflexivity).
  apply filter_In in J. destruct J as (J & K). apply in_seq in J. apply (Or fj fi a b); [lia|exact L|exact K|exact H].
Qed.

Lemma side_faces_below : forall fi a b, In fi (side_faces E a b) -> fi < num_faces E.
Proof.
  intros fi a b H. unfold side_faces in H.
  assert (I : In fi (filter (fun fj => runs (face E fj) a b) (seq 0 (num_faces E)))).
  { destruct (filter _ _); [destruct H|]. cbn [firstn] in H. destruct H as [<-|[]]. left. reflexivity. }
  apply filter_In in I. destruct I as (I & _). apply in_seq in I. lia.
Qed.

Lemma faces_of_in : oriented E -> forall fi e, fi < num_faces E -> edge_in (face E fi) e -> In fi (faces_of E e).
Proof.
  intros Or fi e L (k & Lk & ->). unfold faces_of. apply in_app_iff.
  set (u := corner (face E fi) k). set (w := corner (face E fi) ((k + 1) mod 3)).
  assert (R : runs (face E fi) u w = true) by (apply runs_spec; exists k; auto).
  unfold edge_of. destruct (u <? w); cbn [fst snd]; [left|right]; apply side_faces_in; assumption.
Qed.

Lemma faces_of_below : forall fi e, In fi (faces_of E e) -> fi < num_faces E.
Proof. intros fi e I. unfold faces_of in I. apply in_app_iff in I. destruct I as [I|I]; eapply side_faces_below; exact I. Qed.

(** ** Chains *)

Lemma insert_at_in : forall t v l x, In x (insert_at E t v l) <-> x = (t, v) \/ In x l.
Proof.
  intros t v l x. induction l as [|y l IH]; cbn [insert_at]; [cbn [In]; intuition congruence|].
  destruct (lt E (fst y) t); cbn [In]; [rewrite IH|]; intuition congruence.
Qed.

Lemma insert_at_perm : forall t v l, Permutation ((t, v) :: l) (insert_at E t v l).
Proof.
  intros t v l. induction l as [|y l IH]; cbn [insert_at]; [reflexivity|].
  destruct (lt E (fst y) t); [|reflexivity]. eapply perm_trans; [apply perm_swap|]. apply perm_skip, IH.
Qed.

Lemma insert_at_nodup : forall t v l, NoDup (map snd l) -> ~ In v (map snd l) -> NoDup (map snd (insert_at E t v l)).
Proof.
  intros t v l N I. eapply Permutation_NoDup; [apply Permutation_map, insert_at_perm|]. cbn [map snd]. constructor; assumption.
Qed.

Lemma erase_none : forall v (l : list (T * nat)), ~ In v (map snd l) -> erase v l = l.
Proof.
  intros v. induction l as [|[t w] l IH]; intros N; [reflexivity|]. unfold erase in *. cbn [filter snd map In] in *.
  destruct (Nat.eqb_spec w v); [exfalso; apply N; left; assumption|]. cbn [negb]. rewrite IH; [reflexivity|tauto].
Qed.

Lemma erase_insert : forall t v l, ~ In v (map snd l) -> erase v (insert_at E t v l) = l.
Proof.
  intros t v. induction l as [|[x w] l IH]; intros N; cbn [insert_at].
  - unfold erase. cbn [filter snd]. rewrite Nat.eqb_refl. reflexivity.
  - cbn [fst]. cbn [map snd In] in N. destruct (lt E x t).
    + unfold erase in *. cbn [filter snd]. destruct (Nat.eqb_spec w v); [tauto|]. cbn [negb]. rewrite IH; [reflexivity|tauto].
    + unfold erase. cbn [filter snd]. rewrite Nat.eqb_refl. cbn [negb].
      change (erase v ((x, w) :: l) = (x, w) :: l). apply erase_none. cbn [map snd In]. tauto.
Qed.

(** ** The invariant *)

Record inv (s : st) : Prop := {
  i_edge : forall e t r, In (t, r) (s_chain s e) ->
    exists c, In c (candidates E) /\ c_point c = r /\ edge_in (face E (c_face c)) e;
  i_face : forall fi r, In r (s_interior s fi) ->
    exists c, In c (candidates E) /\ c_point c = r /\ c_face c = fi;
  i_once : placed_once E s;
  i_cur : current E s }.

Lemma inv_start : inv (start E).
Proof.
  constructor; cbn [start s_chain s_interior s_faces].
  - intros e t r [].
  - intros fi r [].
  - constructor; cbn [start s_chain s_interior]; try (intros; constructor); try (intros; contradiction).
    intros r [(e & t & [])|(fi & [])].
  - intros fi L N. cbn [start s_faces] in N. contradiction.
Qed.

Lemma not_in_patch : forall s r fi, r < np E -> ~ inserted s r -> ~ In r (patch_rows E s fi).
Proof.
  intros s r fi L N I. unfold patch_rows in I. apply in_app_iff in I. destruct I as [I|I].
  - apply boundary_in in I. destruct I as [(k & _ & ->)|(e & t & _ & I)].
    + pose proof (corner_face E fi k). lia.
    + apply N. left. eauto.
  - apply N. right. eauto.
Qed.

Lemma triangulate_same : forall s s' r fi, (forall e, s_chain s' e = s_chain s e) ->
  (forall fi, s_interior s' fi = s_interior s fi) ->
  (forall r', r' <> r -> s_aq s' r' = s_aq s r') -> r < np E -> ~ inserted s r ->
  triangulate E s' fi = triangulate E s fi.
Proof.
  intros s s' r fi C I Q L N. apply triangulate_ext; [auto|auto|]. intros r' J. apply Q. intros ->.
  revert J. apply not_in_patch; assumption.
Qed.

Lemma inserted_same : forall s s' : st, (forall e, s_chain s' e = s_chain s e) ->
  (forall fi, s_interior s' fi = s_interior s fi) -> forall r, inserted s' r <-> inserted s r.
Proof.
  intros s s' C I r. unfold inserted. split.
  - intros [(e & t & H)|(fi & H)]; [left; rewrite C in H|right; rewrite I in H]; eauto.
  - intros [(e & t & H)|(fi & H)]; [left; exists e, t; rewrite C|right; exists fi; rewrite I]; assumption.
Qed.

Lemma inv_same : forall s s' r, inv s -> (forall e, s_chain s' e = s_chain s e) ->
  (forall fi, s_interior s' fi = s_interior s fi) ->
  (forall r', r' <> r -> s_aq s' r' = s_aq s r') -> r < np E -> ~ inserted s r ->
  (forall fi, fi < num_faces E -> s_faces s' fi = s_faces s fi \/ exists b, triangulate E s fi = Ok (b, s_faces s' fi)) ->
  inv s'.
Proof.
  intros s s' r V C I Q L N F. constructor.
  - intros e t r' H. rewrite C in H. eapply i_edge; eassumption.
  - intros fi r' H. rewrite I in H. eapply i_face; eassumption.
  - destruct (i_once _ V) as [O1 O2 O3 O4 O5 O6]. constructor; intros; rewrite ?C, ?I in *; eauto.
    apply O6. apply (inserted_same s s' C I). assumption.
  - intros fi Lf Ne. rewrite (triangulate_same s s' r fi C I Q L N).
    destruct (F fi Lf) as [X|X]; [|exact X]. rewrite X in *. apply i_cur; assumption.
Qed.

Lemma inv_fills : forall s s', inv s -> fills E s s' -> inv s'.
Proof.
  intros s s' V F. constructor.
  - rewrite (fills_chain _ _ _ F). apply V.
  - rewrite (fills_interior _ _ _ F). apply V.
  - destruct (i_once _ V) as [O1 O2 O3 O4 O5 O6]. constructor; intros; rewrite ?(fills_chain _ _ _ F), ?(fills_interior _ _ _ F) in *; eauto.
    apply O6. unfold inserted in *. rewrite (fills_chain _ _ _ F), (fills_interior _ _ _ F) in *. assumption.
  - intros fi L N. rewrite (fills_triangulate _ _ _ fi F). destruct (fills_faces _ _ _ F fi) as [X|(_ & X)]; [|exact X].
    rewrite X in *. apply V; assumption.
Qed.

Lemma inserted_fills : forall s s' r, fills E s s' -> (inserted s' r <-> inserted s r).
Proof. intros s s' r F. unfold inserted. rewrite (fills_chain _ _ _ F), (fills_interior _ _ _ F). reflexivity. Qed.

Lemma inserted_patch : arranged E -> forall s c, inv s -> In c (candidates E) -> inserted s (c_point c) ->
  In (c_point c) (patch_rows E s (c_face c)).
Proof.
  intros Pm s c V Ic [(e & t & H)|(fi & H)]; unfold patch_rows; apply in_app_iff.
  - destruct (i_edge _ V _ _ _ H) as (c' & Ic' & Q & X).
    assert (c' = c).
    { pose proof (nodup_points E Pm) as ND. clear - ND Ic Ic' Q. induction (candidates E) as [|d l IH]; [destruct Ic|].
      cbn [map] in ND. inversion ND as [|? ? N ND']. subst. destruct Ic as [->|Ic], Ic' as [->|Ic']; [reflexivity| | |auto].
      - exfalso. apply N. rewrite <- Q. apply in_map. exact Ic'.
      - exfalso. apply N. rewrite Q. apply in_map. exact Ic. }
    subst c'. left. apply boundary_in. right. eauto.
  - destruct (i_face _ V _ _ H) as (c' & Ic' & Q & X).
    assert (c' = c).
    { pose proof (nodup_points E Pm) as ND. clear - ND Ic Ic' Q. induction (candidates E) as [|d l IH]; [destruct Ic|].
      cbn [map] in ND. inversion ND as [|? ? N ND']. subst. destruct Ic as [->|Ic], Ic' as [->|Ic']; [reflexivity| | |auto].
      - exfalso. apply N. rewrite <- Q. apply in_map. exact Ic'.
      - exfalso. apply N. rewrite Q. apply in_map. exact Ic. }
    subst c'. right. rewrite X. exact H.
Qed.

(** ** Vertices *)

Lemma try_vertex_inv : forall s c v b d s', inv s -> try_vertex E s c v = Ok (b, d, s') ->
  inv s' /\ forall r, inserted s' r <-> inserted s r.
Proof.
  intros s c v b d s' V H. apply try_vertex_spec in H. destruct H as (Q & C & I & _ & F).
  assert (X : forall r, inserted s' r <-> inserted s r) by (intros r; unfold inserted; rewrite C, I; reflexivity).
  split; [|exact X]. constructor.
  - rewrite C. apply V.
  - rewrite I. apply V.
  - destruct (i_once _ V) as [O1 O2 O3 O4 O5 O6]. constructor; intros; rewrite ?C, ?I in *; eauto. apply O6, X. assumption.
  - intros fi L N. rewrite (triangulate_fields E s' s fi Q C I). destruct (F fi) as [Y|(_ & Y)]; [|exact Y].
    rewrite Y in *. apply V; assumption.
Qed.

(** ** Edges *)

Lemma retriangulate_spec : forall l s r, retriangulate E s l = Ok (true, r) ->
  map fst r = l /\ Forall (fun x => exists b, triangulate E s (fst x) = Ok (b, snd x)) r.
Proof.
  induction l as [|fi l IH]; intros s r H; cbn [retriangulate] in H; [inversion H; auto|].
  inv_bind H. destruct p as [b fs]. cbn [fst snd] in H. destruct b; [|discriminate].
  inv_bind H. destruct p as [b q]. cbn [fst snd] in H. inversion H. subst. apply IH in EQ0. destruct EQ0 as (M & F).
  cbn [map fst]. rewrite M. split; [reflexivity|]. constructor; [eauto|exact F].
Qed.

Lemma store_faces : forall l (s : st) fi,
  (In fi (map fst l) /\ exists fs, In (fi, fs) l /\ s_faces (store s l) fi = fs) \/
  (~ In fi (map fst l) /\ s_faces (store s l) fi = s_faces s fi).
Proof.
  induction l as [|[fj gs] l IH]; intros s fi; [right; split; [intros []|reflexivity]|].
  cbn [map fst In]. change (store s ((fj, gs) :: l)) with (store (with_faces s fj gs) l).
  destruct (IH (with_faces s fj gs) fi) as [(I & fs & J & Q)|(N & Q)].
  - left. split; [right; exact I|]. exists fs. split; [right; exact J|exact Q].
  - cbn [with_faces s_faces] in Q. destruct (Nat.eq_dec fj fi) as [->|Ne].
    + left. split; [left; reflexivity|]. exists gs. split; [left; reflexivity|]. rewrite Q. apply set_same.
    + right. split; [tauto|]. rewrite Q. apply set_other. congruence.
Qed.

Lemma mod3 : forall i, (((i + 1) mod 3) + 1) mod 3 = (i + 2) mod 3.
Proof. intros i. rewrite Nat.add_mod_idemp_l by lia. f_equal. lia. Qed.

Lemma try_edge_inv : oriented E -> forall s c k b d s', In c (candidates E) -> c_point c < np E -> inv s ->
  ~ inserted s (c_point c) -> try_edge E s c k = Ok (b, d, s') ->
  inv s' /\ (b = false -> same_mesh s s').
Proof.
  intros Or s c k b d s' Ic Lc V N H. unfold try_edge in H.
  assert (SAME : inv s /\ (b = false -> same_mesh s s)) by (split; [exact V|intros _; repeat split]).
  destruct (lt E _ _); [|inversion H; subst; exact SAME].
  set (e := edge_of (corner (face E (c_face c)) ((k + 1) mod 3)) (corner (face E (c_face c)) ((k + 2) mod 3))) in *.
  assert (Ee : edge_in (face E (c_face c)) e).
  { exists ((k + 1) mod 3). split; [apply Nat.mod_upper_bound; lia|]. rewrite mod3. reflexivity. }
  match type of H with context [insert_at E ?t0] => set (t := t0) in H end. clearbody t.
  destruct (_ <? 2); [inversion H; subst; exact SAME|]. clear SAME.
  inv_bind H. rename s0 into u. apply look_fills in EQ.
  pose proof (inv_fills _ _ V EQ) as Vu. assert (Nu : ~ inserted u (c_point c)) by (rewrite (inserted_fills _ _ _ EQ); exact N).
  cbn [with_anchor s_chain s_aq] in H.
  set (a := between E (s_aq u (fst e)) (s_aq u (snd e)) t) in *. clearbody a.
  set (w := with_chain (with_anchor u (c_point c) a) e (insert_at E t (c_point c) (s_chain u e))) in *.
  assert (Nc : ~ In (c_point c) (map snd (s_chain u e))).
  { intros I. apply in_map_iff in I. destruct I as ([t' r] & Q & I). cbn [snd] in Q. subst r. apply Nu. left. eauto. }
  assert (We : s_chain w e = insert_at E t (c_point c) (s_chain u e)) by (cbn [w with_chain s_chain]; apply set_edge_same).
  assert (Wo : forall e', e' <> e -> s_chain w e' = s_chain u e') by (intros e' Ne; cbn [w with_chain s_chain]; apply set_edge_other; exact Ne).
  assert (Wq : forall r', r' <> c_point c -> s_aq w r' = s_aq u r') by (intros r' Ne; cbn [w with_chain with_anchor s_aq]; apply set_other; exact Ne).
  assert (Wi : s_interior w = s_interior u) by reflexivity.
  assert (Wt : forall fi, fi < num_faces E -> ~ In fi (faces_of E e) -> triangulate E w fi = triangulate E u fi).
  { intros fi L Nf. apply triangulate_ext.
    - intros e' Ie'. apply Wo. intros ->. apply Nf. apply faces_of_in; assumption.
    - reflexivity.
    - intros r Ir. apply Wq. intros ->. revert Ir. apply not_in_patch; assumption. }
  (* what is undone *)
  assert (UNDO : forall z, fills E w z -> (forall fi, In fi (faces_of E e) -> s_faces z fi = s_faces w fi) ->
     inv (with_chain z e (erase (c_point c) (s_chain z e))) /\
     same_mesh s (with_chain z e (erase (c_point c) (s_chain z e)))).
  { intros z Fz Oz.
    assert (C : forall e', s_chain (with_chain z e (erase (c_point c) (s_chain z e))) e' = s_chain u e').
    { intros e'. cbn [with_chain s_chain]. rewrite (fills_chain _ _ _ Fz). destruct (edge_eqb_spec e' e) as [->|Ne].
      - rewrite set_edge_same, We. apply erase_insert. exact Nc.
      - rewrite set_edge_other by exact Ne. apply Wo. exact Ne. }
    split.
    - apply (inv_same u _ (c_point c)); [exact Vu|exact C| | |exact Lc|exact Nu|].
      + intros fi. cbn [with_chain s_interior]. rewrite (fills_interior _ _ _ Fz). reflexivity.
      + intros r' Ne. cbn [with_chain s_aq]. rewrite (fills_aq _ _ _ Fz). apply Wq. exact Ne.
      + intros fi L. cbn [with_chain s_faces]. destruct (in_dec Nat.eq_dec fi (faces_of E e)) as [I|Nf].
        * left. rewrite (Oz fi I). reflexivity.
        * destruct (fills_faces _ _ _ Fz fi) as [X|(_ & X)]; [left; rewrite X; reflexivity|right].
          rewrite <- (Wt fi L Nf). exact X.
    - split; [|split].
      + intros r. cbn [with_chain s_p]. rewrite (fills_p _ _ _ Fz). cbn [w with_chain with_anchor s_p]. rewrite (fills_p _ _ _ EQ). reflexivity.
      + intros e'. rewrite C. rewrite (fills_chain _ _ _ EQ). reflexivity.
      + intros fi. cbn [with_chain s_interior]. rewrite (fills_interior _ _ _ Fz), Wi, (fills_interior _ _ _ EQ). reflexivity. }
  inv_bind H. destruct p as [ok r]. cbn [fst snd] in H. destruct ok.
  2:{ inversion H. subst. clear H. destruct (UNDO w (fills_refl E w) (fun _ _ => eq_refl)) as (U1 & U2). split; [exact U1|intros _; exact U2]. }
  inv_bind H. rename s0 into z. apply look_outside_fills in EQ1. destruct EQ1 as (Fz & Oz).
  destruct (accept E z r).
  2:{ inversion H. subst. clear H. destruct (UNDO z Fz Oz) as (U1 & U2). split; [exact U1|intros _; exact U2]. }
  clear UNDO. inv_bind H. rename s0 into y. inversion H. subst b d y. clear H. split; [|discriminate].
  apply look_fills in EQ1. eapply inv_fills; [|exact EQ1]. clear EQ1 s'.
  apply retriangulate_spec in EQ0. destruct EQ0 as (Mr & Fr).
  destruct (fills_store r z) as (_ & Sq & Sc & Si).
  rewrite (fills_aq _ _ _ Fz) in Sq. rewrite (fills_chain _ _ _ Fz) in Sc. rewrite (fills_interior _ _ _ Fz), Wi in Si.
  assert (CH : forall e' t' r', In (t', r') (s_chain (store z r) e') ->
     (e' = e /\ r' = c_point c) \/ In (t', r') (s_chain u e')).
  { intros e' t' r' I. rewrite Sc in I. destruct (edge_eqb_spec e' e) as [->|Ne].
    - rewrite We in I. apply insert_at_in in I. destruct I as [I|I]; [inversion I; left; auto|right; exact I].
    - rewrite Wo in I by exact Ne. right. exact I. }
  assert (NI : forall e' t', ~ In (t', c_point c) (s_chain u e')) by (intros e' t' I; apply Nu; left; eauto).
  constructor.
  - intros e' t' r' I. apply CH in I. destruct I as [(-> & ->)|I]; [exists c; auto|]. eapply i_edge; eassumption.
  - rewrite Si. apply Vu.
  - destruct (i_once _ Vu) as [O1 O2 O3 O4 O5 O6]. constructor.
    + intros e'. rewrite Sc. destruct (edge_eqb_spec e' e) as [->|Ne]; [rewrite We; apply insert_at_nodup; auto|rewrite Wo by exact Ne; apply O1].
    + rewrite Si. exact O2.
    + intros e1 e2 t1 t2 r' I1 I2. apply CH in I1. apply CH in I2.
      destruct I1 as [(-> & ->)|I1], I2 as [(-> & Q)|I2]; try reflexivity.
      * exfalso. eapply NI; exact I2.
      * subst r'. exfalso. eapply NI; exact I1.
      * eapply O3; eassumption.
    + rewrite Si. exact O4.
    + rewrite Si. intros e' t' r' fi I J. apply CH in I. destruct I as [(-> & ->)|I]; [|eapply O5; eassumption].
      apply Nu. right. eauto.
    + intros r' [(e' & t' & I)|(fi & I)].
      * apply CH in I. destruct I as [(-> & ->)|I]; [exact Lc|]. apply O6. left. eauto.
      * rewrite Si in I. apply O6. right. eauto.
  - intros fi L Ne. assert (TT : triangulate E (store z r) fi = triangulate E w fi).
    { apply triangulate_fields; [exact Sq|exact Sc|rewrite Wi; exact Si]. }
    rewrite TT. destruct (store_faces r z fi) as [(I & fs & J & Q)|(I & Q)].
    + rewrite Q. rewrite Forall_forall in Fr. apply (Fr (fi, fs)) in J. exact J.
    + rewrite Mr in I. rewrite Q in Ne |- *. destruct (fills_faces _ _ _ Fz fi) as [X|(_ & X)]; [|exact X].
      rewrite X in Ne |- *. rewrite (Wt fi L I). apply (i_cur _ Vu fi L). exact Ne.
Qed.

(** ** Interior *)

Lemma try_face_inv : forall s c b d s', In c (candidates E) -> c_point c < np E -> inv s ->
  ~ inserted s (c_point c) -> try_face E s c = Ok (b, d, s') ->
  inv s' /\ (b = false -> same_mesh s s').
Proof.
  intros s c b d s' Ic Lc V N H. unfold try_face in H.
  inv_bind H. rename s0 into u. apply look_fills in EQ.
  pose proof (inv_fills _ _ V EQ) as Vu. assert (Nu : ~ inserted u (c_point c)) by (rewrite (inserted_fills _ _ _ EQ); exact N).
  set (fi := c_face c) in *.
  set (w := with_interior (with_anchor u (c_point c) (c_anchor c)) fi (s_interior (with_anchor u (c_point c) (c_anchor c)) fi ++ [c_point c])) in *.
  assert (We : s_interior w fi = s_interior u fi ++ [c_point c]) by (cbn [w with_interior s_interior]; apply set_same).
  assert (Wo : forall fj, fj <> fi -> s_interior w fj = s_interior u fj) by (intros fj Ne; cbn [w with_interior s_interior]; apply set_other; exact Ne).
  assert (Wq : forall r', r' <> c_point c -> s_aq w r' = s_aq u r') by (intros r' Ne; cbn [w with_interior with_anchor s_aq]; apply set_other; exact Ne).
  assert (Wc : s_chain w = s_chain u) by reflexivity.
  assert (Wt : forall fj, fj <> fi -> triangulate E w fj = triangulate E u fj).
  { intros fj Ne. apply triangulate_ext.
    - intros e' _. reflexivity.
    - apply Wo. exact Ne.
    - intros r Ir. apply Wq. intros ->. revert Ir. apply not_in_patch; assumption. }
  assert (UNDO : forall z, fills E w z -> s_faces z fi = s_faces w fi ->
     inv (with_interior z fi (removelast (s_interior z fi))) /\
     same_mesh s (with_interior z fi (removelast (s_interior z fi)))).
  { intros z Fz Oz.
    assert (C : forall fj, s_interior (with_interior z fi (removelast (s_interior z fi))) fj = s_interior u fj).
    { intros fj. cbn [with_interior s_interior]. rewrite (fills_interior _ _ _ Fz). destruct (Nat.eq_dec fj fi) as [->|Ne].
      - rewrite set_same, We. apply removelast_last.
      - rewrite set_other by exact Ne. apply Wo. exact Ne. }
    split.
    - apply (inv_same u _ (c_point c)); [exact Vu| |exact C| |exact Lc|exact Nu|].
      + intros e. cbn [with_interior s_chain]. rewrite (fills_chain _ _ _ Fz). reflexivity.
      + intros r' Ne. cbn [with_interior s_aq]. rewrite (fills_aq _ _ _ Fz). apply Wq. exact Ne.
      + intros fj L. cbn [with_interior s_faces]. destruct (Nat.eq_dec fj fi) as [->|Nf].
        * left. rewrite Oz. reflexivity.
        * destruct (fills_faces _ _ _ Fz fj) as [X|(_ & X)]; [left; rewrite X; reflexivity|right].
          rewrite <- (Wt fj Nf). exact X.
    - split; [|split].
      + intros r. cbn [with_interior s_p]. rewrite (fills_p _ _ _ Fz). cbn [w with_interior with_anchor s_p]. rewrite (fills_p _ _ _ EQ). reflexivity.
      + intros e'. cbn [with_interior s_chain]. rewrite (fills_chain _ _ _ Fz), Wc, (fills_chain _ _ _ EQ). reflexivity.
      + intros fj. rewrite C, (fills_interior _ _ _ EQ). reflexivity. }
  inv_bind H. destruct p as [ok r]. cbn [fst snd] in H. destruct (ok && uses r (c_point c)).
  2:{ inversion H. subst b d s'. clear H. destruct (UNDO w (fills_refl E w) eq_refl) as (U1 & U2). split; [exact U1|intros _; exact U2]. }
  inv_bind H. rename s0 into z. apply look_outside_fills in EQ1. destruct EQ1 as (Fz & Oz).
  destruct (accept E z _).
  2:{ inversion H. subst b d s'. clear H. destruct (UNDO z Fz (Oz fi (or_introl eq_refl))) as (U1 & U2). split; [exact U1|intros _; exact U2]. }
  clear UNDO. inv_bind H. rename s0 into y. inversion H. subst b d y. clear H. split; [|discriminate].
  apply look_fills in EQ1. eapply inv_fills; [|exact EQ1]. clear EQ1 s'.
  assert (Sc : s_chain (with_faces z fi r) = s_chain u) by (cbn [with_faces s_chain]; rewrite (fills_chain _ _ _ Fz); exact Wc).
  assert (Sq : s_aq (with_faces z fi r) = s_aq w) by (cbn [with_faces s_aq]; apply Fz).
  assert (Si : s_interior (with_faces z fi r) = s_interior w) by (cbn [with_faces s_interior]; apply Fz).
  assert (IN : forall fj r', In r' (s_interior w fj) -> (fj = fi /\ r' = c_point c) \/ In r' (s_interior u fj)).
  { intros fj r' I. destruct (Nat.eq_dec fj fi) as [->|Ne].
    - rewrite We in I. apply in_app_iff in I. destruct I as [I|[I|[]]]; auto.
    - rewrite Wo in I by exact Ne. auto. }
  assert (NI : forall fj, ~ In (c_point c) (s_interior u fj)) by (intros fj I; apply Nu; right; eauto).
  constructor.
  - rewrite Sc. apply Vu.
  - rewrite Si. intros fj r' I. apply IN in I. destruct I as [(-> & ->)|I]; [exists c; auto|]. eapply i_face; eassumption.
  - destruct (i_once _ Vu) as [O1 O2 O3 O4 O5 O6]. constructor.
    + rewrite Sc. exact O1.
    + rewrite Si. intros fj. destruct (Nat.eq_dec fj fi) as [->|Ne]; [rewrite We; apply NoDup_snoc'; auto|rewrite Wo by exact Ne; apply O2].
    + rewrite Sc. exact O3.
    + rewrite Si. intros f1 f2 r' I1 I2. apply IN in I1. apply IN in I2.
      destruct I1 as [(-> & ->)|I1], I2 as [(-> & Q)|I2]; try reflexivity.
      * exfalso. eapply NI; exact I2.
      * subst r'. exfalso. eapply NI; exact I1.
      * eapply O4; eassumption.
    + rewrite Sc, Si. intros e' t' r' fj I J. apply IN in J. destruct J as [(-> & ->)|J]; [|eapply O5; eassumption].
      apply Nu. left. eauto.
    + intros r' [(e' & t' & I)|(fj & I)].
      * rewrite Sc in I. apply O6. left. eauto.
      * rewrite Si in I. apply IN in I. destruct I as [(-> & ->)|I]; [exact Lc|]. apply O6. right. eauto.
  - intros fj L Ne. assert (TT : triangulate E (with_faces z fi r) fj = triangulate E w fj).
    { apply triangulate_fields; [exact Sq|rewrite Wc; exact Sc|exact Si]. }
    rewrite TT. cbn [with_faces s_faces] in Ne |- *. destruct (Nat.eq_dec fj fi) as [->|Nf].
    + rewrite set_same. eauto.
    + rewrite set_other in Ne |- * by exact Nf. destruct (fills_faces _ _ _ Fz fj) as [X|(_ & X)]; [|exact X].
      rewrite X in Ne |- *. rewrite (Wt fj Nf). apply (i_cur _ Vu fj L). exact Ne.
Qed.

(** ** Placing a point *)

Lemma try_simplex_inv : oriented E -> forall s c x b d s', In c (candidates E) -> c_point c < np E -> inv s ->
  ~ inserted s (c_point c) -> try_simplex E s c x = Ok (b, d, s') ->
  inv s' /\ (b = false -> same_mesh s s').
Proof.
  intros Or s c [k|k|] b d s' Ic Lc V N H; cbn [try_simplex] in H.
  - split; [eapply try_vertex_inv; eassumption|]. intros ->. apply try_vertex_spec in H. destruct H as (_ & C & I & Q & _).
    cbn [s_p] in Q. unfold same_mesh. rewrite C, I, Q. auto.
  - eapply try_edge_inv; eassumption.
  - eapply try_face_inv; eassumption.
Qed.

Lemma same_inserted : forall s s' : st, same_mesh s s' -> forall r, inserted s' r <-> inserted s r.
Proof. intros s s' (_ & C & I). apply inserted_same; assumption. Qed.

Lemma same_trans : forall s s' s'' : st, same_mesh s s' -> same_mesh s' s'' -> same_mesh s s''.
Proof.
  intros s s' s'' (A1 & A2 & A3) (B1 & B2 & B3). split; [|split]; intros; [rewrite B1; apply A1|rewrite B2; apply A2|rewrite B3; apply A3].
Qed.

Lemma same_fills : forall s s', fills E s s' -> same_mesh s s'.
Proof. intros s s' F. unfold same_mesh. rewrite (fills_p _ _ _ F), (fills_chain _ _ _ F), (fills_interior _ _ _ F). auto. Qed.

Lemma cascade_inv : oriented E -> forall l s c b d s', In c (candidates E) -> c_point c < np E -> inv s ->
  ~ inserted s (c_point c) -> cascade E s c l = Ok (b, d, s') -> inv s' /\ (b = false -> same_mesh s s').
Proof.
  intros Or. induction l as [|x l IH]; intros s c b d s' Ic Lc V N H; cbn [cascade] in H.
  - inversion H. subst. split; [exact V|]. intros _. repeat split.
  - inv_bind H. destruct p as [[ok d0] t]. cbn [fst snd] in H.
    destruct (try_simplex_inv Or _ _ _ _ _ _ Ic Lc V N EQ) as (Vt & S0). destruct ok.
    + inversion H. subst. split; [exact Vt|discriminate].
    + specialize (S0 eq_refl). apply IH in H; try assumption.
      * destruct H as (H & S1). split; [exact H|]. intros B. eapply same_trans; [exact S0|exact (S1 B)].
      * rewrite (same_inserted _ _ S0). exact N.
Qed.

Lemma place_inv : oriented E -> watchful E -> arranged E -> forall s c b d s', In c (candidates E) -> inv s ->
  place E s c = Ok (b, d, s') -> inv s' /\ (b = false -> same_mesh s s').
Proof.
  intros Or Wa Pm s c b d s' Ic V H. pose proof (points_below E Pm c Ic) as Lc. unfold place in H. inv_bind H.
  destruct p as [[ok d0] t]. cbn [fst snd] in H.
  assert (X : inv t /\ (ok = false -> same_mesh s t)).
  { assert (SAME : inv s /\ (ok = false -> same_mesh s s)) by (split; [exact V|intros _; repeat split]).
    unfold try_nearby in EQ. destruct (nearest _); [|inversion EQ; subst; exact SAME].
    destruct (near E _ _ _); [|inversion EQ; subst; exact SAME].
    split; [eapply try_vertex_inv; eassumption|]. intros ->. apply try_vertex_spec in EQ. destruct EQ as (_ & C & I & Q & _).
    unfold same_mesh. rewrite C, I, Q. auto. }
  destruct X as (Vt & St). destruct ok; [inversion H; subst; split; [exact Vt|discriminate]|].
  inv_bind H. rename s0 into u. apply look_fills in EQ0. pose proof (inv_fills _ _ Vt EQ0) as Vu.
  assert (Su : same_mesh s u) by (eapply same_trans; [exact (St eq_refl)|apply same_fills; exact EQ0]).
  destruct (satisfied E u c) eqn:Sa; [inversion H; subst; split; [exact Vu|intros _; exact Su]|].
  assert (N : ~ inserted u (c_point c)).
  { intros I. assert (satisfied E u c = true) by (apply Wa, inserted_patch; assumption). congruence. }
  destruct (cascade_inv Or _ _ _ _ _ _ Ic Lc Vu N H) as (Vs & Ss). split; [exact Vs|].
  intros B. eapply same_trans; [exact Su|exact (Ss B)].
Qed.

Lemma snap_inv : oriented E -> watchful E -> arranged E -> forall fuel s, snap E fuel = Ok (Some s) -> inv s.
Proof.
  intros Or Wa Pm fuel s H. unfold snap in H. revert H. apply (loop_inv E inv); [|apply inv_start].
  intros s0 c b d s' I Q H. eapply place_inv; eassumption.
Qed.

Lemma patches : oriented E -> watchful E -> arranged E -> forall fuel r, snapper E fuel = Ok (Some r) ->
  exists s rows parts, snap E fuel = Ok (Some s) /\ placed_once E s /\
    NoDup rows /\ r_vertices r = map (s_p s) rows /\
    map (renamed rows) (r_faces r) = concat parts /\ length parts = num_faces E /\
    (forall fi, fi < num_faces E -> exists b, triangulate E s fi = Ok (b, nth fi parts [])).
Proof.
  intros Or Wa Pm fuel r H. unfold snapper in H. inv_bind H. destruct o as [s|]; [|discriminate].
  inv_bind H. destruct p as [[h d] t]. cbn [fst snd] in H. inv_bind H. destruct p as [vs fs]. inversion H. subst. clear H.
  cbn [r_vertices r_faces fst snd]. pose proof (snap_inv Or Wa Pm _ _ EQ) as V.
  apply count_spec in EQ0. destruct EQ0 as (_ & F). apply emit_spec in EQ1.
  destruct EQ1 as (rows & u & ps & G & ND & B & -> & _ & M & Q & Fa).
  exists s, rows, (map snd ps). split; [reflexivity|]. split; [apply V|]. split; [exact ND|].
  split; [rewrite (fills_p _ _ _ F); reflexivity|]. split; [rewrite M, flat_map_concat_map; reflexivity|].
  split; [rewrite map_length, <- (map_length fst), Q, seq_length; reflexivity|].
  intros fi L. assert (Lp : fi < length ps) by (rewrite <- (map_length fst), Q, seq_length; exact L).
  destruct (nth_error ps fi) as [x|] eqn:Nx; [|apply nth_error_None in Nx; lia].
  assert (X1 : fst x = fi).
  { apply (map_nth_error fst) in Nx. rewrite Q in Nx. apply nth_error_nth with (d := 0) in Nx. rewrite seq_nth in Nx by exact L. lia. }
  assert (X2 : nth fi (map snd ps) [] = snd x) by (apply nth_error_nth, map_nth_error; exact Nx).
  rewrite X2. apply nth_error_In in Nx. rewrite Forall_forall in Fa. apply Fa in Nx. rewrite X1 in Nx.
  pose proof (inv_fills _ _ (inv_fills _ _ V F) G) as Vu.
  assert (TT : triangulate E u fi = triangulate E s fi) by (rewrite (fills_triangulate _ _ _ _ G); apply fills_triangulate; exact F).
  destruct Nx as [(Z & Ne)|(_ & Z)].
  - rewrite <- TT, <- Z. apply (i_cur _ Vu fi L). rewrite Z. exact Ne.
  - rewrite <- (fills_triangulate _ _ _ fi F). exact Z.
Qed.

Lemma rejected : oriented E -> watchful E -> arranged E -> forall s, reachable E s ->
  placed_once E s /\ current E s /\
  forall c d s', In c (candidates E) -> place E s c = Ok (false, d, s') -> same_mesh s s'.
Proof.
  intros Or Wa Pm s R. assert (V : inv s).
  { induction R as [|s0 c b d s' R IH Ic H]; [apply inv_start|]. eapply place_inv; eassumption. }
  split; [apply V|]. split; [apply V|]. intros c d s' Ic H. eapply place_inv; [exact Or|exact Wa|exact Pm|exact Ic|exact V|exact H|reflexivity].
Qed.

(** ** The order on an edge *)

Lemma insert_sorted : weak_order E -> forall t v l, StronglySorted (fun x y => lt E (fst y) (fst x) = false) l ->
  StronglySorted (fun x y => lt E (fst y) (fst x) = false) (insert_at E t v l).
Proof.
  intros (As & Nt) t v. induction l as [|x l IH]; intros H; cbn [insert_at]; [repeat constructor|].
  inversion H as [|? ? Hl Hx]. subst. destruct (lt E (fst x) t) eqn:L.
  - constructor; [apply IH; exact Hl|]. apply Forall_forall. intros y I. apply insert_at_in in I. destruct I as [->|I].
    + cbn [fst]. apply As. exact L.
    + rewrite Forall_forall in Hx. apply Hx. exact I.
  - constructor; [exact H|]. apply Forall_cons; [exact L|]. eapply Forall_impl; [|exact Hx]. intros y Y. cbn [fst].
    eapply Nt; [exact L|exact Y].
Qed.

Lemma filter_sorted : forall {B} (R : B -> B -> Prop) g l, StronglySorted R l -> StronglySorted R (filter g l).
Proof.
  intros B R g. induction l as [|x l IH]; intros H; [exact H|]. inversion H as [|? ? Hl Hx]. subst. cbn [filter].
  destruct (g x); [|auto]. constructor; [auto|]. apply Forall_forall. intros y I. apply filter_In in I.
  rewrite Forall_forall in Hx. apply Hx. apply I.
Qed.

Lemma order_eq : forall s s' : st, s_chain s' = s_chain s -> in_order E s -> in_order E s'.
Proof. intros s s' C H. unfold in_order. rewrite C. exact H. Qed.

Lemma order_with : forall (s : st) e l, in_order E s -> StronglySorted (fun x y => lt E (fst y) (fst x) = false) l ->
  in_order E (with_chain s e l).
Proof.
  intros s e l H L e'. cbn [with_chain s_chain]. destruct (edge_eqb_spec e' e) as [->|Ne].
  - rewrite set_edge_same. exact L.
  - rewrite set_edge_other by exact Ne. apply H.
Qed.

Lemma try_edge_order : weak_order E -> forall s c k b d s', in_order E s -> try_edge E s c k = Ok (b, d, s') -> in_order E s'.
Proof.
  intros WO s c k b d s' O H. unfold try_edge in H.
  destruct (lt E _ _); [|inversion H; subst; exact O].
  match type of H with context [insert_at E ?t0] => set (t := t0) in H end. clearbody t.
  match type of H with context [faces_of E ?e0] => set (e := e0) in H end. clearbody e.
  destruct (_ <? 2); [inversion H; subst; exact O|].
  inv_bind H. rename s0 into u. apply look_fills in EQ. apply (order_eq _ _ (fills_chain _ _ _ EQ)) in O.
  match type of H with context [retriangulate E ?w0] => set (w := w0) in H end.
  assert (Ow : in_order E w).
  { apply order_with; [exact O|]. apply insert_sorted; [exact WO|]. apply O. }
  clearbody w. inv_bind H. destruct p as [ok r]. cbn [fst snd] in H. destruct ok.
  2:{ inversion H. subst. apply order_with; [exact Ow|]. apply filter_sorted, Ow. }
  inv_bind H. rename s0 into z. apply look_outside_fills in EQ1. destruct EQ1 as (Fz & _).
  apply (order_eq _ _ (fills_chain _ _ _ Fz)) in Ow. destruct (accept E z r).
  2:{ inversion H. subst. apply order_with; [exact Ow|]. apply filter_sorted, Ow. }
  inv_bind H. inversion H. subst. apply look_fills in EQ1. eapply order_eq; [apply EQ1|].
  destruct (fills_store r z) as (_ & _ & C & _). eapply order_eq; [exact C|exact Ow].
Qed.

Lemma try_face_chain : forall s c b d s', try_face E s c = Ok (b, d, s') -> s_chain s' = s_chain s.
Proof.
  intros s c b d s' H. unfold try_face in H. inv_bind H. rename s0 into t. apply look_fills in EQ.
  inv_bind H. destruct p as [ok r]. cbn [fst snd] in H. destruct (ok && _).
  - inv_bind H. rename s0 into u. apply look_outside_fills in EQ1. destruct EQ1 as (F & _).
    apply fills_chain in F. cbn [with_interior with_anchor s_chain] in F. rewrite (fills_chain _ _ _ EQ) in F.
    destruct (accept E u _).
    + inv_bind H. inversion H. subst. apply look_fills in EQ1. rewrite (fills_chain _ _ _ EQ1). exact F.
    + inversion H. subst. exact F.
  - inversion H. subst. cbn [with_interior with_anchor s_chain]. apply EQ.
Qed.

Lemma try_vertex_order : forall s c v b d s', in_order E s -> try_vertex E s c v = Ok (b, d, s') -> in_order E s'.
Proof. intros s c v b d s' O H. apply try_vertex_spec in H. destruct H as (_ & C & _). eapply order_eq; eassumption. Qed.

Lemma cascade_order : weak_order E -> forall l s c b d s', in_order E s -> cascade E s c l = Ok (b, d, s') -> in_order E s'.
Proof.
  intros WO. induction l as [|x l IH]; intros s c b d s' O H; cbn [cascade] in H; [inversion H; subst; exact O|].
  inv_bind H. destruct p as [[ok d0] t]. cbn [fst snd] in H.
  assert (Ot : in_order E t).
  { destruct x; cbn [try_simplex] in EQ.
    - eapply try_vertex_order; eassumption.
    - eapply try_edge_order; eassumption.
    - eapply order_eq; [eapply try_face_chain; eassumption|exact O]. }
  destruct ok; [inversion H; subst; exact Ot|eauto].
Qed.

Lemma place_order : weak_order E -> forall s c b d s', in_order E s -> place E s c = Ok (b, d, s') -> in_order E s'.
Proof.
  intros WO s c b d s' O H. unfold place in H. inv_bind H. destruct p as [[ok d0] t]. cbn [fst snd] in H.
  assert (Ot : in_order E t).
  { unfold try_nearby in EQ. destruct (nearest _); [|inversion EQ; subst; exact O].
    destruct (near E _ _ _); [|inversion EQ; subst; exact O]. eapply try_vertex_order; eassumption. }
  destruct ok; [inversion H; subst; exact Ot|]. inv_bind H. apply look_fills in EQ0.
  apply (order_eq _ _ (fills_chain _ _ _ EQ0)) in Ot.
  destruct (satisfied E _ _); [inversion H; subst; exact Ot|]. eapply cascade_order; eassumption.
Qed.

Lemma snap_order : weak_order E -> forall fuel s, snap E fuel = Ok (Some s) -> in_order E s.
Proof.
  intros WO fuel s H. unfold snap in H. revert H. apply (loop_inv E (in_order E)); [|intros e; constructor].
  intros s0 c b d s' I O H. eapply place_order; eassumption.
Qed.

End Proofs.

(** The marks of the boundary. *)
Lemma combine_app : forall {A B : Type} (xs xs' : list A) (ys ys' : list B), length xs = length ys -> combine (xs ++ xs') (ys ++ ys') = combine xs ys ++ combine xs' ys'.
Proof. intros A B. induction xs as [|x xs IH]; intros xs' ys ys' L; destruct ys as [|y ys]; cbn in *; try lia; [reflexivity|]. rewrite IH by lia. reflexivity. Qed.
Lemma combine_const : forall {A B : Type} (c : B) (xs : list A) v w, In (v, w) (combine xs (map (fun _ => c) xs)) -> In v xs /\ w = c.
Proof.
  intros A B c. induction xs as [|x xs IH]; intros v w H; cbn in H; [contradiction|].
  destruct H as [H|H]; [injection H as -> ->; split; [left; reflexivity|reflexivity]|]. destruct (IH v w H). split; [right; assumption|assumption].
Qed.
Lemma marks : forall {P A T : Type} (s : state P A T) f, length (boundary_edges s f) = length (boundary s f) /\
  forall v e o, In (v, (e, o)) (combine (boundary s f) (boundary_edges s f)) -> e < 3 /\
    match o with None => In v (side s f e) | Some e' => e' < 3 /\ v = corner f e /\ v = corner f ((e' + 1) mod 3) end.
Proof.
  intros P A T s f. unfold boundary_edges, boundary. split.
  - cbn [length]. rewrite !app_length. cbn [length]. rewrite !app_length. cbn [length]. rewrite !map_length. reflexivity.
  - intros v e o H. cbn [combine] in H. destruct H as [H|H]; [injection H as <- <- <-; repeat split; lia|].
    rewrite combine_app in H by (rewrite map_length; reflexivity). apply in_app_or in H. destruct H as [H|H].
    { destruct (combine_const _ _ _ _ H) as [I X]. injection X as -> ->. split; [lia|exact I]. }
    cbn [combine] in H. destruct H as [H|H]; [injection H as <- <- <-; repeat split; lia|].
    rewrite combine_app in H by (rewrite map_length; reflexivity). apply in_app_or in H. destruct H as [H|H].
    { destruct (combine_const _ _ _ _ H) as [I X]. injection X as -> ->. split; [lia|exact I]. }
    cbn [combine] in H. destruct H as [H|H]; [injection H as <- <- <-; repeat split; lia|].
    destruct (combine_const _ _ _ _ H) as [I X]. injection X as -> ->. split; [lia|exact I].
Qed.
