From Coq Require Import List Arith ZArith Reals Bool Lia.
From Verif Require Import Model.Outcome Model.MeshDefects Model.Solver Model.Lattice Proofs.LatticeVertices Proofs.LatticeLayers Spec.Lattice.
Import ListNotations.

Lemma eval_sampled : forall field f N l xs, sampled field N l -> NoDup xs -> (forall x, In x xs -> l_nodes l x = None) ->
  (forall ys, f ys = Ok (map field ys)) ->
  exists l', evaluate_field f (fold_left emplace_node xs l) = Ok (l', None) /\ sampled field (N ++ xs) l'.
Proof.
  intros field f N l xs (V0 & P0 & NV & NN) ND AB F. destruct (emplace_all xs l ND AB) as (P1 & V1 & N1 & N2). cbv zeta in *.
  set (l1 := fold_left emplace_node xs l) in *. rewrite P0 in P1. cbn [app] in P1. unfold evaluate_field. rewrite P1.
  destruct xs as [|a xs'].
  - exists l1. split; auto. rewrite app_nil_r. split; [congruence|]. split; [auto|]. split.
    + intros x n. rewrite N2 by auto. apply NV.
    + intros x. rewrite N2 by auto. apply NN.
  - destruct (set_values_spec field (a :: xs') l1 ND N1) as (l2 & E2 & V2 & P2 & M1 & M2). rewrite F, E2. cbn [bind].
    eexists. split; [reflexivity|]. split; [cbn [l_vertices]; congruence|]. split; [auto|]. cbn [l_nodes].
    assert (forall x, In x (a :: xs') \/ ~ In x (a :: xs')) as DEC by (intros x; destruct (in_dec lc_dec x (a :: xs')); auto).
    split; intros x.
    + intros n. destruct (DEC x) as [X|X]; [rewrite M1 by auto; congruence|]. rewrite M2, N2 by auto. apply NV.
    + rewrite in_app_iff. destruct (DEC x) as [X|X].
      * rewrite M1 by auto. split; [auto|discriminate].
      * rewrite M2, N2 by auto. rewrite NN. tauto.
Qed.

Lemma add_nodes_spec : forall eligible xs l, exists added,
  add_nodes eligible l xs = (fold_left emplace_node added l, added) /\ NoDup added /\
  (forall x, In x added -> l_nodes l x = None /\ eligible x = true /\ In x xs) /\
  (forall x, In x xs -> eligible x = true -> l_nodes l x <> None \/ In x added).
Proof.
  intros eligible. induction xs as [|a xs IH]; intros l; cbn [add_nodes].
  - exists []. split; auto. split; [constructor|]. split; intros x [].
  - destruct (l_nodes l a) as [n|] eqn:Q; [|destruct (eligible a) eqn:EL].
    + destruct (IH l) as (ad & -> & ND & A1 & A2). exists ad. split; auto. split; auto. split.
      * intros x X. apply A1 in X. cbn. tauto.
      * intros x [<-|X] EX; [left; congruence|auto].
    + destruct (IH (emplace_node l a)) as (ad & E1 & ND & A1 & A2). rewrite E1. exists (a :: ad).
      assert (l_nodes (emplace_node l a) a = Some new_node) as NA by (unfold emplace_node; rewrite Q; cbn; apply upd_lc_same).
      assert (forall x, x <> a -> l_nodes (emplace_node l a) x = l_nodes l x) as NO by (intros x X; unfold emplace_node; rewrite Q; cbn; apply upd_lc_other; auto).
      split; auto. split; [constructor; auto; intros X; apply A1 in X; destruct X as [X _]; congruence|]. split.
      * intros x [<-|X]; [cbn; auto|]. apply A1 in X. destruct X as (X1 & X2 & X3). split; [|cbn; auto].
        rewrite <- NO; auto. intros ->. congruence.
      * intros x X EX. destruct (lc_dec x a) as [->|D]; [cbn; auto|]. destruct X as [->|X]; [congruence|].
        destruct (A2 x X EX) as [H|H]; [rewrite NO in H by auto; auto|cbn; auto].
    + destruct (IH l) as (ad & -> & ND & A1 & A2). exists ad. split; auto. split; auto. split.
      * intros x X. apply A1 in X. cbn. tauto.
      * intros x [<-|X] EX; [congruence|auto].
Qed.

Lemma sampled_cleared : forall field, sampled field [] cleared.
Proof. intros field. split; auto. split; auto. split; [discriminate|]. intros x. cbn. intuition congruence. Qed.

Lemma track_spec : forall field f eligible, (forall ys, f ys = Ok (map field ys)) -> forall rounds N l, sampled field N l ->
  (forall x, In x N -> eligible x = true) ->
  exists l' N', track eligible f l rounds = Ok (l', None) /\ sampled field N' l' /\ incl N N' /\ (forall x, In x N' -> eligible x = true) /\
    forall xs x, In xs rounds -> In x xs -> eligible x = true -> In x N'.
Proof.
  intros field f eligible F. induction rounds as [|xs rounds IH]; intros N l S EL; cbn [track].
  - exists l, N. split; auto. split; auto. split; [apply incl_refl|]. split; auto. intros xs x [].
  - destruct (add_nodes_spec eligible xs l) as (ad & -> & ND & A1 & A2).
    destruct (eval_sampled field f N l ad S ND) as (l1 & -> & S1); auto; [intros x X; apply A1; auto|]. cbn [bind].
    destruct (IH (N ++ ad) l1 S1) as (l' & N' & R & S' & I & E' & AL).
    { intros x X. apply in_app_iff in X. destruct X as [X|X]; auto. apply A1 in X. tauto. }
    exists l', N'. split; auto. split; auto. split; [intros x X; apply I; apply in_app_iff; auto|]. split; auto.
    intros ys x [<-|Y] X EX; [|eauto]. apply I. apply in_app_iff. destruct (A2 x X EX) as [H|H]; auto. left.
    destruct S as (_ & _ & _ & NN). apply NN. auto.
Qed.

Definition surface_in (field : lc -> num) (N : list lc) (x : lc) : Prop :=
  exists e, e < 14 /\ In (neighbor x e) N /\ sgn field x <> sgn field (neighbor x e).

Lemma is_surface_spec : forall field N l x, sampled field N l -> In x N ->
  exists b, is_surface_node l x = Ok b /\ (b = true <-> surface_in field N x).
Proof.
  intros field N l x (V0 & P0 & NV & NN) X. unfold is_surface_node, at_.
  destruct (l_nodes l x) as [n|] eqn:Q; [|exfalso; apply (NN x) in X; congruence]. cbn [bind].
  pose proof (NV _ _ Q) as ->. cbn [value set_value n_value bind].
  set (go := fix go (es : list nat) := _).
  assert (forall es, (forall e, In e es -> e < 14) -> exists b, go es = Ok b /\
    (b = true <-> exists e, In e es /\ In (neighbor x e) N /\ sgn field x <> sgn field (neighbor x e))) as G.
  { induction es as [|e es IH]; intros B; unfold go; fold go.
    - exists false. split; auto. split; [discriminate|]. intros (e & [] & _).
    - destruct IH as (b & E1 & E2); [intros; apply B; right; auto|]. destruct (l_nodes l (neighbor x e)) as [n1|] eqn:Q1.
      + pose proof (NV _ _ Q1) as ->. cbn [value set_value n_value bind].
        assert (In (neighbor x e) N) as Y by (apply NN; congruence).
        destruct (Bool.eqb (neg (field (neighbor x e))) (neg (field x))) eqn:D.
        * apply eqb_prop in D. exists b. split; [exact E1|]. rewrite E2. split; intros (k & K1 & K2 & K3).
          -- exists k. split; [right; auto|auto].
          -- destruct K1 as [<-|K1]; [exfalso; apply K3; symmetry; exact D|]. eauto.
        * exists true. split; auto. split; auto. intros _. exists e. split; [left; auto|]. split; auto.
          intros W. apply eqb_false_iff in D. apply D. symmetry. exact W.
      + exists b. split; [exact E1|]. rewrite E2. split; intros (k & K1 & K2 & K3).
        * exists k. split; [right; auto|auto].
        * destruct K1 as [<-|K1]; [exfalso; apply NN in K2; congruence|]. eauto. }
  destruct (G (seq 0 14)) as (b & E1 & E2); [intros e I; apply in_seq in I; lia|]. exists b. split; [exact E1|]. rewrite E2. unfold surface_in.
  split; intros (e & A & B); exists e; (split; [|auto]); [apply in_seq in A; lia|apply in_seq; lia].
Qed.

Lemma surface_nodes_spec : forall field N l xs, sampled field N l -> incl xs N ->
  exists ys, surface_nodes l xs = Ok ys /\ incl ys xs /\ forall x, In x ys <-> In x xs /\ surface_in field N x.
Proof.
  intros field N l xs S. induction xs as [|a xs IH]; intros I; cbn [surface_nodes].
  - exists []. split; auto. split; [intros x []|]. intros x. cbn. tauto.
  - destruct (is_surface_spec field N l a S) as (b & -> & B); [apply I; left; auto|]. cbn [bind].
    destruct IH as (ys & -> & J1 & J2); [intros x X; apply I; right; auto|]. cbn [bind]. eexists. split; [reflexivity|]. split.
    + intros x. destruct b; cbn; intros X; intuition.
    + intros x. destruct b; cbn; rewrite ?J2; split.
      * intros [<-|X]; intuition.
      * intros [[<-|X] Y]; auto.
      * tauto.
      * intros [[<-|X] Y]; auto. exfalso. apply B in Y. discriminate.
Qed.

Section Fill.
Variables (field : lc -> num) (f : field_fn) (eligible : lc -> bool) (B : list lc).
Hypothesis F : forall ys, f ys = Ok (map field ys).
Hypothesis HB : forall x, eligible x = true -> In x B.

Definition absent (l : lattice) (x : lc) : bool := match l_nodes l x with Some _ => false | None => true end.
Definition missing (l : lattice) : nat := length (filter (absent l) B).

Lemma filter_le : forall (p q : lc -> bool) m, (forall x, p x = true -> q x = true) -> length (filter p m) <= length (filter q m).
Proof.
  intros p q m H. induction m as [|a m IH]; cbn; auto. specialize (H a). destruct (p a); [rewrite H by auto; cbn; lia|].
  destruct (q a); cbn; lia.
Qed.
Lemma filter_lt : forall (p q : lc -> bool) m x, (forall x, p x = true -> q x = true) -> In x m -> p x = false -> q x = true ->
  length (filter p m) < length (filter q m).
Proof.
  intros p q m x H I P Q. induction m as [|a m IH]; [inversion I|]. cbn. destruct I as [<-|I].
  - rewrite P, Q. cbn. pose proof (filter_le p q m H). lia.
  - specialize (IH I). pose proof (H a). destruct (p a); [rewrite H0 by auto; cbn; lia|]. destruct (q a); cbn; lia.
Qed.

(** All eligible nodes around [x] are sampled. *)
Definition done (N : list lc) (x : lc) : Prop := forall e, e < 14 -> eligible (neighbor x e) = true -> In (neighbor x e) N.
Definition edge_of (N : list lc) (a b : lc) : Prop :=
  In a N /\ In b N /\ (exists e, e < 14 /\ b = neighbor a e) /\ sgn field a <> sgn field b.
Lemma edge_sym : forall N a b, edge_of N a b -> edge_of N b a.
Proof.
  intros N a b (A & B' & (e & L & ->) & S). split; [auto|]. split; [auto|]. split; [|auto]. exists (opposite e).
  split; [apply opposite_lt; auto|]. symmetry. apply neighbor_opposite. auto.
Qed.

Lemma fill_spec : forall fuel N l frontier, sampled field N l -> missing l < fuel -> incl frontier N ->
  (forall x, In x N -> eligible x = true) ->
  (forall a b, edge_of N a b -> done N a \/ done N b \/ In a frontier \/ In b frontier) ->
  exists l' N', fill fuel eligible f l frontier = Ok (Some (l', None)) /\ sampled field N' l' /\ incl N N' /\
    (forall x, In x N' -> eligible x = true) /\ forall a b, edge_of N' a b -> done N' a \/ done N' b.
Proof.
  induction fuel as [|fuel IH]; intros N l frontier S M FI EL INV; [lia|].
  destruct frontier as [|x0 fr]; cbn [fill].
  - exists l, N. split; auto. split; auto. split; [apply incl_refl|]. split; auto. intros a b H. destruct (INV a b H) as [H1|[H1|[[]|[]]]]; auto.
  - set (frontier := x0 :: fr) in *. destruct (add_nodes_spec eligible (flat_map around frontier) l) as (ad & -> & ND & A1 & A2).
    destruct (eval_sampled field f N l ad S ND) as (l1 & -> & S1); auto; [intros x X; apply A1; auto|]. cbn [bind].
    destruct (surface_nodes_spec field (N ++ ad) l1 ad S1) as (fr' & -> & J1 & J2); [intros x X; apply in_app_iff; auto|]. cbn [bind].
    assert (forall x, l_nodes l x <> None <-> In x N) as NN by apply S.
    assert (forall x, l_nodes l1 x <> None <-> In x (N ++ ad)) as NN1 by apply S1.
    assert (forall x, In x (N ++ ad) -> eligible x = true) as EL1.
    { intros x X. apply in_app_iff in X. destruct X as [X|X]; auto. apply A1 in X. tauto. }
    assert (forall x, In x frontier -> done (N ++ ad) x) as DF.
    { intros x X e L E'. apply in_app_iff. destruct (A2 (neighbor x e)) as [H|H]; auto; [|left; apply NN; auto].
      apply in_flat_map. exists x. split; auto. unfold around. apply in_map. apply in_seq. lia. }
    assert (forall x, done N x -> done (N ++ ad) x) as DM by (intros x X e L E'; apply in_app_iff; left; apply X; auto).
    assert (forall a b, edge_of (N ++ ad) a b -> In a ad -> In a fr') as SURF.
    { intros a b (A & B' & (e & L & ->) & D) IA. apply J2. split; auto. exists e. auto. }
    assert (forall a b, edge_of (N ++ ad) a b -> done (N ++ ad) a \/ done (N ++ ad) b \/ In a fr' \/ In b fr') as INV1.
    { intros a b H. destruct (in_dec lc_dec a ad) as [IA|IA]; [right; right; left; eapply SURF; eauto|].
      destruct (in_dec lc_dec b ad) as [IB|IB]; [right; right; right; eapply SURF; eauto; apply edge_sym; eauto|].
      destruct H as (A & B' & Q). apply in_app_iff in A, B'. destruct A as [A|A]; [|tauto]. destruct B' as [B'|B']; [|tauto].
      destruct (INV a b) as [H|[H|[H|H]]]; auto. split; auto. }
    destruct ad as [|y ad'] eqn:AD.
    + assert (fr' = []) as -> by (destruct fr' as [|z ?]; auto; exfalso; apply (J1 z); left; auto).
      rewrite app_nil_r in *. exists l1, N. split; [destruct fuel; auto|]. split; auto. split; [apply incl_refl|]. split; auto.
      intros a b H. destruct (INV1 a b H) as [H1|[H1|[[]|[]]]]; auto.
    + rewrite <- AD in *. destruct (IH (N ++ ad) l1 fr' S1) as (l' & N' & R & S' & I & E' & Q); auto.
      * assert (missing l1 < missing l); [|lia]. apply (filter_lt (absent l1) (absent l) B y).
        -- intros x. unfold absent. destruct (l_nodes l1 x) eqn:Q1; [discriminate|]. destruct (l_nodes l x) eqn:Q2; auto. intros _. exfalso.
           assert (l_nodes l x <> None) as W by congruence. apply NN in W. assert (In x (N ++ ad)) as W' by (apply in_app_iff; auto).
           apply NN1 in W'. congruence.
        -- apply HB. apply A1. rewrite AD. left. auto.
        -- unfold absent. assert (In y (N ++ ad)) as W by (apply in_app_iff; right; rewrite AD; left; auto). apply NN1 in W.
           destruct (l_nodes l1 y); congruence.
        -- unfold absent. destruct (A1 y) as [-> _]; auto. rewrite AD. left. auto.
      * intros x X. apply J1 in X. apply in_app_iff. auto.
      * exists l', N'. split; auto. split; auto. split; auto. intros x X. apply I. apply in_app_iff. auto.
Qed.

Theorem complete_surface_spec : forall fuel N l keys, sampled field N l -> length B < fuel -> (forall x, In x keys <-> In x N) ->
  (forall x, In x N -> eligible x = true) ->
  exists l' N', complete_surface fuel eligible f l keys = Ok (Some (l', None)) /\ sampled field N' l' /\ incl N N' /\
    (forall x, In x N' -> eligible x = true) /\ forall a b, edge_of N' a b -> done N' a \/ done N' b.
Proof.
  intros fuel N l keys S M K EL. unfold complete_surface.
  destruct (surface_nodes_spec field N l keys S) as (fr & -> & J1 & J2); [intros x X; apply K; auto|]. cbn [bind].
  apply fill_spec; auto.
  - eapply Nat.le_lt_trans; [|exact M]. unfold missing. generalize B. intros m. induction m as [|a m IHm]; cbn; auto. destruct (absent l a); cbn; lia.
  - intros x X. apply K. auto.
  - intros a b (A & B' & (e & L & ->) & D). right. right. left. apply J2. split; [apply K; auto|]. exists e. auto.
Qed.
End Fill.
