From Coq Require Import List Arith ZArith Reals Bool Lia Lra.
From Verif Require Import Model.Outcome Model.MeshDefects Model.Solver Model.Lattice Proofs.LatticeVertices Spec.Lattice.
Import ListNotations.

Definition cross (field : lc -> num) (N : list lc) (id : E) : Prop :=
  snd id < 7 /\ In (fst id) N /\ In (neighbor (fst id) (snd id)) N /\
  sgn field (fst id) <> sgn field (neighbor (fst id) (snd id)).

Lemma neighbor_hi : forall x e, 7 <= e < 14 -> neighbor (neighbor x e) (e - 7) = x.
Proof. intros x e H. rewrite <- (opposite_lo e H). apply neighbor_opposite. lia. Qed.
Lemma neighbor_lo : forall x d, d < 7 -> neighbor (neighbor x d) (d + 7) = x.
Proof. intros x d H. rewrite <- (opposite_hi d H). apply neighbor_opposite. lia. Qed.

Lemma cross_eid : forall field N x e, e < 14 ->
  (cross field N (eid x e) <-> In x N /\ In (neighbor x e) N /\ sgn field x <> sgn field (neighbor x e)).
Proof.
  intros field N x e L. unfold cross. destruct (Nat.lt_ge_cases e 7) as [H|H].
  - rewrite eid_lo by auto. cbn [fst snd]. tauto.
  - rewrite eid_hi by auto. cbn [fst snd]. rewrite neighbor_hi by auto. split.
    + intros (_ & A & B & C). auto.
    + intros (A & B & C). split; [lia|]. auto.
Qed.
Lemma cross_id : forall field N id, cross field N id -> id = eid (fst id) (snd id) /\ snd id < 7.
Proof. intros field N [a d] [H _]. cbn in *. rewrite eid_lo by auto. auto. Qed.

(** ** Adding and evaluating nodes *)

Lemma emplace_all : forall xs l, NoDup xs -> (forall x, In x xs -> l_nodes l x = None) ->
  let l' := fold_left emplace_node xs l in
  l_pending l' = l_pending l ++ xs /\ l_vertices l' = l_vertices l /\
  (forall x, In x xs -> l_nodes l' x = Some new_node) /\ (forall x, ~ In x xs -> l_nodes l' x = l_nodes l x).
Proof.
  induction xs as [|a xs IH]; intros l ND H; cbn [fold_left].
  - cbv zeta. rewrite app_nil_r. split; [auto|]. split; [auto|]. split; [intros x []|auto].
  - inversion ND as [|? ? NI ND']; subst. assert (l_nodes l a = None) as A by (apply H; left; auto).
    unfold emplace_node at 2 4 6 8. rewrite A.
    set (l1 := Lattice (upd_lc (l_nodes l) a (Some new_node)) (l_pending l ++ [a]) (l_vertices l)).
    destruct (IH l1 ND') as (P & V & N1 & N2).
    { intros x X. unfold l1. cbn [l_nodes]. rewrite upd_lc_other by (intros ->; auto). apply H. right. auto. }
    cbv zeta in *. rewrite P, V. unfold l1. cbn [l_pending l_vertices]. rewrite <- app_assoc. split; [auto|]. split; [auto|].
    split.
    + intros x [<-|X]; [|apply N1; auto]. rewrite N2 by auto. unfold l1. cbn [l_nodes]. apply upd_lc_same.
    + intros x X. rewrite N2 by (intros Q; apply X; right; auto). unfold l1. cbn [l_nodes]. apply upd_lc_other.
      intros ->. apply X. left. auto.
Qed.

Lemma set_values_spec : forall field xs l, NoDup xs -> (forall x, In x xs -> l_nodes l x = Some new_node) ->
  exists l', set_values l xs (map field xs) = Ok l' /\ l_vertices l' = l_vertices l /\ l_pending l' = l_pending l /\
    (forall x, In x xs -> l_nodes l' x = Some (set_value new_node (field x))) /\
    (forall x, ~ In x xs -> l_nodes l' x = l_nodes l x).
Proof.
  intros field. induction xs as [|a xs IH]; intros l ND H; cbn [set_values map].
  - exists l. split; [auto|]. split; [auto|]. split; [auto|]. split; [intros x []|auto].
  - inversion ND as [|? ? NI ND']; subst. unfold at_. rewrite (H a (or_introl eq_refl)). cbn [bind].
    destruct (IH (set_node l a (Some (set_value new_node (field a)))) ND') as (l' & E' & V & P & N1 & N2).
    { intros x X. cbn [set_node l_nodes]. rewrite upd_lc_other by (intros ->; auto). apply H. right. auto. }
    exists l'. split; auto. split; auto. split; auto. split.
    + intros x [<-|X]; [|apply N1; auto]. rewrite N2 by auto. cbn [set_node l_nodes]. apply upd_lc_same.
    + intros x X. rewrite N2 by (intros Q; apply X; right; auto). cbn [set_node l_nodes]. apply upd_lc_other.
      intros ->. apply X. left. auto.
Qed.

(** Adding unsampled nodes and evaluating the field there. *)
Lemma add_evaluated : forall field f T l xs, inv T l -> valued field l -> l_pending l = [] -> NoDup xs ->
  (forall x, In x xs -> l_nodes l x = None) ->
  (forall x e, In x xs -> e < 14 -> ~ In (eid x e) (ids l)) ->
  (forall ys, f ys = Ok (map field ys)) ->
  exists l', evaluate_field f (fold_left emplace_node xs l) = Ok (l', None) /\ inv T l' /\ valued field l' /\ l_pending l' = [] /\
    l_vertices l' = l_vertices l /\ forall x, l_nodes l' x <> None <-> l_nodes l x <> None \/ In x xs.
Proof.
  intros field f T l xs I V P ND AB FR F.
  destruct (emplace_all xs l ND AB) as (P1 & V1 & N1 & N2). cbv zeta in *. set (l1 := fold_left emplace_node xs l) in *.
  rewrite P in P1. cbn [app] in P1. unfold evaluate_field. rewrite P1.
  assert (forall l2 : lattice, l_vertices l2 = l_vertices l ->
    (forall x, In x xs -> l_nodes l2 x = Some (set_value new_node (field x))) ->
    (forall x, ~ In x xs -> l_nodes l2 x = l_nodes l x) -> inv T l2 /\ valued field l2 /\
    forall x, l_nodes l2 x <> None <-> l_nodes l x <> None \/ In x xs) as FIN.
  { intros l2 V2 M1 M2. destruct I as (I1 & I2 & I3 & I4 & I5).
    assert (forall x, In x xs \/ ~ In x xs) as DEC by (intros x; destruct (in_dec lc_dec x xs); auto).
    assert (ids l2 = ids l) as ID by (unfold ids; congruence).
    split; [|split].
    - split; [|split; [|split; [|split]]]; rewrite ?ID, ?V2; auto.
      + intros x n. destruct (DEC x) as [X|X]; [|rewrite M2 by auto; auto]. rewrite M1 by auto. intros Q. injection Q as <-.
        assert (forall e, T x e = None) as TN.
        { intros e. destruct (T x e) as [v|] eqn:Q; auto. exfalso. apply I2 in Q. destruct Q as (L & t & Q).
          apply (FR x e X L). apply nth_error_In in Q. apply (in_map ev) in Q. exact Q. }
        split.
        * intros e. cbn. rewrite TN. intuition congruence.
        * cbn. rewrite !TN. auto.
      + intros x n e. destruct (DEC x) as [X|X]; [|rewrite M2 by auto; apply I5]. rewrite M1 by auto. intros Q. injection Q as <-.
        cbn. split; [discriminate|]. intros [L Q]. exfalso. eapply FR; eauto.
    - intros x n. destruct (DEC x) as [X|X]; [rewrite M1 by auto; intros Q; injection Q as <-; auto|]. rewrite M2 by auto. apply V.
    - intros x. destruct (DEC x) as [X|X]; [rewrite M1 by auto|rewrite M2 by auto]; intuition congruence. }
  destruct xs as [|a xs'].
  - exists l1. split; [auto|]. destruct (FIN l1 V1) as (A & B & C); [intros x []|auto|].
    split; auto.
  - destruct (set_values_spec field (a :: xs') l1 ND N1) as (l2 & E2 & V2 & P2 & M1 & M2).
    rewrite F, E2. cbn [bind]. eexists. split; [reflexivity|]. cbn [l_nodes l_pending l_vertices].
    destruct (FIN (Lattice (l_nodes l2) [] (l_vertices l2))) as (A & B & C); cbn [l_nodes l_vertices]; auto; [congruence| |].
    + intros x X. rewrite M2 by auto. auto.
    + split; auto. split; auto. split; auto. split; [congruence|auto].
Qed.

(** ** The finished lattice *)

(** The lattice holds the surface of the nodes [N]. *)
Definition complete (field : lc -> num) (N : list lc) (l : lattice) : Prop :=
  (exists T, inv T l) /\ valued field l /\ Forall (at_crossing field) (l_vertices l) /\
  (forall id, In id (ids l) <-> cross field N id) /\
  (forall x, l_nodes l x <> None <-> In x N /\ exists e, e < 14 /\ In (eid x e) (ids l)).

Definition partial_layer (field : lc -> num) (N cur : list lc) (z : Z) (l : lattice) : Prop :=
  (exists T, inv T l) /\ valued field l /\ Forall (at_crossing field) (l_vertices l) /\ l_pending l = [] /\ NoDup cur /\
  (forall x, In x N -> (snd x < z)%Z /\ (snd x = z - 1 -> In x cur)%Z) /\ incl cur N /\
  (forall id, In id (ids l) <-> cross field N id) /\
  (forall x, l_nodes l x <> None <-> In x N /\ (In x cur \/ exists e, e < 14 /\ In (eid x e) (ids l))).

Lemma third_hi : forall x e, 7 <= e < 14 -> (snd x - 1 <= snd (neighbor x e) <= snd x)%Z.
Proof.
  intros [[a b] c] e [H1 H2]. revert e H2 H1.
  apply (lt14 (fun e => 7 <= e -> (snd (a, b, c) - 1 <= snd (neighbor (a, b, c) e) <= snd (a, b, c))%Z)); cbn; lia.
Qed.

Lemma layer_step : forall field f N cur z l xs, (forall ys, f ys = Ok (map field ys)) ->
  partial_layer field N cur z l -> NoDup xs -> Forall (fun x : lc => snd x = z) xs ->
  exists l1 l2 l3, evaluate_field f (fold_left emplace_node xs l) = Ok (l1, None) /\ generate_vertices l1 xs = Ok l2 /\
    remove_free_nodes l2 cur = Ok l3 /\ partial_layer field (N ++ xs) xs (z + 1) l3.
Proof.
  intros field f N cur z l xs F ((T & I) & V & AC & P & NDc & NZ & IC & ID & ND) NDx LX.
  rewrite Forall_forall in LX.
  assert (forall x, In x xs -> ~ In x N) as DJ by (intros x X Y; apply NZ in Y; apply LX in X; lia).
  assert (forall x e, In x xs -> e < 14 -> ~ In (eid x e) (ids l)) as FR.
  { intros x e X L Q. apply ID in Q. apply cross_eid in Q; auto. eapply DJ; eauto. tauto. }
  destruct (add_evaluated field f T l xs I V P NDx) as (l1 & E1 & I1 & V1 & P1 & VV1 & N1); auto.
  { intros x X. destruct (l_nodes l x) eqn:Q; auto. exfalso. assert (l_nodes l x <> None) as Y by congruence.
    apply ND in Y. eapply DJ; eauto. tauto. }
  assert (ids l1 = ids l) as ID1 by (unfold ids; congruence).
  destruct (gen_spec field T l1 xs I1 V1 NDx) as (l2 & T2 & E2 & I2 & S2 & P2 & A2 & G2).
  { intros x X. apply N1. auto. }
  { intros x e X L. rewrite ID1. apply FR; auto. lia. }
  { rewrite VV1. auto. }
  assert (forall x e, In x xs -> 7 <= e < 14 -> (l_nodes l1 (neighbor x e) <> None <-> In (neighbor x e) (N ++ xs))) as NB.
  { intros x e X L. rewrite N1, in_app_iff. split; [intros [H|H]; auto; left; apply ND in H; tauto|].
    intros [H|H]; auto. left. apply ND. split; auto. left. apply NZ; auto. pose proof (NZ _ H) as [B _].
    pose proof (third_hi x e L). apply LX in X. lia. }
  assert (forall id, In id (ids l2) <-> cross field (N ++ xs) id) as ID2.
  { intros id. rewrite G2, ID1, ID. split.
    - intros [H|(x & e & X & L & NN & S & ->)].
      + destruct H as (A & B & C & D). repeat split; auto; apply in_app_iff; auto.
      + apply cross_eid; [lia|]. split; [apply in_app_iff; auto|]. split; auto. apply NB; auto.
    - intros H. destruct id as [a d]. pose proof H as (A & B & C & D). cbn [fst snd] in *.
      destruct (in_dec lc_dec (neighbor a d) xs) as [X|X].
      + right. exists (neighbor a d), (d + 7). split; auto. split; [lia|]. rewrite NB by (auto; lia). rewrite neighbor_lo by auto.
        split; auto. split; [congruence|]. rewrite eid_hi by lia. rewrite neighbor_lo by auto. f_equal. lia.
      + apply in_app_iff in B, C. destruct C as [C|C]; [|tauto]. destruct B as [B|B].
        * left. repeat split; auto.
        * exfalso. pose proof (NZ _ C) as [Q _]. pose proof (third_hi (neighbor a d) (d + 7) ltac:(lia)) as K.
          rewrite neighbor_lo in K by auto. apply LX in B. lia. }
  destruct (remove_spec cur T2 l2 I2 NDc) as (l3 & E3 & I3 & P3 & V3 & K3 & R3).
  { intros x X. rewrite (same_some l1 l2) by auto. apply N1. left. apply ND. auto. }
  exists l1, l2, l3. split; auto. split; auto. split; auto.
  assert (ids l3 = ids l2) as ID3 by (unfold ids; congruence).
  split; [exists T2; auto|]. split; [intros x n H; apply K3 in H; eapply valued_same; eauto|].
  split; [rewrite V3; auto|]. split; [congruence|]. split; [auto|]. split.
  { intros x X. apply in_app_iff in X. destruct X as [X|X]; [apply NZ in X; lia|]. split; auto. apply LX in X. lia. }
  split; [intros x X; apply in_app_iff; auto|]. rewrite ID3. split; [auto|].
  intros x. rewrite R3, (same_some l1 l2), N1, ND, in_app_iff by auto.
  assert (forall e, In (eid x e) (ids l) -> In (eid x e) (ids l2)) as MONO by (intros e Q; apply G2; rewrite ID1; auto).
  split.
  - intros [[[A B]|A] C]; [|auto]. split; auto. destruct B as [B|(e & L & B)]; [destruct C as [C|C]; [tauto|auto]|].
    right. exists e. auto.
  - intros [A B]. destruct (in_dec lc_dec x xs) as [X|X].
    + split; auto. left. intros Q. apply IC in Q. eapply DJ; eauto.
    + destruct A as [A|A]; [|tauto]. destruct B as [B|B]; [tauto|]. split; auto. left. split; auto.
      destruct B as (e & L & B). destruct (in_dec lc_dec x cur) as [Q|Q]; auto. right. exists e. split; auto.
      apply G2 in B. rewrite ID1 in B. destruct B as [B|(y & k & Y & LK & NN & S & EQ)]; auto. exfalso.
      apply eid_inj in EQ; try lia. destruct EQ as [[-> ->]|[-> ->]]; [tauto|].
      (* the neighbour is in the new layer, so x is in the last one *)
      apply Q. apply NZ; auto. pose proof (NZ _ A) as [QZ _]. pose proof (LX _ Y) as LY.
      pose proof (third_hi (neighbor x e) (opposite e) LK) as K. rewrite neighbor_opposite in K by auto. lia.
Qed.

Lemma partial_complete : forall field N cur z l, partial_layer field N cur z l ->
  exists l', remove_free_nodes l cur = Ok l' /\ complete field N l'.
Proof.
  intros field N cur z l ((T & I) & V & AC & P & NDc & NZ & IC & ID & ND).
  destruct (remove_spec cur T l I NDc) as (l' & E' & I' & P' & V' & K' & R').
  { intros x X. apply ND. auto. }
  exists l'. split; auto. assert (ids l' = ids l) as ID' by (unfold ids; congruence).
  split; [exists T; auto|]. split; [intros x n H; apply K' in H; auto|]. split; [rewrite V'; auto|].
  rewrite ID'. split; auto. intros x. rewrite R', ND. split; [|intros [A B]; auto].
  intros [[A B] C]. split; auto. destruct C as [C|C]; [|auto]. destruct B as [B|B]; [tauto|auto].
Qed.

Lemma add_layers_spec : forall field f, (forall ys, f ys = Ok (map field ys)) -> forall layers N cur z l, layers <> [] ->
  partial_layer field N cur z l -> layered z layers ->
  exists l', add_layers f l cur layers = Ok (l', None) /\ complete field (N ++ concat layers) l'.
Proof.
  intros field f F. induction layers as [|xs layers IH]; intros N cur z l NE PL LA; [congruence|]. cbn [add_layers layered] in *.
  destruct LA as (NDx & LX & LA). destruct (layer_step field f N cur z l xs F PL NDx LX) as (l1 & l2 & l3 & -> & E2 & E3 & PL').
  cbn [bind]. rewrite E2. cbn [bind]. rewrite E3. cbn [bind concat]. destruct layers as [|ys layers'].
  - destruct (partial_complete _ _ _ _ _ PL') as (l' & -> & C). cbn [bind]. exists l'. rewrite app_nil_r. auto.
  - destruct (IH (N ++ xs) xs (z + 1)%Z l3) as (l' & E' & C); auto; [discriminate|]. exists l'. rewrite <- app_assoc in C. auto.
Qed.

Lemma inv_empty : forall l, l_vertices l = [] -> (forall x n, l_nodes l x = Some n -> exists v, n = set_value new_node v) ->
  inv (fun _ _ => None) l.
Proof.
  intros l V N. unfold inv, ids. rewrite V. split; [|split; [|split; [|split]]].
  - intros x n H. apply N in H. destruct H as (v & ->). split; [intros e; cbn; intuition congruence|auto].
  - intros x e vi. split; [discriminate|]. intros (_ & t & Q). destruct vi; discriminate.
  - constructor.
  - intros x e t [].
  - intros x n e H. apply N in H. destruct H as (v & ->). cbn. intuition congruence.
Qed.

Theorem add_all_nodes_spec : forall field f layers z, (forall ys, f ys = Ok (map field ys)) -> layered z layers ->
  exists l, add_all_nodes f cleared layers = Ok (l, None) /\ complete field (concat layers) l.
Proof.
  intros field f layers z F LA. destruct layers as [|xs layers].
  - exists cleared. split; [auto|]. split; [exists (fun _ _ => None); apply inv_empty; cbn; auto; discriminate|].
    split; [intros x n; discriminate|]. split; [constructor|]. split; intros; cbn; unfold cross; cbn; intuition congruence.
  - apply (add_layers_spec field f F (xs :: layers) [] [] z cleared); auto; [discriminate|].
    split; [exists (fun _ _ => None); apply inv_empty; cbn; auto; discriminate|].
    split; [intros x n; discriminate|]. split; [constructor|]. split; [auto|]. split; [constructor|].
    split; [intros x []|]. split; [intros x []|]. split; intros; cbn; unfold cross; cbn; intuition congruence.
Qed.

(** ** From tracked nodes *)

(** The nodes [N] were added and evaluated, no vertices yet. *)
Definition sampled (field : lc -> num) (N : list lc) (l : lattice) : Prop :=
  l_vertices l = [] /\ l_pending l = [] /\
  (forall x n, l_nodes l x = Some n -> n = set_value new_node (field x)) /\ forall x, l_nodes l x <> None <-> In x N.

Theorem tracked_spec : forall field N l keys, sampled field N l -> NoDup keys -> (forall x, In x keys <-> In x N) ->
  exists l1 l2, generate_vertices l keys = Ok l1 /\ remove_free_nodes l1 keys = Ok l2 /\ complete field N l2.
Proof.
  intros field N l keys (V0 & P0 & NV & NN) ND KN.
  assert (valued field l) as VA by (intros x n H; apply NV in H; subst n; auto).
  destruct (gen_spec field (fun _ _ => None) l keys) as (l1 & T1 & E1 & I1 & S1 & P1 & A1 & G1); auto.
  - apply inv_empty; auto. intros x n H. apply NV in H. eauto.
  - intros x X. apply NN, KN. auto.
  - unfold ids. rewrite V0. auto.
  - rewrite V0. constructor.
  - destruct (remove_spec keys T1 l1 I1 ND) as (l2 & E2 & I2 & P2 & V2 & K2 & R2).
    { intros x X. rewrite (same_some l l1) by auto. apply NN, KN. auto. }
    exists l1, l2. split; auto. split; auto. assert (ids l2 = ids l1) as ID2 by (unfold ids; congruence).
    assert (forall id, In id (ids l1) <-> cross field N id) as ID1.
    { intros id. rewrite G1. unfold ids at 1. rewrite V0. cbn [map In]. split.
      - intros [[]|(x & e & X & L & Q & S & ->)]. apply cross_eid; [lia|]. rewrite NN in Q. split; [apply KN; auto|]. auto.
      - intros H. right. destruct id as [a d]. pose proof H as (A & B & C & D). cbn [fst snd] in *.
        exists (neighbor a d), (d + 7). rewrite neighbor_lo by auto. rewrite NN. split; [apply KN; auto|]. split; [lia|].
        split; auto. split; [congruence|]. rewrite eid_hi by lia. rewrite neighbor_lo by auto. f_equal. lia. }
    split; [exists T1; auto|]. split; [intros x n H; apply K2 in H; eapply valued_same; eauto|]. split; [rewrite V2; auto|].
    rewrite ID2. split; auto. intros x. rewrite R2, (same_some l l1), NN by auto. rewrite KN.
    split; [intros [A [B|B]]; [tauto|auto]|]. intros [A B]. auto.
Qed.

(** ** One vertex per crossing edge *)

Lemma adjacent_iff : forall a b, adjacent a b <-> exists e, e < 14 /\ b = neighbor a e.
Proof.
  intros a b. split.
  - intros (d & S & H). assert (exists k, k < 7 /\ d = nth k deltas (0, 0, 0)%Z) as (k & K & ->).
    { destruct d as [[p q] r]. destruct S as ([-> | ->] & [-> | ->] & [-> | ->] & S).
      - congruence. - exists 2; auto with arith. - exists 6; auto with arith. - exists 5; auto with arith.
      - exists 0; auto with arith. - exists 1; auto with arith. - exists 3; auto with arith. - exists 4; auto with arith. }
    destruct H as [->| ->]; [exists k; split; [lia|auto]|]. exists (k + 7). split; [lia|]. symmetry. apply neighbor_lo. auto.
  - intros (e & L & ->). destruct (Nat.lt_ge_cases e 7) as [H|H].
    + exists (nth e deltas (0, 0, 0)%Z). split; auto. revert e H L.
      apply (lt7 (fun e => e < 14 -> step (nth e deltas (0, 0, 0)%Z))); intros _; cbn; unfold bit;
        (split; [auto|split; [auto|split; [auto|discriminate]]]).
    + exists (nth (e - 7) deltas (0, 0, 0)%Z). split.
      * assert (e - 7 < 7) as Q by lia. revert Q. generalize (e - 7).
        apply (lt7 (fun e => step (nth e deltas (0, 0, 0)%Z))); cbn; unfold bit; (split; [auto|split; [auto|split; [auto|discriminate]]]).
      * right. symmetry. exact (neighbor_hi a e (conj H L)).
Qed.

Lemma neighbor_edge_inj : forall x e k, e < 14 -> k < 14 -> neighbor x e = neighbor x k -> e = k.
Proof.
  intros [[p q] r] e k Le Lk. revert e Le k Lk.
  apply (lt14 (fun e => forall k, k < 14 -> neighbor (p, q, r) e = neighbor (p, q, r) k -> e = k));
  match goal with |- forall k, _ -> _ -> ?e = _ => apply (lt14 (fun k => neighbor (p, q, r) e = neighbor (p, q, r) k -> e = k)) end;
    intros H; try reflexivity; exfalso; cbn in H; injection H; lia.
Qed.

Lemma joins_eid : forall x e t a k, e < 14 -> k < 14 -> (joins (x, e, t) a (neighbor a k) <-> eid x e = eid a k).
Proof.
  intros x e t a k Le Lk. unfold joins, ends. split.
  - intros [H|H]; injection H as H1 H2.
    + subst x. apply neighbor_edge_inj in H2; auto.
    + subst x. rewrite <- (eid_opposite a k Lk). f_equal. rewrite <- (neighbor_opposite a k Lk) in H2 at 2.
      apply neighbor_edge_inj in H2; auto. apply opposite_lt. auto.
  - intros H. apply eid_inj in H; auto. destruct H as [[-> ->]|[-> ->]]; auto. right. rewrite neighbor_opposite by auto. auto.
Qed.

Theorem complete_one_vertex : forall field N l, complete field N l ->
  one_vertex_per_edge (fun x => In x N) (sgn field) (l_vertices l) /\
  forall x, l_nodes l x <> None <-> on_surface (fun x => In x N) (sgn field) x.
Proof.
  intros field N l ((T & I1 & I2 & I3 & I4 & I5) & V & AC & ID & NN). split; [split|].
  - intros [[x e] t] H. cbn [ends fst snd]. pose proof (I4 _ _ _ H) as L. apply (in_map ev) in H. apply ID in H.
    unfold ev in H. cbn [fst snd] in H. apply cross_eid in H; auto. destruct H as (A & B & C). split; [auto|]. split; [auto|].
    split; [|auto]. apply adjacent_iff. eauto.
  - intros a b (A & B & AD & S). apply adjacent_iff in AD. destruct AD as (k & Lk & ->).
    assert (In (eid a k) (ids l)) as H by (apply ID, cross_eid; auto).
    unfold ids in H. apply in_map_iff in H. destruct H as ([[x e] t] & E1 & H). unfold ev in E1. cbn [fst snd] in E1.
    pose proof (I4 _ _ _ H) as L. apply In_nth_error in H. destruct H as (i & H). exists i. split.
    + exists (x, e, t). split; auto. apply joins_eid; auto.
    + intros j [[y f] u] Hj J. pose proof (I4 _ _ _ (nth_error_In _ _ Hj)) as Lf. apply joins_eid in J; auto.
      apply (proj1 (NoDup_nth_error (ids l)) I3).
      * unfold ids. rewrite map_length. apply nth_error_Some. congruence.
      * unfold ids. rewrite !nth_error_map, H, Hj. cbn. f_equal. unfold ev. cbn. congruence.
  - intros x. rewrite NN. split.
    + intros (X & e & L & H). apply ID, cross_eid in H; auto. exists (neighbor x e). destruct H as (A & B & C). split; [auto|]. split; [auto|].
      split; auto. apply adjacent_iff. eauto.
    + intros (y & A & B & AD & S). apply adjacent_iff in AD. destruct AD as (e & L & ->). split; auto. exists e. split; auto.
      apply ID, cross_eid; auto.
Qed.

(** The clamped position stays strictly inside the edge and off its ends. *)
Lemma clamped_inside : forall t, (min_offset <= clamped t <= 1 - min_offset)%R /\
  (min_offset <= t <= 1 - min_offset -> clamped t = t)%R.
Proof.
  intros t. unfold clamped, min_offset. destruct (Rlt_dec t (1 / 10000)); [split; [lra|intros; exfalso; lra]|].
  destruct (Rlt_dec (1 - 1 / 10000) t); split; try lra; intros; exfalso; lra.
Qed.
