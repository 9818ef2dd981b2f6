From Coq Require Import List Arith Bool Lia Permutation Relations.
From Verif Require Import Model.Outcome Model.MeshDefects Spec.DisjointSets Spec.MeshDefects Proofs.MeshDefects
  Proofs.MeshFan.
Import ListNotations.

Definition both (g : nat -> nat) (e : nat * nat) : nat * nat := (g (fst e), g (snd e)).
Definition endpoint (es : list (nat * nat)) (x : nat) : Prop := exists e, In e es /\ (x = fst e \/ x = snd e).

Lemma endpoint_adjacent : forall es x, endpoint es x <-> exists y, adjacent es x y.
Proof.
  intros es x. split.
  - intros ([a b] & I & [-> | ->]); [exists b|exists a]; apply adjacent_iff; cbn; auto.
  - intros (y & A). apply adjacent_iff in A. destruct A as [A|A]; eexists; split; eauto; cbn; auto.
Qed.

Lemma both_unordered : forall g p, unordered (both g (unordered p)) = unordered (both g p).
Proof.
  intros g [i j]. destruct (Nat.le_ge_cases i j).
  - unfold unordered at 2. cbn [fst snd]. rewrite Nat.min_l, Nat.max_r by auto. auto.
  - unfold unordered at 2. cbn [fst snd]. rewrite Nat.min_r, Nat.max_l by auto. unfold both. cbn. apply unordered_swap.
Qed.

Lemma same_edges_map : forall g es fs, same_edges es fs -> same_edges (map (both g) es) (map (both g) fs).
Proof.
  intros g es fs H. unfold same_edges in *. apply (Permutation_map (fun p => unordered (both g p))) in H.
  rewrite !map_map in *. rewrite (map_ext (fun x => unordered (both g (unordered x))) (fun x => unordered (both g x))) in H
    by apply both_unordered.
  rewrite (map_ext (fun x => unordered (both g (unordered x))) (fun x => unordered (both g x))) in H
    by apply both_unordered.
  auto.
Qed.

Lemma steps_map : forall g us, steps (map g us) = map (both g) (steps us).
Proof.
  intros g. induction us as [|a us IH]; auto. destruct us as [|b us]; auto.
  change (steps (a :: b :: us)) with ((a, b) :: steps (b :: us)). cbn [map]. rewrite <- IH. auto.
Qed.

Lemma steps_cover : forall us x, 2 <= length us -> In x us -> endpoint (steps us) x.
Proof.
  intros us x L I. destruct (in_pos us x I) as (l1 & l2 & -> & [->|(a & l1' & ->)] & [->|(b & l2' & ->)]).
  - cbn in L. lia.
  - exists (x, b). split; [|auto]. apply steps_in. exists [], l2'. auto.
  - exists (a, x). split; [|auto]. apply steps_in. exists l1', []. rewrite <- app_assoc. auto.
  - exists (x, b). split; [|auto]. apply steps_in. eexists _, l2'. auto.
Qed.

Lemma NoDup_map_inj : forall (g : nat -> nat) us, NoDup us -> (forall x y, In x us -> In y us -> g x = g y -> x = y) ->
  NoDup (map g us).
Proof.
  intros g. induction us as [|a us IH]; intros ND H; cbn; [constructor|]. inversion ND; subst. constructor.
  - intros I. apply in_map_iff in I. destruct I as (b & E & I). assert (a = b) by (apply H; cbn; auto). subst. auto.
  - apply IH; auto. intros x y X Y. apply H; right; auto.
Qed.

Lemma last_map : forall (g : nat -> nat) us, us <> [] -> last (map g us) 0 = g (last us 0).
Proof.
  intros g us N. destruct (exists_last N) as (l & z & ->). rewrite map_app. cbn [map]. rewrite !last_last. auto.
Qed.

Lemma fan_map : forall g es, es <> [] -> (forall x y, endpoint es x -> endpoint es y -> g x = g y -> x = y) ->
  fan es -> fan (map (both g) es).
Proof.
  intros g es NE Inj (us & ND & H). exists (map g us).
  assert (2 <= length us /\ forall x, In x us -> endpoint es x) as [L EP].
  { assert (2 <= length us) as L.
    { destruct H as [H|[L _]]; [|lia]. destruct us as [|u [|v us]]; [| |cbn; lia].
      all: apply Permutation_length in H; rewrite map_length in H; destruct es; [congruence|discriminate]. }
    split; [auto|]. intros x X. pose proof (steps_cover us x L X) as E. apply endpoint_adjacent in E. destruct E as (y & A).
    apply endpoint_adjacent. exists y. destruct H as [H|[_ H]]; apply (same_edges_adj _ _ H); auto.
    unfold adjacent in *. right. auto. }
  split; [apply NoDup_map_inj; auto|]. rewrite steps_map. destruct H as [H|[L3 H]].
  - left. apply same_edges_map. auto.
  - right. rewrite map_length. split; [auto|]. apply (same_edges_map g) in H. cbn [map] in H.
    rewrite last_map by (destruct us; [cbn in L; lia|discriminate]).
    destruct us as [|u us]; [cbn in L; lia|]. exact H.
Qed.

(** ** Local indices *)

Definition link (v : nat) (fis : list face) : list (nat * nat) := map (fun f => (next_vertex f v, prev_vertex f v)) fis.

Lemma link_opposite : forall v fs, map unordered (link v (vf_of v fs)) = map unordered (opposite_edges v fs).
Proof.
  intros v. unfold vf_of, opposite_edges, link. induction fs as [|[[a b] c] fs IH]; auto. cbn [flat_map].
  rewrite !map_app, IH. f_equal. clear IH. unfold corners_at. rewrite !map_app.
  destruct (Nat.eqb_spec a v) as [->|Na]; destruct (Nat.eqb_spec b v) as [->|Nb]; destruct (Nat.eqb_spec c v) as [->|Nc];
    cbn [map app]; unfold next_vertex, prev_vertex; rewrite ?Nat.eqb_refl;
    repeat (match goal with |- context [Nat.eqb ?x ?y] => destruct (Nat.eqb_spec x y); [congruence|] end);
    try reflexivity; repeat (f_equal; try apply unordered_swap; try reflexivity).
Qed.

Lemma emplace_spec : forall ks k, NoDup ks -> NoDup (emplace ks k) /\ (forall x, In x (emplace ks k) <-> In x ks \/ x = k).
Proof.
  intros ks k ND. unfold emplace. destruct (existsb (Nat.eqb k) ks) eqn:E.
  - split; auto. intros x. split; auto. intros [| ->]; auto. apply existsb_exists in E. destruct E as (y & I & Q).
    apply Nat.eqb_eq in Q. subst. auto.
  - assert (~ In k ks) as NI.
    { intros I. apply not_true_iff_false in E. apply E, existsb_exists. exists k. split; auto. apply Nat.eqb_refl. }
    split.
    + apply (Permutation_NoDup (Permutation_cons_append ks k)). constructor; auto.
    + intros x. rewrite in_app_iff. cbn. intuition auto.
Qed.

Lemma local_keys_spec : forall v fis, NoDup (local_keys v fis) /\
  forall x, In x (local_keys v fis) <-> endpoint (link v fis) x.
Proof.
  intros v fis. unfold local_keys.
  assert (forall fis ks, NoDup ks ->
    NoDup (fold_left (fun ks f => emplace (emplace ks (next_vertex f v)) (prev_vertex f v)) fis ks) /\
    forall x, In x (fold_left (fun ks f => emplace (emplace ks (next_vertex f v)) (prev_vertex f v)) fis ks) <->
              In x ks \/ endpoint (link v fis) x) as H.
  { clear fis. induction fis as [|f fis IH]; intros ks ND; cbn [fold_left].
    - split; auto. intros x. split; auto. intros [|(e & [] & _)]; auto.
    - destruct (emplace_spec ks (next_vertex f v) ND) as [N1 I1].
      destruct (emplace_spec _ (prev_vertex f v) N1) as [N2 I2].
      destruct (IH _ N2) as [N3 I3]. split; [auto|]. intros x. rewrite I3, I2, I1. split.
      + intros [[[|Q]|Q]|(e & E & Q)]; auto.
        * right. exists (next_vertex f v, prev_vertex f v). split; [left; auto|auto].
        * right. exists (next_vertex f v, prev_vertex f v). split; [left; auto|auto].
        * right. exists e. split; [right; auto|auto].
      + intros [|(e & [E|E] & Q)]; auto.
        * subst e. cbn in Q. tauto.
        * right. exists e. auto. }
  destruct (H fis [] (NoDup_nil nat)) as [N I]. split; [auto|]. intros x. rewrite I. cbn. tauto.
Qed.

Lemma position_spec : forall ks k, In k ks -> exists p, position ks k = Ok p /\ p < length ks /\ nth p ks 0 = k.
Proof.
  induction ks as [|a ks IH]; intros k I; [destruct I|]. cbn [position]. destruct (Nat.eqb_spec a k) as [->|NE].
  - exists 0. cbn. split; auto. split; [lia|auto].
  - destruct I as [|I]; [congruence|]. destruct (IH k I) as (p & -> & L & Q). exists (S p). cbn. split; auto. split; [lia|auto].
Qed.

Definition index (ks : list nat) (k : nat) : nat := match position ks k with Ok p => p | _ => 0 end.

Lemma add_links_spec : forall ks v fis es m, is_matrix es m ->
  (forall x, endpoint (link v fis) x -> In x ks) ->
  exists m', add_links ks v fis m = Ok m' /\ is_matrix (es ++ map (both (index ks)) (link v fis)) m'.
Proof.
  intros ks v. induction fis as [|f fis IH]; intros es m M H; cbn [add_links].
  - exists m. cbn. rewrite app_nil_r. auto.
  - destruct (position_spec ks (next_vertex f v)) as (i & Ei & Li & Qi).
    { apply H. exists (next_vertex f v, prev_vertex f v). split; [left; auto|auto]. }
    destruct (position_spec ks (prev_vertex f v)) as (j & Ej & Lj & Qj).
    { apply H. exists (next_vertex f v, prev_vertex f v). split; [left; auto|auto]. }
    rewrite Ei, Ej. cbn [bind].
    destruct (IH (es ++ [(i, j)]) (add_edge m i j)) as (m' & E & M').
    + apply is_matrix_add. auto.
    + intros x (e & I & Q). apply H. exists e. split; [right; auto|auto].
    + exists m'. split; [auto|]. rewrite <- app_assoc in M'. cbn [app] in M'. cbn [link map both fst snd].
      unfold both at 1. cbn [fst snd]. unfold index at 1 2. rewrite Ei, Ej. auto.
Qed.

Lemma index_nth : forall ks k, In k ks -> nth (index ks k) ks 0 = k /\ index ks k < length ks.
Proof.
  intros ks k I. destruct (position_spec ks k I) as (p & E & L & Q). unfold index. rewrite E. auto.
Qed.

Lemma fan_local : forall ks L, L <> [] -> (forall x, endpoint L x -> In x ks) ->
  (fan (map (both (index ks)) L) <-> fan L).
Proof.
  intros ks L NE H. split.
  - intros F. apply (fan_map (fun p => nth p ks 0)) in F.
    + rewrite map_map in F. rewrite (map_ext_in _ (fun e => e)) in F; [rewrite map_id in F; auto|].
      intros [a b] I. unfold both. cbn [fst snd]. f_equal; apply index_nth, H; exists (a, b); auto.
    + destruct L; [congruence|discriminate].
    + assert (forall x, endpoint (map (both (index ks)) L) x -> exists y, In y ks /\ x = index ks y) as K.
      { intros x (e & I & Q). apply in_map_iff in I. destruct I as ([a b] & <- & I). cbn in Q.
        destruct Q as [-> | ->]; eexists; split; eauto; apply H; exists (a, b); auto. }
      intros x y X Y E. destruct (K x X) as (x' & X' & ->). destruct (K y Y) as (y' & Y' & ->).
      rewrite !(proj1 (index_nth _ _ X')), !(proj1 (index_nth _ _ Y')) in E. congruence.
  - apply fan_map; auto. intros x y X Y E. rewrite <- (proj1 (index_nth ks x (H x X))), <- (proj1 (index_nth ks y (H y Y))).
    congruence.
Qed.

Lemma fan_unordered : forall es fs, map unordered es = map unordered fs -> fan es -> fan fs.
Proof.
  intros es fs E (us & ND & H). exists us. unfold same_edges in *. rewrite <- E. auto.
Qed.

Lemma is_singular_spec : forall v fs, exists b, is_singular v fs = Ok (Some b) /\
  (b = true <-> opposite_edges v fs <> [] /\ ~ fan (opposite_edges v fs)).
Proof.
  intros v fs. unfold is_singular. pose proof (link_opposite v fs) as LO.
  destruct (vf_of v fs) as [|f fis] eqn:VF.
  - exists false. split; auto. split; [discriminate|]. intros [Q _]. cbn in LO.
    destruct (opposite_edges v fs); [congruence|discriminate].
  - rewrite <- VF in *. set (fis' := vf_of v fs) in *. set (ks := local_keys v fis').
    destruct (local_keys_spec v fis') as [NDk Ik]. fold ks in NDk, Ik.
    set (L := link v fis') in *.
    assert (L <> []) as NL by (unfold L; rewrite VF; discriminate).
    assert (opposite_edges v fs <> []) as NO.
    { intros Q. rewrite Q in LO. destruct L; [congruence|discriminate]. }
    assert (0 < length ks) as N.
    { destruct L as [|e L'] eqn:EL; [congruence|]. assert (In (fst e) ks) as I by (apply Ik; exists e; split; [left; auto|auto]).
      destruct ks; [destruct I|cbn; lia]. }
    unfold graph_new. replace (length ks <=? 0) with false by (symmetry; apply Nat.leb_gt; auto). cbn [bind].
    destruct (add_links_spec ks v fis' [] (fun _ _ => 0) is_matrix_new) as (m & -> & M); [apply Ik|].
    cbn [app bind] in *. fold L in M. set (es := map (both (index ks)) L) in *.
    assert (forall i j, adjacent es i j -> i < length ks) as B.
    { intros i j A. assert (endpoint es i) as (e & I & Q) by (apply endpoint_adjacent; eauto).
      apply in_map_iff in I. destruct I as ([a b] & <- & I). cbn in Q.
      destruct Q as [-> | ->]; apply index_nth, Ik; exists (a, b); auto. }
    assert (forall i, i < length ks -> exists j, adjacent es i j) as Nb.
    { intros i Hi. apply endpoint_adjacent.
      assert (In (nth i ks 0) ks) as I by (apply nth_In; auto).
      assert (index ks (nth i ks 0) = i) as E.
      { destruct (index_nth ks _ I) as [E1 E2]. apply (proj1 (NoDup_nth ks 0) NDk); auto. }
      apply Ik in I. destruct I as (e & I & Q). exists (both (index ks) e). split; [apply in_map; auto|].
      rewrite <- E. cbn. destruct Q as [-> | ->]; auto. }
    assert (fan es <-> fan (opposite_edges v fs)) as F.
    { unfold es. rewrite fan_local; auto; [|apply Ik]. split; apply fan_unordered; auto. }
    pose proof (good_fan _ _ N B Nb) as G. rewrite F in G.
    destruct (is_simple (length ks) m) eqn:S.
    + destruct (is_connected_spec _ _ _ M B N) as (b & -> & C).
      eexists. split; [reflexivity|]. rewrite negb_true_iff, <- G. unfold good.
      rewrite <- (is_simple_spec _ _ _ M B), S, <- C.
      assert ((max_degree (length ks) m <=? 2) = true <->
        forall i, i < length ks -> length (filter (incident i) (map unordered es)) <= 2) as D.
      { rewrite Nat.leb_le, max_degree_spec. split; intros Q i Hi; specialize (Q i Hi);
          [rewrite <- (degree_spec _ _ _ M B)|rewrite (degree_spec _ _ _ M B)]; auto. }
      rewrite <- D. destruct b, (max_degree (length ks) m <=? 2); cbn; intuition congruence.
    + exists true. split; auto. split; auto. intros _. split; auto. rewrite <- G. intros (Q & _).
      rewrite <- (is_simple_spec _ _ _ M B) in Q. congruence.
Qed.

Lemma singular_in_spec : forall fs vs, exists l, singular_in fs vs = Ok (Some l) /\
  (forall v, In v l <-> In v vs /\ opposite_edges v fs <> [] /\ ~ fan (opposite_edges v fs)) /\
  (NoDup vs -> NoDup l).
Proof.
  intros fs. induction vs as [|v vs IH].
  - exists []. split; auto. split; [cbn; tauto|auto].
  - cbn [singular_in]. destruct (is_singular_spec v fs) as (b & -> & S). destruct IH as (l & -> & I & N). cbn [bind].
    destruct b.
    + exists (v :: l). split; auto. split.
      * intros x. cbn. rewrite I. split; [intros [<-|Q]; intuition auto|intros [[<-|Q] R]; auto].
      * intros ND. inversion ND; subst. constructor; auto. rewrite I. tauto.
    + exists l. split; auto. split.
      * intros x. cbn. rewrite I. split; [tauto|]. intros [[<-|Q] R]; auto. apply S in R. discriminate.
      * intros ND. inversion ND; subst. auto.
Qed.

Lemma singular : forall nv fs chunks, Permutation (concat chunks) (seq 0 nv) ->
  match singular_vertices nv fs chunks with
  | Ok (Some l) => faces_ok nv fs = true /\ NoDup l /\
      forall v, In v l <-> v < nv /\ opposite_edges v fs <> [] /\ ~ fan (opposite_edges v fs)
  | Throw e => faces_ok nv fs = false /\ e = ExOutOfRange
  | _ => False
  end.
Proof.
  intros nv fs chunks P. unfold singular_vertices. destruct (faces_ok nv fs); auto.
  destruct (singular_in_spec fs (concat chunks)) as (l & -> & I & N). split; auto. split.
  - apply N. eapply Permutation_NoDup; [apply Permutation_sym; exact P|]. apply seq_NoDup.
  - intros v. rewrite I. assert (In v (concat chunks) <-> v < nv) as ->; [|tauto].
    split; intros Q.
    + apply (Permutation_in _ P), in_seq in Q. lia.
    + apply (Permutation_in _ (Permutation_sym P)), in_seq. lia.
Qed.

Lemma build_matrix : forall es, is_matrix es (fold_left (fun m e => add_edge m (fst e) (snd e)) es (fun _ _ => 0)).
Proof.
  intros es. assert (forall fs ds m, is_matrix ds m -> is_matrix (ds ++ fs) (fold_left (fun m e => add_edge m (fst e) (snd e)) fs m)) as H.
  { induction fs as [|[i j] fs IH]; intros ds m M; cbn [fold_left]; [rewrite app_nil_r; auto|].
    pose proof (IH (ds ++ [(i, j)]) _ (is_matrix_add _ _ i j M)) as Q. rewrite <- app_assoc in Q. exact Q. }
  apply (H es [] _ is_matrix_new).
Qed.

Lemma graph_queries : forall n es, (forall i j, In (i, j) es -> i < n /\ j < n) ->
  let m := fold_left (fun m e => add_edge m (fst e) (snd e)) es (fun _ _ => 0) in
  (exists gs, connected_components (n + 1) n m = Some gs /\ classes es n gs) /\
  (0 < n -> exists b, is_connected (n * n + 1) n m = Some b /\
                      (b = true <-> forall i j, i < n -> j < n -> joined es i j)).
Proof.
  intros n es H m.
  assert (forall i j, adjacent es i j -> i < n) as B.
  { intros i j A. apply adjacent_iff in A. destruct A as [A|A]; apply H in A; tauto. }
  split.
  - apply connected_components_spec; auto. apply build_matrix.
  - intros N. apply is_connected_spec; auto. apply build_matrix.
Qed.
