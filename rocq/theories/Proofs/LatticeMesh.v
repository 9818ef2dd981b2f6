From Coq Require Import List Arith ZArith Reals Bool Lia Permutation.
From Verif Require Import Model.Outcome Model.MeshDefects Model.Solver Model.Lattice Spec.VertexClusterer Proofs.LatticeVertices
  Proofs.LatticeLayers Proofs.LatticeTets Spec.Lattice.
Import ListNotations.

(** ** Vertex numbers of edges *)

Fixpoint position (p : E) (l : list E) : nat :=
  match l with [] => 0 | q :: l' => if E_eqb p q then 0 else S (position p l') end.
Lemma position_at : forall p l, In p l -> nth_error l (position p l) = Some p.
Proof.
  intros p l. induction l as [|q l IH]; [intros []|]. cbn [position]. destruct (E_eqb p q) eqn:Q.
  - apply E_eqb_true in Q. subst. auto.
  - intros [->|H]; [|apply IH; auto]. assert (E_eqb p p = true) by (apply E_eqb_true; auto). congruence.
Qed.
Lemma position_inj : forall p q l, In p l -> In q l -> position p l = position q l -> p = q.
Proof. intros p q l P Q H. apply position_at in P, Q. congruence. Qed.
Lemma position_unique : forall p l i, NoDup l -> nth_error l i = Some p -> position p l = i.
Proof.
  intros p l i ND H. apply (proj1 (NoDup_nth_error l) ND).
  - apply nth_error_Some. rewrite position_at; [discriminate|]. eapply nth_error_In; eauto.
  - rewrite position_at; [auto|]. eapply nth_error_In; eauto.
Qed.
Definition idx (l : lattice) (p : E) : nat := position p (ids l).

Section Mesh.
Variables (field : lc -> num) (N : list lc) (l : lattice).
Hypothesis HC : complete field N l.
Let s := sgn field.

Lemma present_in : forall x, l_nodes l x <> None -> In x N.
Proof. destruct HC as (_ & _ & _ & _ & H). intros x X. apply H in X. tauto. Qed.
Lemma in_ids : forall x e, e < 14 -> (In (eid x e) (ids l) <-> In x N /\ In (neighbor x e) N /\ s x <> s (neighbor x e)).
Proof. destruct HC as (_ & _ & _ & H & _). intros x e L. rewrite H. apply cross_eid. auto. Qed.
Lemma nodup_ids : NoDup (ids l).
Proof. destruct HC as ((T & _ & _ & H & _) & _). auto. Qed.
Lemma value_present : forall x n, l_nodes l x = Some n -> value n = Ok (field x) /\ neg (field x) = s x.
Proof.
  destruct HC as (_ & H & _). intros x n X. apply H in X. unfold value. rewrite X. auto.
Qed.

Lemma vertex_on_edge_spec : forall x e n n', e < 14 -> l_nodes l x = Some n -> l_nodes l (neighbor x e) = Some n' ->
  vertex_on_edge n e n' = Ok (if Bool.eqb (s x) (s (neighbor x e)) then None else Some (idx l (eid x e))).
Proof.
  intros x e n n' L A B. assert (In x N) as Nx by (apply present_in; congruence).
  assert (In (neighbor x e) N) as Ny by (apply present_in; congruence). pose proof (in_ids x e L) as II.
  destruct HC as ((T & I1 & I2 & I3 & I4 & I5) & _). unfold vertex_on_edge.
  assert (forall y k m vi, k < 14 -> eid y k = eid x e -> l_nodes l y = Some m -> T y k = Some vi ->
            n_near m k = true /\ vertex m k = Ok vi /\ vi = idx l (eid x e) /\ s x <> s (neighbor x e)) as HIT.
  { intros y k m vi K EQ M TT. destruct (vertex_packed _ _ k vi (I1 _ _ M) K TT) as [V1 V2]. apply I2 in TT.
    destruct TT as (_ & t & TT). assert (nth_error (ids l) vi = Some (eid x e)) as Q.
    { unfold ids. rewrite nth_error_map, TT. cbn. unfold ev. cbn [fst snd]. congruence. }
    split; auto. split; auto. split; [symmetry; apply position_unique; auto|]. apply II. eapply nth_error_In; eauto. }
  assert (forall y k m, k < 14 -> l_nodes l y = Some m -> (n_near m k = true <-> T y k <> None)) as NEAR.
  { intros y k m K M. destruct (I1 _ _ M) as [P _]. rewrite P. tauto. }
  assert (opposite e < 14) as Lo by (apply opposite_lt; auto).
  destruct (n_near n e) eqn:Q1.
  - apply (NEAR x e n) in Q1; auto. destruct (T x e) as [vi|] eqn:TT; [|congruence].
    destruct (HIT x e n vi L eq_refl A TT) as (_ & -> & -> & D). cbn [bind]. apply eqb_false_iff in D. rewrite D. auto.
  - destruct (n_near n' (opposite e)) eqn:Q2.
    + apply (NEAR (neighbor x e) (opposite e) n') in Q2; auto. destruct (T (neighbor x e) (opposite e)) as [vi|] eqn:TT; [|congruence].
      destruct (HIT _ _ n' vi Lo (eid_opposite x e L) B TT) as (_ & -> & -> & D). cbn [bind]. apply eqb_false_iff in D. rewrite D. auto.
    + destruct (Bool.eqb (s x) (s (neighbor x e))) eqn:D; auto. exfalso. apply eqb_false_iff in D.
      assert (In (eid x e) (ids l)) as I by (apply II; auto). unfold ids in I. apply in_map_iff in I. destruct I as ([[y k] t] & EQ & I).
      unfold ev in EQ. cbn [fst snd] in EQ. pose proof (I4 _ _ _ I) as K. apply In_nth_error in I. destruct I as (vi & I).
      assert (T y k = Some vi) as TT by (apply I2; eauto).
      symmetry in EQ. apply eid_inj in EQ; auto. destruct EQ as [[-> ->]|[-> ->]].
      * destruct (HIT x e n vi) as (? & _); auto. congruence.
      * destruct (HIT _ _ n' vi Lo (eid_opposite x e L) B TT) as (? & _). congruence.
Qed.

Definition map3 (g : E -> nat) (f : faceE) : face := let '(a, b, c) := f in (g a, g b, g c).

Lemma outer : forall i x, i < 6 ->
  let '(e0, e1, e2) := nth i edge_indices (0, 0, 0) in
  let '(f0, f1, f2) := nth i outer_edge_indices (0, 0, 0) in
  e0 < 14 /\ e1 < 14 /\ e2 < 14 /\ f0 < 14 /\ f1 < 14 /\ f2 < 14 /\
  neighbor (neighbor x e0) f0 = neighbor x e1 /\ neighbor (neighbor x e1) f1 = neighbor x e2 /\ neighbor (neighbor x e2) f2 = neighbor x e0.
Proof.
  intros i [[a b] c] L. revert i L.
  apply lt6; cbn [nth edge_indices outer_edge_indices]; (do 6 (split; [lia|])); (split; [|split]); lcs.
Qed.

Definition present (x : lc) (i : nat) : Prop := forall n, In n (nodes_at x i) -> l_nodes l n <> None.

Lemma nodes_at_eq : forall x i, nodes_at x i =
  let '(e0, e1, e2) := nth i edge_indices (0, 0, 0) in [x; neighbor x e0; neighbor x e1; neighbor x e2].
Proof.
  intros x i. unfold nodes_at, tnodes. destruct (nth i edge_indices _) as [[e0 e1] e2]. cbn [map].
  rewrite <- !neighbor_shift, !lc_add_o3. auto.
Qed.

Lemma get_faces_spec : forall x i, i < 6 -> present x i -> get_faces l x i = Ok (map (map3 (idx l)) (tet_faces s x i)).
Proof.
  intros x i L P. pose proof (outer i x L) as O. unfold present in P. rewrite nodes_at_eq in P. unfold tet_faces, signs. rewrite nodes_at_eq.
  unfold get_faces, rel_faces, tedges.
  destruct (nth i edge_indices (0, 0, 0)) as [[e0 e1] e2]. destruct (nth i outer_edge_indices (0, 0, 0)) as [[f0 f1] f2].
  destruct O as (L0 & L1 & L2 & K0 & K1 & K2 & O0 & O1 & O2).
  destruct (l_nodes l x) as [n|] eqn:Q; [|exfalso; apply (P x); cbn; auto].
  destruct (l_nodes l (neighbor x e0)) as [n0|] eqn:Q0; [|exfalso; apply (P (neighbor x e0)); cbn; auto].
  destruct (l_nodes l (neighbor x e1)) as [n1|] eqn:Q1; [|exfalso; apply (P (neighbor x e1)); cbn; auto].
  destruct (l_nodes l (neighbor x e2)) as [n2|] eqn:Q2; [|exfalso; apply (P (neighbor x e2)); cbn; auto].
  unfold at_. rewrite Q, Q0, Q1, Q2. cbn [bind].
  rewrite (vertex_on_edge_spec x e0 n n0), (vertex_on_edge_spec x e1 n n1), (vertex_on_edge_spec x e2 n n2) by auto. cbn [bind].
  rewrite (vertex_on_edge_spec (neighbor x e0) f0 n0 n1), (vertex_on_edge_spec (neighbor x e1) f1 n1 n2), (vertex_on_edge_spec (neighbor x e2) f2 n2 n0)
    by (rewrite ?O0, ?O1, ?O2; auto). cbn [bind]. rewrite O0, O1, O2.
  destruct (value_present _ _ Q) as [V S]. destruct (value_present _ _ Q0) as [V0 S0].
  destruct (value_present _ _ Q1) as [V1 S1]. destruct (value_present _ _ Q2) as [V2 S2].
  rewrite V, V0, V1, V2. cbn [bind]. rewrite S, S0, S1, S2.
  replace (eid x e0) with (shift x (eid o3 e0)) by (rewrite <- eid_shift, lc_add_o3; auto).
  replace (eid x e1) with (shift x (eid o3 e1)) by (rewrite <- eid_shift, lc_add_o3; auto).
  replace (eid x e2) with (shift x (eid o3 e2)) by (rewrite <- eid_shift, lc_add_o3; auto).
  replace (eid (neighbor x e0) f0) with (shift x (eid (neighbor o3 e0) f0)) by (rewrite <- eid_shift, <- neighbor_shift, lc_add_o3; auto).
  replace (eid (neighbor x e1) f1) with (shift x (eid (neighbor o3 e1) f1)) by (rewrite <- eid_shift, <- neighbor_shift, lc_add_o3; auto).
  replace (eid (neighbor x e2) f2) with (shift x (eid (neighbor o3 e2) f2)) by (rewrite <- eid_shift, <- neighbor_shift, lc_add_o3; auto).
  cbn [map]. generalize (eid o3 e0), (eid o3 e1), (eid o3 e2), (eid (neighbor o3 e0) f0), (eid (neighbor o3 e1) f1), (eid (neighbor o3 e2) f2).
  intros a0 a1 a2 a3 a4 a5.
  destruct (s x), (s (neighbor x e0)), (s (neighbor x e1)), (s (neighbor x e2)); reflexivity.
Qed.

(** ** The faces *)

Lemma exists_present : forall x i, l_nodes l x <> None -> (tetrahedron_exists l x i = true <-> present x i).
Proof.
  intros x i X. unfold present, tetrahedron_exists. rewrite nodes_at_eq. destruct (nth i edge_indices _) as [[e0 e1] e2].
  rewrite !andb_true_iff. unfold exists_at. split.
  - intros [[A B] C] n [<-|[<-|[<-|[<-|[]]]]]; auto; intros Q; rewrite Q in *; discriminate.
  - intros H. pose proof (H (neighbor x e0)) as H0. pose proof (H (neighbor x e1)) as H1. pose proof (H (neighbor x e2)) as H2. cbn [In] in *.
    destruct (l_nodes l (neighbor x e0)), (l_nodes l (neighbor x e1)), (l_nodes l (neighbor x e2)); auto; exfalso; tauto.
Qed.

Definition part (x : lc) (i : nat) : list faceE := if tetrahedron_exists l x i then tet_faces s x i else [].
Definition abstract_mesh (keys : list lc) : list faceE := flat_map (fun x => flat_map (part x) (seq 0 6)) keys.

Lemma faces_in_spec : forall x is, l_nodes l x <> None -> (forall i, In i is -> i < 6) ->
  faces_in l x is = Ok (map (map3 (idx l)) (flat_map (part x) is)).
Proof.
  intros x is X. induction is as [|i is IH]; intros B; cbn [faces_in flat_map]; auto. rewrite map_app.
  unfold part at 1. destruct (tetrahedron_exists l x i) eqn:Q.
  - apply exists_present in Q; auto. rewrite get_faces_spec by (auto; apply B; left; auto). cbn [bind].
    rewrite IH by (intros; apply B; right; auto). auto.
  - cbn [map app]. apply IH. intros; apply B; right; auto.
Qed.

Lemma get_mesh_spec : forall keys, (forall x, In x keys -> l_nodes l x <> None) ->
  get_mesh l keys = Ok (map (map3 (idx l)) (abstract_mesh keys)).
Proof.
  induction keys as [|x keys IH]; intros K; cbn [get_mesh]; auto. unfold abstract_mesh. cbn [flat_map]. rewrite map_app.
  rewrite faces_in_spec; [|apply K; left; auto|intros i I; apply in_seq in I; lia]. cbn [bind].
  rewrite IH by (intros; apply K; right; auto). auto.
Qed.

Lemma mixed_present : forall x i, i < 6 -> Forall (fun n => In n N) (nodes_at x i) -> tet_faces s x i <> [] -> present x i.
Proof.
  intros x i L A NE n I. destruct (tet_mixed s x i n L NE I) as (e & Le & J & D).
  rewrite Forall_forall in A. pose proof (A _ I) as Nn. pose proof (A _ J) as Nm. pose proof (in_ids n e Le) as II.
  destruct HC as (_ & _ & _ & _ & H). apply H. split; auto. exists e. split; auto. apply II. auto.
Qed.
Lemma present_N : forall x i, present x i -> Forall (fun n => In n N) (nodes_at x i).
Proof. intros x i P. apply Forall_forall. intros n I. apply present_in. auto. Qed.
Lemma first_node : forall x i, In x (nodes_at x i).
Proof. intros x i. rewrite nodes_at_eq. destruct (nth i edge_indices _) as [[? ?] ?]. left. auto. Qed.

Variable keys : list lc.
Hypothesis HK : forall x, In x keys <-> l_nodes l x <> None.
Hypothesis KND : NoDup keys.

Lemma in_part : forall x i f, i < 6 -> l_nodes l x <> None -> (In f (part x i) <-> present x i /\ In f (tet_faces s x i)).
Proof.
  intros x i f L X. unfold part. destruct (tetrahedron_exists l x i) eqn:Q.
  - apply exists_present in Q; auto. tauto.
  - split; [intros []|]. intros [P _]. apply exists_present in P; auto. congruence.
Qed.
Lemma in_abstract : forall f, In f (abstract_mesh keys) <->
  exists x i, i < 6 /\ Forall (fun n => In n N) (nodes_at x i) /\ In f (tet_faces s x i).
Proof.
  intros f. unfold abstract_mesh. rewrite in_flat_map. split.
  - intros (x & X & H). apply HK in X. apply in_flat_map in H. destruct H as (i & I & H). apply in_seq in I.
    apply in_part in H; auto; [|lia]. exists x, i. split; [lia|]. split; [apply present_N|]; tauto.
  - intros (x & i & L & A & H). assert (present x i) as P by (apply mixed_present; auto; intros Q; rewrite Q in H; auto).
    assert (l_nodes l x <> None) as X by (apply P, first_node). exists x. split; [apply HK; auto|]. apply in_flat_map.
    exists i. split; [apply in_seq; lia|]. apply in_part; auto.
Qed.

Lemma corner_in_ids : forall f p, In f (abstract_mesh keys) -> In p (corners f) -> In p (ids l).
Proof.
  intros f p F P. apply in_abstract in F. destruct F as (x & i & L & A & F).
  assert (In p (flat_map corners (tet_faces s x i))) as Q by (apply in_flat_map; eauto). apply tet_corners in Q; auto.
  destruct Q as (Lp & [H1 H2] & D). rewrite Forall_forall in A. destruct p as [a d]. cbn [fst snd] in *.
  rewrite <- (eid_lo a d Lp). apply in_ids; [lia|]. auto.
Qed.
Lemma side_corner : forall f p q, In (p, q) (sidesE f) -> In p (corners f) /\ In q (corners f).
Proof. intros [[a b] c] p q H. cbn in *. destruct H as [H|[H|[H|[]]]]; injection H as <- <-; auto. Qed.

Definition map2 (g : E -> nat) (sd : E * E) : nat * nat := (g (fst sd), g (snd sd)).
Lemma sides_map : forall g fs, flat_map sides (map (map3 g) fs) = map (map2 g) (flat_map sidesE fs).
Proof. intros g fs. induction fs as [|[[a b] c] fs IH]; cbn [map flat_map]; auto. rewrite map_app, IH. auto. Qed.

Lemma flat_map_flat_map : forall (A B C : Type) (f : A -> list B) (g : B -> list C) m,
  flat_map g (flat_map f m) = flat_map (fun a => flat_map g (f a)) m.
Proof. intros A B C f g m. induction m as [|a m IH]; cbn; auto. rewrite flat_map_app, IH. auto. Qed.

Lemma abstract_nodup : NoDup (flat_map sidesE (abstract_mesh keys)).
Proof.
  unfold abstract_mesh. rewrite flat_map_flat_map.
  assert (forall x i sd, In sd (flat_map sidesE (part x i)) -> In sd (tet_sides s x i)) as SUB.
  { intros x i sd. unfold part, tet_sides. destruct (tetrahedron_exists l x i); auto. intros []. }
  assert (forall x sd, In sd (flat_map sidesE (flat_map (part x) (seq 0 6))) -> exists i, i < 6 /\ In sd (tet_sides s x i)) as SUB2.
  { intros x sd H. rewrite flat_map_flat_map in H. apply in_flat_map in H. destruct H as (i & I & H). apply in_seq in I.
    exists i. split; [lia|auto]. }
  apply NoDup_flat_map; auto.
  - intros x X. rewrite flat_map_flat_map. apply NoDup_flat_map; [apply seq_NoDup| |].
    + intros i I. apply in_seq in I. unfold part. destruct (tetrahedron_exists l x i); [|constructor].
      apply (tet_sides_nodup s x i). lia.
    + intros i j sd I J H1 H2. apply in_seq in I, J. apply SUB in H1, H2. symmetry. eapply (tet_sides_unique s x i x j sd); eauto; lia.
  - intros x y sd X Y H1 H2. apply SUB2 in H1, H2. destruct H1 as (i & Li & H1), H2 as (j & Lj & H2). symmetry.
    eapply (tet_sides_unique s x i y j sd); eauto.
Qed.

Lemma side_in_ids : forall p q, In (p, q) (flat_map sidesE (abstract_mesh keys)) -> In p (ids l) /\ In q (ids l).
Proof.
  intros p q H. apply in_flat_map in H. destruct H as (f & F & H). apply side_corner in H. destruct H as [H1 H2].
  split; eapply corner_in_ids; eauto.
Qed.

Lemma in_sides : forall sd, In sd (flat_map sidesE (abstract_mesh keys)) <->
  exists x i, i < 6 /\ Forall (fun n => In n N) (nodes_at x i) /\ In sd (tet_sides s x i).
Proof.
  intros sd. rewrite in_flat_map. split.
  - intros (f & F & H). apply in_abstract in F. destruct F as (x & i & L & A & F). exists x, i. split; auto. split; auto.
    unfold tet_sides. apply in_flat_map. eauto.
  - intros (x & i & L & A & H). unfold tet_sides in H. apply in_flat_map in H. destruct H as (f & F & H). exists f. split; auto.
    apply in_abstract. eauto.
Qed.

Lemma in_mesh_side : forall p q, In p (ids l) -> In q (ids l) ->
  (In (idx l p, idx l q) (flat_map sides (map (map3 (idx l)) (abstract_mesh keys))) <-> In (p, q) (flat_map sidesE (abstract_mesh keys))).
Proof.
  intros p q P Q. rewrite sides_map, in_map_iff. split; [|intros H; exists (p, q); auto].
  intros ([a b] & EQ & I). pose proof (side_in_ids _ _ I) as [A B]. unfold map2 in EQ. cbn [fst snd] in EQ. injection EQ as E1 E2.
  apply position_inj in E1; auto. apply position_inj in E2; auto. subst. auto.
Qed.

(** A vertex lies in a simplex when its edge does. *)
Lemma lies_holds : forall S x i p, i < 6 -> Permutation S (nodes_at x i) -> In p (ids l) ->
  (lies_in S (l_vertices l) (idx l p) <-> holds x i p).
Proof.
  intros S x i p L PS P. pose proof (position_at _ _ P) as Q. fold (idx l p) in Q. unfold ids in Q. rewrite nth_error_map in Q.
  destruct (nth_error (l_vertices l) (idx l p)) as [[[y k] t]|] eqn:V; [|discriminate]. cbn in Q. injection Q as Q.
  unfold ev in Q. cbn [fst snd] in Q.
  assert (k < 14) as K by (destruct HC as ((T & _ & _ & _ & I4 & _) & _); apply nth_error_In in V; eapply I4; eauto).
  assert (forall n, In n S <-> In n (nodes_at x i)) as M by (intros n; split; apply Permutation_in; auto; apply Permutation_sym; auto).
  assert (In y S /\ In (neighbor y k) S <-> holds x i p) as R.
  { rewrite !M. unfold holds. rewrite <- Q. destruct (Nat.lt_ge_cases k 7).
    - rewrite eid_lo by auto. cbn [fst snd]. tauto.
    - rewrite eid_hi by auto. cbn [fst snd]. rewrite neighbor_hi by auto. tauto. }
  rewrite <- R. unfold lies_in. rewrite V. split.
  - intros (v & EV & H1 & H2). injection EV as <-. auto.
  - intros [H1 H2]. exists (y, k, t). auto.
Qed.

Theorem mesh_watertight : watertight (fun n => In n N) (l_vertices l) (map (map3 (idx l)) (abstract_mesh keys)).
Proof.
  split.
  - rewrite sides_map. apply NoDup_map_in; [|apply abstract_nodup]. intros [a b] [c d] H1 H2 EQ. unfold map2 in EQ. cbn [fst snd] in EQ.
    injection EQ as E1 E2. apply side_in_ids in H1, H2. apply position_inj in E1; try tauto. apply position_inj in E2; try tauto. congruence.
  - intros u v H. rewrite sides_map in H. apply in_map_iff in H. destruct H as ([p q] & EQ & H). unfold map2 in EQ. cbn [fst snd] in EQ.
    injection EQ as <- <-. pose proof (side_in_ids _ _ H) as [P Q]. rewrite in_mesh_side by auto.
    apply in_sides in H. destruct H as (x & i & L & A & H).
    assert (forall y j, j < 6 -> (forall S, simplex S -> lies_in S (l_vertices l) (idx l p) -> lies_in S (l_vertices l) (idx l q) ->
              Forall (fun n => In n N) S) -> holds y j p -> holds y j q -> Forall (fun n => In n N) (nodes_at y j)) as FROM.
    { intros y j J W H1 H2. destruct (tet_simplex y j J) as (S & SS & PS). specialize (W S SS).
      rewrite (lies_holds S y j p), (lies_holds S y j q) in W by auto. specialize (W H1 H2). rewrite Forall_forall in *.
      intros n I. apply W. apply (Permutation_in _ (Permutation_sym PS)). auto. }
    destruct (tet_side_pair s x i p q L H) as [[R U]|[R (y & j & Lj & Rj & J1 & J2 & U)]].
    + split; intros _; [|apply in_sides; eauto].
      intros S SS H1 H2. destruct (simplex_tet S SS) as (x' & i' & L' & PS). apply (lies_holds S x' i') in H1, H2; auto.
      destruct (U x' i' L' H1 H2) as [-> ->]. rewrite Forall_forall in *. intros n I. apply A. apply (Permutation_in _ PS). auto.
    + split.
      * intros I S SS H1 H2. apply in_sides in I. destruct I as (z & k & Lk & Ak & I).
        assert (z = y /\ k = j) as [-> ->] by (eapply (tet_sides_unique s y j z k (q, p)); eauto).
        destruct (simplex_tet S SS) as (x' & i' & L' & PS). apply (lies_holds S x' i') in H1, H2; auto.
        rewrite Forall_forall in *. intros n I'. apply (Permutation_in _ PS) in I'.
        destruct (U x' i' L' H1 H2) as [[-> ->]|[-> ->]]; auto.
      * intros W. apply in_sides. exists y, j. split; auto.
Qed.

Theorem mesh_cuts_all : cuts_all (fun n => In n N) s (l_vertices l) (map (map3 (idx l)) (abstract_mesh keys)).
Proof.
  intros S u SS A (v & V & H1 & H2). destruct (simplex_tet S SS) as (x & i & L & PS). set (p := ev v).
  assert (nth_error (ids l) u = Some p) as Q by (unfold ids; rewrite nth_error_map, V; auto).
  assert (In p (ids l)) as P by (eapply nth_error_In; eauto).
  assert (idx l p = u) as <- by (apply position_unique; auto; apply nodup_ids).
  assert (lies_in S (l_vertices l) (idx l p)) as LI by (exists v; auto). apply (lies_holds S x i) in LI; auto.
  assert (In p (flat_map corners (tet_faces s x i))) as C.
  { apply tet_corners; auto. destruct HC as (_ & _ & _ & H & _). apply H in P. destruct P as (P1 & P2 & P3 & P4). auto. }
  apply in_flat_map in C. destruct C as (f & F & C).
  assert (Forall (fun n => In n N) (nodes_at x i)) as A'.
  { rewrite Forall_forall in *. intros n I. apply A. apply (Permutation_in _ (Permutation_sym PS)). auto. }
  assert (In f (abstract_mesh keys)) as FA by (apply in_abstract; eauto).
  exists (map3 (idx l) f). split; [apply in_map; auto|]. split.
  - destruct f as [[a b] c]. cbn in C |- *. destruct C as [->|[->|[->|[]]]]; auto.
  - intros w W. assert (exists r, In r (corners f) /\ idx l r = w) as (r & R & <-).
    { destruct f as [[a b] c]. unfold has_corner, map3 in W. cbn [fst snd] in W. destruct W as [->|[->| ->]]; [exists a|exists b|exists c]; cbn; auto. }
    apply (lies_holds S x i); auto; [eapply corner_in_ids; eauto|].
    assert (In r (flat_map corners (tet_faces s x i))) as R' by (apply in_flat_map; eauto). apply tet_corners in R'; tauto.
Qed.

Theorem mesh_faces_proper : forall f, In f (map (map3 (idx l)) (abstract_mesh keys)) ->
  distinct3 f /\ (forall w, has_corner f w -> w < length (l_vertices l)) /\
  exists S, simplex S /\ Forall (fun n => In n N) S /\ forall w, has_corner f w -> lies_in S (l_vertices l) w.
Proof.
  intros f H. apply in_map_iff in H. destruct H as ([[a b] c] & <- & F).
  assert (forall r, In r [a; b; c] -> In r (ids l)) as I by (intros r R; eapply (corner_in_ids (a, b, c)); eauto).
  assert (forall w, has_corner (map3 (idx l) (a, b, c)) w -> exists r, In r [a; b; c] /\ idx l r = w) as W.
  { intros w W. unfold has_corner, map3 in W. cbn [fst snd] in W. destruct W as [->|[->| ->]]; [exists a|exists b|exists c]; cbn; auto. }
  pose proof F as F'. apply in_abstract in F'. destruct F' as (x & i & L & A & T). split; [|split].
  - destruct (tet_face_distinct s x i a b c L T) as (D1 & D2 & D3). cbn.
    split; [|split]; intros EQ; apply position_inj in EQ; auto; apply I; cbn; auto.
  - intros w Hw. apply W in Hw. destruct Hw as (r & R & <-). apply nth_error_Some. apply I in R. apply position_at in R.
    fold (idx l r) in R. unfold ids in R. rewrite nth_error_map in R. destruct (nth_error (l_vertices l) _); [discriminate|discriminate R].
  - destruct (tet_simplex x i L) as (S & SS & PS). exists S. split; auto. split.
    + rewrite Forall_forall in *. intros n J. apply A. apply (Permutation_in _ PS). auto.
    + intros w Hw. apply W in Hw. destruct Hw as (r & R & <-). apply (lies_holds S x i); auto.
      assert (In r (flat_map corners (tet_faces s x i))) as R' by (apply in_flat_map; exists (a, b, c); auto). apply tet_corners in R'; tauto.
Qed.
End Mesh.
