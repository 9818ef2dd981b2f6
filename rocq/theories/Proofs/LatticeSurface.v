From Coq Require Import List Arith ZArith Reals Bool Lia Lra Permutation.
From Verif Require Import Model.Outcome Model.MeshDefects Model.Solver Model.Lattice Spec.VertexClusterer Proofs.LatticeVertices
  Proofs.LatticeLayers Proofs.LatticeTets Proofs.LatticeMesh Proofs.LatticeFill Proofs.LatticeGeometry Spec.Lattice.
Import ListNotations.

Definition good_mesh (N : lc -> Prop) (s : lc -> bool) (l : lattice) (fs : list face) : Prop :=
  watertight N (l_vertices l) fs /\ cuts_all N s (l_vertices l) fs /\ proper_faces N (l_vertices l) fs.

Lemma complete_mesh : forall field N l keys, complete field N l -> enumerates keys l ->
  exists fs, get_mesh l keys = Ok fs /\ good_mesh (fun x => In x N) (fun x => neg (field x)) l fs /\
    forall o u v w tau, (det3 u v w > 0)%R -> (forall i, 0 < tau i < 1)%R ->
      normals_point_out (placed o u v w) (fun x => neg (field x)) (l_vertices l) (vertex_at (placed o u v w) (l_vertices l) tau) fs.
Proof.
  intros field N l keys C [KN K]. eexists. split; [apply (get_mesh_spec field N l C keys); intros x X; apply K; auto|]. split.
  - split; [apply (mesh_watertight field N l C keys K KN)|]. split; [apply (mesh_cuts_all field N l C keys K)|].
    intros f F. apply (mesh_faces_proper field N l C keys K f F).
  - intros o u v w tau D T. apply (mesh_oriented field N l keys C K o u v w tau D T).
Qed.

Theorem box_vertices : forall field f layers z, (forall ys, f ys = Ok (map field ys)) -> layered z layers ->
  exists l, add_all_nodes f cleared layers = Ok (l, None) /\
    one_vertex_per_edge (fun x => In x (concat layers)) (fun x => neg (field x)) (l_vertices l) /\
    Forall (at_crossing field) (l_vertices l) /\
    forall x, l_nodes l x <> None <-> on_surface (fun x => In x (concat layers)) (fun x => neg (field x)) x.
Proof.
  intros field f layers z F LA. destruct (add_all_nodes_spec field f layers z F LA) as (l & E1 & C). exists l. split; auto.
  destruct (complete_one_vertex _ _ _ C) as [O S]. split; auto. split; auto. apply C.
Qed.

Theorem box_mesh : forall field f layers z, (forall ys, f ys = Ok (map field ys)) -> layered z layers ->
  exists l, add_all_nodes f cleared layers = Ok (l, None) /\ forall keys, enumerates keys l ->
    exists fs, get_mesh l keys = Ok fs /\
      watertight (fun x => In x (concat layers)) (l_vertices l) fs /\
      cuts_all (fun x => In x (concat layers)) (fun x => neg (field x)) (l_vertices l) fs /\
      proper_faces (fun x => In x (concat layers)) (l_vertices l) fs.
Proof.
  intros field f layers z F LA. destruct (add_all_nodes_spec field f layers z F LA) as (l & E1 & C). exists l. split; auto.
  intros keys K. destruct (complete_mesh _ _ _ _ C K) as (fs & G & M & _). exists fs. split; auto.
Qed.

Theorem box_normals : forall field f layers z l keys fs o u v w tau, (forall ys, f ys = Ok (map field ys)) -> layered z layers ->
  add_all_nodes f cleared layers = Ok (l, None) -> enumerates keys l -> get_mesh l keys = Ok fs ->
  (det3 u v w > 0)%R -> (forall i, 0 < tau i < 1)%R ->
  normals_point_out (placed o u v w) (fun x => neg (field x)) (l_vertices l) (vertex_at (placed o u v w) (l_vertices l) tau) fs.
Proof.
  intros field f layers z l keys fs o u v w tau F LA E1 K G D T. destruct (add_all_nodes_spec field f layers z F LA) as (l' & E2 & C).
  rewrite E1 in E2. injection E2 as <-. destruct (complete_mesh _ _ _ _ C K) as (fs' & G' & _ & O). rewrite G in G'. injection G' as <-.
  apply O; auto.
Qed.

(** A surface that stays away from unsampled tetrahedra is closed. *)
Theorem watertight_closed : forall N s vs fs, watertight N vs fs -> one_vertex_per_edge N s vs ->
  (forall S a b, simplex S -> In a S -> In b S -> crosses N s a b -> Forall N S) -> closed fs.
Proof.
  intros N s vs fs [ND W] [O _] H. split; auto. intros u v I. apply (W u v I). intros S SS (x & X & A & B) _.
  apply (H S (fst (ends x)) (snd (ends x))); auto. apply O. eapply nth_error_In; eauto.
Qed.

(** ** Surfaces tracked from seeds *)

Lemma simplex_adjacent : forall S a b, simplex S -> In a S -> In b S -> a = b \/ exists e, e < 14 /\ b = neighbor a e.
Proof.
  intros S a b SS A B. destruct (simplex_tet S SS) as (x & i & L & P). apply (Permutation_in _ P) in A, B.
  unfold nodes_at in A, B. apply in_map_iff in A, B. destruct A as (m & <- & A), B as (n & <- & B).
  assert (m = n \/ exists e, e < 14 /\ n = neighbor m e) as [->|(e & Le & ->)].
  { assert (forallb (fun m => forallb (fun n => lc_eqb m n || existsb (fun e => lc_eqb n (neighbor m e)) (seq 0 14)) (tnodes i)) (tnodes i) = true) as Q.
    { clear - L. revert i L. apply lt6; vm_compute; reflexivity. }
    rewrite forallb_forall in Q. specialize (Q m A). rewrite forallb_forall in Q. specialize (Q n B). apply orb_true_iff in Q.
    destruct Q as [Q|Q]; [apply lc_eqb_true in Q; auto|]. right. apply existsb_exists in Q. destruct Q as (e & Le & Q). apply in_seq in Le.
    apply lc_eqb_true in Q. exists e. split; [lia|auto]. }
  - auto.
  - right. exists e. split; auto. symmetry. apply neighbor_shift.
Qed.

Lemma filled_simplex : forall field eligible N S a b, (forall a b, edge_of field N a b -> done eligible N a \/ done eligible N b) ->
  simplex S -> In a S -> In b S -> crosses (fun x => In x N) (sgn field) a b -> Forall (fun x => eligible x = true) S -> Forall (fun x => In x N) S.
Proof.
  intros field eligible N S a b H SS A B (Na & Nb & AD & D) EL. rewrite Forall_forall in *. intros c C.
  apply adjacent_iff in AD. destruct (H a b) as [K|K]; [split; auto| |].
  - destruct (simplex_adjacent S a c SS A C) as [<-|(e & L & ->)]; auto.
  - destruct (simplex_adjacent S b c SS B C) as [<-|(e & L & ->)]; auto.
Qed.

Lemma watertight_eligible : forall field eligible N l fs, complete field N l ->
  (forall x, In x N -> eligible x = true) -> (forall a b, edge_of field N a b -> done eligible N a \/ done eligible N b) ->
  watertight (fun x => In x N) (l_vertices l) fs -> watertight (fun x => eligible x = true) (l_vertices l) fs.
Proof.
  intros field eligible N l fs C EL H [ND W]. split; auto. intros u v I. rewrite (W u v I). clear W.
  destruct (complete_one_vertex _ _ _ C) as [[O _] _]. split; intros K S SS HU HV; specialize (K S SS HU HV).
  - rewrite Forall_forall in *. auto.
  - destruct HU as (x & X & A & B). apply (filled_simplex field eligible N S (fst (ends x)) (snd (ends x))); auto. apply O.
    eapply nth_error_In; eauto.
Qed.

Theorem tracked_mesh : forall field f eligible (B : list lc) rounds fuel, (forall ys, f ys = Ok (map field ys)) ->
  (forall x, eligible x = true -> In x B) -> length B < fuel ->
  exists l1, track eligible f cleared rounds = Ok (l1, None) /\
  forall keys1, enumerates keys1 l1 -> exists l2, complete_surface fuel eligible f l1 keys1 = Ok (Some (l2, None)) /\
    (forall x, l_nodes l1 x <> None -> l_nodes l2 x <> None) /\ (forall x, l_nodes l2 x <> None -> eligible x = true) /\
  forall keys2, enumerates keys2 l2 -> exists l3 l4, generate_vertices l2 keys2 = Ok l3 /\ remove_free_nodes l3 keys2 = Ok l4 /\
    one_vertex_per_edge (fun x => l_nodes l2 x <> None) (fun x => neg (field x)) (l_vertices l4) /\
    Forall (at_crossing field) (l_vertices l4) /\
  forall keys4, enumerates keys4 l4 -> exists fs, get_mesh l4 keys4 = Ok fs /\
    watertight (fun x => eligible x = true) (l_vertices l4) fs /\
    cuts_all (fun x => eligible x = true) (fun x => neg (field x)) (l_vertices l4) fs /\
    proper_faces (fun x => eligible x = true) (l_vertices l4) fs.
Proof.
  intros field f eligible B rounds fuel F HB FU.
  destruct (track_spec field f eligible F rounds [] cleared (sampled_cleared field)) as (l1 & N1 & E1 & S1 & _ & EL1 & _); [intros x []|].
  exists l1. split; auto. intros keys1 [K1 KK1]. assert (forall x, l_nodes l1 x <> None <-> In x N1) as NN1 by apply S1.
  destruct (complete_surface_spec field f eligible B F HB fuel N1 l1 keys1 S1 FU) as (l2 & N2 & E2 & S2 & I2 & EL2 & D2); auto.
  { intros x. rewrite KK1. apply NN1. }
  assert (forall x, l_nodes l2 x <> None <-> In x N2) as NN2 by apply S2.
  exists l2. split; auto. split; [intros x X; apply NN2; apply I2; apply NN1; auto|]. split; [intros x X; apply EL2; apply NN2; auto|].
  intros keys2 [K2 KK2]. destruct (tracked_spec field N2 l2 keys2 S2 K2) as (l3 & l4 & E3 & E4 & C).
  { intros x. rewrite KK2. apply NN2. }
  exists l3, l4. split; auto. split; auto. destruct (complete_one_vertex _ _ _ C) as [O _].
  assert (forall a b, crosses (fun x => l_nodes l2 x <> None) (sgn field) a b <-> crosses (fun x => In x N2) (sgn field) a b) as CR.
  { intros a b. unfold crosses. rewrite !NN2. tauto. }
  split; [|split].
  - destruct O as [O1 O2]. split.
    + intros v V. apply CR. auto.
    + intros a b AB. apply O2. apply CR. auto.
  - apply C.
  - intros keys4 K4. destruct (complete_mesh _ _ _ _ C K4) as (fs & G & (W & CA & PF) & _). exists fs. split; auto.
    split; [eapply watertight_eligible; eauto|]. split.
    + intros S u SS EL (v & V & A & B'). apply CA; auto; [|exists v; auto].
      apply (filled_simplex field eligible N2 S (fst (ends v)) (snd (ends v))); auto. apply O. eapply nth_error_In; eauto.
    + intros fc FC. destruct (PF fc FC) as (P1 & P2 & S & P3 & P4 & P5). split; auto. split; auto. exists S. split; auto. split; auto.
      rewrite Forall_forall in *. auto.
Qed.

(** ** Repeated calls *)

Section Calls.
Variables (M : Type) (order : lattice -> list lc).
Definition request := (field_fn * list (list lc) * (list (lc * nat * num) -> list face -> outcome M))%type.
Definition ask (r : request) (l : lattice) : outcome (lattice * (M + exn)) := let '(f, layers, post) := r in generate f layers order post l.

Lemma success_clears : forall r l l' m, ask r l = Ok (l', inl m) -> l' = cleared.
Proof.
  intros [[f layers] post] l l' m. cbn [ask]. unfold generate. destruct (add_all_nodes f l layers) as [[l1 [e|]]| |]; try discriminate.
  destruct (get_mesh l1 (order l1)) as [fs| |]; try discriminate. destruct (post (l_vertices l1) fs); try discriminate. congruence.
Qed.
End Calls.

(** A field that fails on the second layer, and the same field without the failure. *)
Definition ex_field (x : lc) : num := if lc_eqb x (0, 0, 0)%Z then Some (-1)%R else Some 1%R.
Definition ex_good : field_fn := fun ys => Ok (map ex_field ys).
Definition ex_bad : field_fn := fun ys => match ys with [_] => Throw ExRuntimeError | _ => ex_good ys end.
Definition ex_layers : list (list lc) := [[(0, 0, 0); (1, 0, 0)]; [(0, 0, 1)]]%Z.

Lemma neg_minus : neg (Some (-1)%R) = true.
Proof. unfold neg. destruct (Rlt_dec (-1) 0); auto. exfalso. lra. Qed.
Lemma neg_one : neg (Some 1%R) = false.
Proof. unfold neg. destruct (Rlt_dec 1 0); auto. exfalso. lra. Qed.
Definition ex_t : num := ndiv (Some 1%R) (nsub (Some 1%R) (Some (-1)%R)).
Lemma ex_half : below_half ex_t = false.
Proof.
  unfold ex_t, ndiv, nsub, below_half. cbn. destruct (Req_EM_T (1 - -1) 0) as [H|H]; auto.
  destruct (Rlt_dec (1 / (1 - -1)) (1 / 2)); auto. exfalso. lra.
Qed.

Lemma repeated_after_failure : exists l1 l2, add_all_nodes ex_bad cleared ex_layers = Ok (l1, Some ExRuntimeError) /\
  add_all_nodes ex_good l1 ex_layers = Ok (l2, None) /\
  (exists v w, nth_error (l_vertices l2) 0 = Some v /\ nth_error (l_vertices l2) 1 = Some w /\
     joins v (0, 0, 0)%Z (1, 0, 0)%Z /\ joins w (0, 0, 0)%Z (1, 0, 0)%Z).
Proof.
  assert (exists l1, add_all_nodes ex_bad cleared ex_layers = Ok (l1, Some ExRuntimeError) /\
    exists l2, add_all_nodes ex_good l1 ex_layers = Ok (l2, None) /\ exists rest, l_vertices l2 = ((0, 0, 0)%Z, 0, nsub (Some 1%R) ex_t) :: ((0, 0, 0)%Z, 0, nsub (Some 1%R) ex_t) :: rest)
    as (l1 & E1 & l2 & E2 & rest & V).
  { unfold add_all_nodes, ex_layers. cbn -[neg ndiv nsub below_half]. rewrite ?neg_minus, ?neg_one. cbn -[neg ndiv nsub below_half].
    fold ex_t. rewrite ex_half. cbn -[neg ndiv nsub below_half]. eexists. split; [reflexivity|].
    cbn -[neg ndiv nsub below_half]. rewrite ?neg_minus, ?neg_one. cbn -[neg ndiv nsub below_half]. fold ex_t. rewrite ?ex_half.
    cbn -[neg ndiv nsub below_half]. rewrite ?neg_minus, ?neg_one. cbn -[neg ndiv nsub below_half]. fold ex_t. rewrite ?ex_half.
    cbn -[neg ndiv nsub below_half]. eexists. split; [reflexivity|]. eexists. reflexivity. }
  exists l1, l2. split; auto. split; auto. rewrite V. eexists. eexists. split; [reflexivity|]. split; [reflexivity|]. split; left; reflexivity.
Qed.
Lemma ex_layered : layered 0 ex_layers.
Proof. cbn. repeat split; auto; repeat constructor; cbn; intuition discriminate. Qed.
Lemma ex_crosses : crosses (fun x => In x (concat ex_layers)) (fun x => neg (ex_field x)) (0, 0, 0)%Z (1, 0, 0)%Z.
Proof.
  split; [cbn; tauto|]. split; [cbn; tauto|]. split.
  - exists (1, 0, 0)%Z. split; [cbn; unfold bit; intuition discriminate|left; reflexivity].
  - unfold ex_field. cbn -[neg]. rewrite neg_minus, neg_one. discriminate.
Qed.

Lemma position_inside : forall t, (0 < min_offset <= clamped t /\ clamped t <= 1 - min_offset < 1)%R /\
  (min_offset <= t <= 1 - min_offset -> clamped t = t)%R.
Proof. intros t. destruct (clamped_inside t) as [[A B] C]. assert (0 < min_offset)%R by (unfold min_offset; lra). split; auto. lra. Qed.
