From Coq Require Import List Arith ZArith Reals Bool Lia Lra.
From Verif Require Import Proofs.LatticeLayers Proofs.SeedTracking.
From Verif Require Import Model.Outcome Model.Clip Model.PointTriangle Model.Solver Model.Lattice Model.SeedTracking Spec.Lattice Spec.SeedTracking.
Import ListNotations.

(** C80: the search around a node returns exactly the nodes at the given distance, each once. *)
Theorem C80_knn : forall eligible x k, NoDup (knn_nodes eligible x k) /\ forall y, In y (knn_nodes eligible x k) <-> at_distance eligible x k y.
Proof. exact (fun eligible x k => conj (knn_nodup eligible x k) (knn_in eligible x k)). Qed.
Print Assumptions C80_knn.

(** C80: from seed points inside a finite box the tracking ends without an exception. All sampled nodes are in the box. From each seed the search goes to
    ever smaller absolute values and ends at an edge that crosses the surface or at a node with no smaller one nearby. Every crossing edge that is
    connected to a sampled one has its vertex, and the mesh has no holes inside the box. *)
Theorem C80_tracked : forall eligible pos descent field f (B : list lc) order fuel xs,
  (forall ys, f ys = Ok (map field ys)) -> (forall x, eligible x = true -> In x B) -> orders eligible order ->
  length B * 11 + 11 < fuel -> length B * length B + 2 <= fuel -> xs <> [] -> (forall x, In x xs -> interior eligible x) ->
  exists l (N : lc -> Prop), add_nodes_from_seed_points eligible pos descent f fuel order cleared xs = Ok (Some (l, None)) /\
  (forall x, N x -> eligible x = true) /\
  one_vertex_per_edge N (fun x => neg (field x)) (l_vertices l) /\ Forall (at_crossing field) (l_vertices l) /\
  (forall x, In x xs -> N x /\ (forall y, adjacent x y -> N y) /\
     exists z, descends eligible field x z /\ N z /\ (forall y, adjacent z y -> N y) /\ (at_surface eligible field z \/ stuck eligible field z)) /\
  (forall a b c d, crosses N (fun x => neg (field x)) a b -> linked eligible field a b c d -> exists v, In v (l_vertices l) /\ joins v c d) /\
  forall keys, enumerates keys l -> exists fs, get_mesh l keys = Ok fs /\ watertight (fun x => eligible x = true) (l_vertices l) fs /\
    cuts_all (fun x => eligible x = true) (fun x => neg (field x)) (l_vertices l) fs /\ proper_faces (fun x => eligible x = true) (l_vertices l) fs.
Proof.
  exact (fun eligible pos descent field f B order fuel xs F HB O F1 F2 NE I0 => seeds_mesh eligible pos descent field f B F HB order fuel xs O (conj F1 F2) NE I0).
Qed.
Print Assumptions C80_tracked.

(** C80: a seed next to the surface gives the whole piece of the surface that is connected to it. *)
Theorem C80_component : forall eligible pos descent field f (B : list lc) order fuel xs,
  (forall ys, f ys = Ok (map field ys)) -> (forall x, eligible x = true -> In x B) -> orders eligible order ->
  length B * 11 + 11 < fuel -> length B * length B + 2 <= fuel -> (forall x, In x xs -> interior eligible x) ->
  forall x y, In x xs -> adjacent x y -> neg (field x) <> neg (field y) ->
  exists l, add_nodes_from_seed_points eligible pos descent f fuel order cleared xs = Ok (Some (l, None)) /\
  forall c d, linked eligible field x y c d -> exists v, In v (l_vertices l) /\ joins v c d.
Proof. exact seeds_component. Qed.
Print Assumptions C80_component.

(** C80: the sampling. The nodes have their values; from each seed the search goes to a node at the surface, and then all of the piece of the surface
    there is sampled, or gets stuck. *)
Theorem C80_sampled : forall eligible pos descent field f (B : list lc) fuel xs,
  (forall ys, f ys = Ok (map field ys)) -> (forall x, eligible x = true -> In x B) ->
  length B * 11 + 11 < fuel -> length B * length B + 2 <= fuel -> xs <> [] -> (forall x, In x xs -> interior eligible x) ->
  exists l N, sample_seeds eligible pos descent f fuel cleared xs = Ok (Some (l, None)) /\ l_pending l = [] /\
  (forall x, l_nodes l x <> None <-> In x N) /\ (forall x n, l_nodes l x = Some n -> n = set_value new_node (field x)) /\ (forall x, In x N -> eligible x = true) /\
  forall x, In x xs -> In x N /\ (forall y, adjacent x y -> In y N) /\
    exists z, descends eligible field x z /\ In z N /\ (forall y, adjacent z y -> In y N) /\ (at_surface eligible field z \/ stuck eligible field z) /\
      (at_surface eligible field z -> exists y, adjacent z y /\ neg (field z) <> neg (field y) /\ forall c d, linked eligible field z y c d -> In c N /\ In d N).
Proof.
  intros eligible pos descent field f B fuel xs F HB F1 F2 NE I0. destruct (sample_seeds_spec eligible pos descent field f B F HB fuel xs (conj F1 F2) NE I0) as (l & N & E & (S1 & S2 & S3 & S4) & R).
  exists l, N. exact (conj E (conj S2 (conj S4 (conj S3 R)))).
Qed.
Print Assumptions C80_sampled.

(** C80: with the test for seed points the only exception is the one for there being none. *)
Theorem C80_defined : forall eligible pos descent field f (B : list lc) order fuel xs,
  (forall ys, f ys = Ok (map field ys)) -> (forall x, eligible x = true -> In x B) -> orders eligible order ->
  length B * 11 + 11 < fuel -> length B * length B + 2 <= fuel -> (forall x, In x xs -> interior eligible x) ->
  (xs = [] /\ seeded eligible pos descent f fuel order xs = Throw ExRuntimeError) \/ exists l, seeded eligible pos descent f fuel order xs = Ok (Some (l, None)).
Proof.
  intros eligible pos descent field f B order fuel xs F HB O F1 F2 I0. destruct xs as [|x xs]; [left; split; reflexivity|]. right.
  destruct (C80_tracked eligible pos descent field f B order fuel (x :: xs) F HB O F1 F2 ltac:(discriminate) I0) as (l & N & E & _). exists l. exact E.
Qed.
Print Assumptions C80_defined.

(** C80: without that test, a row that does not exist is read. *)
Theorem C80_no_seeds_refuted : ~ (forall eligible pos descent f fuel order, exists r, add_nodes_from_seed_points eligible pos descent f fuel order cleared [] = Ok r).
Proof. exact (fun H => match H (fun _ => false) (fun _ => (0, 0, 0)%R) (fun _ _ => None) (fun _ => Ok []) 0 (fun _ => []) with ex_intro _ r E => ltac:(discriminate E) end). Qed.
Print Assumptions C80_no_seeds_refuted.

(** A plane in a box of 125 nodes, from one seed: an edge far from the seed has a vertex. *)
Definition box5 : list lc := flat_map (fun i => flat_map (fun j => map (fun k => (i, j, k)) [-2; -1; 0; 1; 2]%Z) [-2; -1; 0; 1; 2]%Z) [-2; -1; 0; 1; 2]%Z.
Definition in_box5 (x : lc) : bool := mem x box5.
Definition plane (x : lc) : num := let '(i, _, _) := x in Some (IZR i + 1 / 2)%R.
Definition order5 (l : lattice) : list lc := filter (fun x => match l_nodes l x with Some _ => true | None => false end) box5.
Fixpoint distinct (l : list lc) : bool := match l with [] => true | x :: l' => negb (mem x l') && distinct l' end.
Lemma distinct_nodup : forall l, distinct l = true -> NoDup l.
Proof.
  induction l as [|x l IH]; cbn; intros H; constructor; apply andb_true_iff in H; destruct H as [H K]; auto. intros Q. apply mem_in in Q. rewrite Q in H. discriminate.
Qed.
Lemma plane_neg : forall i j k, neg (plane (i, j, k)) = (i <? 0)%Z.
Proof.
  intros i j k. unfold neg, plane. destruct (Rlt_dec _ _) as [L|L]; destruct (Z.ltb_spec i 0) as [Q|Q]; auto; exfalso.
  - apply IZR_le in Q. lra.
  - assert (i <= -1)%Z as Q' by lia. apply IZR_le in Q'. lra.
Qed.
Example C80_example : forall fuel, length box5 * length box5 + 2 <= fuel -> exists l, add_nodes_from_seed_points in_box5 (fun _ => (0, 0, 0)%R) (fun _ _ => None) (fun ys => Ok (map plane ys)) fuel order5 cleared [(0, 0, 0)%Z] = Ok (Some (l, None)) /\
  exists v, In v (l_vertices l) /\ joins v (-1, 1, 0)%Z (0, 2, 0)%Z.
Proof.
  intros fuel FU. destruct (C80_component in_box5 (fun _ => (0, 0, 0)%R) (fun _ _ => None) plane (fun ys => Ok (map plane ys)) box5 order5 fuel [(0, 0, 0)%Z]) with (x := (0, 0, 0)%Z) (y := (-1, 0, 0)%Z) as (l & E & H).
  - reflexivity.
  - intros x. unfold in_box5. apply mem_in.
  - intros l N NN EL. split.
    + apply NoDup_filter, distinct_nodup. reflexivity.
    + intros x. unfold order5. rewrite filter_In. destruct (l_nodes l x) eqn:Q; [|intuition congruence]. split; [congruence|]. intros _. split; auto.
      apply mem_in, EL, NN. congruence.
  - change (length box5) with 125 in *. lia.
  - exact FU.
  - intros x [<-|[]]. split; [reflexivity|]. intros y Y. apply around_in in Y. cbn in Y. repeat (destruct Y as [<-|Y]; [reflexivity|]). destruct Y.
  - left. reflexivity.
  - apply around_in. cbn. tauto.
  - rewrite !plane_neg. discriminate.
  - exists l. split; [exact E|]. apply H.
    assert (A : forall x y, In y (around x) -> adjacent x y) by (intros; apply around_in; auto).
    assert (T : forall c d e, linked in_box5 plane (0, 0, 0)%Z (-1, 0, 0)%Z d c -> In e (around c) -> In e (around d) -> in_box5 e = true -> neg (plane c) <> neg (plane e) -> linked in_box5 plane (0, 0, 0)%Z (-1, 0, 0)%Z c e).
    { intros c d e L C D EL NE. apply (linked_turn _ _ _ _ _ d); auto. apply linked_back. exact L. }
    apply (T (-1, 1, 0)%Z (0, 1, 0)%Z); [apply (T (0, 1, 0)%Z (-1, 0, 0)%Z); [apply (T (-1, 0, 0)%Z (0, 0, 0)%Z); [constructor|..]|..]|..].
    all: try (cbn; tauto). all: try reflexivity. all: rewrite !plane_neg; discriminate.
Qed.
