(** C35: snapping a mesh to points. *)
From Coq Require Import List Arith Bool Lia Permutation Sorted.
From Verif.Model Require Import Outcome Snapper.
From Verif.Spec Require Import Snapper.
From Verif.Proofs Require Import Snapper SnapperPatches SnapperTotal.
Import ListNotations.

(** The three counts partition the snap points. *)
Theorem C35_stats : forall {P A T : Type} (E : env P A T), arranged E ->
  forall fuel r, snapper E fuel = Ok (Some r) -> partition E r.
Proof. exact @stats. Qed.
Print Assumptions C35_stats.

(** The queue is empty after nine candidates per point at most, whatever the tests say. *)
Theorem C35_terminates : forall {P A T : Type} (E : env P A T), arranged E ->
  (forall r, snapper E (9 * np E) = Ok r -> r <> None) /\
  forall fuel, 9 * np E <= fuel -> snapper E fuel = snapper E (9 * np E).
Proof. exact @terminates. Qed.
Print Assumptions C35_terminates.

(** The emitted faces refer to emitted vertices only, and every emitted vertex is used. *)
Theorem C35_indexed : forall {P A T : Type} (E : env P A T) fuel r,
  snapper E fuel = Ok (Some r) -> well_indexed (length (r_vertices r)) (r_faces r).
Proof. exact @indexed. Qed.
Print Assumptions C35_indexed.

(** Every emitted position is that of a snap point or of a vertex of the mesh. *)
Theorem C35_positions : forall {P A T : Type} (E : env P A T), arranged E ->
  forall fuel r, snapper E fuel = Ok (Some r) -> Forall (given E) (r_vertices r).
Proof. exact @positions. Qed.
Print Assumptions C35_positions.

(** If a point that is a vertex of its patch counts as satisfied: each snap point is put into one
    place at most, and the emitted faces are the triangulations of the patches with all that was put
    on their edges and into their interior. *)
Theorem C35_patches : forall {P A T : Type} (E : env P A T), oriented E -> watchful E -> arranged E ->
  forall fuel r, snapper E fuel = Ok (Some r) ->
  exists s rows parts, snap E fuel = Ok (Some s) /\ placed_once E s /\
    NoDup rows /\ r_vertices r = map (s_p s) rows /\
    map (renamed rows) (r_faces r) = concat parts /\ length parts = num_faces E /\
    (forall fi, fi < num_faces E -> exists b, triangulate E s fi = Ok (b, nth fi parts [])).
Proof. exact @patches. Qed.
Print Assumptions C35_patches.

(** On the same condition, an attempt that fails leaves the mesh as it was. *)
Theorem C35_rejected : forall {P A T : Type} (E : env P A T), oriented E -> watchful E -> arranged E ->
  forall s, reachable E s -> placed_once E s /\ current E s /\
  forall c d s', In c (candidates E) -> place E s c = Ok (false, d, s') -> same_mesh s s'.
Proof. exact @rejected. Qed.
Print Assumptions C35_rejected.

(** The vertices on an edge are in order, and the two faces at an edge see the same vertices in
    opposite order. *)
Theorem C35_edges : forall {P A T : Type} (E : env P A T), weak_order E ->
  forall fuel s, snap E fuel = Ok (Some s) -> in_order E s /\
  forall u w, u <> w -> along s w u = rev (along s u w).
Proof. intros P A T E W fuel s H. split; [exact (snap_order E W fuel s H)|exact (along_rev s)]. Qed.
Print Assumptions C35_edges.
(** The marks given to the triangulation belong to the polygon of the face: a corner is marked with the two sides meeting there, side [e]
    starting and side [e'] ending at it, any other vertex with the side it lies on. *)
Theorem C35_marks : forall {P A T : Type} (s : state P A T) f, length (boundary_edges s f) = length (boundary s f) /\
  forall v e o, In (v, (e, o)) (combine (boundary s f) (boundary_edges s f)) -> e < 3 /\
    match o with None => In v (side s f e) | Some e' => e' < 3 /\ v = corner f e /\ v = corner f ((e' + 1) mod 3) end.
Proof. exact @marks. Qed.
Print Assumptions C35_marks.

(** Snapping succeeds when the tests stay in range. *)
Theorem C35_total : forall {P A T : Type} (E : env P A T), in_range E -> valid_faces E -> arranged E ->
  exists r, snapper E (9 * np E) = Ok (Some r).
Proof. exact @total. Qed.
Print Assumptions C35_total.

(** ** An example: two triangles with a common edge, a point on the edge and one in a triangle *)

Definition fan (n : nat) : list tri3 := map (fun k => (0, S k, S (S k))) (seq 0 (n - 2)).
Definition star (n : nat) : list tri3 := map (fun k => (k, (k + 1) mod n, n)) (seq 0 n).
Definition c0 : candidate unit nat := Candidate 0 0 tt 0 (fun _ => 1) [Side 0; Inside].
Definition c1 : candidate unit nat := Candidate 1 1 tt 1 (fun _ => 1) [Corner 0; Inside].
Definition e12 : edge := (3, 4).
Definition example (sat : state nat unit nat -> candidate unit nat -> bool)
    (kn : state nat unit nat -> list nat) : env nat unit nat :=
  Env nat unit nat 2 4 (fun i => 100 + i) (fun v => v) [(0, 1, 2); (2, 1, 3)] (fun _ => tt)
    (fun i => match i with 0 => Some c0 | 1 => Some c1 | _ => None end) (fun l => l)
    (fun a _ _ => a) 0 Nat.add Nat.div Nat.ltb
    (fun _ b _ i => Ok (true, match i with [] => fan (length b) | _ => star (length b) end))
    (fun _ _ _ => false) sat
    (fun s changed => (length (s_chain s e12) <=? 1) && (s_p s 4 <? 100)) kn
    (fun s i => true) (fun _ _ => []).

Definition eager (s : state nat unit nat) (c : candidate unit nat) : bool := false.
Definition careful (s : state nat unit nat) (c : candidate unit nat) : bool :=
  existsb (Nat.eqb (c_point c)) (patch_rows (example eager (fun _ => [])) s (c_face c)).
Definition good := example careful (fun s => match s_interior s 1 with [] => [] | _ => [0] end).

Lemma ex_arranged : forall sat kn, arranged (example sat kn).
Proof. intros. apply Permutation_refl. Qed.

Lemma ex_oriented : forall sat kn, oriented (example sat kn).
Proof.
  intros sat kn fi fj a b Li Lj Ri Rj. change (num_faces (example sat kn)) with 2 in *.
  apply runs_spec in Ri. apply runs_spec in Rj. destruct Ri as (k & Lk & <- & <-), Rj as (m & Lm & E1 & E2).
  destruct fi as [|[|fi]]; [| |lia]; destruct fj as [|[|fj]]; try lia; try reflexivity;
  destruct k as [|[|[|k]]]; try lia; destruct m as [|[|[|m]]]; try lia;
  vm_compute in E1, E2; lia.
Qed.

Lemma ex_range : forall sat kn, (forall s i, In i (kn s) -> i < 2) -> in_range (example sat kn).
Proof.
  intros sat kn K. constructor.
  - intros s k fi [].
  - intros s i I. apply K in I. exact I.
  - intros i c H. change (num_faces (example sat kn)) with 2. destruct i as [|[|i]]; inversion H; subst; cbn; lia.
  - intros fi b l i L. do 2 eexists. split; [reflexivity|]. intros f k I J.
    destruct i as [|x i].
    + unfold fan in I. apply in_map_iff in I. destruct I as (m & <- & I). apply in_seq in I.
      cbn [corners fst snd In length] in *. lia.
    + unfold star in I. apply in_map_iff in I. destruct I as (m & <- & I). apply in_seq in I.
      assert ((m + 1) mod length b < length b) by (apply Nat.mod_upper_bound; lia).
      cbn [corners fst snd In length] in *. lia.
Qed.

Lemma ex_watchful : watchful good.
Proof.
  intros s c I. cbn [good example satisfied]. unfold careful. apply existsb_exists. exists (c_point c).
  split; [exact I|apply Nat.eqb_refl].
Qed.

(** The point on the edge is reported as dishonored once the other is placed, found to be a vertex
    already, and left alone. *)
Example C35_example : snapper good 18 = Ok (Some (Result 0 2 0 [0; 1; 100; 2; 101; 3]
  [(0, 1, 2); (0, 2, 3); (3, 2, 4); (2, 1, 4); (1, 5, 4); (5, 3, 4)])).
Proof. reflexivity. Qed.

Example C35_example_premises : arranged good /\ oriented good /\ watchful good /\ in_range good /\ valid_faces good /\ weak_order good.
Proof.
  split; [apply ex_arranged|]. split; [apply ex_oriented|]. split; [apply ex_watchful|]. split.
  - apply ex_range. intros s i I. destruct (s_interior s 1); [destruct I|]. destruct I as [<-|[]]. lia.
  - split.
    + intros f [<-|[<-|[]]] v [<-|[<-|[<-|[]]]]; cbn; lia.
    + split; cbn [good example lt].
      * intros x y H. apply Nat.ltb_lt in H. apply Nat.ltb_ge. lia.
      * intros x y z H K. apply Nat.ltb_ge in H, K. apply Nat.ltb_ge. lia.
Qed.

(** ** Where it goes wrong *)

Definition bad := example eager (fun s => match s_interior s 1, s_interior s 0 with _ :: _, [] => [0] | _, _ => [] end).

(** When a point that already is on an edge is tried there again (because a test found it to be off
    the surface) and refused, its earlier entry is erased as well.  Here it then goes into the
    interior of one face; the faces of the other patch still use it as a vertex of the common edge,
    while those of the first patch run along the whole edge, so that the mesh has a crack. *)
Theorem C35_rejected_refuted : exists E : env nat unit nat,
  oriented E /\ arranged E /\ in_range E /\ exists s, snap E (9 * np E) = Ok (Some s) /\
  (exists f, In f (s_faces s 1) /\ In 0 (corners f)) /\ ~ In 0 (patch_rows E s 1) /\ ~ current E s /\
  (exists f, In f (s_faces s 0) /\ runs f 3 4 = true) /\ (forall f, In f (s_faces s 1) -> runs f 4 3 = false).
Proof.
  exists bad. split; [apply ex_oriented|]. split; [apply ex_arranged|]. split.
  { apply ex_range. intros s i I. destruct (s_interior s 1), (s_interior s 0); try destruct I as [<-|[]]; try destruct I. lia. }
  eexists. split; [vm_compute; reflexivity|]. split; [|split; [|split; [|split]]].
  - exists (4, 0, 1). split; [left; reflexivity|right; left; reflexivity].
  - intros I. vm_compute in I. repeat (destruct I as [I|I]; [discriminate|]). exact I.
  - intros C. destruct (C 1) as (b & H); [vm_compute; lia|vm_compute; discriminate|]. vm_compute in H. discriminate.
  - exists (3, 4, 0). split; [right; left; reflexivity|reflexivity].
  - intros f I. vm_compute in I. destruct I as [<-|[<-|[<-|[<-|[]]]]]; reflexivity.
Qed.
Print Assumptions C35_rejected_refuted.

(** For a mesh without faces all counts stay zero and do not add up to the number of points. *)
Theorem C35_empty_refuted : exists (E : env nat unit nat) r, arranged E /\ snap_mesh E (9 * np E) 0 = Ok (Some r) /\ ~ partition E r.
Proof.
  exists (Env nat unit nat 2 0 (fun i => i) (fun v => v) [] (fun _ => tt) (fun _ => None) (fun l => l)
    (fun a _ _ => a) 0 Nat.add Nat.div Nat.ltb (fun _ _ _ _ => Ok (true, [])) (fun _ _ _ => false) (fun _ _ => false)
    (fun _ _ => true) (fun _ => []) (fun _ _ => false) (fun _ _ => [])).
  eexists. split; [apply Permutation_refl|]. split; [reflexivity|]. unfold partition. cbn. lia.
Qed.
Print Assumptions C35_empty_refuted.
