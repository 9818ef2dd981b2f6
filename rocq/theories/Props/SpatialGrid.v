From Coq Require Import List ZArith Reals Bool Lia Lra.
From Verif Require Import Model.Outcome Model.SpatialGrid Spec.SpatialGrid Proofs.SpatialGrid.
Import ListNotations.
Local Open Scope R_scope.

(** C34: after any history of insertions, removals (with the box used at insertion), reservations and
    queries, nothing throws and a query calls back each item at most once, only stored items whose
    cells meet the query, and, unless the callback stops it, every stored item whose box overlaps the
    query box. The rounding of the division by the resolution is any monotone function. *)
Theorem C34_spatial_grid_query :
  forall rnd resolution, (forall a b, a <= b -> rnd a <= rnd b) -> 0 < resolution ->
  forall n os lo hi fn, same_boxes (fun _ => None) os -> Forall (op_representable rnd resolution) os ->
  representable_point rnd resolution lo -> representable_point rnd resolution hi ->
  let s := store (flat_map edits_of os) in
  exists g g' out stop, run rnd resolution (grid_new n) os = Ok g /\
    for_each rnd resolution g lo hi fn = Ok (g', out, stop) /\
    NoDup out /\ answered fn out stop /\
    (forall i, In i out -> exists b, s i = Some b /\ cells_meet rnd resolution b (lo, hi)) /\
    (stop = false -> forall i b, s i = Some b -> overlap b (lo, hi) -> In i out).
Proof. exact grid_history. Qed.
Print Assumptions C34_spatial_grid_query.

Lemma unit_representable : forall x, -100 <= x <= 100 -> representable (fun x => x) 1 x.
Proof. 
  intros x H. unfold representable.
  replace (x / 1) with x by field. change (- 2 ^ 31)%Z with (-2147483648)%Z. change (2 ^ 31 - 1)%Z with 2147483647%Z.
  split; lra.
 Qed.

Lemma unit_point : forall x y z, -100 <= x <= 100 -> -100 <= y <= 100 -> -100 <= z <= 100 ->
  representable_point (fun x => x) 1 (x, y, z).
Proof. intros. split; [|split]; apply unit_representable; assumption. Qed.

Example C34_spatial_grid_query_ex :
  let os := [OInsert 0 (0, 0, 0) (2, 1, 1); OInsert 7 (1, 0, 0) (1, 0, 3); ORemove 0 (0, 0, 0) (2, 1, 1)] in
  exists g g' out stop, run (fun x => x) 1 (grid_new 1) os = Ok g /\
    for_each (fun x => x) 1 g (-1, -1, 2) (5, 5, 2) (fun _ _ => true) = Ok (g', out, stop) /\ out = [7%nat].
Proof.
  intros os.
  destruct (grid_history (fun x => x) 1 ltac:(auto) ltac:(lra) 1 os (-1, -1, 2) (5, 5, 2) (fun _ _ => true))
    as (g & g' & out & stop & R & F & ND & AN & X & Y).
  - cbn. auto.
  - repeat apply Forall_cons; [| | |apply Forall_nil]; (split; apply unit_point; lra).
  - apply unit_point; lra.
  - apply unit_point; lra.
  - exists g, g', out, stop. split; [exact R|]. split; [exact F|].
    assert (stop = false) as ->.
    { destruct stop; auto. destruct out; [destruct AN|]. destruct AN. discriminate. }
    assert (In 7%nat out) as I.
    { apply (Y eq_refl 7%nat ((1, 0, 0), (1, 0, 3))); [reflexivity|]. exists (1, 0, 2). cbn. lra. }
    assert (forall i, In i out -> i = 7%nat) as U.
    { intros i Q. destruct (X i Q) as (b & E & _). unfold store, os in E. cbn [flat_map edits_of app fold_left apply_edit] in E.
      destruct (Nat.eqb i 0); [discriminate|]. destruct (Nat.eqb_spec i 7); [assumption|discriminate]. }
    destruct out as [|a [|b out]]; [destruct I| |].
    + rewrite (U a (or_introl eq_refl)). reflexivity.
    + exfalso. inversion ND as [|? ? H]; subst. apply H. left. rewrite (U a), (U b); cbn; auto.
Qed.

(** C34: the same for faces, whose boxes the grid remembers: each face is inserted while it is not
    stored and removed while it is. *)
Theorem C34_face_grid_query :
  forall rnd resolution, (forall a b, a <= b -> rnd a <= rnd b) -> 0 < resolution ->
  forall n os lo hi fn, disciplined (fun _ => None) (flat_map fg_edits os) ->
  Forall (fg_representable rnd resolution) os ->
  representable_point rnd resolution lo -> representable_point rnd resolution hi ->
  let s := store (flat_map fg_edits os) in
  exists f f' out stop, fg_run rnd resolution (fg_new n) os = Ok f /\
    fg_for_each rnd resolution f lo hi fn = Ok (f', out, stop) /\
    NoDup out /\ answered fn out stop /\
    (forall i, In i out -> exists b, s i = Some b /\ cells_meet rnd resolution b (lo, hi)) /\
    (stop = false -> forall i b, s i = Some b -> overlap b (lo, hi) -> In i out).
Proof. exact fg_history. Qed.
Print Assumptions C34_face_grid_query.

Example C34_face_grid_query_ex :
  disciplined (fun _ => None)
    (flat_map fg_edits [FInsert 3 (0, 0, 0) (1, 1, 1); FRemove 3; FInsert 3 (1, 1, 1) (2, 2, 2)])
  /\ ~ disciplined (fun _ => None) (flat_map fg_edits [FRemove 3])
  /\ store (flat_map fg_edits [FInsert 3 (0, 0, 0) (1, 1, 1); FRemove 3; FInsert 3 (1, 1, 1) (2, 2, 2)]) 3%nat
     = Some ((1, 1, 1), (2, 2, 2)).
Proof. cbn. repeat split; try discriminate. tauto. Qed.

(** C34: any_of finds a hit among the faces overlapping the box whenever there is one. *)
Theorem C34_face_grid_any_of :
  forall rnd resolution, (forall a b, a <= b -> rnd a <= rnd b) -> 0 < resolution ->
  forall n os lo hi hits, disciplined (fun _ => None) (flat_map fg_edits os) ->
  Forall (fg_representable rnd resolution) os ->
  representable_point rnd resolution lo -> representable_point rnd resolution hi ->
  let s := store (flat_map fg_edits os) in
  exists f f' b, fg_run rnd resolution (fg_new n) os = Ok f /\
    any_of rnd resolution f lo hi hits = Ok (f', b) /\
    (b = true -> exists i, s i <> None /\ hits i = true) /\
    (b = false -> forall i bx, s i = Some bx -> overlap bx (lo, hi) -> hits i = false).
Proof. exact fg_any_of. Qed.
Print Assumptions C34_face_grid_any_of.

Example C34_face_grid_any_of_ex :
  overlap ((0, 0, 0), (1, 1, 1)) ((1, 1, 1), (2, 2, 2)) /\ ~ overlap ((0, 0, 0), (1, 1, 1)) ((2, 0, 0), (3, 1, 1)).
Proof.
  split; [exists (1, 1, 1); cbn; lra|]. intros ([[x y] z] & A & B). cbn in A, B. lra.
Qed.
