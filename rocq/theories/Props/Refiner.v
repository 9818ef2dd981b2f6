From Coq Require Import Reals List Arith Bool Lia Lra.
From Verif Require Import Proofs.Clip Proofs.Predicates Proofs.MeshEditing Proofs.Smoother Proofs.Refiner.
From Verif Require Import Model.Outcome Model.Clip Model.PointTriangle Model.Predicates Model.MeshDefects Model.AbstractMesh Model.Smoother Model.Refiner
  Spec.PointTriangle Spec.Predicates Spec.VertexClusterer Spec.AbstractMesh Spec.Smoother Spec.Refiner.
Import ListNotations.
Local Open Scope R_scope.

(** The gradient and the value are those of the linear function fitting the four samples best. *)
Theorem C56_fit : forall field isovalue res, 0 < res -> forall x c g,
  misfit (value field isovalue res x) (gradient field isovalue res x) (samples field isovalue res x) (offsets res)
  <= misfit c g (samples field isovalue res x) (offsets res).
Proof. exact fit. Qed.
Print Assumptions C56_fit.

(** For an affine field they are exact; a step that is not shortened ends on the level set, any other between it and the vertex; only
    a constant field leaves a vertex without a goal. *)
Theorem C56_affine : forall field isovalue res aniso g c x, 0 < res -> (forall x, field x = dot3 g x + c) ->
  gradient field isovalue res x = g /\ value field isovalue res x = field x - isovalue /\
  match newton field isovalue res aniso x with
  | None => g = (0, 0, 0)
  | Some t => g <> (0, 0, 0) /\ (norm (apply aniso (step field isovalue res x)) <= 1 / 2 * res -> field t = isovalue) /\
      (field x <= field t <= isovalue \/ isovalue <= field t <= field x)
  end.
Proof.
  intros field isovalue res aniso g c x P A. destruct (affine field isovalue res P g c A x) as [G V]. exact (conj G (conj V (newton_affine field isovalue res aniso g c x P A))).
Qed.
Print Assumptions C56_affine.

(** Whatever the field, the step is along the gradient and, transformed, at most half of the resolution long. *)
Theorem C56_step : forall field isovalue res aniso x t, 0 < res -> newton field isovalue res aniso x = Some t ->
  exists k, 0 < k <= 1 /\ t = sub3 x (scale3 k (step field isovalue res x)) /\ norm (apply aniso (scale3 k (step field isovalue res x))) <= 1 / 2 * res.
Proof.
  intros field isovalue res aniso x t P E. unfold newton in E. destruct (eqb _ 0); [discriminate|]. injection E as <-.
  destruct (capped_spec res aniso (step field isovalue res x) P) as (L & k & K & EQ & _). rewrite EQ in *. exists k. exact (conj K (conj eq_refl L)).
Qed.
Print Assumptions C56_step.

(** The result: the faces are the same; vertices were moved one at a time to their goals, and never did a face turn over or collapse; two
    faces meet properly unless none of their corners moved. *)
Theorem C56_refine : forall field isovalue blo bhi res aniso faces_near, (forall p, finds_faces p (faces_near p)) ->
  forall nv p (fs : list face) p' fs' e, fs <> [] -> Forall distinct3 fs -> Forall (fun f => distinct_corners (at_rows p f)) fs ->
  refine field isovalue blo bhi res aniso faces_near nv p fs false = Ok (p', fs', e) ->
  let goal := goal_of field isovalue blo bhi res aniso nv p in
  let at_ i := nth i fs (0, 0, 0)%nat in
  fs' = fs /\ e = false /\ moves fs goal p p' /\ Forall (fun f => distinct_corners (at_rows p' f)) fs /\
  (forall v, p' v = p v \/ goal v = Some (p' v)) /\
  (forall i j, (i < length fs)%nat -> (j < length fs)%nat -> i <> j ->
     clear (at_rows p' (at_ i)) (at_rows p' (at_ j)) \/ (unmoved p p' (at_ i) /\ unmoved p p' (at_ j))).
Proof. exact refine_spec. Qed.
Print Assumptions C56_refine.

(** There is a result if the old and new places of different vertices differ. *)
Theorem C56_no_throw : forall field isovalue blo bhi res aniso faces_near, (forall p, finds_faces p (faces_near p)) ->
  forall nv p (fs : list face), fs <> [] -> Forall distinct3 fs -> ~ clash (fun i => nth i fs (0, 0, 0)%nat) (fun i => (i < length fs)%nat) ->
  apart fs (goal_of field isovalue blo bhi res aniso nv p) p ->
  exists p', refine field isovalue blo bhi res aniso faces_near nv p fs false = Ok (p', fs, false).
Proof. exact refine_ok. Qed.
Print Assumptions C56_no_throw.

(** An empty mesh stays empty; one that covers everything becomes empty. *)
Theorem C56_empty : forall field isovalue blo bhi res aniso faces_near nv p,
  refine field isovalue blo bhi res aniso faces_near nv p [] false = Ok (p, [], false) /\
  forall p' fs' e, refine field isovalue blo bhi res aniso faces_near nv p [] true = Ok (p', fs', e) -> fs' = [] /\ e = false.
Proof. exact refine_empty. Qed.
Print Assumptions C56_empty.

(** * A vertex whose goal is the place of another *)
Definition bow (v : nat) : pt :=
  match v with 0%nat => (0, 0, 0) | 1%nat => (1, -1, 0) | 2%nat => (1, 1, 0) | 3%nat => (0, 1 / 4, 0) | _ => (-1, 0, 0) end.
Definition bow_faces : list face := [(0, 1, 2); (0, 3, 4)]%nat.
Definition ramp (x : pt) : R := py x - 1 / 4.
Definition eye : triangle := ((1, 0, 0), (0, 1, 0), (0, 0, 1)).
Definition all_faces (p : nat -> pt) (m : mesh) (lo hi : pt) : list nat := filter (fun fi => negb (m_deleted m fi)) (seq 0 (m_nf m)).
Lemma all_found : forall p, finds_faces p (all_faces p).
Proof.
  intros p m lo hi fi. unfold all_faces. split.
  - intros I. apply filter_In in I. destruct I as [A B]. apply in_seq in A. split; [lia|destruct (m_deleted m fi); [discriminate|reflexivity]].
  - intros x [A B] _ _. apply filter_In. rewrite B. split; [apply in_seq; lia|reflexivity].
Qed.
Lemma ramp_newton : newton ramp 0 1 eye (0, 0, 0) = Some (0, 1 / 4, 0).
Proof.
  assert (A : forall x, ramp x = dot3 (0, 1, 0) x + - (1 / 4)) by (intros x; unfold ramp, dot3, px, py, pz; cbn [fst snd]; ring).
  unfold newton, step. destruct (affine ramp 0 1 ltac:(lra) (0, 1, 0) (- (1 / 4)) A (0, 0, 0)) as [-> ->]. set (s := scale3 _ _). assert (S : s = (0, - (1 / 4), 0)).
  { unfold s, ramp. vec. f_equal; [f_equal|]; field. }
  rewrite S. clear s S. unfold eqb. destruct (Req_EM_T _ 0) as [Z|_]; [revert Z; vec; lra|]. f_equal.
  destruct (capped_spec 1 eye (0, - (1 / 4), 0) ltac:(lra)) as (_ & k & _ & -> & K & _). rewrite K.
  - vec. f_equal; [f_equal|]; lra.
  - unfold norm, eye, apply. replace (norm2 _) with ((1 / 4) * (1 / 4)) by (vec; ring). rewrite sqrt_square by lra. lra.
Qed.
Lemma bow_goal : new_place (-10, -10, -10) (10, 10, 10) 1 (0, 1 / 4, 0) = (0, 1 / 4, 0).
Proof.
  unfold new_place, snap_to_bbox, snap1, ltb. unfold px, py, pz. cbn [fst snd]. assert (T : / 10 ^ 10 * 1 <= / 10) by (rewrite Rmult_1_r; apply Rinv_le_contravar; lra).
  set (t := / 10 ^ 10 * 1) in *. clearbody t.
  assert (F : forall a b, a - b >= 9 \/ a - b <= -9 -> ~ Rabs (a - b) < t) by (intros a b [H|H] C; apply Rabs_def2 in C; lra).
  repeat match goal with |- context [Rlt_dec (Rabs (?a - ?b)) t] => destruct (Rlt_dec (Rabs (a - b)) t) as [X|_]; [exfalso; revert X; apply F; lra|] end. reflexivity.
Qed.
Theorem C56_throw_refuted : exists field isovalue blo bhi res aniso faces_near nv p (fs : list face),
  0 < res /\ (forall p, finds_faces p (faces_near p)) /\ fs <> [] /\ Forall distinct3 fs /\ Forall (fun f => distinct_corners (at_rows p f)) fs /\
  ~ clash (fun i => nth i fs (0, 0, 0)%nat) (fun i => (i < length fs)%nat) /\ separate p fs /\
  refine field isovalue blo bhi res aniso faces_near nv p fs false = Throw ExOutOfRange.
Proof.
  exists ramp, 0, (-10, -10, -10), (10, 10, 10), 1, eye, all_faces, 5%nat, bow, bow_faces.
  assert (D : Forall distinct3 bow_faces) by (repeat constructor; cbn; repeat split; discriminate).
  split; [lra|]. split; [exact all_found|]. split; [discriminate|]. split; [exact D|]. split.
  - repeat constructor; cbn; repeat split; intros X; injection X; lra.
  - pose proof (construct_spec bow_faces D) as S. destruct (construct bow_faces) as [m|x|] eqn:E; [|exfalso; revert E; unfold bow_faces; intros E; vm_compute in E; discriminate|exfalso; vm_compute in E; discriminate].
    destruct S as (_ & _ & NC). split; [exact NC|]. split.
    + intros u v (f & If & Hf) (g & Ig & Hg) X. assert (B : forall f w, In f bow_faces -> has_corner f w -> (w < 5)%nat) by (intros f' w [<-|[<-|[]]] H; cbn in H; lia).
      pose proof (B _ _ If Hf) as Lu. pose proof (B _ _ Ig Hg) as Lv. clear - X Lu Lv.
      destruct u as [|[|[|[|[|u]]]]]; try lia; destruct v as [|[|[|[|[|v]]]]]; try lia; cbn in X; try reflexivity; exfalso; injection X; lra.
    + unfold refine. rewrite E. cbn [bow_faces length Nat.eqb andb bind]. unfold project. cbn [seq flat_map]. change (bow 0%nat) with ((0, 0, 0) : pt). rewrite ramp_newton. cbn [app move_all].
      unfold try_move. rewrite bow_goal.
      destruct (construct_frame bow_faces m D E) as (NF & MF & MD). cbn in NF. clear NC D.
      assert (VF : vertex_faces m 0 = [0; 1]%nat) by (clear NF MF MD; vm_compute in E; injection E as <-; reflexivity). rewrite VF. clear E VF.
      cbn [refused]. rewrite MF. cbn [nth bow_faces at_rows]. unfold leb. destruct (Rle_dec _ 0) as [X|_]; [exfalso; revert X; unfold normal, triangle_normal, place; cbn [Nat.eqb bow]; vec; lra|].
      unfold all_faces. rewrite NF. cbn [seq filter]. rewrite !MD. cbn [negb any_of Nat.eqb bind]. cbn [nth bow_faces at_rows]. unfold place. cbn [Nat.eqb bow].
      set (s := ((0, 1 / 4, 0), (1, -1, 0), (1, 1, 0)) : triangle). set (t := ((0, 1 / 4, 0), (0, 1 / 4, 0), (-1, 0, 0)) : triangle).
      assert (L : Predicates.same_corners s t = [(0, 0); (0, 1)]%nat).
      { unfold Predicates.same_corners, s, t. cbn [filter Predicates.corner]. rewrite (proj2 (pt_eqb_true (0, 1 / 4, 0) (0, 1 / 4, 0)) eq_refl).
        repeat match goal with |- context [pt_eqb ?x ?y] => let F := fresh in destruct (pt_eqb x y) eqn:F; [exfalso; apply pt_eqb_true in F; injection F; lra|clear F] end. reflexivity. }
      assert (TI : triangles_intersect s t = Throw ExOutOfRange).
      { unfold triangles_intersect. rewrite L. unfold s, t. reflexivity. }
      match goal with |- context [triangles_intersect ?x ?y] => change (triangles_intersect x y) with (triangles_intersect s t) at 1 end. rewrite TI. reflexivity.
Qed.
Print Assumptions C56_throw_refuted.

(** Moving the free corner of a single triangle: the new place is on the level set. *)
Example C56_example : exists p', refine ramp 0 (-10, -10, -10) (10, 10, 10) 1 eye all_faces 1 bow [(0, 1, 2)]%nat false = Ok (p', [(0, 1, 2)]%nat, false) /\ ramp (p' 0%nat) = 0.
Proof.
  assert (D : Forall distinct3 [(0, 1, 2)]%nat) by (repeat constructor; cbn; repeat split; discriminate).
  unfold refine. destruct (construct [(0, 1, 2)]%nat) as [m|x|] eqn:E; [|exfalso; vm_compute in E; discriminate|exfalso; vm_compute in E; discriminate].
  destruct (construct_frame [(0, 1, 2)]%nat m D E) as (NF & MF & MD). cbn in NF.
  assert (VF : vertex_faces m 0 = [0]%nat) by (clear NF MF MD; vm_compute in E; injection E as <-; reflexivity).
  assert (TF : take_faces m = [(0, 1, 2)]%nat) by (unfold take_faces; rewrite NF; cbn [seq filter]; rewrite MD; cbn [negb map]; rewrite MF; reflexivity).
  cbn [length Nat.eqb andb bind]. unfold project. cbn [seq flat_map]. change (bow 0%nat) with ((0, 0, 0) : pt). rewrite ramp_newton. cbn [app move_all]. unfold try_move. rewrite bow_goal, VF.
  cbn [refused]. rewrite MF. cbn [nth at_rows]. unfold leb. destruct (Rle_dec _ 0) as [X|_]; [exfalso; revert X; unfold normal, triangle_normal, place; cbn [Nat.eqb bow]; vec; lra|].
  unfold all_faces. rewrite NF. cbn [seq filter]. rewrite !MD. cbn [negb any_of Nat.eqb bind]. rewrite TF. eexists. split; [reflexivity|]. unfold place, ramp, px, py, pz. cbn [Nat.eqb fst snd]. lra.
Qed.
