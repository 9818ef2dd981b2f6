From Coq Require Import Reals List Arith Bool Lia Lra.
From Verif Require Import Proofs.Clip Proofs.PointTriangle Proofs.MeshEditing Proofs.Smoother Proofs.Thinner.
From Verif Require Import Model.Outcome Model.Clip Model.PointTriangle Model.Predicates Model.LinAlg Model.MeshDefects Model.AbstractMesh Model.Smoother Model.Thinner
  Spec.PointTriangle Spec.Predicates Spec.VertexClusterer Spec.AbstractMesh Spec.Smoother Spec.Thinner.
Import ListNotations.
Local Open Scope R_scope.

(** C53: thinning a manifold mesh whose vertices are at different places ends without an exception. The result is a manifold mesh with no more
    faces, on vertices of the input and with the same boundary; its edges are old ones or at most as long as allowed; every snap point within
    its tolerance of the surface still is; and no two faces without a common corner cross that did not before. *)
Theorem C53_thin : forall nv p ap n_points point target tol max_edge2 near faces_near,
  finds_points n_points target tol near -> finds_faces p faces_near ->
  forall fs : list face, Forall distinct3 fs -> ~ clash (fun i => nth i fs (0, 0, 0)%nat) (fun i => (i < length fs)%nat) ->
  separate ap fs -> separate p fs -> (forall v, used fs v -> (v < nv)%nat) ->
  exists rows gs, thin nv p ap n_points point target tol max_edge2 near faces_near (S (length fs)) fs = Ok (Some (rows, gs)) /\
    NoDup rows /\ (forall k, used gs k -> (k < length rows)%nat) /\ (n_points <> 0%nat -> fs <> [] -> all_used (length rows) gs) /\
    let fs' := map (in_rows rows) gs in
    (length fs' <= length fs)%nat /\ Forall distinct3 fs' /\ ~ clash (fun i => nth i fs' (0, 0, 0)%nat) (fun i => (i < length fs')%nat) /\
    (forall v, used fs' v -> used fs v) /\ (forall u v, on_boundary fs' u v <-> on_boundary fs u v) /\
    (forall u v, has_directed fs' u v -> has_directed fs u v \/ dist2 (ap u) (ap v) <= max_edge2) /\
    (forall i, (i < n_points)%nat -> honored ap target tol fs i -> honored ap target tol fs' i) /\ crossings_kept p fs fs'.
Proof. exact thin_spec. Qed.
Print Assumptions C53_thin.

(** C53: the result comes from dropping snapped vertices onto snapped neighbours, one by one, without turning a face over; and at the end no
    snapped vertex can be dropped any more. *)
Theorem C53_drops : forall nv p ap n_points point target tol max_edge2 near faces_near,
  finds_points n_points target tol near -> finds_faces p faces_near ->
  forall fs : list face, Forall distinct3 fs -> ~ clash (fun i => nth i fs (0, 0, 0)%nat) (fun i => (i < length fs)%nat) ->
  separate ap fs -> separate p fs -> (forall v, used fs v -> (v < nv)%nat) -> n_points <> 0%nat -> fs <> [] ->
  exists m m' rows gs, construct fs = Ok m /\ thin nv p ap n_points point target tol max_edge2 near faces_near (S (length fs)) fs = Ok (Some (rows, gs)) /\
    take_faces m' = map (in_rows rows) gs /\ drops ap (fun v => snapped p n_points point v = true) m m' /\
    (forall v, (v < nv)%nat -> snapped p n_points point v = true ->
       try_collapse p ap n_points point target tol max_edge2 near faces_near m' v = Ok (m', false)).
Proof.
  intros nv p ap n_points point target tol max_edge2 near faces_near NP NF fs D NC SA SP B N F.
  destruct (thin_run nv p ap n_points point target tol max_edge2 near faces_near NP NF fs D NC SA SP B N F) as (m & m' & rows & gs & EC & ET & _ & TF' & _ & DR & _ & FX & _).
  exists m, m', rows, gs. auto.
Qed.
Print Assumptions C53_drops.

(** C53: a mesh with two faces on one side of an edge is refused. *)
Theorem C53_refuses : forall nv p ap n_points point target tol max_edge2 near faces_near fuel (fs : list face), Forall distinct3 fs -> n_points <> 0%nat ->
  clash (fun i => nth i fs (0, 0, 0)%nat) (fun i => (i < length fs)%nat) ->
  thin nv p ap n_points point target tol max_edge2 near faces_near fuel fs = Throw ExRuntimeError.
Proof.
  intros nv p ap n_points point target tol max_edge2 near faces_near fuel fs D N C. unfold thin. rewrite (proj2 (Nat.eqb_neq _ _) N).
  destruct fs as [|f fs]; [destruct C as (g & h & _ & [S _] & _); cbn in S; lia|]. cbn [length Nat.eqb orb]. pose proof (construct_spec (f :: fs) D) as S.
  destruct (construct (f :: fs)) as [m|e|]; [destruct S as (_ & _ & S); contradiction|destruct S as [-> _]; reflexivity|destruct S].
Qed.
Print Assumptions C53_refuses.

(** C53: but a small tetrahedron within the tolerances collapses into two faces on the same three corners: the test of the link leaves out the
    edge between the two opposite corners, and triangles with the same corners never count as crossing. *)
Definition twins (f g : face) : Prop := forall v, has_corner f v <-> has_corner g v.
Definition no_twins (fs : list face) : Prop := forall i j, (i < j < length fs)%nat -> ~ twins (nth i fs (0, 0, 0)%nat) (nth j fs (0, 0, 0)%nat).

Definition tet (v : nat) : pt := match v with 0%nat => (0, 0, 0) | 1%nat => (1, 0, 0) | 2%nat => (0, 1, 0) | _ => (0, 0, 1) end.
Definition tet_faces : list face := [(0, 2, 1); (0, 1, 3); (0, 3, 2); (1, 2, 3)]%nat.
Definition all_faces (m : mesh) (_ _ : pt) : list nat := filter (fun fi => negb (m_deleted m fi)) (seq 0 (m_nf m)).
Definition tet_near (_ _ : pt) : list nat := seq 0 4.
Notation tet_thin fs := (thin 4 tet tet 4 tet tet (fun _ => 2) 4 tet_near all_faces (S (length fs)) fs).

Lemma tet_far : forall u v, (u < 4)%nat -> (v < 4)%nat -> tet u = tet v -> u = v.
Proof. intros u v A B E. destruct u as [|[|[|[|u]]]], v as [|[|[|[|v]]]]; try lia; try reflexivity; cbn in E; injection E; intros; lra. Qed.
Lemma tet_used : forall v, used tet_faces v -> (v < 4)%nat.
Proof. intros v (f & [<-|[<-|[<-|[<-|[]]]]] & H); cbn in H; lia. Qed.
Lemma tet_separate : separate tet tet_faces.
Proof. intros u v A B. apply tet_far; apply tet_used; auto. Qed.
Lemma tet_points : finds_points 4 tet (fun _ => 2) tet_near.
Proof. intros lo hi i x I _ _. apply in_seq. lia. Qed.
Lemma tet_finds : finds_faces tet all_faces.
Proof.
  intros m lo hi fi. unfold all_faces. split; [intros I; apply filter_In in I; destruct I as [I E]|intros x [H E] _ _; apply filter_In].
  - apply in_seq in I. apply negb_true_iff in E. split; [lia|exact E].
  - rewrite E. split; [apply in_seq; lia|reflexivity].
Qed.
Lemma tet_distinct : Forall distinct3 tet_faces.
Proof. repeat apply Forall_cons; try (cbn; lia). apply Forall_nil. Qed.
Lemma tet_snapped : forall v, (v < 4)%nat -> snapped tet 4 tet v = true.
Proof. intros v H. unfold snapped. apply existsb_exists. exists v. split; [apply in_seq; lia|apply pt_eqb_true; reflexivity]. Qed.
Lemma tet_manifold : exists m, construct tet_faces = Ok m /\ consistent m /\ ~ clash (fun i => nth i tet_faces (0, 0, 0)%nat) (fun i => (i < length tet_faces)%nat).
Proof.
  pose proof (construct_spec tet_faces tet_distinct) as C. destruct (construct tet_faces) as [m|e|] eqn:EC; [|vm_compute in EC; discriminate EC..].
  exists m. tauto.
Qed.
Lemma tet_honored : forall i a b c, (i < 4)%nat -> (a < 4)%nat -> (b < 4)%nat -> a <> b -> honored_by tet tet (fun _ => 2) i (a, b, c)%nat = true.
Proof.
  intros i a b c I A B N. unfold honored_by. cbn [at_rows].
  destruct (closest_nearest (tet i) (tet a) (tet b) (tet c)) as (q & d & -> & _ & _ & M); [intros E; apply N; apply tet_far; auto|].
  assert (X : d <= 2).
  { apply Rle_trans with (dist2 (tet i) (tet a)).
    - apply M. exists 1, 0, 0. repeat split; try lra; rewrite !Rmult_0_l, !Rplus_0_r, Rmult_1_l; reflexivity.
    - unfold dist2. destruct i as [|[|[|[|i]]]], a as [|[|[|[|a]]]]; try lia; unfold tet, px, py, pz; cbn [fst snd]; lra. }
  unfold leb. destruct (Rle_dec d (2 * 2)); [reflexivity|lra].
Qed.

Lemma intersect_three : forall s t, length (Predicates.same_corners s t) = 3%nat -> triangles_intersect s t = Ok false.
Proof.
  intros [[a b] c] [[d e] f] H. unfold triangles_intersect. destruct (Predicates.same_corners _ _) as [|[i j] [|[i' j'] [|[i2 j2] [|x l]]]]; try discriminate. reflexivity.
Qed.
Definition tm : mesh := match construct tet_faces with Ok m => m | _ => Mesh 0 0 (fun _ => (0, 0, 0)%nat) (fun _ => true) (fun _ => None) 0 (fun _ => []) end.
Definition tm_after (h : halfedge) : mesh := match collapse tm h with Ok r => fst r | _ => tm end.
Definition ths : list halfedge := [(0, 0); (1, 0); (2, 0)]%nat.
Lemma tet_meets : meets tet all_faces tm ths [(2, 1, 3)%nat] = Ok false.
Proof.
  cbn [meets at_rows]. replace (all_faces tm _ _) with [0; 1; 2; 3]%nat by (vm_compute; reflexivity). cbn [any_of].
  replace (in_star ths 0) with true by reflexivity. replace (in_star ths 1) with true by reflexivity. replace (in_star ths 2) with true by reflexivity.
  replace (in_star ths 3) with false by reflexivity. cbn [bind]. replace (m_face tm 3) with (1, 2, 3)%nat by (vm_compute; reflexivity).
  rewrite intersect_three; [reflexivity|]. unfold Predicates.same_corners. cbn [at_rows filter Predicates.corner].
  repeat match goal with
  | |- context [pt_eqb ?x ?x] => rewrite (proj2 (pt_eqb_true x x) eq_refl)
  | |- context [pt_eqb (tet ?x) (tet ?y)] => let F := fresh in destruct (pt_eqb (tet x) (tet y)) eqn:F; [exfalso; apply pt_eqb_true, tet_far in F; lia|clear F]
  end. reflexivity.
Qed.
Lemma tet_first : exists d, collapse_ok tet tet 4 tet tet (fun _ => 2) 4 tet_near all_faces tm (0, 0)%nat ths = Ok (true, Some d).
Proof.
  unfold collapse_ok. replace (from tm (0, 0)%nat) with 0%nat by (vm_compute; reflexivity). replace (to tm (0, 0)%nat) with 2%nat by (vm_compute; reflexivity).
  replace (m_opp tm (0, 0)%nat) with (Some (2, 2)%nat) by (vm_compute; reflexivity). replace (apex tm (0, 0)%nat) with 1%nat by (vm_compute; reflexivity).
  replace (apex tm (2, 2)%nat) with 3%nat by (vm_compute; reflexivity). rewrite tet_snapped by lia. cbn [negb].
  replace (linked tm 2 1 3 ths) with false by (vm_compute; reflexivity). replace (staying tm 0 2 ths) with [(0, 1, 3)%nat] by (vm_compute; reflexivity).
  cbn [existsb map]. replace (retarget (0, 1, 3)%nat 0 2) with (2, 1, 3)%nat by reflexivity.
  replace (ltb (dot3 (normal tet (2, 1, 3)%nat) (normal tet (0, 1, 3)%nat)) 0) with false.
  2: { unfold ltb. destruct (Rlt_dec _ 0) as [L|L]; [exfalso; revert L|reflexivity]. unfold normal, triangle_normal, cross, dot3, sub3, px, py, pz, tet. cbn [at_rows fst snd]. lra. }
  cbn [orb]. replace (too_long tet 4 tm 2 1 3 ths) with false.
  2: { unfold too_long. cbn [existsb ths]. replace (to tm (0, 0)%nat) with 2%nat by (vm_compute; reflexivity). replace (to tm (1, 0)%nat) with 1%nat by (vm_compute; reflexivity).
       replace (to tm (2, 0)%nat) with 3%nat by (vm_compute; reflexivity). reflexivity. }
  match goal with |- context [keeps_points ?a ?b ?c ?d ?e ?f ?g ?h] => assert (K : keeps_points a b c d e f g h = true); [|rewrite K; clear K] end.
  { unfold keeps_points. cbn [Nat.eqb]. destruct (star_points tet tm ths) as [|x xs]; [reflexivity|]. apply forallb_forall. intros i I. apply in_seq in I.
       cbn [app existsb]. rewrite tet_honored by lia. cbn [orb]. apply orb_true_r. }
  cbn [negb].
  match goal with |- context [meets ?a ?b ?c ?d ?e] => change (meets a b c d e) with (meets tet all_faces tm ths [(2, 1, 3)%nat]); rewrite tet_meets end. cbn [bind negb]. unfold deviation. cbn [fold_left]. unfold distance2. cbn [at_rows].
  destruct (closest_nearest (tet 0) (tet 2) (tet 1) (tet 3)) as (q & d & -> & _); [intros E; apply tet_far in E; lia|]. exists d. reflexivity.
Qed.

Lemma choose_some : forall p ap n_points point target tol max_edge2 near faces_near m hs rest h0 d0 r,
  choose p ap n_points point target tol max_edge2 near faces_near m hs rest (Some (h0, d0)) = Ok r -> exists h d, r = Some (h, d) /\ In h (h0 :: rest).
Proof.
  intros p ap n_points point target tol max_edge2 near faces_near m hs. induction rest as [|x rest IH]; intros h0 d0 r E; cbn [choose] in E; [injection E as <-; exists h0, d0; split; [auto|left; auto]|].
  destruct (collapse_ok _ _ _ _ _ _ _ _ _ m x hs) as [[ok dev]| |]; cbn [bind] in E; [|discriminate|discriminate]. cbn [fst snd] in E.
  destruct (ok && less dev (option_map snd (Some (h0, d0)))); [destruct dev as [d|]|]; apply IH in E; destruct E as (h & d' & -> & I); exists h, d'; (split; [reflexivity|]); destruct I as [<-|I]; cbn; auto.
Qed.
Lemma choose_first : forall p ap n_points point target tol max_edge2 near faces_near m hs h rest d,
  collapse_ok p ap n_points point target tol max_edge2 near faces_near m h hs = Ok (true, Some d) ->
  choose p ap n_points point target tol max_edge2 near faces_near m hs (h :: rest) None = choose p ap n_points point target tol max_edge2 near faces_near m hs rest (Some (h, d)).
Proof. intros p ap n_points point target tol max_edge2 near faces_near m hs h rest d E. cbn [choose]. rewrite E. reflexivity. Qed.
Lemma tet_try : exists h, In h ths /\ try_collapse tet tet 4 tet tet (fun _ => 2) 4 tet_near all_faces tm 0 = Ok (tm_after h, true).
Proof.
  destruct tet_manifold as (m & EC & C & NC). assert (TM : tm = m) by (unfold tm; rewrite EC; reflexivity).
  assert (TT : take_faces tm = tet_faces) by (vm_compute; reflexivity). assert (OV : outgoing tm 0 = ths) by (vm_compute; reflexivity). assert (OV' : m_vh tm 0 = ths) by (vm_compute; reflexivity).
  destruct (choose_spec tet tet 4 tet tet (fun _ => 2) 4 tet_near all_faces tet_finds tm 0) with (rest := ths) (best := @None (halfedge * R)) as (r & ER & _).
  { rewrite TM. exact C. }
  { rewrite TT. exact tet_separate. }
  { rewrite OV'. intros h [<-|[<-|[<-|[]]]]; vm_compute; discriminate. }
  { rewrite OV'. intros x X. exact X. }
  { discriminate. }
  rewrite OV' in ER. assert (H : exists h d, r = Some (h, d) /\ In h ths).
  { destruct tet_first as (d & E). unfold ths at 2 in ER. rewrite (choose_first _ _ _ _ _ _ _ _ _ _ _ _ _ _ E) in ER. apply choose_some in ER. exact ER. }
  destruct H as (h & d & -> & I). exists h. split; [exact I|]. unfold try_collapse. rewrite OV. replace (length ths <? 3)%nat with false by reflexivity.
  replace (existsb _ ths) with false by (vm_compute; reflexivity). rewrite ER. cbn [bind]. unfold tm_after. destruct I as [<-|[<-|[<-|[]]]]; vm_compute; reflexivity.
Qed.
Lemma tet_stuck : forall m v, (length (outgoing m v) < 3)%nat -> try_collapse tet tet 4 tet tet (fun _ => 2) 4 tet_near all_faces m v = Ok (m, false).
Proof. intros m v H. unfold try_collapse. rewrite (proj2 (Nat.ltb_lt _ _) H). reflexivity. Qed.
Lemma tet_result : exists rows gs, tet_thin tet_faces = Ok (Some (rows, gs)) /\ length rows = 3%nat /\ ~ no_twins gs.
Proof.
  destruct tet_try as (h & I & ET).
  assert (L : forall v, (v < 4)%nat -> (length (outgoing (tm_after h) v) < 3)%nat).
  { intros v V. destruct I as [<-|[<-|[<-|[]]]]; destruct v as [|[|[|[|v]]]]; try lia; vm_compute; lia. }
  assert (S1 : sweep tet tet 4 tet tet (fun _ => 2) 4 tet_near all_faces tm (seq 0 4) false = Ok (tm_after h, true)).
  { cbn [seq sweep]. rewrite !tet_snapped by lia. rewrite ET. cbn [bind fst snd orb]. rewrite !tet_stuck by (apply L; lia). cbn [bind fst snd orb].
    rewrite !tet_stuck by (apply L; lia). cbn [bind fst snd orb]. rewrite !tet_stuck by (apply L; lia). reflexivity. }
  assert (S2 : sweep tet tet 4 tet tet (fun _ => 2) 4 tet_near all_faces (tm_after h) (seq 0 4) false = Ok (tm_after h, false)).
  { cbn [seq sweep]. rewrite !tet_snapped by lia. do 4 (rewrite tet_stuck by (apply L; lia); cbn [bind fst snd orb]). reflexivity. }
  assert (EM : construct tet_faces = Ok tm) by (destruct tet_manifold as (m & EC & _); unfold tm; rewrite EC; reflexivity).
  unfold thin. change ((4 =? 0)%nat || (length tet_faces =? 0)%nat) with false. cbv iota. rewrite EM. change (length tet_faces) with 4%nat. cbn [bind sweeps]. rewrite S1. cbn [bind fst snd]. rewrite S2. cbn [bind fst snd].
  destruct I as [<-|[<-|[<-|[]]]]; [exists [2; 1; 3]%nat, [(0, 1, 2); (1, 0, 2)]%nat|exists [1; 3; 2]%nat, [(0, 1, 2); (0, 2, 1)]%nat|exists [3; 2; 1]%nat, [(0, 1, 2); (2, 1, 0)]%nat];
    (split; [vm_compute; reflexivity|]; split; [reflexivity|intros N; apply (N 0 1)%nat; [cbn; lia|intros v; cbn; lia]]).
Qed.
Theorem C53_fold_refuted : ~ forall nv p ap n_points point target tol max_edge2 near faces_near,
  finds_points n_points target tol near -> finds_faces p faces_near ->
  forall fs : list face, Forall distinct3 fs -> ~ clash (fun i => nth i fs (0, 0, 0)%nat) (fun i => (i < length fs)%nat) ->
  separate ap fs -> separate p fs -> (forall v, used fs v -> (v < nv)%nat) -> no_twins fs ->
  forall rows gs, thin nv p ap n_points point target tol max_edge2 near faces_near (S (length fs)) fs = Ok (Some (rows, gs)) -> no_twins gs.
Proof.
  intros H. destruct tet_result as (rows & gs & E & _ & N). destruct tet_manifold as (m & _ & _ & NC). apply N.
  refine (H 4%nat tet tet 4%nat tet tet (fun _ => 2) 4 tet_near all_faces tet_points tet_finds tet_faces tet_distinct NC tet_separate tet_separate tet_used _ rows gs E). clear E N H.
  intros i j [L B] T. cbn in B.
  assert (D : forall v, has_corner (nth i tet_faces (0, 0, 0)%nat) v -> ~ has_corner (nth j tet_faces (0, 0, 0)%nat) v -> False) by (intros v X Y; apply Y, T, X). clear - L B D.
  destruct i as [|[|[|[|i]]]], j as [|[|[|[|j]]]]; try (clear D; lia).
  - apply (D 2%nat); cbn; lia.
  - apply (D 1%nat); cbn; lia.
  - apply (D 0%nat); cbn; lia.
  - apply (D 1%nat); cbn; lia.
  - apply (D 0%nat); cbn; lia.
  - apply (D 0%nat); cbn; lia.
Qed.
Print Assumptions C53_fold_refuted.
(** The hypotheses can be met, and a vertex is dropped. *)
Example C53_example : finds_points 4 tet (fun _ => 2) tet_near /\ finds_faces tet all_faces /\ Forall distinct3 tet_faces /\ separate tet tet_faces /\
  ~ clash (fun i => nth i tet_faces (0, 0, 0)%nat) (fun i => (i < length tet_faces)%nat) /\
  exists rows gs, tet_thin tet_faces = Ok (Some (rows, gs)) /\ length rows = 3%nat.
Proof.
  split; [exact tet_points|]. split; [exact tet_finds|]. split; [exact tet_distinct|]. split; [exact tet_separate|]. split; [destruct tet_manifold as (m & _ & _ & NC); exact NC|].
  destruct tet_result as (rows & gs & E & L & _). exists rows, gs. auto.
Qed.
