From Coq Require Import Reals List Arith Bool Lia Lra.
From Verif Require Import Proofs.Predicates Proofs.SmootherBend Proofs.Smoother Proofs.MeshEditing.
From Verif Require Import Model.Outcome Model.Clip Model.PointTriangle Model.Predicates Model.LinAlg Model.MeshDefects Model.AbstractMesh Model.Smoother
  Spec.PointTriangle Spec.Predicates Spec.VertexClusterer Spec.AbstractMesh Spec.Smoother.
Import ListNotations.
Local Open Scope R_scope.

(** C52: smoothing a manifold mesh whose vertices are at different places ends without an exception. The result is a manifold mesh with as
    many faces, on the same vertices and with the same boundary; each flip lowered the total bend by more than 1e-6; every snap point within
    its tolerance of the surface still is; and no two faces cross that did not before, save for neighbours. *)
Theorem C52_smooth : forall p ap n_points target tol near faces_near,
  finds_points n_points target tol near -> finds_faces p faces_near -> forall max_edge2 take, takes_largest take ->
  forall fs : list face, Forall distinct3 fs -> ~ clash (fun i => nth i fs (0, 0, 0)%nat) (fun i => (i < length fs)%nat) ->
  separate p fs -> separate ap fs ->
  exists fs' n, smooth p ap n_points target tol max_edge2 near faces_near take (enough fs) fs = Ok (Some (fs', n)) /\
    length fs' = length fs /\ Forall distinct3 fs' /\ ~ clash (fun i => nth i fs' (0, 0, 0)%nat) (fun i => (i < length fs')%nat) /\
    (forall v, used fs' v <-> used fs v) /\ (forall u v, on_boundary fs' u v <-> on_boundary fs u v) /\
    total_bend (bend ap) fs' + INR n * / 10 ^ 6 <= total_bend (bend ap) fs /\ (n <= 50 * Nat.max (length fs) 1 + 1)%nat /\
    (forall i, (i < n_points)%nat -> honored ap target tol fs i -> honored ap target tol fs' i) /\ no_new_crossing p fs fs'.
Proof. exact smooth_spec. Qed.
Print Assumptions C52_smooth.

(** C52: the improvement computed from the five edges is the change of the sum over all edges. *)
Theorem C52_local_is_global : forall ap max_edge2 m e l, full m -> score ap max_edge2 m e = Some l ->
  exists m', flip m (l_x l) (l_y l) = Ok m' /\ full m' /\ total_bend (bend ap) (take_faces m') = total_bend (bend ap) (take_faces m) - l_improve l /\
    / 10 ^ 6 < l_improve l.
Proof.
  intros ap max_edge2 m e l F SC. apply score_inv in SC; [|exact F]. destruct (flip_ok ap m l F SC) as (m' & E & F' & N & EF).
  exists m'. rewrite !take_rows by auto. split; [exact E|]. split; [exact F'|]. split; [apply (flip_total ap m l F SC m' N EF)|apply (sc_pos _ _ _ SC)].
Qed.
Print Assumptions C52_local_is_global.
(** C52: so there are never more flips than millionths of bend at the start. *)
Theorem C52_bend_bounds_flips : forall ap fs fs' n, total_bend (bend ap) fs' + INR n * / 10 ^ 6 <= total_bend (bend ap) fs ->
  INR n <= 10 ^ 6 * total_bend (bend ap) fs.
Proof. intros ap fs fs' n H. pose proof (total_nonneg ap fs'). lra. Qed.
Print Assumptions C52_bend_bounds_flips.
(** C52: the bend of two faces is the angle between their normals, half a turn at most and exactly that if a face is degenerate. *)
Theorem C52_bend : forall ap f g, 0 <= bend ap f g <= PI /\ bend ap f g = bend ap g f /\
  (norm2 (normal ap f) = 0 \/ norm2 (normal ap g) = 0 -> bend ap f g = PI) /\
  (0 < norm2 (normal ap f) -> 0 < norm2 (normal ap g) -> cos (bend ap f g) * (norm (normal ap f) * norm (normal ap g)) = dot3 (normal ap f) (normal ap g)).
Proof. intros ap f g. exact (conj (bend_range ap f g) (conj (bend_sym ap f g) (bend_angle ap f g))). Qed.
Print Assumptions C52_bend.

(** C52: a mesh with two faces on one side of an edge is refused. *)
Theorem C52_refuses : forall p ap n_points target tol near faces_near max_edge2 take fuel (fs : list face), Forall distinct3 fs ->
  clash (fun i => nth i fs (0, 0, 0)%nat) (fun i => (i < length fs)%nat) ->
  smooth p ap n_points target tol max_edge2 near faces_near take fuel fs = Throw ExRuntimeError.
Proof.
  intros p ap n_points target tol near faces_near max_edge2 take fuel fs D C. unfold smooth. pose proof (construct_spec fs D) as S.
  destruct (construct fs) as [m|e|]; [destruct S as (_ & _ & S); contradiction|destruct S as [-> _]; reflexivity|destruct S].
Qed.
Print Assumptions C52_refuses.

(** The hypotheses can be met: a roof whose ridge is the longer diagonal; the flip is found. *)
Definition roof (v : nat) : pt := match v with 0%nat => (2, 0, 0) | 1%nat => (-2, 0, 0) | 2%nat => (0, 1, 1) | _ => (0, -1, 1) end.
Definition roof_faces : list face := [(0, 1, 2); (1, 0, 3)]%nat.
Lemma acos_3_5 : acos (3 / 5) < PI / 2 - / 10 ^ 6.
Proof.
  rewrite acos_asin by lra. pose proof (sin_asin (3 / 5) ltac:(lra)) as E. pose proof (asin_bound (3 / 5)) as B. set (a := asin (3 / 5)) in *. clearbody a.
  destruct (Rlt_le_dec (/ 10 ^ 6) a) as [L|L]; [lra|]. exfalso. destruct (Rlt_le_dec 0 a) as [P|P].
  - pose proof (sin_lt_x a P). lra.
  - pose proof (sin_ge_0 (- a) ltac:(lra) ltac:(pose proof PI_RGT_0; lra)) as S. rewrite sin_neg in S. lra.
Qed.
Lemma bend_of : forall ap f g a b c, normal ap f = a -> normal ap g = b -> norm2 a = c -> norm2 b = c -> 0 < c -> bend ap f g = acos (clamp1 (dot3 a b / c)).
Proof.
  intros ap f g a b c A B N N' P. unfold bend. rewrite A, B. unfold norm. rewrite N, N'. pose proof (sqrt_lt_R0 c P) as S. unfold ltb. destruct (Rlt_dec 0 (sqrt c)); [|contradiction].
  cbn [negb orb]. rewrite sqrt_sqrt by lra. reflexivity.
Qed.
Example C52_roof : Forall distinct3 roof_faces /\ ~ clash (fun i => nth i roof_faces (0, 0, 0)%nat) (fun i => (i < length roof_faces)%nat) /\
  separate roof roof_faces /\ exists m, construct roof_faces = Ok m /\ exists l, score roof 0 m (0, 1)%nat = Some l.
Proof.
  assert (D : Forall distinct3 roof_faces) by (repeat apply Forall_cons; [cbn; lia|cbn; lia|apply Forall_nil]).
  split; [exact D|]. pose proof (construct_spec roof_faces D) as C. destruct (construct roof_faces) as [m|e|] eqn:EC; [|discriminate EC|discriminate EC].
  split; [apply C|]. split.
  - assert (U : forall v, used roof_faces v -> (v < 4)%nat). { intros v (f & [<-|[<-|[]]] & H); cbn in H; lia. }
    intros u v A B E. apply U in A, B. destruct u as [|[|[|[|u]]]], v as [|[|[|[|v]]]]; try lia; try reflexivity; cbn in E; injection E; intros; lra.
  - exists m. split; [reflexivity|]. vm_compute in EC. injection EC as <-. unfold score. cbn [fst snd].
    match goal with |- context [halfedge_of ?m 0 1] => replace (halfedge_of m 0 1) with (Some (0, 0)%nat) by (vm_compute; reflexivity) end.
    match goal with |- context [m_opp ?m (0, 0)%nat] => replace (m_opp m (0, 0)%nat) with (Some (1, 0)%nat) by (vm_compute; reflexivity) end.
    match goal with |- context [?a || ?b] => replace (a || b) with false by (vm_compute; reflexivity) end.
    cbn [next prev fst snd ccw cw from to apex corner m_face m_opp bend_with he_eqb upd_he Nat.eqb andb].
    assert (B1 : bend roof (0, 1, 2)%nat (1, 0, 3)%nat = PI / 2).
    { rewrite (bend_of _ _ _ (0, 4, -4) (0, -4, -4) 32); try (unfold normal, triangle_normal, cross, sub3, norm2, dot3, roof, px, py, pz; cbn [fst snd]; try (f_equal; [f_equal|]); lra).
      unfold dot3, px, py, pz. cbn [fst snd]. replace ((0 * 0 + 4 * -4 + -4 * -4) / 32) with 0 by lra. unfold clamp1, ltb. destruct (Rlt_dec 0 (-1)); [lra|]. destruct (Rlt_dec 1 0); [lra|]. apply acos_0. }
    assert (B2 : bend roof (2, 0, 3)%nat (3, 1, 2)%nat = acos (3 / 5)).
    { rewrite (bend_of _ _ _ (-2, 0, -4) (2, 0, -4) 20); try (unfold normal, triangle_normal, cross, sub3, norm2, dot3, roof, px, py, pz; cbn [fst snd]; try (f_equal; [f_equal|]); lra).
      unfold dot3, px, py, pz. cbn [fst snd]. replace ((-2 * 2 + 0 * 0 + -4 * -4) / 20) with (3 / 5) by lra. unfold clamp1, ltb. destruct (Rlt_dec (3 / 5) (-1)); [lra|]. destruct (Rlt_dec 1 (3 / 5)); [lra|]. reflexivity. }
    rewrite B1, B2. pose proof acos_3_5. unfold ltb at 1. destruct (Rlt_dec _ _) as [L|L]; [|exfalso; apply L; lra].
    unfold ltb. destruct (Rlt_dec _ _) as [G|G]; [exfalso|eauto].
    revert G. unfold norm2, sub3, dot3, roof, px, py, pz. cbn [fst snd]. match goal with |- Rmax ?a ?b < _ -> _ => pose proof (Rmax_l a b) end. lra.
Qed.
