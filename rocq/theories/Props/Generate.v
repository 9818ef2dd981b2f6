From Coq Require Import Reals ZArith List Arith Bool Lia Lra.
From Verif Require Import Proofs.Generate.
From Verif Require Import Model.Outcome Model.Clip Model.PointTriangle Model.Predicates Model.MeshDefects Model.AbstractMesh Model.Smoother Model.Thinner Model.Generate
  Spec.PointTriangle Spec.Predicates Spec.VertexClusterer Spec.AbstractMesh Spec.Smoother Spec.Generate.
Import ListNotations.

(** C57. The snapping loop makes between one and twenty turns. In all but the last some points were not honored, and the hashes of those
    meshes are different; it stops because all points are honored, because a hash repeats, or after twenty turns. *)
Theorem C57_turns : forall smooth snap hash s r, turns smooth snap hash 20 s [] = Ok (Some r) -> exists l k,
  path (turn smooth snap) s (l ++ [(r, k)]) /\ (length l <= 19)%nat /\ Forall (fun x => snd x <> 0%nat) l /\ NoDup (map (fun x => hash (fst x)) l) /\
  (k = 0%nat \/ In (hash r) (map (fun x => hash (fst x)) l) \/ length l = 19%nat).
Proof.
  intros smooth snap hash s r E. destruct (turns_spec smooth snap hash 19 s [] r E (NoDup_nil _)) as (l & k & P & L & F & N & _ & R). exists l, k. exact (conj P (conj L (conj F (conj N R)))).
Qed.
Print Assumptions C57_turns.

(** If no two meshes have the same hash, nothing is lost by stopping at a repeated hash: however long one went on, the meshes would be the
    ones already seen, with points not honored in each turn. *)
Theorem C57_cycle : forall smooth snap (hash : surface -> Z), (forall a b, hash a = hash b -> a = b) -> forall s l r k, path (turn smooth snap) s (l ++ [(r, k)]) ->
  Forall (fun x => snd x <> 0%nat) l -> k <> 0%nat -> In (hash r) (map (fun x => hash (fst x)) l) ->
  forall l', path (turn smooth snap) r l' -> incl l' (l ++ [(r, k)]) /\ Forall (fun x => snd x <> 0%nat) l'.
Proof. exact turns_cycle. Qed.
Print Assumptions C57_cycle.

(** If two meshes have the same hash it may stop though the next turn would honor all points. *)
Theorem C57_collision_refuted : exists smooth snap (hash : surface -> Z) s a r s', turns smooth snap hash 20 s [] = Ok (Some r) /\
  path (turn smooth snap) s [(a, 2%nat); (r, 1%nat)] /\ turn smooth snap r = Ok (Some (s', 0%nat)).
Proof.
  exists (fun s => Ok (Some s)), (fun s => Ok (Some (Surface ((0, 0, 0)%R :: s_v s) (s_f s) false, 2 - length (s_v s))))%nat, (fun _ => 0%Z), (Surface [] [] false).
  eexists. eexists. eexists. split; [reflexivity|]. split; [|reflexivity]. apply PCons; [reflexivity|]. apply PCons; [reflexivity|]. apply PNil.
Qed.
Print Assumptions C57_collision_refuted.

(** Thinning and smoothing twice, with the stages of C52 and C53: there is a result, manifold and with different vertices at different places;
    it has no more faces, its vertices are at places of old ones, its boundary is the same, every point within its tolerance still is, and
    if faces without a common corner did not meet they still do not. *)
Theorem C57_polish : forall aniso n_points point target tol max_edge2 near faces_near take,
  (let '(a, b, c) := aniso in Predicates.det3 a b c <> 0%R) -> finds_points n_points target tol near -> (forall p, finds_faces p (faces_near p)) -> takes_largest take ->
  forall s, good s -> exists s',
  polish (smooth_stage aniso n_points target tol max_edge2 near faces_near take enough) (thin_stage aniso n_points point target tol max_edge2 near faces_near) s = Ok (Some s') /\
  keeps aniso n_points target tol s s'.
Proof.
  intros aniso n_points point target tol max_edge2 near faces_near take D NP NF TL s G.
  exact (polish_keeps aniso (apply_injective aniso D) n_points point target tol max_edge2 near faces_near take NP NF TL s G).
Qed.
Print Assumptions C57_polish.

(** The whole, if clustering, refining and snapping keep meshes manifold with different vertices at different places, and snapping counts
    rightly: the mesh to be clipped is such a mesh, and if the loop stopped because all points were honored, they are within their tolerances
    of it. *)
Theorem C57_generate : forall aniso n_points point target tol max_edge2 near faces_near take cluster refine target0 tol0 near0 clip snap hash,
  let smooth0 := smooth_stage aniso 0 target0 tol0 max_edge2 near0 faces_near take enough in
  let smooth := smooth_stage aniso n_points target tol max_edge2 near faces_near take enough in
  let thin := thin_stage aniso n_points point target tol max_edge2 near faces_near in
  (let '(a, b, c) := aniso in Predicates.det3 a b c <> 0%R) -> finds_points n_points target tol near -> (forall p, finds_faces p (faces_near p)) -> takes_largest take ->
  (forall s, good s -> exists s', cluster s = Ok (Some s') /\ good s') -> (forall s, good s -> exists s', refine s = Ok (Some s') /\ good s') ->
  (forall s, good s -> exists s' k, snap s = Ok (Some (s', k)) /\ good s' /\ (k = 0%nat -> forall i, (i < n_points)%nat -> honors aniso target tol s' i)) ->
  forall start negative refining, good start -> is_empty start = false ->
  exists s2 s3 l k s4, good s2 /\ path (turn smooth snap) s2 (l ++ [(s3, k)]) /\ (length l < 20)%nat /\ (k = 0%nat \/ In (hash s3) (map (fun x => hash (fst x)) l) \/ length l = 19%nat) /\
    (if (n_points =? 0)%nat then s4 = s2 else keeps aniso n_points target tol s3 s4 /\ (k = 0%nat -> forall i, (i < n_points)%nat -> honors aniso target tol s4 i)) /\ good s4 /\
    generate_common cluster refine smooth0 smooth thin clip snap hash start negative refining n_points =
      let? s := clip s4 in Ok (Some (if is_empty s && negative then entire else s)).
Proof.
  intros aniso n_points point target tol max_edge2 near faces_near take cluster refine target0 tol0 near0 clip snap hash smooth0 smooth thin D NP NF TL HC HR HS start negative refining G NE.
  assert (HS0 : forall s, good s -> exists s', smooth0 s = Ok (Some s') /\ good s').
  { intros s Gs. assert (N0 : finds_points 0 target0 tol0 near0) by (intros lo hi i x L; lia).
    destruct (smooth_keeps aniso (apply_injective aniso D) 0 target0 tol0 max_edge2 near0 faces_near take N0 NF TL s Gs) as (s' & E & K). exists s'. exact (conj E (proj1 K)). }
  exact (generate_good aniso (apply_injective aniso D) n_points point target tol max_edge2 near faces_near take NP NF TL cluster refine smooth0 clip snap hash HC HR HS0 HS start negative refining G NE).
Qed.
Print Assumptions C57_generate.

(** A lattice without a surface gives the empty mesh, or the entire one where the field is negative, whatever the stages; and an empty mesh
    is never the answer for a negative field. *)
Theorem C57_empty : forall cluster refine smooth0 smooth thin clip snap hash start negative refining n_points,
  (is_empty start = true -> generate_common cluster refine smooth0 smooth thin clip snap hash start negative refining n_points = Ok (Some (if negative then entire else start))) /\
  (forall r, generate_common cluster refine smooth0 smooth thin clip snap hash start negative refining n_points = Ok (Some r) -> is_empty r = true -> negative = false).
Proof.
  intros cluster refine smooth0 smooth thin clip snap hash start negative refining n_points. split.
  - intros E. unfold generate_common. rewrite E. cbn [bind_opt bind]. rewrite E. reflexivity.
  - intros r E Z. unfold generate_common in E. apply bind_some in E. destruct E as (s & _ & E). injection E as <-. destruct negative; [|reflexivity]. destruct (is_empty s) eqn:Q; cbn [andb] in Z; [discriminate Z|congruence].
Qed.
Print Assumptions C57_empty.

(** Tolerances are accepted exactly if there are none, or one per point and all in [0, 1]. *)
Theorem C57_validation : forall points ts,
  (set_snap_points points ts = Ok (points, ts) <-> ts = [] \/ (length ts = length points /\ Forall (fun t => 0 <= t <= 1)%R ts)) /\
  (set_snap_points points ts = Ok (points, ts) \/ set_snap_points points ts = Throw ExInvalidArgument).
Proof. exact validation_spec. Qed.
Print Assumptions C57_validation.

(** A single triangle is a good mesh. *)
Example C57_example : good (Surface [(0, 0, 0); (1, 0, 0); (0, 1, 0)]%R [(0, 1, 2)]%nat false).
Proof.
  assert (D : Forall distinct3 [(0, 1, 2)]%nat) by (repeat constructor; cbn; lia).
  assert (U : forall v, used [(0, 1, 2)]%nat v -> (v < 3)%nat) by (intros v (f & [<-|[]] & H); cbn in H; lia).
  split; [exact D|]. split.
  - intros (g & h & N & [A B] & [C E] & T & H). cbn [s_f length] in A, C. destruct g as [g i], h as [h j]. cbn [fst snd] in *. assert (g = 0%nat) by lia. assert (h = 0%nat) by lia. subst.
    destruct i as [|[|[|i]]], j as [|[|[|j]]]; try lia; cbn in T; try discriminate; apply N; reflexivity.
  - split; [|intros v H; apply U, H]. intros u v Hu Hv E. apply U in Hu, Hv. destruct u as [|[|[|u]]], v as [|[|[|v]]]; try lia; try reflexivity; cbn in E; injection E; intros; lra.
Qed.
