From Coq Require Import Reals Lra Lia ZArith List Arith Bool.
From Verif Require Import Proofs.PrimitiveLattice Proofs.LatticeVertices Proofs.LatticeLayers Proofs.LatticeGeometry Proofs.LatticeSurface Proofs.VertexPositions.
From Verif Require Import Model.Outcome Model.Solver Model.Clip Model.PointTriangle Model.Predicates Model.Lattice Model.PrimitiveLattice Model.VertexPositions.
From Verif Require Import Spec.Lattice Spec.VertexPositions.
Import ListNotations.
Local Open Scope R_scope.

(** C83: for every field without NaN and every box, the positions of the vertices are found without an exception, there is one for each
    vertex in order, and no two vertices have the same position, even after those near a side of the box are moved onto it; this needs a
    basis that [tiny] does not disturb. Each position is the snapped crossing. *)
Theorem C83_positions : forall lo hi basis resolution, det basis <> 0 -> 0 < resolution -> fine_frame basis resolution ->
  forall field f layers z, (forall ys, f ys = Ok (map field ys)) -> layered z layers -> (forall x, field x <> None) ->
  exists l ps, add_all_nodes f cleared layers = Ok (l, None) /\ get_vertices lo hi basis resolution l = Ok (map Some ps) /\
    length ps = length (l_vertices l) /\ NoDup ps /\
    forall i x e t p, nth_error (l_vertices l) i = Some (x, e, t) -> nth_error ps i = Some p ->
      exists r, t = Some r /\ p = snap (tiny resolution) lo hi (edge_point lo hi basis x e r).
Proof. exact box_positions. Qed.
Print Assumptions C83_positions.

(** Wherever two vertices are moved along their edges, by refinement for instance, equal snapped positions mean the same edge. *)
Theorem C83_apart : forall lo hi basis resolution, det basis <> 0 -> 0 < resolution -> fine_frame basis resolution ->
  forall x e t y f s, adjacent x (neighbor x e) -> adjacent y (neighbor y f) ->
  snap (tiny resolution) lo hi (edge_point lo hi basis x e t) = snap (tiny resolution) lo hi (edge_point lo hi basis y f s) ->
  (x, neighbor x e) = (y, neighbor y f) \/ (neighbor x e, x) = (y, neighbor y f).
Proof. exact snapped_apart. Qed.
Print Assumptions C83_apart.

(** Without anisotropy the condition on the basis holds at every resolution; the bounds contain the two constants of the code. *)
Theorem C83_isotropic : forall a b resolution, 0 < resolution -> 57 / 100 < a < 58 / 100 -> 81 / 100 < b < 82 / 100 ->
  det (scaled_basis a b resolution) <> 0 /\ fine_frame (scaled_basis a b resolution) resolution.
Proof. exact frame_fine. Qed.
Print Assumptions C83_isotropic.

(** It is needed: when the anisotropy squeezes the first axis by about ten million, the vertices on two opposite edges of a node on the
    side of the box are different points and are moved to the same one. *)
Theorem C83_merged_refuted : forall a b t s, / 100000000 <= a <= / 10000000 -> 81 / 100 < b < 82 / 100 -> 0 <= t <= / 10000 -> 0 <= s <= / 10000 ->
  let lo := (- (2 * a), -1, -1) in let hi := (2 * a, 1, 1) in let basis := scaled_basis a b 1 in let x := (1, 0, 1)%Z in
  det basis <> 0 /\ edge_point lo hi basis x 1 t <> edge_point lo hi basis x 8 s /\
  snap (tiny 1) lo hi (edge_point lo hi basis x 1 t) = snap (tiny 1) lo hi (edge_point lo hi basis x 8 s).
Proof. exact squeezed_merge. Qed.
Print Assumptions C83_merged_refuted.

(** In a box at least [eps] wide a coordinate goes to the lower side, to the upper side, or nowhere. *)
Theorem C83_snap : forall eps lo hi x, 0 < eps -> eps <= hi - lo ->
  (Rabs (x - lo) < eps /\ snap_coord eps lo hi x = lo) \/ (Rabs (x - hi) < eps /\ ~ Rabs (x - lo) < eps /\ snap_coord eps lo hi x = hi) \/
  (~ Rabs (x - lo) < eps /\ ~ Rabs (x - hi) < eps /\ snap_coord eps lo hi x = x).
Proof. exact snap_coord_wide. Qed.
Print Assumptions C83_snap.

(** A cube whose first node alone is negative: two vertices at least, at different positions. *)
Definition corner (x : lc) : num := if lc_eqb x (0, 0, 0)%Z then Some (-1) else Some 1.
Definition cube : list (list lc) :=
  [[(0, 0, 0); (1, 0, 0); (0, 1, 0); (1, 1, 0)]; [(0, 0, 1); (1, 0, 1); (0, 1, 1); (1, 1, 1)]]%Z.
Example C83_example : let b := scaled_basis (577 / 1000) (816 / 1000) 2 in exists l ps,
  add_all_nodes (fun ys => Ok (map corner ys)) cleared cube = Ok (l, None) /\
  get_vertices (-5, -5, -5) (5, 5, 5) b 2 l = Ok (map Some ps) /\ (2 <= length ps)%nat /\ NoDup ps.
Proof.
  intros b. assert (LA : layered 0 cube) by (cbn; repeat split; auto; repeat constructor; cbn; intuition discriminate).
  destruct (C83_isotropic (577 / 1000) (816 / 1000) 2 ltac:(lra) ltac:(lra) ltac:(lra)) as [D F].
  destruct (C83_positions (-5, -5, -5) (5, 5, 5) b 2 D ltac:(lra) F corner (fun ys => Ok (map corner ys)) cube 0 (fun ys => eq_refl) LA) as (l & ps & RUN & GET & LEN & ND & _).
  { intros x. unfold corner. destruct (lc_eqb x (0, 0, 0)%Z); discriminate. }
  exists l, ps. split; [exact RUN|]. split; [exact GET|]. split; [|exact ND]. rewrite LEN. clear GET LEN ND ps.
  destruct (box_vertices corner (fun ys => Ok (map corner ys)) cube 0 (fun ys => eq_refl) LA) as (l' & RUN' & [_ OV] & _). rewrite RUN in RUN'. injection RUN' as <-.
  assert (NEG : forall y, In y (concat cube) -> adjacent (0, 0, 0)%Z y -> corner y = Some 1 -> crosses (fun x => In x (concat cube)) (fun x => neg (corner x)) (0, 0, 0)%Z y).
  { intros y IN AD C. split; [cbn; tauto|]. split; [auto|]. split; [auto|]. rewrite C. change (corner (0, 0, 0)%Z) with (Some (-1)). rewrite neg_minus, neg_one. discriminate. }
  assert (C1 := NEG (1, 0, 0)%Z ltac:(cbn; tauto) ltac:(exists (1, 0, 0)%Z; split; [cbn; unfold bit; intuition discriminate|left; reflexivity]) eq_refl).
  assert (C2 := NEG (1, 1, 1)%Z ltac:(cbn; tauto) ltac:(exists (1, 1, 1)%Z; split; [cbn; unfold bit; intuition discriminate|left; reflexivity]) eq_refl).
  destruct (OV _ _ C1) as (i & (v & V & JV) & _). destruct (OV _ _ C2) as (j & (w & W & JW) & _).
  assert (i <> j). { intros <-. rewrite V in W. injection W as <-. destruct JV as [J|J], JW as [K|K]; rewrite J in K; discriminate. }
  assert (i < length (l_vertices l))%nat by (apply nth_error_Some; congruence). assert (j < length (l_vertices l))%nat by (apply nth_error_Some; congruence). lia.
Qed.

(** The squeezed frame of the refutation, with the constants of the code. *)
Example C83_merged_example : exists lo hi x, edge_point lo hi (scaled_basis (577 / 1000 * / 10000000) (816 / 1000) 1) x 1 0 <> edge_point lo hi (scaled_basis (577 / 1000 * / 10000000) (816 / 1000) 1) x 8 0 /\
  snap (tiny 1) lo hi (edge_point lo hi (scaled_basis (577 / 1000 * / 10000000) (816 / 1000) 1) x 1 0) =
  snap (tiny 1) lo hi (edge_point lo hi (scaled_basis (577 / 1000 * / 10000000) (816 / 1000) 1) x 8 0).
Proof.
  destruct (C83_merged_refuted (577 / 1000 * / 10000000) (816 / 1000) 0 0 ltac:(lra) ltac:(lra) ltac:(lra) ltac:(lra)) as (_ & A & B).
  eexists _, _, _. split; [exact A|exact B].
Qed.
