From Coq Require Import Reals Lra Lia List Arith Bool.
From Verif Require Import Proofs.HonoredPoints Proofs.PointTriangle Model.Snapper.
From Verif Require Import Model.Outcome Model.Clip Model.PointTriangle Spec.PointTriangle Model.HonoredPoints Spec.HonoredPoints.
Import ListNotations.
Local Open Scope R_scope.

(** ** Two triangles with a point on their common side, and a second point far above it *)
Definition tw_ap (r : nat) : pt :=
  match r with 0%nat => (0, 0, 0) | 1%nat => (0, 0, 5) | 2%nat => (-1, 0, 0) | 3%nat => (1, 0, 0) | 4%nat => (0, 1, 0) | _ => (0, -1, 0) end.
Definition tw_faces (fi : nat) : HonoredPoints.face := match fi with 0%nat => (2, 3, 4)%nat | _ => (3, 2, 5)%nat end.
Definition tw_tols (i : nat) : R := / 10.
Definition tw_changed : list (nat * list HonoredPoints.face) := [(0, [(2, 1, 4); (1, 3, 4)]); (1, [(3, 1, 5); (1, 2, 5)])]%nat.
Definition tw_start : patches := start_patches tw_ap tw_faces.

Lemma near_zero : forall q, dist2 (0, 0, 0) q <= / 10 * / 10 -> -1/10 <= px q <= 1/10 /\ -1/10 <= py q <= 1/10 /\ -1/10 <= pz q <= 1/10.
Proof.
  intros [[x y] z] H. unfold dist2, px, py, pz in *. cbn [fst snd] in *.
  pose proof (Rle_0_sqr x) as X. pose proof (Rle_0_sqr y) as Y. pose proof (Rle_0_sqr z) as Z. unfold Rsqr in *.
  assert (K : forall u, u * u <= / 10 * / 10 -> -1/10 <= u <= 1/10) by (intros u U; split; nra).
  repeat split; apply K; lra.
Qed.
Ltac unpack := intros (q & (u & v & w & U & V & W & SUM & QX & QY & QZ) & D); unfold tw_ap, px, py, pz in QX, QY, QZ; cbn [fst snd] in QX, QY, QZ.
Ltac off := match goal with |- ?b = false => destruct b eqn:HB; [exfalso; revert HB|reflexivity] end;
  intros HB; apply (honored_exact tw_tols) in HB; [revert HB; unpack|cbn; intros X; injection X; intros; lra].

Lemma pt0_face0 : HonoredPoints.honored_by tw_tols tw_ap 0 (2, 3, 4)%nat = true.
Proof.
  apply (honored_exact tw_tols); [cbn; intros X; injection X; intros; lra|]. exists (0, 0, 0). split.
  - exists (1/2), (1/2), 0. unfold tw_ap, px, py, pz. cbn [fst snd]. repeat split; lra.
  - unfold dist2, tw_tols, tw_ap, px, py, pz. cbn [fst snd]. lra.
Qed.
Lemma pt0_face1 : HonoredPoints.honored_by tw_tols tw_ap 0 (3, 2, 5)%nat = true.
Proof.
  apply (honored_exact tw_tols); [cbn; intros X; injection X; intros; lra|]. exists (0, 0, 0). split.
  - exists (1/2), (1/2), 0. unfold tw_ap, px, py, pz. cbn [fst snd]. repeat split; lra.
  - unfold dist2, tw_tols, tw_ap, px, py, pz. cbn [fst snd]. lra.
Qed.
Lemma pt1_flat : forall a b c, tw_ap a <> tw_ap b -> pz (tw_ap a) = 0 -> pz (tw_ap b) = 0 -> pz (tw_ap c) = 0 -> HonoredPoints.honored_by tw_tols tw_ap 1 (a, b, c) = false.
Proof.
  intros a b c N A B C. destruct (HonoredPoints.honored_by tw_tols tw_ap 1 (a, b, c)) eqn:H; auto. exfalso. apply (honored_exact tw_tols) in H; auto.
  destruct H as (q & (u & v & w & U & V & W & SUM & QX & QY & QZ) & D). rewrite A, B, C in QZ. destruct q as [[x y] z]. unfold dist2, tw_tols in D. cbn [tw_ap] in D. unfold px, py, pz in *. cbn [fst snd] in *.
  assert (z = 0) by lra. subst z. pose proof (Rle_0_sqr (0 - x)). pose proof (Rle_0_sqr (0 - y)). unfold Rsqr in *. lra.
Qed.
Lemma pt0_tent : forall a b c (sx sy : R), tw_ap a <> tw_ap b -> (sx = 1 \/ sx = -1) -> (sy = 1 \/ sy = -1) ->
  (forall r, In r [a; b; c] -> sx * px (tw_ap r) + sy * py (tw_ap r) + pz (tw_ap r) / 5 = 1) -> HonoredPoints.honored_by tw_tols tw_ap 0 (a, b, c) = false.
Proof.
  intros a b c sx sy N SX SY PL. destruct (HonoredPoints.honored_by tw_tols tw_ap 0 (a, b, c)) eqn:H; auto. exfalso. apply (honored_exact tw_tols) in H; auto.
  destruct H as (q & (u & v & w & U & V & W & SUM & QX & QY & QZ) & D). apply near_zero in D.
  pose proof (PL a ltac:(cbn; tauto)) as PA. pose proof (PL b ltac:(cbn; tauto)) as PB. pose proof (PL c ltac:(cbn; tauto)) as PC.
  assert (E : sx * px q + sy * py q + pz q / 5 = 1).
  { rewrite QX, QY, QZ. transitivity (u * (sx * px (tw_ap a) + sy * py (tw_ap a) + pz (tw_ap a) / 5) + v * (sx * px (tw_ap b) + sy * py (tw_ap b) + pz (tw_ap b) / 5) + w * (sx * px (tw_ap c) + sy * py (tw_ap c) + pz (tw_ap c) / 5)); [field|].
    rewrite PA, PB, PC. lra. }
  clear - D E SX SY. destruct SX as [-> | ->], SY as [-> | ->]; lra.
Qed.
Lemma tw_coherent : coherent tw_tols (fun _ => [0; 1]%nat) 2 2 tw_ap tw_start.
Proof.
  apply start_ok; auto. intros fi r L _. destruct fi as [|[|fi]]; cbn; auto. lia.
Qed.
Ltac tent sx sy := apply (pt0_tent _ _ _ sx sy); [cbn; intros X; injection X; intros; lra|lra|lra|
  intros r [<-|[<-|[<-|[]]]]; unfold tw_ap, px, py, pz; cbn [fst snd]; lra].
Lemma listed_twice : exists s', change_patches tw_tols (fun _ => [0; 1]%nat) (fun _ _ => [0; 1]%nat) tw_start tw_changed = Ok ([0; 0]%nat, s') /\
  ~ on_mesh tw_tols 2 s' 0 /\ on_mesh tw_tols 2 tw_start 0.
Proof.
  assert (T1 : HonoredPoints.honored_by tw_tols tw_ap 0 (2, 1, 4)%nat = false) by (tent (-1) 1).
  assert (T2 : HonoredPoints.honored_by tw_tols tw_ap 0 (1, 3, 4)%nat = false) by (tent 1 1).
  assert (T3 : HonoredPoints.honored_by tw_tols tw_ap 0 (3, 1, 5)%nat = false) by (tent 1 (-1)).
  assert (T4 : HonoredPoints.honored_by tw_tols tw_ap 0 (1, 2, 5)%nat = false) by (tent (-1) (-1)).
  assert (F1 : HonoredPoints.honored_by tw_tols tw_ap 1 (2, 3, 4)%nat = false) by (apply pt1_flat; [cbn; intros X; injection X; intros; lra|reflexivity..]).
  assert (F2 : HonoredPoints.honored_by tw_tols tw_ap 1 (3, 2, 5)%nat = false) by (apply pt1_flat; [cbn; intros X; injection X; intros; lra|reflexivity..]).
  pose proof pt0_face0 as P0. pose proof pt0_face1 as P1.
  destruct (commit_ok tw_changed (snd (points_of_patches tw_tols (fun _ => [0; 1]%nat) tw_start (map fst tw_changed)))) as (s' & E & A & B & O).
  { repeat constructor; cbn; intuition discriminate. }
  { intros fi fs [X|[X|[]]]; injection X as <- <-; discriminate. }
  assert (PREV : fst (points_of_patches tw_tols (fun _ => [0; 1]%nat) tw_start (map fst tw_changed)) = [0; 0]%nat).
  { unfold tw_changed. cbn [map fst points_of_patches]. unfold points_of_patch at 1, tw_start, start_patches. cbn [h_cache h_box h_faces h_ap fst snd].
    unfold points_of_patch. cbn [h_cache h_box h_faces h_ap fst snd put Nat.eqb].
    cbn [filter]. unfold HonoredPoints.honored_by_patch. cbn [h_faces h_ap existsb tw_faces]. rewrite P0, P1, F1, F2. cbn [orb filter put Nat.eqb fst snd app].
    unfold put. cbn [Nat.eqb fst snd app]. reflexivity. }
  assert (AP : h_ap s' = tw_ap).
  { rewrite A. clear. generalize (map fst tw_changed) as l. assert (G : forall l s, h_ap (snd (points_of_patches tw_tols (fun _ => [0; 1]%nat) s l)) = h_ap s).
    { induction l as [|fi l IH]; intros s; [reflexivity|]. cbn [points_of_patches snd]. rewrite IH. unfold points_of_patch. destruct (h_cache s fi); reflexivity. }
    intros l. rewrite G. reflexivity. }
  destruct (B 0%nat _ (or_introl eq_refl)) as (B0 & _). destruct (B 1%nat _ (or_intror (or_introl eq_refl))) as (B1 & _).
  exists s'. split; [|split].
  - unfold change_patches. rewrite E. cbn [bind]. rewrite PREV. f_equal. f_equal. unfold collect. cbn [filter].
    assert (M : honored_by_mesh tw_tols (fun _ _ => [0; 1]%nat) s' 0 = false).
    { unfold honored_by_mesh. cbn [existsb]. unfold HonoredPoints.honored_by_patch. rewrite B0, B1, AP. cbn [existsb]. rewrite T1, T2, T3, T4. reflexivity. }
    rewrite M. reflexivity.
  - intros (fi & f & L & F & H). rewrite AP in H. destruct fi as [|[|fi]]; [| |lia].
    + rewrite B0 in F. destruct F as [<-|[<-|[]]]; congruence.
    + rewrite B1 in F. destruct F as [<-|[<-|[]]]; congruence.
  - exists 0%nat, (2, 3, 4)%nat. split; [lia|]. split; [left; reflexivity|exact P0].
Qed.

Lemma requeued_twice : forall P A T (E : env P A T) cs of_point p ci c queue budget b, (p < Snapper.np E)%nat -> of_point p = Some ci -> nth_error cs ci = Some c ->
  budget ci = S (S b) -> exists budget', requeue E cs of_point [p; p] queue budget = Ok ((c_d2 c, ci) :: (c_d2 c, ci) :: queue, budget') /\ budget' ci = b.
Proof.
  intros P A T E cs of_point p ci c queue budget b L O N B. cbn [requeue]. apply Nat.leb_gt in L. rewrite L, O, N, B.
  assert (S1 : Snapper.set budget ci (S b) ci = S b) by (unfold Snapper.set; rewrite Nat.eqb_refl; reflexivity). rewrite S1.
  eexists. split; [reflexivity|]. unfold Snapper.set. rewrite Nat.eqb_refl. reflexivity.
Qed.
