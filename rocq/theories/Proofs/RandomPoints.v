From Coq Require Import Reals List Arith Lia Lra.
From Verif Require Import Model.Outcome Model.LinAlg Model.RandomPoints Spec.RandomPoints.
Import ListNotations.
Local Open Scope R_scope.

Section P.
Variable draw : nat -> R.
Lemma cuboid_length : forall lo size n pos, length (cuboid_points draw lo size n pos) = n.
Proof. induction n as [|n IH]; intros pos; cbn; auto. Qed.
Lemma cuboid_inside : (forall k, 0 <= draw k < 1) -> forall lo size, (forall e, (e < 3)%nat -> 0 < size e) -> forall n pos p,
  In p (cuboid_points draw lo size n pos) -> inside_cuboid lo (fun e => lo e + size e) p.
Proof.
  intros D lo size S0. induction n as [|n IH]; intros pos p I; cbn in I; [contradiction|]. destruct I as [<-|I]; [|eauto]. intros e E.
  assert (forall u s, 0 <= u < 1 -> 0 < s -> lo e <= lo e + u * s < lo e + s) as H.
  { intros u s [U1 U2] SP. assert (0 <= u * s) by (apply Rmult_le_pos; lra). assert (u * s < 1 * s) by (apply Rmult_lt_compat_r; lra). lra. }
  destruct e as [|[|[|e]]]; [| | |lia]; cbn [vec]; apply H; auto.
Qed.
Theorem cuboid_spec : (forall k, 0 <= draw k < 1) -> forall lo hi n,
  match random_cuboid draw lo hi n with
  | Ok ps => (forall e, (e < 3)%nat -> lo e < hi e) /\ length ps = n /\ forall p, In p ps -> inside_cuboid lo hi p
  | Throw e => e = ExInvalidArgument /\ exists e, (e < 3)%nat /\ hi e <= lo e
  | UB => False
  end.
Proof.
  intros D lo hi n. unfold random_cuboid. cbv zeta. destruct (Rlt_dec 0 (Rmin (hi 0%nat - lo 0%nat) (Rmin (hi 1%nat - lo 1%nat) (hi 2%nat - lo 2%nat)))) as [L|L].
  - assert (forall e, (e < 3)%nat -> 0 < hi e - lo e) as S0.
    { pose proof (Rmin_l (hi 0%nat - lo 0%nat) (Rmin (hi 1%nat - lo 1%nat) (hi 2%nat - lo 2%nat))).
      pose proof (Rmin_r (hi 0%nat - lo 0%nat) (Rmin (hi 1%nat - lo 1%nat) (hi 2%nat - lo 2%nat))).
      pose proof (Rmin_l (hi 1%nat - lo 1%nat) (hi 2%nat - lo 2%nat)). pose proof (Rmin_r (hi 1%nat - lo 1%nat) (hi 2%nat - lo 2%nat)).
      intros e E. destruct e as [|[|[|e]]]; [| | |lia]; lra. }
    split; [intros e E; specialize (S0 e E); lra|]. split; [apply cuboid_length|]. intros p I.
    pose proof (cuboid_inside D lo (fun e => hi e - lo e) S0 n 0%nat p I) as C. intros e E. specialize (C e E). cbv beta in C. replace (lo e + (hi e - lo e)) with (hi e) in C by ring. exact C.
  - split; auto. destruct (Rle_dec (hi 0%nat) (lo 0%nat)); [exists 0%nat; split; auto; lia|]. destruct (Rle_dec (hi 1%nat) (lo 1%nat)); [exists 1%nat; split; auto; lia|].
    destruct (Rle_dec (hi 2%nat) (lo 2%nat)); [exists 2%nat; split; auto; lia|]. exfalso. apply L. repeat apply Rmin_glb_lt; lra.
Qed.
Lemma pick_spec : forall fuel pos x1 x2 pos', pick draw fuel pos = Some (x1, x2, pos') -> x1 * x1 + x2 * x2 < 1.
Proof.
  induction fuel as [|f IH]; intros pos x1 x2 pos' E; cbn in E; [discriminate|]. destruct (Rle_dec _ _) as [L|L]; [eauto|]. injection E as <- <- <-. lra.
Qed.
Lemma on_sphere : forall center radius x1 x2, 0 < radius -> x1 * x1 + x2 * x2 < 1 -> let rsq := x1 * x1 + x2 * x2 in
  distance (fun e => center e + radius * vec (2 * x1 * sqrt (1 - rsq)) (2 * x2 * sqrt (1 - rsq)) (1 - 2 * rsq) e) center = radius.
Proof.
  intros center radius x1 x2 R0 L rsq. unfold distance. set (s := sqrt (1 - rsq)). assert (s * s = 1 - rsq) as S2 by (apply sqrt_sqrt; unfold rsq; lra).
  replace (dot 3 _ _) with (radius * radius); [apply sqrt_square; lra|]. unfold dot. cbn [rsum vec].
  replace (0 + _ + _ + _) with (radius * radius * (4 * (x1 * x1 + x2 * x2) * (s * s) + (1 - 2 * rsq) * (1 - 2 * rsq))) by ring. rewrite S2. unfold rsq. ring.
Qed.
Lemma sphere_points_spec : forall fuel center radius, 0 < radius -> forall n pos ps, sphere_points draw fuel center radius n pos = Some ps ->
  length ps = n /\ forall p, In p ps -> distance p center = radius.
Proof.
  intros fuel center radius R0. induction n as [|n IH]; intros pos ps E; cbn in E; [injection E as <-; split; auto; intros p []|].
  destruct (pick draw fuel pos) as [[[x1 x2] pos']|] eqn:P; [|discriminate]. destruct (sphere_points draw fuel center radius n pos') as [ps'|] eqn:Q; [|discriminate].
  injection E as <-. destruct (IH _ _ Q) as [A B]. split; [cbn; lia|]. intros p [<-|I]; auto. apply on_sphere; auto. eapply pick_spec; eauto.
Qed.
Theorem sphere_spec : forall fuel center radius n,
  match random_sphere draw fuel center radius n with
  | Some (Ok ps) => 0 < radius /\ length ps = n /\ forall p, In p ps -> distance p center = radius
  | Some (Throw e) => e = ExInvalidArgument /\ radius <= 0
  | Some UB => False
  | None => 0 < radius
  end.
Proof.
  intros fuel center radius n. unfold random_sphere. destruct (Rlt_dec 0 radius) as [L|L]; [|split; auto; lra].
  destruct (sphere_points draw fuel center radius n 0) as [ps|] eqn:E; auto. split; auto. eapply sphere_points_spec; eauto.
Qed.
Lemma pick_more : forall f pos out, pick draw f pos = Some out -> forall f', (f <= f')%nat -> pick draw f' pos = Some out.
Proof.
  induction f as [|f IH]; intros pos out E f' L; cbn in E; [discriminate|]. destruct f' as [|f']; [lia|]. cbn. destruct (Rle_dec _ _); auto. apply IH; auto. lia.
Qed.
Lemma pick_hits : forall k pos, draw (pos + 2 * k)%nat * draw (pos + 2 * k)%nat + draw (pos + 2 * k + 1)%nat * draw (pos + 2 * k + 1)%nat < 1 -> pick draw (S k) pos <> None.
Proof.
  induction k as [|k IH]; intros pos H.
  - cbn. rewrite Nat.mul_0_r, Nat.add_0_r in H. destruct (Rle_dec _ _); [lra|discriminate].
  - change (pick draw (S (S k)) pos) with (if Rle_dec 1 (draw pos * draw pos + draw (pos + 1)%nat * draw (pos + 1)%nat) then pick draw (S k) (pos + 2) else Some (draw pos, draw (pos + 1)%nat, (pos + 2)%nat)).
    destruct (Rle_dec _ _); [|discriminate]. apply IH. replace (pos + 2 + 2 * k)%nat with (pos + 2 * S k)%nat by lia. exact H.
Qed.
Lemma sphere_more : forall f center radius n pos out, sphere_points draw f center radius n pos = Some out -> forall f', (f <= f')%nat -> sphere_points draw f' center radius n pos = Some out.
Proof.
  intros f center radius. induction n as [|n IH]; intros pos out E f' L; cbn in *; auto.
  destruct (pick draw f pos) as [[[x1 x2] pos']|] eqn:P; [|discriminate]. rewrite (pick_more _ _ _ P f' L).
  destruct (sphere_points draw f center radius n pos') as [ps|] eqn:Q; [|discriminate]. rewrite (IH _ _ Q f' L). exact E.
Qed.
Theorem sphere_ends : keeps_hitting draw -> forall center radius n, exists fuel, random_sphere draw fuel center radius n <> None.
Proof.
  intros K center radius n. assert (forall n pos, exists fuel, sphere_points draw fuel center radius n pos <> None) as G.
  { clear n. induction n as [|n IH]; intros pos; [exists 0%nat; discriminate|]. destruct (K pos) as [k H]. pose proof (pick_hits k pos H) as P.
    destruct (pick draw (S k) pos) as [[[x1 x2] pos']|] eqn:E; [|contradiction]. destruct (IH pos') as [f F]. exists (max (S k) f). cbn [sphere_points].
    rewrite (pick_more _ _ _ E) by lia. destruct (sphere_points draw f center radius n pos') as [ps|] eqn:Q; [|contradiction]. rewrite (sphere_more _ _ _ _ _ _ Q) by lia. discriminate. }
  destruct (G n 0%nat) as [f F]. exists f. unfold random_sphere. destruct (Rlt_dec 0 radius); [|discriminate]. destruct (sphere_points draw f center radius n 0); [discriminate|contradiction].
Qed.
End P.
