From Coq Require Import Reals List Arith Lia Lra.
From Verif Require Import Proofs.LinAlg Proofs.PositiveDefinite Proofs.Covariance Model.LinAlg Model.Rbfs Spec.Rbfs Spec.PositiveDefinite.
Import ListNotations.
Local Open Scope R_scope.

(** The two branches of a spheroidal function do not meet. *)
Lemma off_bracket : forall B y lo hi v, 0 < lo -> lo <= y <= hi -> 0 <= v -> B < v * lo \/ v * hi < B -> v - B * / y <> 0.
Proof.
  intros B y lo hi v L [A C] V H E. assert (Q : B = v * y). { replace v with (B * / y) by lra. field. lra. }
  pose proof (Rmult_le_compat_l v lo y V A). pose proof (Rmult_le_compat_l v y hi V C). lra.
Qed.
Lemma junction_step : forall sp, In sp spheroids -> 1 - kA sp * kRho0 sp - imq_at sp (kRho0 sp) <> 0.
Proof.
  intros sp I. unfold spheroids in I. cbn [In] in I. unfold imq_at, sqrt_pow.
  destruct I as [<-|[<-|[<-|[<-|[]]]]]; cbn [sp3 sp5 sp7 sp9 sm kRho0 kA kB kC kD kE pow].
  - assert (RB : 1.118033988749894844893 <= sqrt (1 + 7.181510581693163 * 0.18657871684006438 * 0.18657871684006438) <= 1.118033988749894844894) by (apply root_bounds; lra).
    set (q := sqrt _) in *. clearbody q. set (x := 1 + 7.181510581693163 * 0.18657871684006438 * 0.18657871684006438) in *.
    apply (off_bracket _ _ ((x * 1) * 1.118033988749894844893) ((x * 1) * 1.118033988749894844894)); [unfold x; lra|split; (apply Rmult_le_compat_l; [unfold x; lra|lra])|lra|left; unfold x; lra].
  - assert (RB : 1.080123449734643374218 <= sqrt (1 + 2.5036086535164204 * 0.2580127411803573 * 0.2580127411803573) <= 1.080123449734643374219) by (apply root_bounds; lra).
    set (q := sqrt _) in *. clearbody q. set (x := 1 + 2.5036086535164204 * 0.2580127411803573 * 0.2580127411803573) in *.
    apply (off_bracket _ _ ((x * (x * 1)) * 1.080123449734643374218) ((x * (x * 1)) * 1.080123449734643374219)); [unfold x; lra|split; (apply Rmult_le_compat_l; [unfold x; lra|lra])|lra|right; unfold x; lra].
  - assert (RB : 1.060660171779821276648 <= sqrt (1 + 1.44208314742683 * 0.2944149476843637 * 0.2944149476843637) <= 1.060660171779821276649) by (apply root_bounds; lra).
    set (q := sqrt _) in *. clearbody q. set (x := 1 + 1.44208314742683 * 0.2944149476843637 * 0.2944149476843637) in *.
    apply (off_bracket _ _ ((x * (x * (x * 1))) * 1.060660171779821276648) ((x * (x * (x * 1))) * 1.060660171779821276649)); [unfold x; lra|split; (apply Rmult_le_compat_l; [unfold x; lra|lra])|lra|left; unfold x; lra].
  - assert (RB : 1.048808848170151549041 <= sqrt (1 + 1 * 0.31622776601683794 * 0.31622776601683794) <= 1.048808848170151549042) by (apply root_bounds; lra).
    set (q := sqrt _) in *. clearbody q. set (x := 1 + 1 * 0.31622776601683794 * 0.31622776601683794) in *.
    apply (off_bracket _ _ ((x * (x * (x * (x * 1)))) * 1.048808848170151549041) ((x * (x * (x * (x * 1)))) * 1.048808848170151549042)); [unfold x; lra|split; (apply Rmult_le_compat_l; [unfold x; lra|lra])|lra|right; unfold x; lra].
Qed.

(** Three points on a line: one at the origin, one where the branches meet and one little before. *)
Definition before (rho delta : R) (i e : nat) : R := match i with 0%nat => 0 | 1%nat => rho - delta | _ => rho end.
Lemma step_negative : forall sp, In sp spheroids -> exists x c, distinct 3 1 x /\ quad 3 (fun i j => value (Sp sp Full) 1 1 (distance2 1 (x i) (x j))) c < 0.
Proof.
  intros sp I. pose proof (junction_step sp I) as J. destruct (spheroid_facts sp I) as (R0 & A0 & AR & _). set (rho := kRho0 sp) in *. set (a := kA sp) in *.
  set (jump := 1 - a * rho - imq_at sp rho) in *. set (t := - / jump). set (m := 2 * t + 2 * (t * t)).
  assert (M : exists delta, 0 < delta < rho /\ a * delta * m < 1).
  { set (b := a * (Rabs m + 1)). assert (B : 0 < b) by (unfold b; pose proof (Rabs_pos m); apply Rmult_lt_0_compat; lra).
    exists (Rmin (rho / 2) (/ b * / 2)). assert (IB : 0 < / b) by (apply Rinv_0_lt_compat; auto).
    assert (D1 : 0 < Rmin (rho / 2) (/ b * / 2)) by (apply Rmin_glb_lt; lra). pose proof (Rmin_l (rho / 2) (/ b * / 2)). pose proof (Rmin_r (rho / 2) (/ b * / 2)). set (dl := Rmin _ _) in *.
    split; [lra|]. apply Rle_lt_trans with (dl * b).
    - unfold b. replace (a * dl * m) with (dl * (a * m)) by ring. apply Rmult_le_compat_l; [lra|]. apply Rmult_le_compat_l; [lra|]. pose proof (Rle_abs m). lra.
    - apply Rle_lt_trans with (/ b * / 2 * b); [apply Rmult_le_compat_r; lra|]. replace (/ b * / 2 * b) with (/ 2) by (field; lra). lra. }
  destruct M as (delta & D & DM). exists (before rho delta), (fun i => match i with 0%nat => 1 | 1%nat => t | _ => - t end). split.
  - intros i j I0 J0 N. exists 0%nat. split; [lia|]. destruct i as [|[|[|i]]], j as [|[|[|j]]]; try lia; cbn [before]; lra.
  - assert (F : forall s r, 0 <= r -> s = r * r -> value (Sp sp Full) 1 1 s = if lt_dec_b r rho then 1 - a * r else imq_at sp r).
    { intros s r P ->. pose proof (at_full sp 1 1 r ltac:(lra) P) as E. unfold at_distance in E. rewrite E. unfold Rdiv. rewrite Rinv_1, !Rmult_1_r. fold rho a. destruct (lt_dec_b r rho); ring. }
    assert (LT : forall r, r < rho -> lt_dec_b r rho = true) by (intros r L; unfold lt_dec_b; destruct (Rlt_dec r rho); [reflexivity|contradiction]).
    assert (GE : lt_dec_b rho rho = false) by (unfold lt_dec_b; destruct (Rlt_dec rho rho); [lra|reflexivity]).
    unfold quad, distance2. cbn [rsum before].
    rewrite !(F (0 + (0 - 0) * (0 - 0)) 0) by (try ring; lra). rewrite !(F (0 + (0 - (rho - delta)) * (0 - (rho - delta))) (rho - delta)) by (try ring; lra).
    rewrite !(F (0 + (rho - delta - 0) * (rho - delta - 0)) (rho - delta)) by (try ring; lra). rewrite !(F (0 + (0 - rho) * (0 - rho)) rho) by (try ring; lra).
    rewrite !(F (0 + (rho - 0) * (rho - 0)) rho) by (try ring; lra). rewrite !(F (0 + (rho - delta - rho) * (rho - delta - rho)) delta) by (try ring; lra).
    rewrite !(F (0 + (rho - (rho - delta)) * (rho - (rho - delta))) delta) by (try ring; lra).
    rewrite !(F (0 + (rho - delta - (rho - delta)) * (rho - delta - (rho - delta))) 0) by (try ring; lra). rewrite !(F (0 + (rho - rho) * (rho - rho)) 0) by (try ring; lra).
    rewrite GE, !LT by lra. match goal with |- ?l < 0 => replace l with (1 + 2 * (t * jump) + a * delta * m) end.
    + assert (TJ : t * jump = -1) by (unfold t; field; auto). rewrite TJ. lra.
    + unfold m, jump. ring.
Qed.
