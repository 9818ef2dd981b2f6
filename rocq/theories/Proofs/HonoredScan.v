From Coq Require Import Reals Lra Lia List Arith Bool ZArith.
From Verif Require Import Proofs.SpatialGrid Model.SpatialGrid Spec.SpatialGrid.
From Verif Require Import Model.Outcome Model.Clip Model.PointTriangle Spec.PointTriangle Model.HonoredPoints Spec.HonoredPoints.
Import ListNotations.
Local Open Scope R_scope.

Lemma meets_overlap : forall b q : pt * pt, meets b q -> overlap b q.
Proof.
  intros [[[a0 a1] a2] [[b0 b1] b2]] [[[c0 c1] c2] [[d0 d1] d2]] ([[p0 p1] p2] & A & B). exists (p0, p1, p2).
  unfold inside, px, py, pz in A, B. cbn [fst snd] in A, B. cbn [contains]. tauto.
Qed.
Lemma grid_finds : forall rnd resolution, (forall a b, a <= b -> rnd a <= rnd b) -> 0 < resolution ->
  forall m os n boxes lo hi, same_boxes (fun _ => None) os -> Forall (op_representable rnd resolution) os ->
  representable_point rnd resolution lo -> representable_point rnd resolution hi ->
  (forall i, store (flat_map edits_of os) i = if (i <? n)%nat then Some (boxes i) else None) ->
  exists g g' out, run rnd resolution (grid_new m) os = Ok g /\
    for_each rnd resolution g lo hi (fun _ _ => true) = Ok (g', out, false) /\ finds n boxes (lo, hi) out.
Proof.
  intros rnd res MO RP m os n boxes lo hi SB OR LO HI ST.
  destruct (grid_history rnd res MO RP m os lo hi (fun _ _ => true) SB OR LO HI) as (g & g' & out & stop & E1 & E2 & ND & AN & IN & ALL).
  assert (S0 : stop = false). { destruct stop; auto. destruct out; cbn in AN; [contradiction|destruct AN; discriminate]. } subst stop.
  exists g, g', out. split; [exact E1|]. split; [exact E2|]. split; [exact ND|]. split.
  - intros i I. destruct (IN i I) as (b & SI & _). rewrite ST in SI. destruct (Nat.ltb_spec i n); [auto|discriminate].
  - intros i I M. apply (ALL eq_refl i (boxes i)); [|apply meets_overlap; auto]. rewrite ST. apply Nat.ltb_lt in I. rewrite I. reflexivity.
Qed.
Lemma face_grid_finds : forall rnd resolution, (forall a b, a <= b -> rnd a <= rnd b) -> 0 < resolution ->
  forall m os n boxes lo hi, disciplined (fun _ => None) (flat_map fg_edits os) -> Forall (fg_representable rnd resolution) os ->
  representable_point rnd resolution lo -> representable_point rnd resolution hi ->
  (forall i, store (flat_map fg_edits os) i = if (i <? n)%nat then Some (boxes i) else None) ->
  exists f f' out, fg_run rnd resolution (fg_new m) os = Ok f /\
    fg_for_each rnd resolution f lo hi (fun _ _ => true) = Ok (f', out, false) /\ finds n boxes (lo, hi) out.
Proof.
  intros rnd res MO RP m os n boxes lo hi SB OR LO HI ST.
  destruct (fg_history rnd res MO RP m os lo hi (fun _ _ => true) SB OR LO HI) as (g & g' & out & stop & E1 & E2 & ND & AN & IN & ALL).
  assert (S0 : stop = false). { destruct stop; auto. destruct out; cbn in AN; [contradiction|destruct AN; discriminate]. } subst stop.
  exists g, g', out. split; [exact E1|]. split; [exact E2|]. split; [exact ND|]. split.
  - intros i I. destruct (IN i I) as (b & SI & _). rewrite ST in SI. destruct (Nat.ltb_spec i n); [auto|discriminate].
  - intros i I M. apply (ALL eq_refl i (boxes i)); [|apply meets_overlap; auto]. rewrite ST. apply Nat.ltb_lt in I. rewrite I. reflexivity.
Qed.
