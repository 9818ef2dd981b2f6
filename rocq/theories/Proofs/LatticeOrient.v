From Coq Require Import List Arith ZArith Reals Bool Lia Lra Permutation.
From Verif Require Import Model.Outcome Model.MeshDefects Model.Solver Model.Lattice Spec.VertexClusterer
  Spec.Lattice.
Import ListNotations.
Local Open Scope R_scope.

Definition inside (t : R) : Prop := 0 < t < 1.
Lemma prod_pos : forall a b c v, 0 < a -> 0 < b -> 0 < c -> 0 < v -> a * b * c * v > 0.
Proof. intros a b c v A B C V. apply Rlt_gt. repeat apply Rmult_lt_0_compat; auto. Qed.
Lemma prod_neg : forall a b c v, 0 < a -> 0 < b -> 0 < c -> 0 < v -> - (a * b * c * v) < 0.
Proof. intros a b c v A B C V. pose proof (prod_pos a b c v A B C V). lra. Qed.

(** The ends of edge j of a tetrahedron. *)
Definition local_ends (j : nat) : nat * nat := nth j [(0, 1); (0, 2); (0, 3); (1, 2); (2, 3); (3, 1)]%nat (0, 0)%nat.
Definition local_pos (P : nat -> R3) (t : nat -> R) (j : nat) : R3 := lerp (P (fst (local_ends j))) (P (snd (local_ends j))) (t j).

Lemma orient_local : forall P t b0 b1 b2 b3 f n, (forall j, (j < 6)%nat -> inside (t j)) ->
  det3 (vsub (P 1%nat) (P 0%nat)) (vsub (P 2%nat) (P 0%nat)) (vsub (P 3%nat) (P 0%nat)) > 0 -> (n < 4)%nat ->
  In f (face_table b0 b1 b2 b3) ->
  let '(a, b, c) := f in
  let o := orient (local_pos P t a) (local_pos P t b) (local_pos P t c) (P n) in
  if nth n [b0; b1; b2; b3] false then o < 0 else o > 0.
Proof.
  intros P t b0 b1 b2 b3 f n T. pose proof (T 0%nat ltac:(lia)) as [A0 B0]. pose proof (T 1%nat ltac:(lia)) as [A1 B1]. pose proof (T 2%nat ltac:(lia)) as [A2 B2].
  pose proof (T 3%nat ltac:(lia)) as [A3 B3]. pose proof (T 4%nat ltac:(lia)) as [A4 B4]. pose proof (T 5%nat ltac:(lia)) as [A5 B5]. clear T.
  unfold local_pos. remember (t 0%nat) as t0 eqn:E0. remember (t 1%nat) as t1 eqn:E1. remember (t 2%nat) as t2 eqn:E2.
  remember (t 3%nat) as t3 eqn:E3. remember (t 4%nat) as t4 eqn:E4. remember (t 5%nat) as t5 eqn:E5.
  destruct (P 0%nat) as [[p0 p1] p2] eqn:EP0. destruct (P 1%nat) as [[q0 q1] q2] eqn:EP1. destruct (P 2%nat) as [[r0 r1] r2] eqn:EP2.
  destruct (P 3%nat) as [[u0 u1] u2] eqn:EP3.
  intros V L I.
  assert (forall j, (j < 6)%nat -> exists u, (u = t j) /\ 0 < u /\ 0 < 1 - u) as TT.
  { intros j J. do 6 (destruct j as [|j]; [eexists; split; [reflexivity|]; subst; split; lra|]). lia. }
  set (vol := det3 _ _ _) in V.
  destruct b0, b1, b2, b3; cbn in I; repeat destruct I as [I|I]; try contradiction; subst f; cbv zeta;
    (destruct n as [|[|[|[|n]]]]; [| | | |lia]); cbn [nth local_ends fst snd];
    rewrite ?EP0, ?EP1, ?EP2, ?EP3, <- ?E0, <- ?E1, <- ?E2, <- ?E3, <- ?E4, <- ?E5;
    match goal with |- orient (lerp _ _ ?x) (lerp _ _ ?y) (lerp _ _ ?z) _ < 0 =>
      first [ replace (orient _ _ _ _) with (- (x * y * z * vol)) by (unfold vol, orient, lerp, vsub, det3; ring); apply prod_neg; lra
            | replace (orient _ _ _ _) with (- ((1 - x) * y * z * vol)) by (unfold vol, orient, lerp, vsub, det3; ring); apply prod_neg; lra
            | replace (orient _ _ _ _) with (- (x * (1 - y) * z * vol)) by (unfold vol, orient, lerp, vsub, det3; ring); apply prod_neg; lra
            | replace (orient _ _ _ _) with (- (x * y * (1 - z) * vol)) by (unfold vol, orient, lerp, vsub, det3; ring); apply prod_neg; lra
            | replace (orient _ _ _ _) with (- ((1 - x) * (1 - y) * z * vol)) by (unfold vol, orient, lerp, vsub, det3; ring); apply prod_neg; lra
            | replace (orient _ _ _ _) with (- ((1 - x) * y * (1 - z) * vol)) by (unfold vol, orient, lerp, vsub, det3; ring); apply prod_neg; lra
            | replace (orient _ _ _ _) with (- (x * (1 - y) * (1 - z) * vol)) by (unfold vol, orient, lerp, vsub, det3; ring); apply prod_neg; lra
            | replace (orient _ _ _ _) with (- ((1 - x) * (1 - y) * (1 - z) * vol)) by (unfold vol, orient, lerp, vsub, det3; ring); apply prod_neg; lra ]
    | |- orient (lerp _ _ ?x) (lerp _ _ ?y) (lerp _ _ ?z) _ > 0 =>
      first [ replace (orient _ _ _ _) with (x * y * z * vol) by (unfold vol, orient, lerp, vsub, det3; ring); apply prod_pos; lra
            | replace (orient _ _ _ _) with ((1 - x) * y * z * vol) by (unfold vol, orient, lerp, vsub, det3; ring); apply prod_pos; lra
            | replace (orient _ _ _ _) with (x * (1 - y) * z * vol) by (unfold vol, orient, lerp, vsub, det3; ring); apply prod_pos; lra
            | replace (orient _ _ _ _) with (x * y * (1 - z) * vol) by (unfold vol, orient, lerp, vsub, det3; ring); apply prod_pos; lra
            | replace (orient _ _ _ _) with ((1 - x) * (1 - y) * z * vol) by (unfold vol, orient, lerp, vsub, det3; ring); apply prod_pos; lra
            | replace (orient _ _ _ _) with ((1 - x) * y * (1 - z) * vol) by (unfold vol, orient, lerp, vsub, det3; ring); apply prod_pos; lra
            | replace (orient _ _ _ _) with (x * (1 - y) * (1 - z) * vol) by (unfold vol, orient, lerp, vsub, det3; ring); apply prod_pos; lra
            | replace (orient _ _ _ _) with ((1 - x) * (1 - y) * (1 - z) * vol) by (unfold vol, orient, lerp, vsub, det3; ring); apply prod_pos; lra ]
    end.
Qed.
