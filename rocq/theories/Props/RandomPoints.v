From Coq Require Import Reals List Arith Lia Lra.
From Verif Require Import Model.Outcome Model.LinAlg Model.RandomPoints Spec.RandomPoints Proofs.RandomPoints.
Import ListNotations.
Local Open Scope R_scope.

(** C39: exactly n points inside the cuboid, or an exception because it has no volume. *)
Theorem C39_cuboid : forall draw, (forall k, 0 <= draw k < 1) -> forall lo hi n,
  match random_cuboid draw lo hi n with
  | Ok ps => (forall e, (e < 3)%nat -> lo e < hi e) /\ length ps = n /\ forall p, In p ps -> inside_cuboid lo hi p
  | Throw e => e = ExInvalidArgument /\ exists e, (e < 3)%nat /\ hi e <= lo e
  | UB => False
  end.
Proof. exact cuboid_spec. Qed.
Print Assumptions C39_cuboid.

(** C39: exactly n points at the distance radius from the center, or an exception because there is no volume. *)
Theorem C39_sphere : forall draw fuel center radius n,
  match random_sphere draw fuel center radius n with
  | Some (Ok ps) => 0 < radius /\ length ps = n /\ forall p, In p ps -> distance p center = radius
  | Some (Throw e) => e = ExInvalidArgument /\ radius <= 0
  | Some UB => False
  | None => 0 < radius
  end.
Proof. exact sphere_spec. Qed.
Print Assumptions C39_sphere.

(** C39: the rejection loop ends if pairs inside the disk keep coming. *)
Theorem C39_sphere_ends : forall draw, keeps_hitting draw -> forall center radius n, exists fuel, random_sphere draw fuel center radius n <> None.
Proof. exact sphere_ends. Qed.
Print Assumptions C39_sphere_ends.

(** The hypotheses can be met; the first pair is rejected, the second one gives the north pole. *)
Example C39_pole : let draw := fun k => match k with 0%nat => 0.9 | 1%nat => 0.8 | _ => 0 end in
  (forall k, 0 <= draw k < 1) /\ keeps_hitting draw /\ random_sphere draw 1 (fun _ => 0) 2 1 = None /\
  exists p, random_sphere draw 2 (fun _ => 0) 2 1 = Some (Ok [p]) /\ p 2%nat = 2.
Proof.
  intros draw. split; [intros [|[|k]]; cbn; lra|]. split; [|split].
  - intros pos. exists 1%nat. replace (pos + 2 * 1)%nat with (S (S pos)) by lia. cbn. lra.
  - unfold random_sphere. destruct (Rlt_dec 0 2); [|lra]. cbn. destruct (Rle_dec _ _); [reflexivity|exfalso; unfold draw in *; lra].
  - unfold random_sphere. destruct (Rlt_dec 0 2); [|lra]. cbn [sphere_points pick Nat.add]. destruct (Rle_dec 1 (draw 0%nat * draw 0%nat + _)); [|exfalso; unfold draw in *; lra].
    destruct (Rle_dec _ _); [exfalso; unfold draw in *; lra|]. eexists. split; [reflexivity|]. unfold draw. cbn. ring.
Qed.
