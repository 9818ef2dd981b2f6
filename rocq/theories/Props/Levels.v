From Coq Require Import List Arith Bool Lia Permutation.
From Verif Require Spec.RasPreconditioner.
From Verif Require Import Proofs.CoarsePoints Proofs.Levels.
From Verif Require Import Model.Outcome Model.SolverRun Model.DomainDivider Spec.DomainDivider Model.Levels Spec.Levels.
Import ListNotations.

(** C82: with at least one row, and unless the rows exceed 2048 by less than the number of polynomial points, the levels of the
    preconditioner are set up and form a hierarchy: each starts with the polynomial points, has no index twice, is divided
    into subdomains and contains the next coarser one, which has the number of rows asked for; the finest has all
    points. *)
Theorem C82_hierarchy : forall dim sub sort arrange nearest pick level_read drain poly mu sigma, 1 <= dim <= 3 ->
  orders_ok sub sort arrange nearest pick level_read drain -> poly_ok mu poly -> length poly <= 10 -> 1 <= mu + dim * sigma ->
  let n := mu + dim * sigma in
  ~ (2048 < n < 2048 + length poly) ->
  exists fuel0 ls, (forall fuel, fuel0 <= fuel -> hierarchy dim sub sort arrange nearest pick level_read drain poly fuel mu sigma = Some (Ok ls)) /\
    hierarchy_of dim mu sigma poly (asked n) (n_levels n) ls.
Proof. exact hierarchy_spec. Qed.
Print Assumptions C82_hierarchy.

(** C82: with two or more polynomial points and 2048 rows exceeded by fewer than these, the setup never ends. The
    polynomial points do not count as candidates, but 2048 others are asked for. *)
Theorem C82_endless_refuted : forall dim sub sort arrange nearest pick level_read drain poly mu sigma fuel, 1 <= dim <= 3 ->
  orders_ok sub sort arrange nearest pick level_read drain -> poly_ok mu poly -> length poly <= 10 ->
  2048 < mu + dim * sigma < 2048 + length poly ->
  hierarchy dim sub sort arrange nearest pick level_read drain poly fuel mu sigma = None.
Proof. exact hierarchy_endless. Qed.
Print Assumptions C82_endless_refuted.

(** C82: the same holds for any other numbers asked for, such as those of rounded powers, that grow with the level and leave
    room for the polynomial points. *)
Theorem C82_rounded : forall dim sub sort arrange nearest pick level_read drain poly, 1 <= dim <= 3 ->
  orders_ok sub sort arrange nearest pick level_read drain -> NoDup poly -> forall wanted levels mu sigma, poly_ok mu poly ->
  1 <= levels -> counts_ok (mu + dim * sigma) (length poly) wanted levels ->
  exists fuel0 ls, (forall fuel, fuel0 <= fuel ->
      descend dim sub sort arrange nearest pick level_read drain poly fuel wanted (levels - 1) (finest_points mu poly) (seq 0 sigma) = Some (Ok ls)) /\
    hierarchy_of dim mu sigma poly wanted levels ls.
Proof. exact descend_hierarchy. Qed.
Print Assumptions C82_rounded.

(** C82: if the numbers leave no room, the setup never ends. *)
Theorem C82_rounded_endless_refuted : forall dim sub sort arrange nearest pick level_read drain poly, 1 <= dim <= 3 ->
  orders_ok sub sort arrange nearest pick level_read drain -> forall wanted level mu sigma fuel, poly_ok mu poly ->
  length poly < mu + dim * sigma -> mu + dim * sigma < wanted (S level) + length poly ->
  descend dim sub sort arrange nearest pick level_read drain poly fuel wanted (S level) (finest_points mu poly) (seq 0 sigma) = None.
Proof. exact descend_endless. Qed.
Print Assumptions C82_rounded_endless_refuted.

(** C82: the rows of the levels are nested as the preconditioner's correctness (C49) requires. *)
Theorem C82_nested : forall dim mu sigma poly wanted levels ls, hierarchy_of dim mu sigma poly wanted levels ls ->
  RasPreconditioner.nested (mu + dim * sigma) levels (level_rows dim mu ls).
Proof. exact hierarchy_nested. Qed.
Print Assumptions C82_nested.

(** C82: however many points there are, the dense system of the coarsest level has at most 2052 rows besides the polynomial
    points. *)
Theorem C82_coarsest : forall dim mu sigma poly ls coarse, 1 <= dim <= 3 -> poly_ok mu poly -> 1 <= mu + dim * sigma ->
  let n := mu + dim * sigma in
  hierarchy_of dim mu sigma poly (asked n) (n_levels n) ls -> nth_error ls 0 = Some coarse ->
  length (g_points coarse) + dim * length (g_grads coarse) <= 2052 + length poly.
Proof. exact coarsest_rows. Qed.
Print Assumptions C82_coarsest.

(** C82: without points and gradient points the number of levels is not defined. *)
Theorem C82_empty_refuted : forall dim sub sort arrange nearest pick level_read drain poly fuel,
  hierarchy dim sub sort arrange nearest pick level_read drain poly fuel 0 0 = Some UB.
Proof. intros dim. unfold hierarchy. rewrite Nat.mul_0_r. reflexivity. Qed.
Print Assumptions C82_empty_refuted.

Fixpoint lowest (q : list cluster) : nat :=
  match q with
  | [] => 0
  | c :: q' => match nth_error q' (lowest q') with Some c' => if c_level c <=? c_level c' then 0 else S (lowest q') | None => 0 end
  end.
(** The orders can be chosen as required. *)
Example C82_orders : orders_ok (fun n => half_even (n + 512)) (fun l => l) (fun l => l) (fun _ => 0) lowest (fun c _ => c_level c) (fun q => q).
Proof.
  repeat split; try (intros ?; apply Permutation_refl).
  - intros; apply rounding_exact; auto.
  - intros; apply rounding_exact; auto.
  - intros [|x l] H; [contradiction|cbn; lia].
  - intros q Q. destruct q as [|c q]; [contradiction|]. clear Q. revert c. induction q as [|c' q IH]; intros c.
    + exists c. split; [reflexivity|]. intros d [->|[]]. auto.
    + destruct (IH c') as (m & M1 & M2). cbn [lowest]. cbn [lowest] in M1. rewrite M1. destruct (c_level c <=? c_level m) eqn:E.
      * apply Nat.leb_le in E. exists c. split; [reflexivity|]. intros d [->|D]; auto. apply M2 in D. lia.
      * apply Nat.leb_gt in E. exists m. split; [exact M1|]. intros d [->|D]; [lia|auto].
Qed.
(** 2050 points in space with the four polynomial points of degree one. *)
Example C82_stuck : forall fuel,
  hierarchy 3 (fun n => half_even (n + 512)) (fun l => l) (fun l => l) (fun _ => 0) lowest (fun c _ => c_level c) (fun q => q) [0; 1; 2; 3] fuel 2050 0 = None.
Proof.
  intros fuel. apply hierarchy_endless; try lia.
  - apply C82_orders.
  - split; [repeat constructor; cbn; lia|intros i H; cbn in H; lia].
  - cbn [length]. lia.
  - cbn [length]. rewrite Nat.mul_0_r, Nat.add_0_r. split; apply Nat.ltb_lt; vm_compute; reflexivity.
Qed.
(** Three levels of nine points, asked for two and four rows besides the polynomial point. *)
Example C82_three_levels :
  match descend 1 (fun n => half_even (n + 512)) (fun l => l) (fun l => l) (fun _ => 0) lowest (fun c _ => c_level c) (fun q => q) [4] 50
    (fun level => 2 * level) 2 (finest_points 9 [4]) [] with
  | Some (Ok ls) => map g_points ls
  | _ => []
  end = [[4; 7; 2]; [4; 2; 0; 7; 5]; [4; 0; 1; 2; 3; 5; 6; 7; 8]].
Proof. vm_compute. reflexivity. Qed.
