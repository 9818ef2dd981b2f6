From Coq Require Import List Arith ZArith QArith Sorting.Sorted Lia.
From Verif Require Import Model.Outcome Model.UnisolventPointSet Model.MonomialBasis Spec.UnisolventPointSet Proofs.UnisolventPointSet.
Import ListNotations.

(** C47: the indices are sorted, distinct, in range, as many as basis functions, and give the best condition of the 100 sets drawn. *)
Theorem C47_found : forall dim n_points stream lagrange, (forall p, (stream p < n_points)%nat) -> positive_rcond lagrange ->
  forall fuel degree idcs, (0 <= degree)%Z -> construct dim n_points stream lagrange fuel degree = Some (Ok idcs) ->
  unisolvent_indices dim n_points degree lagrange idcs /\
  exists sets q, draw_sets stream fuel (basis_size dim degree) 100 0 = Some sets /\ lagrange idcs = Some (Some q) /\ In idcs sets /\
    forall s q', In s sets -> lagrange s = Some (Some q') -> (q' <= q)%Q.
Proof. exact found_spec. Qed.
Print Assumptions C47_found.

(** C47: it throws exactly when no set drawn is unisolvent. *)
Theorem C47_throws : forall dim n_points stream lagrange, positive_rcond lagrange ->
  forall fuel degree, (0 <= degree)%Z -> (0 < n_points)%nat -> forall sets,
  draw_sets stream fuel (basis_size dim degree) 100 0 = Some sets ->
  (construct dim n_points stream lagrange fuel degree = Some (Throw ExRuntimeError) <-> forall s, In s sets -> lagrange s = None).
Proof. exact throw_spec. Qed.
Print Assumptions C47_throws.

(** C47: with enough points and a generator that draws every point again and again it ends. *)
Theorem C47_ends : forall dim n_points stream lagrange, (forall p, (stream p < n_points)%nat) -> fair n_points stream ->
  forall degree, (basis_size dim degree <= n_points)%nat -> exists fuel, construct dim n_points stream lagrange fuel degree <> None.
Proof. exact ends. Qed.
Print Assumptions C47_ends.

(** C47, refuted in general: with fewer points than basis functions it never ends, whatever is drawn; without points the bounds of the
    distribution are in the wrong order. *)
Theorem C47_few_points_refuted : forall dim n_points stream lagrange, (forall p, (stream p < n_points)%nat) ->
  forall fuel degree, (0 <= degree)%Z -> (0 < n_points < basis_size dim degree)%nat -> construct dim n_points stream lagrange fuel degree = None.
Proof. exact endless. Qed.
Print Assumptions C47_few_points_refuted.
Theorem C47_no_points_refuted : forall dim stream lagrange fuel degree, (0 <= degree)%Z -> construct dim 0 stream lagrange fuel degree = Some UB.
Proof. intros. unfold construct. destruct (Z.ltb_spec degree 0); [lia|reflexivity]. Qed.
Print Assumptions C47_no_points_refuted.

(** C47, refuted without [positive_rcond]: when the matrix counts as invertible but its rcond is 0 or NaN, the empty set is returned as if found. *)
Theorem C47_empty_refuted : forall rc, rc = None \/ rc = Some 0%Q ->
  construct 1 2 (fun p => Nat.modulo p 2) (fun _ => Some rc) 2 1 = Some (Ok []) /\ basis_size 1 1 = 2%nat.
Proof. intros rc [->| ->]; split; vm_compute; reflexivity. Qed.
Print Assumptions C47_empty_refuted.

(** The hypotheses can be met: of {0,1}, {0,2}, {1,2} the middle one has the best condition. *)
Example C47_three : let stream p := Nat.modulo p 3 in
  let lagrange s := match s with [i; j] => Some (Some (Z.of_nat (j - i) # 2)) | _ => None end in
  (forall p, (stream p < 3)%nat) /\ fair 3 stream /\ construct 1 3 stream lagrange 2 1 = Some (Ok [0; 2]%nat) /\
  construct 1 3 stream lagrange 1 1 = None.
Proof.
  intros stream lagrange. split; [intros p; apply Nat.mod_upper_bound; lia|]. split; [|split; vm_compute; reflexivity].
  intros pos v V. exists (v + pos * 3)%nat. split; [lia|]. unfold stream. rewrite Nat.mod_add by lia. apply Nat.mod_small, V.
Qed.
