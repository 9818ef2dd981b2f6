From Coq Require Import Reals List Arith Lia Lra.
From Verif Require Import Model.LinAlg Model.RasPreconditioner Spec.Grid Spec.RasPreconditioner Proofs.Orthonormalize Proofs.RasPreconditioner.
Import ListNotations.
Local Open Scope R_scope.

(** C49: every solve of the sweep reads the residuals of the weights accumulated so far, on all rows of its level. *)
Theorem C49_residuals : forall n l n_levels lev kern p_full solve, (1 < n_levels)%nat -> nested n n_levels lev ->
  local_solve n n_levels lev solve -> forall v,
  Forall (sound n l n_levels lev kern p_full v) (solves_of n l lev kern p_full solve (program n_levels) (start v)).
Proof. exact program_sound. Qed.
Print Assumptions C49_residuals.

(** C49: if the coarse solve is exact on its rows then so is the whole preconditioner. *)
Theorem C49_coarse : forall n l n_levels lev kern p_full solve, (1 < n_levels)%nat -> nested n n_levels lev ->
  local_solve n n_levels lev solve -> forall v,
  (forall r i, In i (lev 0%nat) -> applied n l kern p_full (solve 0%nat r) i = r i) ->
  forall i, In i (lev 0%nat) -> applied n l kern p_full (precondition n l lev kern p_full solve n_levels v) i = v i.
Proof. exact coarse_exact. Qed.
Print Assumptions C49_coarse.

(** C49: the result is orthogonal to the polynomials, whatever the fine solves return. *)
Theorem C49_orthogonal : forall n l n_levels lev kern p_full solve, (1 < n_levels)%nat -> nested n n_levels lev ->
  local_solve n n_levels lev solve -> forall v, independent n l p_full ->
  (forall r, orthogonal n l p_full (solve 0%nat r)) ->
  orthogonal n l p_full (precondition n l lev kern p_full solve n_levels v).
Proof. exact result_orthogonal. Qed.
Print Assumptions C49_orthogonal.

(** C49: the preconditioner is linear if its solves are. *)
Theorem C49_linear : forall n l n_levels lev kern p_full solve, (forall k, linear (solve k)) ->
  linear (precondition n l lev kern p_full solve n_levels).
Proof. exact precondition_linear. Qed.
Print Assumptions C49_linear.

(** C49: orthonormalize_cols turns independent columns into orthonormal ones with the same span. *)
Theorem C49_orthonormalize : forall n l m, independent n l m ->
  orthonormal n l (orthonormalize n l m) /\ spanned n l m (orthonormalize n l m).
Proof. exact orthonormalize_spec. Qed.
Print Assumptions C49_orthonormalize.

(** C49: the residuals are those of the system without nugget: with solves that are exact for the system with nugget (here one
    row on both levels) the result is not a solution any more. *)
Theorem C49_nugget_refuted :
  nested 1 2 (fun _ => [0%nat]) /\ local_solve 1 2 (fun _ => [0%nat]) half /\
  (forall k r, applied 1 0 (fun _ _ => 1) (fun _ _ => 0) (half k r) 0 + 1 * half k r 0%nat = r 0%nat) /\
  (let w := precondition 1 0 (fun _ => [0%nat]) (fun _ _ => 1) (fun _ _ => 0) half 2 (fun _ => 1) in
   applied 1 0 (fun _ _ => 1) (fun _ _ => 0) w 0 + 1 * w 0%nat <> 1).
Proof. exact nugget_ignored. Qed.
Print Assumptions C49_nugget_refuted.

(** Two rows, the first one coarse; kernel [2 1; 1 2]; the fine level divides by the diagonal. *)
Definition two (i j : nat) : R := if Nat.eqb i j then 2 else 1.
Definition two_lev (k : nat) : list nat := if Nat.eqb k 0 then [0%nat] else [0; 1]%nat.
Definition two_solve (k : nat) (r : nat -> R) (i : nat) : R :=
  if existsb (Nat.eqb i) (two_lev k) then r i / 2 else 0.
Example C49_two_rows : nested 2 2 two_lev /\ local_solve 2 2 two_lev two_solve /\
  (forall r i, In i (two_lev 0) -> applied 2 0 two (fun _ _ => 0) (two_solve 0%nat r) i = r i) /\
  let w := precondition 2 0 two_lev two (fun _ _ => 0) two_solve 2 (fun i => INR (4 * i)) in
  w 0%nat = - 1 /\ w 1%nat = 2.
Proof.
  split; [|split; [|split]].
  - split; [|split].
    + intros k K. destruct k as [|[|k]]; [| |lia]; cbn; (split; [repeat constructor; cbn; intuition discriminate|]).
      * intros i [<-|[]]. lia.
      * intros i [<-|[<-|[]]]; lia.
    + intros k K x X. assert (k = 0)%nat as -> by lia. cbn in *. tauto.
    + intros i I. cbn. lia.
  - intros k r i K I NI. unfold two_solve. destruct (existsb (Nat.eqb i) (two_lev k)) eqn:E; auto.
    apply existsb_exists in E. destruct E as (x & X & E). apply Nat.eqb_eq in E. subst. contradiction.
  - intros r i [<-|[]]. unfold applied, mat_vec, two_solve, two. cbn. lra.
  - cbn. unfold update, fit, two_solve, mat_vec, two. cbn. lra.
Qed.
