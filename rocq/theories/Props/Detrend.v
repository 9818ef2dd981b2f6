From Coq Require Import Reals List Arith ZArith Lia Lra.
From Verif Require Import Model.Outcome Model.LinAlg Model.MonomialBasis Model.Detrend Spec.MonomialBasis Spec.Detrend Proofs.Detrend.
Import ListNotations.
Local Open Scope R_scope.

(** C43: the residuals are orthogonal to every polynomial of the degree. *)
Theorem C43_orthogonal : forall solve dim n, (1 <= dim <= 3)%nat -> forall points degree, (degree <= 2)%nat ->
  solves_consistent (basis_size dim (Z.of_nat degree)) solve ->
  forall values r, detrend solve dim n points values (Z.of_nat degree) = Ok r ->
  forall f, polynomial dim degree f -> rsum n (fun i => r i * f (points i)) = 0.
Proof. exact residual_orthogonal. Qed.
Print Assumptions C43_orthogonal.

(** C43: what was taken away is a polynomial; adding it back restores the data. *)
Theorem C43_restores : forall solve dim n, (1 <= dim <= 3)%nat -> forall points degree, (degree <= 2)%nat ->
  solves_consistent (basis_size dim (Z.of_nat degree)) solve ->
  forall values r, detrend solve dim n points values (Z.of_nat degree) = Ok r ->
  exists trend, polynomial dim degree trend /\ forall i, (i < n)%nat -> values i = r i + trend (points i).
Proof. exact trend_restores. Qed.
Print Assumptions C43_restores.

(** C43: no polynomial of the degree leaves smaller residuals, and polynomials leave none. *)
Theorem C43_least : forall solve dim n, (1 <= dim <= 3)%nat -> forall points degree, (degree <= 2)%nat ->
  solves_consistent (basis_size dim (Z.of_nat degree)) solve ->
  forall values r, detrend solve dim n points values (Z.of_nat degree) = Ok r ->
  forall f, polynomial dim degree f -> rsum n (fun i => r i * r i) <= rsum n (fun i => (values i - f (points i)) * (values i - f (points i))).
Proof. exact residual_least. Qed.
Print Assumptions C43_least.
Theorem C43_polynomials : forall solve dim n, (1 <= dim <= 3)%nat -> forall points degree, (degree <= 2)%nat ->
  solves_consistent (basis_size dim (Z.of_nat degree)) solve ->
  forall f, polynomial dim degree f -> forall values r, (forall i, (i < n)%nat -> values i = f (points i)) ->
  detrend solve dim n points values (Z.of_nat degree) = Ok r -> forall i, (i < n)%nat -> r i = 0.
Proof. exact polynomial_vanishes. Qed.
Print Assumptions C43_polynomials.

(** C43: every other degree is rejected, no accepted one fails. *)
Theorem C43_degrees : forall solve dim n points values degree,
  (0 <= degree <= 2)%Z <-> exists r, detrend solve dim n points values degree = Ok r.
Proof.
  intros. unfold detrend. split.
  - intros D. destruct (Z.ltb_spec degree 0); [lia|]. destruct (Z.ltb_spec 2 degree); [lia|]. cbn [orb]. eauto.
  - intros [r E]. destruct (Z.ltb_spec degree 0); [discriminate|]. destruct (Z.ltb_spec 2 degree); [discriminate|]. lia.
Qed.
Print Assumptions C43_degrees.

(** The hypotheses can be met: the mean of 1, 3 is taken away. *)
Example C43_mean : let solve := fun (l : nat) (a : nat -> nat -> R) (b : nat -> R) (k : nat) => b 0%nat / a 0%nat 0%nat in
  solves_consistent (basis_size 1 0) solve /\ polynomial 1 0 (fun _ => 5) /\
  exists r, detrend solve 1 2 (fun i _ => INR i) (fun i => match i with 0%nat => 1 | _ => 3 end) 0 = Ok r /\ r 0%nat = -1 /\ r 1%nat = 1.
Proof.
  intros solve. split; [|split].
  - intros a b [x X] k K. cbn in K. assert (k = 0)%nat as -> by lia. specialize (X 0%nat ltac:(cbn; lia)). unfold mat_vec in *. cbn in *. unfold solve.
    destruct (Req_dec (a 0%nat 0%nat) 0) as [Z|N]; [|field; auto]. rewrite Z in *. rewrite <- X. unfold Rdiv. ring.
  - exists [(5, [0%nat])]. split; [|intros p; cbn; ring]. intros t [<-|[]]. split; auto.
  - eexists. split; [reflexivity|]. unfold solve, evaluate. cbn. split; field.
Qed.
