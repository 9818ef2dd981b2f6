From Coq Require Import Reals List Arith ZArith Lia Lra.
From Verif Require Import Model.LinAlg Model.MonomialBasis Spec.Grid Spec.MonomialBasis Proofs.MonomialBasis.
Import ListNotations.
Local Open Scope R_scope.

(** C20: basis_size counts the monomials of every degree. *)
Theorem C20_size : forall dim d as_, (1 <= dim <= 3)%nat -> all_exponents dim d as_ -> basis_size dim (Z.of_nat d) = length as_.
Proof. exact size_counts. Qed.
Print Assumptions C20_size.

(** C20: for the degrees the basis is made for, its columns are all the monomials, each once. *)
Theorem C20_monomials : forall dim degree, (1 <= dim <= 3)%nat -> (degree <= 2)%nat ->
  exists as_, all_exponents dim degree as_ /\ length (columns dim degree) = length as_ /\
  forall k p, (k < length as_)%nat -> fst (nth k (columns dim degree) no_column) p = monomial (nth k as_ []) 0 p.
Proof. exact columns_monomials. Qed.
Print Assumptions C20_monomials.

(** C20: they are linearly independent functions. *)
Theorem C20_independent : forall dim degree c, (1 <= dim <= 3)%nat -> (degree <= 2)%nat ->
  (forall p, rsum (length (columns dim degree)) (fun k => c k * fst (nth k (columns dim degree) no_column) p) = 0) ->
  forall k, (k < length (columns dim degree))%nat -> c k = 0.
Proof. exact columns_independent. Qed.
Print Assumptions C20_independent.

(** C20: the rows of the matrix are the values and then the partial derivatives, [dim] rows per gradient point. *)
Theorem C20_rows : forall dim degree mu points grad_points, (1 <= dim <= 3)%nat -> (degree <= 2)%nat ->
  forall k, (k < length (columns dim degree))%nat ->
  let f := fst (nth k (columns dim degree) no_column) in
  (forall i, (i < mu)%nat -> evaluate dim degree mu points grad_points i k = f (points i)) /\
  (forall i e, (e < dim)%nat -> partial f e (grad_points i) (evaluate dim degree mu points grad_points (mu + dim * i + e)%nat k)).
Proof. exact matrix_rows. Qed.
Print Assumptions C20_rows.

(** C20: the Lagrange basis is one at its own node and zero at the others, and interpolates every polynomial of the degree. *)
Theorem C20_cardinal : forall dim degree l coeffs mu points grad_points,
  left_inverse l (evaluate dim degree mu points grad_points) coeffs -> forall i k, (i < l)%nat -> (k < l)%nat ->
  lagrange_evaluate dim degree l coeffs mu points grad_points i k = if Nat.eqb i k then 1 else 0.
Proof. exact lagrange_cardinal. Qed.
Print Assumptions C20_cardinal.
Theorem C20_reproduces : forall dim degree l coeffs mu points grad_points mu' points' grad_points' c,
  left_inverse l coeffs (evaluate dim degree mu points grad_points) -> forall i,
  rsum l (fun k => lagrange_evaluate dim degree l coeffs mu' points' grad_points' i k *
                   mat_vec l (evaluate dim degree mu points grad_points) c k) =
  mat_vec l (evaluate dim degree mu' points' grad_points') c i.
Proof. exact lagrange_reproduces. Qed.
Print Assumptions C20_reproduces.

(** Ten monomials of degree 2 in space; the x derivative of x^2 at (3,4,5); the Lagrange basis of the nodes 1 and 3 on a line. *)
Example C20_values : basis_size 3 2 = 10%nat /\ basis_size 2 (-1) = 0%nat /\
  evaluate 3 2 0 (fun _ _ => 0) (fun _ => pt3 3 4 5) 0 4 = 6 /\ evaluate 3 2 0 (fun _ _ => 0) (fun _ => pt3 3 4 5) 2 8 = 4.
Proof. unfold evaluate. cbn. repeat split; auto; lra. Qed.
Example C20_line : 
  let nodes := fun i (_ : nat) => if Nat.eqb i 0 then 1 else 3 in
  let coeffs := fun i k => nth k (nth i [[3 / 2; - 1 / 2]; [- 1 / 2; 1 / 2]] []) 0 in
  left_inverse 2 coeffs (evaluate 1 1 2 nodes nodes) /\ left_inverse 2 (evaluate 1 1 2 nodes nodes) coeffs /\
  lagrange_evaluate 1 1 2 coeffs 1 (fun _ _ => 2) nodes 0 0 = 1 / 2.
Proof.
  cbv zeta. split; [|split]; [intros [|[|i]] [|[|j]] I J; try lia; unfold evaluate; cbn; lra..|].
  unfold lagrange_evaluate, evaluate. cbn. lra.
Qed.
