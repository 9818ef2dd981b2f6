From Coq Require Import Reals ZArith List Arith.
From Verif Require Import Model.Outcome Model.LinAlg Model.Operator Model.RasPreconditioner Model.Gmres Model.Solver.
Import ListNotations.
Local Open Scope R_scope.

(** Solver::solve (include/polatory/interpolation/solver.hpp:76-142) with the Krylov method (Gmres), the operator and the
    evaluator (Operator) and the preconditioner put in, and the levels of the preconditioner
    (include/polatory/preconditioner/ras_preconditioner.hpp:66-72, 134-137). Numbers are real. *)

(** std::ceil (ras_preconditioner.hpp:67). *)
Definition ceiling (x : R) : Z := (- Int_part (- x))%Z.
(** n_levels_ (ras_preconditioner.hpp:66-72); without rows the logarithm is infinite and its conversion to int undefined, not modelled. *)
Definition n_levels (rows : nat) : nat := Z.to_nat (Z.max (ceiling (ln (INR rows / 2048) / ln 10)) 0 + 1).
(** The power of n_coarse_points (ras_preconditioner.hpp:134-137). *)
Definition level_size (rows levels level : nat) : R :=
  let finest := ln (INR rows) / ln 10 in
  let coarsest := ln 2048 / ln 10 in
  Rpower 10 (coarsest + (INR level - 1) * (finest - coarsest) / (INR levels - 1)).
(** n_coarse_points (ras_preconditioner.hpp:134-137): the number of points asked for below a level. *)
Definition n_coarse_points (rows levels level : nat) : Z := Int_part (level_size rows levels level).

(** The start of the iteration (solver.hpp:83-93): zeros, or the given weights made orthogonal to the polynomials. p_ has orthonormal
    columns (solver.hpp:62-66). *)
Definition start_weights (n l : nat) (p : nat -> nat -> R) (initial : option (nat -> R)) : nat -> R :=
  match initial with
  | None => fun _ => 0
  | Some w =>
      if Nat.eqb l 0 then w
      else
        let q := orthonormalize n l p in
        let d := fun k => rsum n (fun i => q i k * w i) in
        fun i => if (i <? n)%nat then w i - mat_vec l q d i else w i
  end.

(** A list of numbers as a vector, unless one is NaN. *)
Definition as_vector (w : list num) : option (nat -> R) := option_map (fun xs i => nth i xs 0) (all_numbers w).
(** The first entries of a vector as a list. *)
Definition as_list (m : nat) (x : nat -> R) : list num := map (fun i => Some (x i)) (seq 0 m).

Section Run.
Variable d : nat.
Variable dif : (nat -> R) -> (nat -> R) -> nat -> R.
Variable rbfs : list (rbf (nat -> R)).
Variable nugget : R.
Variable l : nat.
Variable n : nodes (nat -> R).
(** The polynomials at the rows of the data. *)
Variable p : nat -> nat -> R.
Variable op pc : (nat -> R) -> nat -> R.
Variable initial : option (nat -> R).
Variable data_values : nat -> R.
Variable tolerance grad_tolerance : R.
Variable max_iter : nat.
(** The threads of the direct evaluator, and what remains arbitrary. *)
Variable scheds : list schedule.
Variable nan_norm : list num -> num.
Variable arrange : (nat -> bool) -> list nat -> list nat.
Variable fast : list num -> list num.

(** Number of rows without the polynomials. *)
Definition m_rows : nat := size (nat -> R) d n.
(** rhs (solver.hpp:95-97). *)
Definition right_hand_side (i : nat) : R := if (i <? m_rows)%nat then data_values i else 0.
(** Within solver.hpp:83-93. *)
Definition x0 : nat -> R := start_weights m_rows l p initial.
(** The state of the solver after [k] iterations (solver.hpp:99-102, 138); there is no left preconditioner. *)
Definition krylov (k : nat) : Gmres.state := gmres (m_rows + l) max_iter op (fun x => x) pc x0 right_hand_side k.
(** relative_residual after setup (gmres_base.cpp:15): NaN or an infinity if the right-hand side is zero. *)
Definition first_residual : num :=
  if Req_EM_T (RasPreconditioner.norm (m_rows + l) right_hand_side) 0 then None
  else Some (Rabs (g (krylov 0) 0) / RasPreconditioner.norm (m_rows + l) right_hand_side).
(** solution_vector after [k] iterations (fgmres.cpp:8-26). *)
Definition iterate (k : nat) : list num :=
  if ok (krylov k) then as_list (m_rows + l) (fgmres_solution x0 (krylov k)) else repeat None (m_rows + l).
(** The direct evaluator at row [r] of the data (residual_evaluator.hpp:69-78); every row is computed on its own, so which others are
    computed with it does not matter. *)
Definition evaluated (w : list num) (r : nat) : num :=
  option_map (fun x => direct_evaluator (nat -> R) dif d rbfs l scheds n n p x r) (as_vector w).
(** solve (solver.hpp:76-142); kDirectEvaluatorTargetSize is 1024 (residual_evaluator.hpp:35). *)
Definition run_env : senv :=
  mk_senv d (Operator.mu (nat -> R) n) (Operator.sigma (nat -> R) n) l (as_list m_rows data_values) tolerance grad_tolerance nugget (2 ^ 10) nan_norm arrange
    evaluated (fun w i e => evaluated w (Operator.mu (nat -> R) n + d * i + e)%nat) fast first_residual (as_list (m_rows + l) x0) iterate max_iter.
(** Within solver.hpp:76-142. *)
Definition run_solver : outcome (list num) := Solver.solve run_env.
End Run.
