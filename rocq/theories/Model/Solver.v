From Coq Require Import List Arith Bool Reals.
From Verif Require Import Model.Outcome.
Import ListNotations.

(** Solver::solve (include/polatory/interpolation/solver.hpp:76-142) and ResidualEvaluator
    (include/polatory/interpolation/residual_evaluator.hpp:55-151). The Krylov method, the evaluators and
    std::shuffle / std::partition are arbitrary. *)

(** Numbers: reals and NaN (None). Rounding, overflow and infinities (also an infinite
    tolerance) are not modelled. *)
Definition num : Type := option R.
(** Helper without code of its own. *)
Definition lift2 (f : R -> R -> R) (a b : num) : num :=
  match a, b with Some x, Some y => Some (f x y) | _, _ => None end.
(** Helper without code of its own. *)
Definition nadd := lift2 Rplus.
(** Helper without code of its own. *)
Definition nsub := lift2 Rminus.
(** Helper without code of its own. *)
Definition nmul := lift2 Rmult.
(** Helper without code of its own. *)
Definition nabs (a : num) : num := option_map Rabs a.

(** a > t: false when a is NaN. *)
Definition gtb (a : num) (t : R) : bool :=
  match a with Some x => if Rlt_dec t x then true else false | None => false end.

(** std::vector / Eigen element access. *)
Definition elem {A : Type} (v : list A) (i : nat) : outcome A := of_option (nth_error v i).
(** Helper without code of its own. *)
Fixpoint elems {A : Type} (v : list A) (is : list nat) : outcome (list A) :=
  match is with
  | [] => Ok []
  | i :: is' => let* x := elem v i in let* xs := elems v is' in Ok (x :: xs)
  end.

(** a - b of two vectors; undefined for different lengths. *)
Fixpoint vsub (a b : list num) : outcome (list num) :=
  match a, b with
  | [], [] => Ok []
  | x :: a', y :: b' => let* r := vsub a' b' in Ok (nsub x y :: r)
  | _, _ => UB
  end.

Section Solver.

(** Within solver.hpp:145-153. *)
Record senv := mk_senv {
  dim : nat; mu : nat; sigma : nat; l : nat;      (* kDim, mu_, sigma_, l_ *)
  values : list num;                              (* the right-hand side given to solve() *)
  tolerance : R;
  grad_tolerance : R;
  nugget : R;
  target_size : nat;                              (* kDirectEvaluatorTargetSize *)
  (* lpNorm<Infinity> of a vector with NaN entries; Eigen leaves it open *)
  nan_norm : list num -> num;
  (* std::shuffle followed by std::partition with the given predicate *)
  arrange : (nat -> bool) -> list nat -> list nat;
  (* the direct evaluator at one point, and one gradient component at one point *)
  direct : list num -> nat -> num;
  direct_grad : list num -> nat -> nat -> num;
  (* the fast evaluator at all points *)
  fast : list num -> list num;
  (* Fgmres: relative_residual() after setup(), solution_vector() after k iterations *)
  relative_residual : num;
  start : list num;                               (* the initial weights *)
  solution : nat -> list num;
  max_iter : nat                                  (* check_max_iter rejects negative values (interpolant.hpp:285-289) *)
}.

Variable E : senv.

(** numeric::absolute_error<Infinity> (numeric/error.hpp:7-11); 0 for empty vectors. *)
Fixpoint all_numbers (v : list num) : option (list R) :=
  match v with
  | [] => Some []
  | Some x :: v' => option_map (cons x) (all_numbers v')
  | None :: _ => None
  end.
(** Helper without code of its own. *)
Definition norm (v : list num) : num :=
  match all_numbers v with
  | Some xs => Some (fold_right (fun x m => Rmax (Rabs x) m) 0%R xs)
  | None => E.(nan_norm) v
  end.
(** absolute_error (error.hpp:7-11). *)
Definition absolute_error (approx exact : list num) : outcome num :=
  let* d := vsub approx exact in Ok (norm d).

(** values(i) != 0.0 and !values.segment<kDim>(mu_ + kDim * i).isZero(). Only used to choose the sample;
    isZero's tolerance is not modelled. *)
Definition nonzero (a : num) : bool :=
  match a with Some x => if Req_EM_T x 0 then false else true | None => true end.
(** Within residual_evaluator.hpp:120-151. *)
Definition value_nonzero (i : nat) : bool :=
  match nth_error E.(values) i with Some a => nonzero a | None => false end.
(** Within residual_evaluator.hpp:120-151. *)
Definition grad_nonzero (i : nat) : bool :=
  existsb (fun k => value_nonzero (E.(mu) + E.(dim) * i + k)) (seq 0 E.(dim)).

(** set_values (residual_evaluator.hpp:120-151): the sample. *)
Definition direct_mu : nat := Nat.min E.(mu) E.(target_size).
(** Within residual_evaluator.hpp:120-151. *)
Definition direct_sigma : nat := Nat.min E.(sigma) E.(target_size).
(** Within residual_evaluator.hpp:120-151. *)
Definition direct_indices : list nat :=
  firstn direct_mu (E.(arrange) value_nonzero (seq 0 E.(mu))).
(** Within residual_evaluator.hpp:120-151. *)
Definition direct_grad_indices : list nat :=
  firstn direct_sigma (E.(arrange) grad_nonzero (seq 0 E.(sigma))).
(** Within residual_evaluator.hpp:120-151. *)
Definition components (base : nat) (is : list nat) : list nat :=
  flat_map (fun i => map (fun k => base + E.(dim) * i + k) (seq 0 E.(dim))) is.

(** direct_values_ (residual_evaluator.hpp:144-150) as head and tail. *)
Definition direct_values : outcome (list num) := elems (firstn E.(mu) E.(values)) direct_indices.
(** Within residual_evaluator.hpp:144-150. *)
Definition direct_grad_values : outcome (list num) :=
  elems E.(values) (components E.(mu) direct_grad_indices).

(** fit.head(direct_mu_) with the nugget and fit.tail (residual_evaluator.hpp:72-78). *)
Fixpoint direct_fit (w : list num) (is : list nat) : outcome (list num) :=
  match is with
  | [] => Ok []
  | i :: is' =>
      let* wi := elem (firstn E.(mu) w) i in
      let* r := direct_fit w is' in
      Ok (nadd (E.(direct) w i) (nmul wi (Some E.(nugget))) :: r)
  end.
(** Within residual_evaluator.hpp:72-78. *)
Definition direct_grad_fit (w : list num) (is : list nat) : list num :=
  flat_map (fun i => map (fun k => E.(direct_grad) w i k) (seq 0 E.(dim))) is.

(** fit.head(mu_) += weights.head(mu_) * nugget (residual_evaluator.hpp:96). *)
Fixpoint add_nugget (fit w : list num) : outcome (list num) :=
  match fit, w with
  | [], [] => Ok []
  | f :: fit', x :: w' => let* r := add_nugget fit' w' in Ok (nadd f (nmul x (Some E.(nugget))) :: r)
  | _, _ => UB
  end.

(** converged (residual_evaluator.hpp:55-108). *)
Definition passes (residual grad_residual : num) : bool :=
  negb (gtb residual E.(tolerance) || gtb grad_residual E.(grad_tolerance)).
(** converged (residual_evaluator.hpp:55-108). *)
Definition converged (w : list num) : outcome bool :=
  let* dv := direct_values in
  let* dg := direct_grad_values in
  let* fit := direct_fit w direct_indices in
  let* r := absolute_error fit dv in
  let* g := absolute_error (direct_grad_fit w direct_grad_indices) dg in
  if negb (passes r g) then Ok false
  else if Nat.eqb direct_mu E.(mu) && Nat.eqb direct_sigma E.(sigma) then Ok true
  else
    let fit := E.(fast) w in
    let* head := add_nugget (firstn E.(mu) fit) (firstn E.(mu) w) in
    let* r := absolute_error head (firstn E.(mu) E.(values)) in
    let* g := absolute_error (skipn E.(mu) fit) (skipn E.(mu) E.(values)) in
    Ok (passes r g).

(** The loop (solver.hpp:112-141) from iteration [k], [n] = max_iter - k. *)
Fixpoint loop (k n : nat) : outcome (list num) :=
  let w := E.(solution) k in
  let* c := converged w in
  if c then Ok w
  else match n with
       | 0 => Throw ExRuntimeError
       | S n' => loop (S k) n'
       end.

(** solve (solver.hpp:76-142). *)
Definition solve : outcome (list num) :=
  match E.(relative_residual) with
  | Some x => if Req_EM_T x 0 then Ok E.(start) else loop 0 E.(max_iter)
  | None => loop 0 E.(max_iter)
  end.

End Solver.
