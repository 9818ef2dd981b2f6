From Coq Require Import Reals List Arith Bool.
From Verif Require Import Model.Outcome Model.LinAlg Model.Rbfs Model.Solver Model.Operator Model.Fmm Model.FastOperator.
Import ListNotations.
Local Open Scope R_scope.

(** Evaluator (include/polatory/interpolation/evaluator.hpp:18-160), SymmetricEvaluator (symmetric_evaluator.hpp:19-128) and PolynomialEvaluator
    (include/polatory/polynomial/polynomial_evaluator.hpp:9-41) as objects that are used any number of times. Numbers are real. The box
    given to the constructors is within [rest], see Model/FastOperator.v. *)

Section Evaluator.
Variable d : nat.
Variable accuracy grad_accuracy : option R.
Variable rest : function -> kernel_kind -> bool -> fenv vec.
Variable near : list vec -> vec -> R -> list nat.
Variable fresh : nat -> list R.
(** The number of polynomials and their values at some nodes (monomial_basis.hpp, see Model/MonomialBasis.v). *)
Variable l : nat.
Variable basis : nodes vec -> nat -> nat -> R.

(** No points at all (evaluator.hpp:150-153). *)
Definition no_nodes : nodes vec := Nodes vec 0 0 (fun _ _ => 0) (fun _ _ => 0).
(** PolynomialEvaluator: the members that change (polynomial_evaluator.hpp:38-40). *)
Record polynomial_state := PolynomialState { ps_nodes : nodes vec; ps_weights : list R }.
(** Its constructor (polynomial_evaluator.hpp:15-16). *)
Definition new_polynomial : polynomial_state := PolynomialState no_nodes (repeat 0 l).
(** Its set_target_points (polynomial_evaluator.hpp:24-27). *)
Definition polynomial_targets (p : polynomial_state) (n : nodes vec) : polynomial_state := PolynomialState n (ps_weights p).
(** Its set_weights (polynomial_evaluator.hpp:29-33). *)
Definition polynomial_weights (p : polynomial_state) (w : list R) : polynomial_state := PolynomialState (ps_nodes p) w.
(** Its evaluate (polynomial_evaluator.hpp:18-22). *)
Definition polynomial_evaluate (p : polynomial_state) : list R :=
  map (mat_vec l (basis (ps_nodes p)) (fun j => nth j (ps_weights p) 0)) (seq 0 (size vec d (ps_nodes p))).

(** The members that change (evaluator.hpp:150-159, symmetric_evaluator.hpp:120-127). Of the sources and of the targets only the numbers of points are
    members; a SymmetricEvaluator has one pair of these numbers, here kept twice. p_ is there also if there are no polynomials, and not used. *)
Record evaluator_state := EvaluatorState { es_source : nodes vec; es_target : nodes vec; es_fours : list four; es_poly : polynomial_state }.
(** The constructors (evaluator.hpp:50-63; symmetric_evaluator.hpp:40-53 if [own]). *)
Definition new_evaluator (own : bool) (fs : list function) : evaluator_state :=
  EvaluatorState no_nodes no_nodes
    (map (fun f => Four (create (make_evaluator d rest near fresh own f KValue)) (create (make_evaluator d rest near fresh false f KGradient))
                        (create (make_evaluator d rest near fresh false f KGradientT)) (create (make_evaluator d rest near fresh own f KHessian))) fs)
    new_polynomial.
(** Helper without code of its own: calls of set_source_points or set_points, set_target_points and set_accuracy. *)
Definition put_source (pts : list vec) (o : object) : object := change o (fun M st => m_source M st pts).
(** Helper without code of its own. *)
Definition put_target (pts : list vec) (o : object) : object := change o (fun M st => m_target M st pts).
(** Helper without code of its own. *)
Definition put_accuracy (a : option R) (o : object) : object := change o (fun M st => m_accuracy M st a).
(** The accuracies given to the parts (evaluator.hpp:95-97, symmetric_evaluator.hpp:77-79). *)
Definition part_accuracy (n : nodes vec) (count : nat) (a : option R) : option R := option_map (fun a => share a (Operator.sigma vec n) count) a.

(** set_source_points (evaluator.hpp:91-110). *)
Definition set_source (s : evaluator_state) (n : nodes vec) : evaluator_state :=
  let acc := part_accuracy n (length (es_fours s)) accuracy in let gacc := part_accuracy n (length (es_fours s)) grad_accuracy in
  EvaluatorState n (es_target s)
    (map (fun q => Four (put_accuracy acc (put_source (point_rows n) (oa q))) (put_accuracy acc (put_source (gradient_rows n) (of q)))
                        (put_accuracy gacc (put_source (point_rows n) (oft q))) (put_accuracy gacc (put_source (gradient_rows n) (oh q)))) (es_fours s))
    (es_poly s).
(** set_target_points (evaluator.hpp:114-128). *)
Definition set_target (s : evaluator_state) (n : nodes vec) : evaluator_state :=
  EvaluatorState (es_source s) n
    (map (fun q => Four (put_target (point_rows n) (oa q)) (put_target (point_rows n) (of q))
                        (put_target (gradient_rows n) (oft q)) (put_target (gradient_rows n) (oh q))) (es_fours s))
    (polynomial_targets (es_poly s) n).
(** set_points of a SymmetricEvaluator (symmetric_evaluator.hpp:73-98). *)
Definition set_both (s : evaluator_state) (n : nodes vec) : evaluator_state :=
  let acc := part_accuracy n (length (es_fours s)) accuracy in let gacc := part_accuracy n (length (es_fours s)) grad_accuracy in
  EvaluatorState n n
    (map (fun q => Four (put_accuracy acc (put_source (point_rows n) (oa q))) (put_accuracy acc (put_target (point_rows n) (put_source (gradient_rows n) (of q))))
                        (put_accuracy gacc (put_target (gradient_rows n) (put_source (point_rows n) (oft q)))) (put_accuracy gacc (put_source (gradient_rows n) (oh q)))) (es_fours s))
    (polynomial_targets (es_poly s) n).

(** One pass of the loop of set_weights (evaluator.hpp:134-139, symmetric_evaluator.hpp:104-109). *)
Definition load_four (n : nodes vec) (w : list R) (q : four) : outcome four :=
  let m := Operator.mu vec n in let k := (d * Operator.sigma vec n)%nat in
  let* a := load (oa q) (firstn m w) in
  let* f := load (of q) (firstn k (skipn m w)) in
  let* ft := load (oft q) (firstn m w) in
  let* h := load (oh q) (firstn k (skipn m w)) in
  Ok (Four a f ft h).
(** set_weights (evaluator.hpp:130-144, symmetric_evaluator.hpp:100-114); the weights must have the right size. *)
Definition put_weights (s : evaluator_state) (w : list R) : outcome evaluator_state :=
  let k := size vec d (es_source s) in
  if negb (Nat.eqb (length w) (k + l)) then UB
  else let* qs := map_out (load_four (es_source s) w) (es_fours s) in
       Ok (EvaluatorState (es_source s) (es_target s) qs (polynomial_weights (es_poly s) (skipn k w))).

(** One pass of the loop of evaluate (evaluator.hpp:68-73, symmetric_evaluator.hpp:58-63); an exception leaves it at once. *)
Definition sum_four (t : nodes vec) (q : four) (y : list R) : outcome (four * (list R + exn)) :=
  let m := Operator.mu vec t in let k := (d * Operator.sigma vec t)%nat in
  let* r := add_evaluated (oa q) 0 m y in
  match r with
  | (a, inr e) => Ok (Four a (of q) (oft q) (oh q), inr e)
  | (a, inl y) =>
      let* r := add_evaluated (of q) 0 m y in
      match r with
      | (f, inr e) => Ok (Four a f (oft q) (oh q), inr e)
      | (f, inl y) =>
          let* r := add_evaluated (oft q) m k y in
          match r with
          | (ft, inr e) => Ok (Four a f ft (oh q), inr e)
          | (ft, inl y) => let* r := add_evaluated (oh q) m k y in Ok (Four a f ft (fst r), snd r)
          end
      end
  end.
(** Within evaluator.hpp:68-73. *)
Fixpoint sum_fours (t : nodes vec) (qs : list four) (y : list R) : outcome (list four * (list R + exn)) :=
  match qs with
  | [] => Ok ([], inl y)
  | q :: qs' =>
      let* r := sum_four t q y in
      match r with
      | (q, inr e) => Ok (q :: qs', inr e)
      | (q, inl y) => let* r := sum_fours t qs' y in Ok (q :: fst r, snd r)
      end
  end.
(** evaluate() (evaluator.hpp:65-81, symmetric_evaluator.hpp:55-71). *)
Definition run_evaluator (s : evaluator_state) : outcome (evaluator_state * (list R + exn)) :=
  let t := es_target s in let n := size vec d t in
  let* r := sum_fours t (es_fours s) (repeat 0 n) in
  let s' := EvaluatorState (es_source s) t (fst r) (es_poly s) in
  match snd r with
  | inr e => Ok (s', inr e)
  | inl y => if Nat.eqb l 0 then Ok (s', inl y) else let* y := add_segment 0 n (polynomial_evaluate (es_poly s)) y in Ok (s', inl y)
  end.

(** Any use of an evaluator; [UseSource] and [UseTarget] are of an Evaluator, [UseBoth] is of a SymmetricEvaluator. *)
Inductive evaluator_use := UseSource (n : nodes vec) | UseTarget (n : nodes vec) | UseBoth (n : nodes vec) | UseWeights (w : list R) | UseRun.
(** The results of the calls of evaluate() come out in turn. *)
Fixpoint evaluator_used (s : evaluator_state) (us : list evaluator_use) : outcome (evaluator_state * list (list R + exn)) :=
  match us with
  | [] => Ok (s, [])
  | UseSource n :: us' => evaluator_used (set_source s n) us'
  | UseTarget n :: us' => evaluator_used (set_target s n) us'
  | UseBoth n :: us' => evaluator_used (set_both s n) us'
  | UseWeights w :: us' => let* s' := put_weights s w in evaluator_used s' us'
  | UseRun :: us' => let* r := run_evaluator s in let* r' := evaluator_used (fst r) us' in Ok (fst r', snd r :: snd r')
  end.
(** evaluate(points, grad_points) of an Evaluator (evaluator.hpp:83-89). *)
Definition evaluate_at (n : nodes vec) : list evaluator_use := [UseTarget n; UseRun].
(** What an interpolant does to the evaluator it makes, see Model/Interpolant.v (interpolant.hpp:71-75, 201-210). *)
Definition interpolant_uses (centers : nodes vec) (w : list R) (queries : list (nodes vec)) : list evaluator_use :=
  UseSource centers :: UseWeights w :: flat_map evaluate_at queries.
End Evaluator.
