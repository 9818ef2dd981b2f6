From Coq Require Import List Arith ZArith Bool.
From Verif Require Import Model.Outcome.
Import ListNotations.

(** Interpolant (include/polatory/interpolant.hpp:26-339) as a state machine. *)
Section Interpolant.

(** Points, doubles, boxes and models are opaque; a point set is the list of its rows. *)
Context {Pt D Box M : Type}.

(** Within interpolant.hpp:83-97. *)
Record tols := mk_tols { tol : D; gtol : D; max_iter : Z; acc : D; gacc : D }.

(** What an Evaluator is built from. *)
Record evaluator := mk_evaluator {
  e_model : M; e_centers : list Pt; e_grads : list Pt; e_box : Box; e_acc : D; e_gacc : D;
  e_weights : list D }.

(** Everything outside this class. *)
Record env := mk_env {
  (* kDim *)
  dim : nat;
  (* point equality used by the hash map, `x > 0.0`, 0.0, +infinity *)
  peqb : Pt -> Pt -> bool;
  positive : D -> bool;
  dzero : D;
  dinf : D;
  (* Bbox::from_points, convex_hull, Bbox() *)
  from_points : list Pt -> Box;
  hull : Box -> Box -> Box;
  empty_box : Box;
  (* Model: poly_degree(), poly_basis_size(), operator==, nugget() == 0.0 *)
  poly_degree : M -> Z;
  basis_size : M -> nat;
  meqb : M -> M -> bool;
  nugget_is_zero : M -> bool;
  (* The three fitters, as arbitrary functions of everything they are given; the first argument is
     the number of fitter calls so far, so that two identical calls may give different results. *)
  fitter : nat -> M -> list Pt -> list Pt -> list D -> tols -> option (list D) -> outcome (list D);
  inc_fitter : nat -> M -> list Pt -> list Pt -> list D -> tols ->
               outcome ((list nat * list nat) * list D);
  ineq_fitter : nat -> M -> list Pt -> list D -> list D -> list D -> tols -> option (list D) ->
                outcome (list nat * list D);
  (* Evaluator: construction may throw; evaluation is an arbitrary function *)
  make_evaluator_throws : evaluator -> option exn;
  eval : evaluator -> list Pt -> list Pt -> outcome (list D)
}.

Variable E : env.

(** Members (interpolant.hpp:331-338). [ncalls] counts fitter calls (see [fitter]). *)
Record state := mk_state {
  model_ : M; fitted : bool; centers_ : list Pt; grads_ : list Pt; bbox_ : Box;
  weights_ : list D; evaluator_ : option evaluator; ncalls : nat }.

(** Constructor (interpolant.hpp:40). *)
Definition init (m : M) : state := mk_state m false [] [] E.(empty_box) [] None 0.

(** Accessors (interpolant.hpp:42-52, 193-197, 212-216, 325-329). *)
Definition guarded {A : Type} (s : state) (x : A) : outcome A :=
  if fitted s then Ok x else Throw ExRuntimeError.
(** centers (interpolant.hpp:48-52). *)
Definition centers (s : state) := guarded s (centers_ s).
(** grad_centers (interpolant.hpp:193-197). *)
Definition grad_centers (s : state) := guarded s (grads_ s).
(** bbox (interpolant.hpp:42-46). *)
Definition bbox (s : state) := guarded s (bbox_ s).
(** weights (interpolant.hpp:212-216). *)
Definition weights (s : state) := guarded s (weights_ s).

(** check_accuracy, check_max_iter, check_num_points, check_tolerance (interpolant.hpp:275-315). *)
Definition require (b : bool) : outcome unit := if b then Ok tt else Throw ExInvalidArgument.
(** check_accuracy (interpolant.hpp:275-283). *)
Definition check_accuracy (a ga : D) : outcome unit :=
  let* _ := require (E.(positive) a) in require (E.(positive) ga).
(** check_max_iter (interpolant.hpp:285-289). *)
Definition check_max_iter (n : Z) : outcome unit := require (negb (n <? 0)%Z).
(** check_num_points (interpolant.hpp:291-305). *)
Definition check_num_points (m : M) (mu sigma : nat) : outcome unit :=
  if (E.(poly_degree) m =? 1)%Z && Nat.eqb mu 1 && Nat.leb 1 sigma then Ok tt
  else require (negb (Nat.ltb mu (E.(basis_size) m))).
(** check_tolerance (interpolant.hpp:307-315). *)
Definition check_tolerance (t gt : D) : outcome unit :=
  let* _ := require (E.(positive) t) in require (E.(positive) gt).

(** clear (interpolant.hpp:317-323); evaluator_ is not reset. *)
Definition clear (s : state) : state :=
  mk_state (model_ s) false [] [] E.(empty_box) [] (evaluator_ s) (ncalls s).

(** ** build_initial_weights (interpolant.hpp:232-273) *)

(** The hash map filled by emplace (which keeps the first entry of equal keys; interpolant.hpp:250-255),
    and find. *)
Fixpoint find_from (i : nat) (ps : list Pt) (p : Pt) : option nat :=
  match ps with
  | [] => None
  | q :: ps' => if E.(peqb) p q then Some i else find_from (S i) ps' p
  end.

(** Reading [len] coefficients at [off]: leaving the vector is undefined. *)
Definition segment (w : list D) (off len : nat) : outcome (list D) :=
  if Nat.leb (off + len) (length w) then Ok (firstn len (skipn off w)) else UB.

(** Assigning a segment. *)
Definition assign (w : list D) (off : nat) (seg : list D) : outcome (list D) :=
  if Nat.leb (off + length seg) (length w)
  then Ok (firstn off w ++ seg ++ skipn (off + length seg) w) else UB.

(** The loops over the points (interpolant.hpp:257-262, [width] 1) and over the gradient points
    (interpolant.hpp:263-269, [width] kDim). [base] and [ini_base] are the offsets of the blocks;
    [ini] is initial.weights(), which throws when the initial interpolant is not fitted. *)
Fixpoint map_weights (width base ini_base i : nat) (ps ini_ps : list Pt) (ini : outcome (list D))
  (w : list D) : outcome (list D) :=
  match ps with
  | [] => Ok w
  | p :: ps' =>
      let* w' :=
        match find_from 0 ini_ps p with
        | None => Ok w
        | Some j =>
            let* iw := ini in
            let* seg := segment iw (ini_base + width * j) width in
            assign w (base + width * i) seg
        end in
      map_weights width base ini_base (S i) ps' ini_ps ini w'
  end.

(** build_initial_weights (interpolant.hpp:232-273). *)
Definition build_initial_weights (s : state) (same : bool) (points grads : list Pt)
  (initial : state) : outcome (list D) :=
  let l := E.(basis_size) (model_ s) in
  let mu := length points in
  let sigma := length grads in
  let w0 := repeat E.(dzero) (mu + E.(dim) * sigma + l) in
  if negb (same || E.(meqb) (model_ s) (model_ initial)) then Ok w0
  else
    let ini_mu := length (centers_ initial) in
    let* w1 := map_weights 1 0 0 0 points (centers_ initial) (weights initial) w0 in
    let* w2 := map_weights E.(dim) mu ini_mu 0 grads (grads_ initial) (weights initial) w1 in
    let* iw := weights initial in
    let* tail := segment iw (length iw - l) l in
    assign w2 (mu + E.(dim) * sigma) tail.

(** ** Fitting *)

(** The `initial` argument: null, this, or another interpolant. *)
Inductive initial_arg := NoInitial | InitialSelf | InitialOther (s : state).

(** Within interpolant.hpp:98-104. *)
Definition initial_weights (s : state) (i : initial_arg) (points grads : list Pt)
  : outcome (option (list D)) :=
  match i with
  | NoInitial => Ok None
  | InitialSelf => let* w := build_initial_weights s true points grads s in Ok (Some w)
  | InitialOther o => let* w := build_initial_weights s false points grads o in Ok (Some w)
  end.

(** points(center_indices, kAll): an index out of range is undefined. *)
Fixpoint select (ps : list Pt) (is : list nat) : outcome (list Pt) :=
  match is with
  | [] => Ok []
  | i :: is' =>
      let* p := of_option (nth_error ps i) in
      let* r := select ps is' in
      Ok (p :: r)
  end.

(** A by-reference point argument: external data, or the interpolant's own centers()/grad_centers()
    (which are references to members, interpolant.hpp:48-52 and 193-197). *)
Inductive points_arg := Ext (ps : list Pt) | OwnCenters | OwnGrads.
(** Helper without code of its own. *)
Definition deref (s : state) (a : points_arg) : list Pt :=
  match a with Ext ps => ps | OwnCenters => centers_ s | OwnGrads => grads_ s end.

(** Helper without code of its own. *)
Inductive fit_call :=
| Fit (points grads : points_arg) (values : list D) (t : tols) (initial : initial_arg)
| FitInc (points grads : points_arg) (values : list D) (t : tols)
| FitIneq (points : points_arg) (values lb ub : list D) (t : tols) (initial : initial_arg).

(** Helper without code of its own. *)
Definition set_ncalls (s : state) : state :=
  mk_state (model_ s) (fitted s) (centers_ s) (grads_ s) (bbox_ s) (weights_ s) (evaluator_ s)
           (S (ncalls s)).

(** The part of each function before clear() (interpolant.hpp:86-100, 124-133, 152-177): either throws with no
    effect or yields the initial weights. *)
Definition validate (s : state) (c : fit_call) : outcome (option (list D)) :=
  match c with
  | Fit p g v t i =>
      let* _ := check_num_points (model_ s) (length (deref s p)) (length (deref s g)) in
      let* _ := require (Nat.eqb (length v) (length (deref s p) + E.(dim) * length (deref s g))) in
      let* _ := check_tolerance (tol t) (gtol t) in
      let* _ := check_max_iter (max_iter t) in
      let* _ := check_accuracy (acc t) (gacc t) in
      initial_weights s i (deref s p) (deref s g)
  | FitInc p g v t =>
      let* _ := check_num_points (model_ s) (length (deref s p)) (length (deref s g)) in
      let* _ := require (Nat.eqb (length v) (length (deref s p) + E.(dim) * length (deref s g))) in
      let* _ := check_tolerance (tol t) (gtol t) in
      let* _ := check_max_iter (max_iter t) in
      let* _ := check_accuracy (acc t) (gacc t) in
      Ok None
  | FitIneq p v lb ub t i =>
      if negb (E.(nugget_is_zero) (model_ s)) then Throw ExRuntimeError
      else
        let* _ := check_num_points (model_ s) (length (deref s p)) 0 in
        let* _ := require (Nat.eqb (length v) (length (deref s p))) in
        let* _ := require (Nat.eqb (length lb) (length (deref s p))) in
        let* _ := require (Nat.eqb (length ub) (length (deref s p))) in
        let* _ := check_tolerance (tol t) E.(dinf) in
        let* _ := check_max_iter (max_iter t) in
        let* _ := check_accuracy (acc t) E.(dinf) in
        initial_weights s i (deref s p) []
  end.

(** The part after clear() (interpolant.hpp:105-112, 137-146, 182-190), run in the cleared state [s]; the
    reference arguments are dereferenced again here. Returns the new state when nothing throws;
    when the fitter throws, the state stays [s] with the call counted. *)
Definition install (s : state) (c g : list Pt) (b : Box) (w : list D) : state :=
  mk_state (model_ s) true c g b w (evaluator_ s) (ncalls s).

(** Within interpolant.hpp:105-112, 137-146, 182-190. *)
Definition perform (s : state) (c : fit_call) (w0 : option (list D)) : outcome state :=
  let s' := set_ncalls s in
  match c with
  | Fit p g v t i =>
      let* w := E.(fitter) (ncalls s) (model_ s) (deref s p) (deref s g) v t w0 in
      Ok (install s' (deref s p) (deref s g)
            (E.(hull) (E.(from_points) (deref s p)) (E.(from_points) (deref s g))) w)
  | FitInc p g v t =>
      let* r := E.(inc_fitter) (ncalls s) (model_ s) (deref s p) (deref s g) v t in
      let* c := select (deref s p) (fst (fst r)) in
      let* gc := select (deref s g) (snd (fst r)) in
      Ok (install s' c gc (E.(hull) (E.(from_points) c) (E.(from_points) gc)) (snd r))
  | FitIneq p v lb ub t i =>
      let* r := E.(ineq_fitter) (ncalls s) (model_ s) (deref s p) v lb ub
                  (mk_tols (tol t) E.(dinf) (max_iter t) (acc t) E.(dinf)) w0 in
      let* c := select (deref s p) (fst r) in
      Ok (install s' c (grads_ s) (E.(from_points) c) (snd r))
  end.

(** Result of a member function that may throw: what the caller sees, and the object afterwards. *)
Definition fit (s : state) (c : fit_call) : outcome (outcome unit * state) :=
  match validate s c with
  | UB => UB
  | Throw e => Ok (Throw e, s)
  | Ok w0 =>
      match perform (clear s) c w0 with
      | UB => UB
      | Throw e => Ok (Throw e, set_ncalls (clear s))
      | Ok s' => Ok (Ok tt, s')
      end
  end.

(** ** Evaluation *)

(** set_evaluation_bbox_impl (interpolant.hpp:201-210): make_unique may throw, before the assignment. *)
Definition set_evaluation_bbox (s : state) (b : Box) (a ga : D) : outcome unit * state :=
  if fitted s then
    let e := mk_evaluator (model_ s) (centers_ s) (grads_ s) (E.(hull) b (bbox_ s)) a ga (weights_ s) in
    match E.(make_evaluator_throws) e with
    | Some x => (Throw x, s)
    | None => (Ok tt, mk_state (model_ s) (fitted s) (centers_ s) (grads_ s) (bbox_ s) (weights_ s)
                               (Some e) (ncalls s))
    end
  else (Throw ExRuntimeError, s).

(** evaluate_impl (interpolant.hpp:71-75): evaluator_ may be null. *)
Definition evaluate_impl (s : state) (ps gs : list Pt) : outcome (list D) :=
  if fitted s then
    match evaluator_ s with
    | None => UB
    | Some e => E.(eval) e ps gs
    end
  else Throw ExRuntimeError.

(** evaluate (interpolant.hpp:58-67). *)
Definition evaluate (s : state) (ps gs : list Pt) (a ga : D) : outcome (list D) * state :=
  if fitted s then
    match check_accuracy a ga with
    | Throw x => (Throw x, s)
    | UB => (UB, s)
    | Ok _ =>
        match set_evaluation_bbox s (E.(hull) (E.(from_points) ps) (E.(from_points) gs)) a ga with
        | (Throw x, s') => (Throw x, s')
        | (UB, s') => (UB, s')
        | (Ok _, s') => (evaluate_impl s' ps gs, s')
        end
    end
  else (Throw ExRuntimeError, s).

(** ** Histories *)

Inductive op :=
| OpFit (c : fit_call)
| OpSetBox (b : Box) (a ga : D)
| OpEvaluate (ps gs : list Pt) (a ga : D)
| OpEvaluateImpl (ps gs : list Pt).

(** Exceptions are caught by the caller and the object is used further; undefined behaviour ends the
    history. *)
Definition step (s : state) (o : op) : outcome state :=
  match o with
  | OpFit c => let* r := fit s c in Ok (snd r)
  | OpSetBox b a ga => Ok (snd (set_evaluation_bbox s b a ga))
  | OpEvaluate ps gs a ga =>
      match evaluate s ps gs a ga with
      | (UB, _) => UB
      | (_, s') => Ok s'
      end
  | OpEvaluateImpl ps gs =>
      match evaluate_impl s ps gs with
      | UB => UB
      | _ => Ok s
      end
  end.

(** Helper without code of its own. *)
Fixpoint run (s : state) (os : list op) : outcome state :=
  match os with
  | [] => Ok s
  | o :: os' => let* s' := step s o in run s' os'
  end.

End Interpolant.

Arguments tols : clear implicits.
Arguments evaluator : clear implicits.
Arguments env : clear implicits.
Arguments state : clear implicits.
Arguments points_arg : clear implicits.
Arguments initial_arg : clear implicits.
Arguments fit_call : clear implicits.
Arguments op : clear implicits.
