From Coq Require Import List Arith ZArith.
From Verif Require Import Model.Outcome Model.Interpolant.
Import ListNotations.

Section Spec.

Context {Pt D Box M : Type}.
Variable E : env Pt D Box M.

(** What a fitted interpolant shows. *)
Record fitted_data := mk_data { d_centers : list Pt; d_grads : list Pt; d_box : Box; d_weights : list D }.

(** Either all accessors return the parts of one fit, or all of them throw. *)
Definition shows (s : state Pt D Box M) (v : option fitted_data) : Prop :=
  match v with
  | Some d => centers s = Ok (d_centers d) /\ grad_centers s = Ok (d_grads d) /\
              bbox s = Ok (d_box d) /\ weights s = Ok (d_weights d)
  | None => centers s = Throw ExRuntimeError /\ grad_centers s = Throw ExRuntimeError /\
            bbox s = Throw ExRuntimeError /\ weights s = Throw ExRuntimeError
  end.

(** ** Initial weights: point [p] gets the block (of [width] weights) of the first of [ps] equal to it,
    and zeros when there is none. [off] is where the blocks start in [w]. *)
Definition inherits (width off : nat) (ps : list Pt) (w : list D) (p : Pt) (block : list D) : Prop :=
  (exists j q, nth_error ps j = Some q /\ peqb E p q = true /\
     (forall j' q', j' < j -> nth_error ps j' = Some q' -> peqb E p q' = false) /\
     block = firstn width (skipn (off + width * j) w)) \/
  ((forall q, In q ps -> peqb E p q = false) /\ block = repeat (dzero E) width).

Definition starts_from (m : M) (points grads : list Pt) (d : fitted_data) (w : list D) : Prop :=
  let l := basis_size E m in
  exists pblocks gblocks,
    Forall2 (inherits 1 0 (d_centers d) (d_weights d)) points pblocks /\
    Forall2 (inherits (dim E) (length (d_centers d)) (d_grads d) (d_weights d)) grads gblocks /\
    w = concat pblocks ++ concat gblocks ++ skipn (length (d_weights d) - l) (d_weights d).

Definition no_start (m : M) (points grads : list Pt) (w : list D) : Prop :=
  w = repeat (dzero E) (length points + dim E * length grads + basis_size E m).

(** The data of another interpolant given as initial solution, if it is fitted. *)
Definition data_of (s : state Pt D Box M) : option fitted_data :=
  if fitted s then Some (mk_data (centers_ s) (grads_ s) (bbox_ s) (weights_ s)) else None.

(** [start m cur i points grads w]: the initial weights handed to the fitter may be [w]; [cur] is the
    current fit. *)
Inductive start (m : M) (cur : option fitted_data) :
  initial_arg Pt D Box M -> list Pt -> list Pt -> option (list D) -> Prop :=
| start_none : forall p g, start m cur NoInitial p g None
| start_self : forall p g d w, cur = Some d -> starts_from m p g d w ->
    start m cur InitialSelf p g (Some w)
| start_other : forall o p g d w, meqb E m (model_ o) = true -> data_of o = Some d ->
    starts_from m p g d w -> start m cur (InitialOther o) p g (Some w)
| start_different : forall o p g w, meqb E m (model_ o) = false -> no_start m p g w ->
    start m cur (InitialOther o) p g (Some w).

(** ** Which arguments are acceptable *)
Definition usable_initial (m : M) (cur : option fitted_data) (i : initial_arg Pt D Box M) : Prop :=
  match i with
  | NoInitial => True
  | InitialSelf => cur <> None
  | InitialOther o => meqb E m (model_ o) = true -> fitted o = true
  end.

Definition enough_points (m : M) (mu sigma : nat) : Prop :=
  basis_size E m <= mu \/ (poly_degree E m = 1%Z /\ mu = 1 /\ 1 <= sigma).

Definition acceptable (m : M) (cur : option fitted_data) (c : fit_call Pt D Box M) : Prop :=
  match c with
  | Fit (Ext p) (Ext g) v t i =>
      enough_points m (length p) (length g) /\ length v = length p + dim E * length g /\
      positive E (tol t) = true /\ positive E (gtol t) = true /\ (0 <= max_iter t)%Z /\
      positive E (acc t) = true /\ positive E (gacc t) = true /\ usable_initial m cur i
  | FitInc (Ext p) (Ext g) v t =>
      enough_points m (length p) (length g) /\ length v = length p + dim E * length g /\
      positive E (tol t) = true /\ positive E (gtol t) = true /\ (0 <= max_iter t)%Z /\
      positive E (acc t) = true /\ positive E (gacc t) = true
  | FitIneq (Ext p) v lb ub t i =>
      nugget_is_zero E m = true /\
      basis_size E m <= length p /\ length v = length p /\ length lb = length p /\
      length ub = length p /\ positive E (tol t) = true /\ (0 <= max_iter t)%Z /\
      positive E (acc t) = true /\ usable_initial m cur i
  | _ => False
  end.

(** Point arguments that are not references into the interpolant itself. *)
Definition external (c : fit_call Pt D Box M) : Prop :=
  match c with
  | Fit (Ext _) (Ext _) _ _ _ => True
  | FitInc (Ext _) (Ext _) _ _ => True
  | FitIneq (Ext _) _ _ _ _ _ => True
  | _ => False
  end.

(** [rows ps is qs]: [qs] are the rows [is] of [ps]. *)
Definition rows (ps : list Pt) (is : list nat) (qs : list Pt) : Prop :=
  Forall2 (fun i q => nth_error ps i = Some q) is qs.

(** What the [k]-th fitter call of the object may answer to an accepted call, as new contents. *)
Inductive fit_result (m : M) (k : nat) (cur : option fitted_data) :
  fit_call Pt D Box M -> outcome fitted_data -> Prop :=
| fr_fit : forall p g v t i w0 w, start m cur i p g w0 -> fitter E k m p g v t w0 = Ok w ->
    fit_result m k cur (Fit (Ext p) (Ext g) v t i)
      (Ok (mk_data p g (hull E (from_points E p) (from_points E g)) w))
| fr_fit_fail : forall p g v t i w0 e, start m cur i p g w0 -> fitter E k m p g v t w0 = Throw e ->
    fit_result m k cur (Fit (Ext p) (Ext g) v t i) (Throw e)
| fr_inc : forall p g v t ci gi c gc w, inc_fitter E k m p g v t = Ok ((ci, gi), w) ->
    rows p ci c -> rows g gi gc ->
    fit_result m k cur (FitInc (Ext p) (Ext g) v t)
      (Ok (mk_data c gc (hull E (from_points E c) (from_points E gc)) w))
| fr_inc_fail : forall p g v t e, inc_fitter E k m p g v t = Throw e ->
    fit_result m k cur (FitInc (Ext p) (Ext g) v t) (Throw e)
| fr_ineq : forall p v lb ub t i w0 ci c w, start m cur i p [] w0 ->
    ineq_fitter E k m p v lb ub (mk_tols (tol t) (dinf E) (max_iter t) (acc t) (dinf E)) w0
      = Ok (ci, w) ->
    rows p ci c ->
    fit_result m k cur (FitIneq (Ext p) v lb ub t i) (Ok (mk_data c [] (from_points E c) w))
| fr_ineq_fail : forall p v lb ub t i w0 e, start m cur i p [] w0 ->
    ineq_fitter E k m p v lb ub (mk_tols (tol t) (dinf E) (max_iter t) (acc t) (dinf E)) w0
      = Throw e ->
    fit_result m k cur (FitIneq (Ext p) v lb ub t i) (Throw e).

(** ** The abstract interpolant: the current fit, if any, and the number of fitter calls. *)
Inductive lifecycle (m : M) :
  (option fitted_data * nat) -> op Pt D Box M -> (option fitted_data * nat) -> Prop :=
| lc_rejected : forall cur k c, ~ acceptable m cur c -> lifecycle m (cur, k) (OpFit c) (cur, k)
| lc_fitted : forall cur k c d, acceptable m cur c -> fit_result m k cur c (Ok d) ->
    lifecycle m (cur, k) (OpFit c) (Some d, S k)
| lc_failed : forall cur k c e, acceptable m cur c -> fit_result m k cur c (Throw e) ->
    lifecycle m (cur, k) (OpFit c) (None, S k)
| lc_box : forall cur k b a ga, lifecycle m (cur, k) (OpSetBox b a ga) (cur, k)
| lc_eval : forall cur k p g a ga, lifecycle m (cur, k) (OpEvaluate p g a ga) (cur, k)
| lc_eval_impl : forall cur k p g, lifecycle m (cur, k) (OpEvaluateImpl p g) (cur, k).

Inductive lifecycles (m : M) :
  (option fitted_data * nat) -> list (op Pt D Box M) -> (option fitted_data * nat) -> Prop :=
| lcs_nil : forall x, lifecycles m x [] x
| lcs_cons : forall x o y os z, lifecycle m x o y -> lifecycles m y os z ->
    lifecycles m x (o :: os) z.

Definition external_op (o : op Pt D Box M) : Prop :=
  match o with OpFit c => external c | _ => True end.

(** The evaluator that evaluate()/set_evaluation_bbox should use for the current fit [d]. *)
Definition evaluator_of (m : M) (d : fitted_data) (b : Box) (a ga : D) : evaluator Pt D Box M :=
  mk_evaluator m (d_centers d) (d_grads d) (hull E b (d_box d)) a ga (d_weights d).

End Spec.

Arguments fitted_data : clear implicits.
