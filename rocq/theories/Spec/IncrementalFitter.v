From Coq Require Import List Arith Reals Permutation.
From Verif Require Import Model.Outcome Model.IncrementalFitter Spec.DistanceFilter.
Import ListNotations.

Section Spec.
Context {Pt D : Type}.

(** What the fitter relies on: consistent sizes, a maximum that dominates its arguments, sorting that
    permutes, answers of the right size, and a correct neighbour search. *)
Record env_ok (near : R -> Pt -> Pt -> Prop) (E : env Pt D) : Prop := {
  ok_values : length (values_full E) = mu_full E + dim E * sigma_full E;
  ok_max : forall a b t, ltb E (maxd E a b) t = true -> ltb E a t = true /\ ltb E b t = true;
  ok_sort : forall rs, Permutation (sort E rs) rs;
  ok_solve : forall r c g v w0 w, solve E r c g v w0 = Ok w ->
             length w = length c + dim E * length g + l E;
  ok_evaluate : forall r c g w cc cg,
             length (evaluate E r c g w cc cg) = length cc + dim E * length cg;
  ok_search : search_ok near (radius_search E);
  ok_near : forall d p q, near d p q -> near d q p
}.

(** Distinct rows of a table with [n] rows. *)
Definition distinct_rows (is : list nat) (n : nat) : Prop := NoDup is /\ forall i, In i is -> i < n.

(** [cs] lists exactly the rows of a table with [n] rows that are not in [is]. *)
Definition other_rows (is cs : list nat) (n : nat) : Prop :=
  NoDup cs /\ forall i, In i cs <-> i < n /\ ~ In i is.

(** [fit] reproduces the values at the rows [cc] and the gradients at the rows [cg] within the
    tolerances. *)
Definition within_tolerance (E : env Pt D) (fit : list D) (cc cg : list nat) : Prop :=
  (forall k j, nth_error cc k = Some j ->
     exists v f, nth_error (values_full E) j = Some v /\ nth_error fit k = Some f /\
                 ltb E (absdiff E f v) (tolerance E) = true) /\
  (forall k j t, nth_error cg k = Some j -> t < dim E ->
     exists v f, nth_error (values_full E) (mu_full E + dim E * j + t) = Some v /\
                 nth_error fit (length cc + dim E * k + t) = Some f /\
                 ltb E (absdiff E f v) (grad_tolerance E) = true).

(** The result contract. *)
Definition fitted (E : env Pt D) (c g : list nat) (w : list D) : Prop :=
  distinct_rows c (mu_full E) /\ distinct_rows g (sigma_full E) /\
  length w = length c + dim E * length g + l E /\
  ((length c = mu_full E /\ length g = sigma_full E) \/
   exists round cc cg, other_rows c cc (mu_full E) /\ other_rows g cg (sigma_full E) /\
     within_tolerance E (evaluate E round c g w cc cg) cc cg).

(** No two different rows are near each other at distance [d]. *)
Definition separated (near : R -> Pt -> Pt -> Prop) (d : R) (ps : list Pt) : Prop :=
  forall i j, i <> j -> ~ near_at (near d) ps i j.

(** The loop has ended (with a result or because the solver failed). *)
Definition settled (p : outcome (progress D)) : Prop :=
  match p with Ok (Next _) => False | _ => True end.

End Spec.
