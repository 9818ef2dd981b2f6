From Coq Require Import List Arith NArith Reals Permutation.
From Verif Require Import Model.Outcome Model.Fmm.
Import ListNotations.

Section Spec.
Variable P : Type.
Variable E : fenv P.

Definition sum (n : nat) (f : nat -> R) : R := fold_right Rplus 0%R (map f (seq 0 n)).

(** The potential at [x] of weights [w] at the points [pts]: weight km*k+j is input j of point k. *)
Definition potential (pts : list P) (w : list R) (x : P) (i : nat) : R :=
  sum (length pts) (fun k => match nth_error pts k with
    | Some q => sum (km P E) (fun j => nth (km P E * k + j) w 0 * kernel P E x q i j)%R
    | None => 0%R
    end).

(** [y] lists kn outputs per target, in the order of the targets. *)
Definition lists (y : list R) (trg : list P) (f : P -> nat -> R) : Prop :=
  length y = kn P E * length trg /\
  forall j t i, nth_error trg j = Some t -> i < kn P E -> nth_error y (kn P E * j + i) = Some (f t i).

(** The points [pts] with some inputs, numbered, in some order; and with the weights [w] as inputs. *)
Definition points_in (pts : list P) (ps : list (particle P)) : Prop :=
  exists ins, Permutation ps (numbered (fun x k => Particle x (ins k) k) 0 pts).
Definition loaded (pts : list P) (w : list R) (ps : list (particle P)) : Prop :=
  Permutation ps (numbered (fun x k => Particle x (map (fun i => nth (km P E * k + i) w 0%R) (seq 0 (km P E))) k) 0 pts).

(** What the caller has set. *)
Record view := View { v_accuracy : option R; v_src : list P; v_weights : option (list R); v_trg : list P }.
Definition new_view : view := View None [] None [].
Definition see (v : view) (o : op P) : view :=
  match o with
  | SetAccuracy a => View a (v_src v) (v_weights v) (v_trg v)
  | SetSource pts => View (v_accuracy v) pts None (v_trg v)
  | SetTarget pts => View (v_accuracy v) (v_src v) (v_weights v) pts
  | SetWeights w => View (v_accuracy v) (v_src v) (Some w) (v_trg v)
  | Evaluate => v
  end.
(** The assertion in set_weights. *)
Definition sized (v : view) (o : op P) : Prop :=
  match o with SetWeights w => length w = km P E * length (v_src v) | _ => True end.
Fixpoint well_sized (v : view) (os : list (op P)) : Prop :=
  match os with [] => True | o :: os' => sized v o /\ well_sized (see v o) os' end.
Definition seen (os : list (op P)) : view := fold_left see os new_view.

(** The same for the symmetric evaluator. *)
Definition sym_see (v : view) (o : sym_op P) : view :=
  match o with
  | SymSetAccuracy a => View a (v_src v) (v_weights v) []
  | SymSetPoints pts => View (v_accuracy v) pts None []
  | SymSetWeights w => View (v_accuracy v) (v_src v) (Some w) []
  | SymEvaluate => v
  end.
Definition sym_sized (v : view) (o : sym_op P) : Prop :=
  match o with SymSetWeights w => length w = km P E * length (v_src v) | _ => True end.
Fixpoint sym_well_sized (v : view) (os : list (sym_op P)) : Prop :=
  match os with [] => True | o :: os' => sym_sized v o /\ sym_well_sized (sym_see v o) os' end.
Definition sym_seen (os : list (sym_op P)) : view := fold_left sym_see os new_view.

(** No evaluation has thrown since the accuracy or the source points were last set. *)
Fixpoint clean (ok : bool) (os : list (op P)) (rs : list (option (list R + exn))) : bool :=
  match os, rs with
  | SetAccuracy _ :: os', _ :: rs' | SetSource _ :: os', _ :: rs' => clean true os' rs'
  | Evaluate :: os', Some (inr _) :: rs' => clean false os' rs'
  | _ :: os', _ :: rs' => clean ok os' rs'
  | _, _ => ok
  end.
Fixpoint sym_clean (ok : bool) (os : list (sym_op P)) (rs : list (option (list R + exn))) : bool :=
  match os, rs with
  | SymSetAccuracy _ :: os', _ :: rs' | SymSetPoints _ :: os', _ :: rs' => sym_clean true os' rs'
  | SymEvaluate :: os', Some (inr _) :: rs' => sym_clean false os' rs'
  | _ :: os', _ :: rs' => sym_clean ok os' rs'
  | _, _ => ok
  end.

(** Configuration [c] was found for the current accuracy and points, with some inputs. *)
Definition chosen (v : view) (h : nat) (c : config) : Prop :=
  exists ps, points_in (v_src v) ps /\ search P E (v_accuracy v) ps h = Ok c.

(** A correct result: the exact potentials, or those of a configuration chosen for a large problem, from all
    sources with their current weights. *)
Definition correct (v : view) (w y : list R) : Prop :=
  lists y (v_trg v) (potential (v_src v) w) \/
  (exists c ps, ~ (N.of_nat (length (v_src v)) * N.of_nat (length (v_trg v)) < 1048576)%N /\
     chosen v (height_of P E (Nat.max (length (v_src v)) (length (v_trg v)))) c /\
     loaded (v_src v) w ps /\ lists y (v_trg v) (far P E c ps ps)).
Definition sym_correct (v : view) (w y : list R) : Prop :=
  lists y (v_src v) (potential (v_src v) w) \/
  (exists c ps, ~ (N.of_nat (length (v_src v)) < 1024)%N /\ chosen v (height_of P E (length (v_src v))) c /\
     loaded (v_src v) w ps /\ length y = kn P E * length (v_src v) /\
     forall k q i, nth_error ps k = Some q -> i < kn P E ->
       nth_error y (kn P E * p_id q + i) = Some (far_sym P E c ps k i + sum (km P E) (fun j => nth (km P E * p_id q + j) w 0 * kernel P E (p_pos q) (p_pos q) i j))%R).

(** What is assumed of the environment: sorting and shuffling rearrange; trees have at least two levels
    (utility.hpp:14). *)
Record env_ok : Prop := {
  sort_src_ok : forall h ps, Permutation (sort_src P E h ps) ps;
  sort_trg_ok : forall h ts, Permutation (sort_trg P E h ts) ts;
  shuffled_ok : forall n, Permutation (shuffled P E n) (seq 0 n);
  height_ok : forall n, 2 <= height_of P E n }.
(** A kernel value at distance zero does not depend on the point. *)
Definition same_at_zero : Prop := forall x i j, kernel P E x x i j = kernel P E (origin P E) (origin P E) i j.

(** The error of configuration [c] at source point [x], for the sources [ps]. *)
Definition within (c : config) (ps : list (particle P)) (a : R) (x : P) : Prop :=
  forall i, i < kn P E -> (Rabs (far P E c ps ps x i - direct_at P E ps x i) <= a)%R.
End Spec.
Arguments View {P} _ _ _ _. Arguments v_accuracy {P} _. Arguments v_src {P} _. Arguments v_weights {P} _. Arguments v_trg {P} _.
