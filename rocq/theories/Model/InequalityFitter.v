From Coq Require Import List Arith ZArith Bool Reals.
From Verif Require Import Model.Outcome Model.ComplementaryIndices.
From Verif Require Import Model.IncrementalFitter.
From Verif Require Model.DistanceFilter.
Import ListNotations.

(** InequalityFitter::fit (include/polatory/interpolation/inequality_fitter.hpp:43-187). Points and
    numbers are opaque; a row is known by its index; NaN in the value vectors is None. *)
Section InequalityFitter.

Context {Pt D : Type}.

(** Everything outside fit(); the first argument of [solve] and [evaluate] is the round. *)
Record ienv := mk_ienv {
  ipoints : list Pt;
  n_poly : nat;                       (* n_poly_basis_ *)
  values : list (option D);
  values_lb : list (option D);
  values_ub : list (option D);
  initial_weights : list D;           (* zeros when no initial weights are given *)
  izero : D;
  iwidth_norm : R;                    (* bbox_.width().norm() *)
  below : D -> D -> bool;             (* fit < lb - tolerance *)
  above : D -> D -> bool;             (* fit > ub + tolerance *)
  nonpositive : D -> bool;            (* w <= 0.0 *)
  nonnegative : D -> bool;            (* w >= 0.0 *)
  lb_res : D -> D -> D;               (* max(lb - fit, 0) *)
  ub_res : D -> D -> D;               (* max(fit - ub, 0) *)
  imax : D -> D -> D;
  isort : list (nat * D) -> list (nat * D);    (* std::sort, descending residuals *)
  isearch : list Pt -> Pt -> R -> list nat;
  isolve : nat -> list nat -> list D -> list D -> outcome (list D);
  ievaluate : nat -> list nat -> list D -> list nat -> list D
}.

Variable E : ienv.

(** Within inequality_fitter.hpp:50-72. *)
Definition n_points : nat := length E.(ipoints).
(** Helper without code of its own. *)
Definition memb := DistanceFilter.memb.

(** v(i) of a value vector: undefined outside. *)
Definition at_ {A : Type} (v : list A) (i : nat) : outcome A := of_option (nth_error v i).

(** !isnan(v(i)). *)
Definition has (v : list (option D)) (i : nat) : bool :=
  match nth_error v i with Some (Some _) => true | _ => false end.

(** arg_where (inequality_fitter.hpp:190-201) and the union of the bounded rows (inequality_fitter.hpp:50-59). *)
Definition arg_where (v : list (option D)) : list nat := filter (has v) (seq 0 (length v)).
(** Within inequality_fitter.hpp:190-201, inequality_fitter.hpp:50-59. *)
Definition eq_idcs : list nat := arg_where E.(values).
(** Within inequality_fitter.hpp:190-201, inequality_fitter.hpp:50-59. *)
Definition ineq_idcs : list nat :=
  filter (fun i => has E.(values_lb) i || has E.(values_ub) i) (seq 0 n_points).

(** Variables that live across rounds: the two std::set are duplicate-free lists. *)
Record istate := mk_istate {
  iround : nat; iweights : list D; active_lb : list nat; active_ub : list nat; idistance : R }.

(** Within inequality_fitter.hpp:50-72. *)
Definition iinit : istate :=
  mk_istate 0 E.(initial_weights) [] [] (Rmax E.(iwidth_norm) kMinDistance).

(** centers (inequality_fitter.hpp:80-84): the equality rows, then the union of the active rows in ascending order. *)
Definition centers_of (s : istate) : list nat :=
  eq_idcs ++ filter (fun i => memb i (active_lb s) || memb i (active_ub s)) (seq 0 n_points).

(** center_values (inequality_fitter.hpp:93-97). An entry that is NaN would be handed to the solver as NaN; None here is
    undefined instead (it does not arise for active bounds and equality rows). *)
Definition center_value (s : istate) (pos idx : nat) : outcome D :=
  let pick v := let* o := at_ v idx in of_option o in
  if Nat.ltb pos (length eq_idcs) then pick E.(values)
  else if memb idx (active_lb s) then pick E.(values_lb) else pick E.(values_ub).
(** Within inequality_fitter.hpp:93-97. *)
Fixpoint center_values_from (s : istate) (pos : nat) (cs : list nat) : outcome (list D) :=
  match cs with
  | [] => Ok []
  | c :: cs' =>
      let* v := center_value s pos c in
      let* vs := center_values_from s (S pos) cs' in
      Ok (v :: vs)
  end.

(** weights(idx) = x; undefined outside the vector. *)
Definition set_at (w : list D) (i : nat) (x : D) : outcome (list D) :=
  if Nat.ltb i (length w) then Ok (firstn i w ++ x :: skipn (S i) w) else UB.

(** inequality_fitter.hpp:106-109. *)
Fixpoint scatter (w : list D) (cs : list nat) (cw : list D) (pos : nat) : outcome (list D) :=
  match cs with
  | [] => Ok w
  | c :: cs' =>
      let* x := at_ cw pos in
      let* w' := set_at w c x in
      scatter w' cs' cw (S pos)
  end.

(** Within inequality_fitter.hpp:106-109. *)
Fixpoint gather_weights (w : list D) (cs : list nat) : outcome (list D) :=
  match cs with
  | [] => Ok []
  | c :: cs' => let* x := at_ w c in let* xs := gather_weights w cs' in Ok (x :: xs)
  end.

(** Replaces the last [n_poly] entries (inequality_fitter.hpp:110). *)
Definition set_tail (w tail_ : list D) : list D :=
  firstn (length w - E.(n_poly)) w ++ tail_.
(** Within inequality_fitter.hpp:110. *)
Definition tail_of (w : list D) : list D := skipn (length w - E.(n_poly)) w.

(** Fit and evaluate (inequality_fitter.hpp:88-118): new weights, center weights, fitted values at the bounded rows. *)
Definition fit_step (s : istate) (cs : list nat) : outcome (list D * list D * list D) :=
  if Nat.leb E.(n_poly) (length cs) then
    let* cv := center_values_from s 0 cs in
    let* cw0 := gather_weights (iweights s) cs in
    let* cw := E.(isolve) (iround s) cs cv (cw0 ++ tail_of (iweights s)) in
    let* w := scatter (iweights s) cs cw 0 in
    Ok (set_tail w (tail_of cw), cw, E.(ievaluate) (iround s) cs cw ineq_idcs)
  else Ok (iweights s, repeat E.(izero) E.(n_poly), repeat E.(izero) (length ineq_idcs)).

(** The residuals (inequality_fitter.hpp:124-132): the bounds of row [idx] against values_fit at the position of [idx] in
    [indices]; the conditional operator reads values_fit only for a bound that exists. *)
Definition residual_at (fit : list D) (pos idx : nat) : outcome D :=
  let* lb := at_ E.(values_lb) idx in
  let* ub := at_ E.(values_ub) idx in
  let* l := match lb with None => Ok E.(izero) | Some b => let* f := at_ fit pos in Ok (E.(lb_res) b f) end in
  let* u := match ub with None => Ok E.(izero) | Some b => let* f := at_ fit pos in Ok (E.(ub_res) f b) end in
  Ok (E.(imax) l u).
(** Within inequality_fitter.hpp:124-132. *)
Fixpoint iresiduals (fit : list D) (pos : nat) (is : list nat) : outcome (list (nat * D)) :=
  match is with
  | [] => Ok []
  | i :: is' =>
      let* r := residual_at fit pos i in
      let* rs := iresiduals fit (S pos) is' in
      Ok ((i, r) :: rs)
  end.

(** The rows that survive the filter (inequality_fitter.hpp:133-137). *)
Definition survivors (order : list nat) (d : R) : outcome (list nat) :=
  match DistanceFilter.filter_indices valid_distance E.(isearch) (DistanceFilter.init E.(ipoints)) d order with
  | Ok (Ok _, f) => DistanceFilter.filtered_indices f
  | Ok (Throw e, _) => Throw e
  | Ok (UB, _) => UB
  | Throw e => Throw e
  | UB => UB
  end.

(** Working variables of the active-set loop (inequality_fitter.hpp:141-177). *)
Record active := mk_active { alb : list nat; aub : list nat; aw : list D; changed : bool }.

(** Helper without code of its own. *)
Definition erase (i : nat) (l : list nat) : list nat := filter (fun j => negb (Nat.eqb j i)) l.

(** Within inequality_fitter.hpp:141-177. *)
Definition update_lb (kept : list nat) (f : D) (idx : nat) (b : option D) (a : active) : outcome active :=
  match b with
  | None => Ok a
  | Some lb =>
      if memb idx (alb a) then
        let* w := at_ (aw a) idx in
        if E.(nonpositive) w then Ok (mk_active (erase idx (alb a)) (aub a) (aw a) true) else Ok a
      else if E.(below) f lb then
        if memb idx kept then
          let* w := set_at (aw a) idx E.(izero) in
          Ok (mk_active (idx :: alb a) (aub a) w true)
        else Ok (mk_active (alb a) (aub a) (aw a) true)
      else Ok a
  end.
(** Within inequality_fitter.hpp:141-177. *)
Definition update_ub (kept : list nat) (f : D) (idx : nat) (b : option D) (a : active) : outcome active :=
  match b with
  | None => Ok a
  | Some ub =>
      if memb idx (aub a) then
        let* w := at_ (aw a) idx in
        if E.(nonnegative) w then Ok (mk_active (alb a) (erase idx (aub a)) (aw a) true) else Ok a
      else if E.(above) f ub then
        if memb idx kept then
          let* w := set_at (aw a) idx E.(izero) in
          Ok (mk_active (alb a) (idx :: aub a) w true)
        else Ok (mk_active (alb a) (aub a) (aw a) true)
      else Ok a
  end.
(** Within inequality_fitter.hpp:141-177. *)
Fixpoint update_active (kept : list nat) (fit : list D) (pos : nat) (is : list nat) (a : active)
  : outcome active :=
  match is with
  | [] => Ok a
  | idx :: is' =>
      let* f := at_ fit pos in
      let* lb := at_ E.(values_lb) idx in
      let* a1 := update_lb kept f idx lb a in
      let* ub := at_ E.(values_ub) idx in
      let* a2 := update_ub kept f idx ub a1 in
      update_active kept fit (S pos) is' a2
  end.

(** Helper without code of its own. *)
Inductive iprogress :=
| IFinished (centers : list nat) (weights : list D)
| INext (s : istate).

(** One round (inequality_fitter.hpp:74-184). *)
Definition istep (s : istate) : outcome iprogress :=
  let cs := centers_of s in
  let* r := fit_step s cs in
  let '(w, cw, fit) := r in
  let* indices := complement cs n_points in
  let* res := iresiduals fit 0 indices in
  let* kept := survivors (map fst (E.(isort) res)) (idistance s) in
  let* a := update_active kept fit 0 ineq_idcs (mk_active (active_lb s) (active_ub s) w false) in
  if changed a then
    Ok (INext (mk_istate (S (iround s)) (aw a) (alb a) (aub a)
                 (Rmax (1 / 2 * idistance s) kMinDistance)))
  else Ok (IFinished cs cw).

(** Within inequality_fitter.hpp:74-184. *)
Fixpoint irun (n : nat) (s : istate) : outcome iprogress :=
  match n with
  | 0 => Ok (INext s)
  | S n' =>
      let* p := istep s in
      match p with
      | IFinished c w => Ok (IFinished c w)
      | INext s' => irun n' s'
      end
  end.

End InequalityFitter.

Arguments ienv : clear implicits.
Arguments istate : clear implicits.
Arguments iprogress : clear implicits.
Arguments active : clear implicits.
