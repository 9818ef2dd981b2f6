From Coq Require Import List Arith ZArith Bool Reals.
From Verif Require Import Model.Outcome Model.ComplementaryIndices.
From Verif Require Model.DistanceFilter.
Import ListNotations.

(** IncrementalFitter::fit (include/polatory/interpolation/incremental_fitter.hpp:46-183). Points,
    residuals and weights are opaque; a row is known by its index. Distances are real numbers. *)

(** DistanceFilter::kMinDistance = sqrt(2^-126) (distance_filter.hpp:23). *)
Definition kMinDistance : R := (/ 2 ^ 63)%R.
(** Within distance_filter.hpp:23. *)
Definition valid_distance (d : R) : bool := if Rle_dec kMinDistance d then true else false.

Section IncrementalFitter.

Context {Pt D : Type}.

(** Everything outside fit(). The first argument of [solve] and [evaluate] is the round, so that the
    numerical answers may differ between identical calls. *)
Record env := mk_env {
  dim : nat;                      (* kDim *)
  l : nat;                        (* l_ *)
  degree_one : bool;              (* model_.poly_degree() == 1 *)
  points_full : list Pt;
  grad_points_full : list Pt;
  values_full : list D;
  tolerance : D;
  grad_tolerance : D;
  width_norm : R;                 (* bbox_.width().norm() *)
  zero : D;
  ltb : D -> D -> bool;           (* operator< *)
  absdiff : D -> D -> D;          (* |a - b| *)
  maxd : D -> D -> D;             (* maxCoeff of two *)
  sort : list (nat * D) -> list (nat * D);   (* std::sort by second component, ascending *)
  radius_search : list Pt -> Pt -> R -> list nat;
  (* Solver::set_points + solve: centers, gradient centers, values, initial weights *)
  solve : nat -> list nat -> list nat -> list D -> list D -> outcome (list D);
  (* Evaluator: source centers, gradient centers, weights, target points, target gradient points *)
  evaluate : nat -> list nat -> list nat -> list D -> list nat -> list nat -> list D
}.

Variable E : env.

(** Within incremental_fitter.hpp:37-44. *)
Definition mu_full : nat := length E.(points_full).
(** Within incremental_fitter.hpp:37-44. *)
Definition sigma_full : nat := length E.(grad_points_full).

(** Local variables that live across rounds. *)
Record state := mk_state {
  round : nat; centers : list nat; grad_centers : list nat; weights : list D; filtering_distance : R }.

(** incremental_fitter.hpp:53-69. *)
Definition init : state :=
  let centers0 := if E.(degree_one) && Nat.eqb mu_full 1 && Nat.leb 1 sigma_full then [0] else [] in
  mk_state 0 centers0 [] (repeat E.(zero) (length centers0 + E.(dim) * 0 + E.(l)))
           (Rmax E.(width_norm) kMinDistance).

(** Helper without code of its own. *)
Definition get (v : list D) (i : nat) : outcome D := of_option (nth_error v i).
(** Helper without code of its own. *)
Fixpoint gather (v : list D) (is : list nat) : outcome (list D) :=
  match is with
  | [] => Ok []
  | i :: is' => let* x := get v i in let* xs := gather v is' in Ok (x :: xs)
  end.

(** Positions of the gradient components of rows [is] in a vector whose gradient block starts at
    [base]. *)
Definition grad_positions (base : nat) (is : list nat) : list nat :=
  flat_map (fun i => map (fun k => base + E.(dim) * i + k) (seq 0 E.(dim))) is.

(** The values of the current centers (incremental_fitter.hpp:85-89). *)
Definition center_values (s : state) : outcome (list D) :=
  let* v := gather E.(values_full) (centers s) in
  let* g := gather E.(values_full) (grad_positions mu_full (grad_centers s)) in
  Ok (v ++ g).

(** incremental_fitter.hpp:80-91. *)
Definition solve_step (s : state) : outcome (list D) :=
  let mu := length (centers s) in
  let sigma := length (grad_centers s) in
  if Nat.leb E.(l) mu || (E.(degree_one) && Nat.eqb mu 1 && Nat.leb 1 sigma) then
    let* v := center_values s in
    E.(solve) (round s) (centers s) (grad_centers s) v (weights s)
  else Ok (weights s).

(** common::complementary_indices on row numbers (incremental_fitter.hpp:99-103). *)
Definition complement (is : list nat) (n : nat) : outcome (list nat) :=
  let* r := complementary_indices (map Z.of_nat is) n in Ok (map Z.to_nat r).

(** residuals (incremental_fitter.hpp:185-196): values_full(c_centers) against the first entries of the evaluation. *)
Fixpoint residuals_from (fit : list D) (pos : nat) (cs : list nat) : outcome (list (nat * D)) :=
  match cs with
  | [] => Ok []
  | c :: cs' =>
      let* v := get E.(values_full) c in
      let* f := get fit pos in
      let* r := residuals_from fit (S pos) cs' in
      Ok ((c, E.(absdiff) f v) :: r)
  end.

(** grad_residuals (incremental_fitter.hpp:198-214): the largest component of the difference. *)
Fixpoint max_component (fit : list D) (pos vpos : nat) (k : nat) : outcome D :=
  match k with
  | 0 => Ok E.(zero)
  | S k' =>
      let* f := get fit pos in
      let* v := get E.(values_full) vpos in
      let r := E.(absdiff) f v in
      match k' with
      | 0 => Ok r
      | _ => let* m := max_component fit (S pos) (S vpos) k' in Ok (E.(maxd) r m)
      end
  end.
(** Within incremental_fitter.hpp:198-214. *)
Fixpoint grad_residuals_from (fit : list D) (pos : nat) (cs : list nat) : outcome (list (nat * D)) :=
  match cs with
  | [] => Ok []
  | c :: cs' =>
      let* m := max_component fit pos (mu_full + E.(dim) * c) E.(dim) in
      let* r := grad_residuals_from fit (pos + E.(dim)) cs' in
      Ok ((c, m) :: r)
  end.

(** std::lower_bound(residuals, tol) and the distance to the end (incremental_fitter.hpp:122-123, 128-131): entries up to the
    first one that is not below [tol] are skipped. (On an ascending range this is what the binary search
    returns.) *)
Fixpoint need_fitting (tol : D) (rs : list (nat * D)) : nat :=
  match rs with
  | [] => 0
  | (_, r) :: rs' => if E.(ltb) r tol then need_fitting tol rs' else length rs
  end.

(** The new centers (incremental_fitter.hpp:145-168): the rows with the [n] largest residuals, if they survive the distance
    filter run over the centers followed by all other rows by descending residual. *)
Definition new_rows (pts : list Pt) (cs : list nat) (sorted : list (nat * D)) (n : nat) (d : R)
  : outcome (list nat) :=
  let order := map fst (rev sorted) in
  match DistanceFilter.filter_indices valid_distance E.(radius_search) (DistanceFilter.init pts) d (cs ++ order) with
  | Ok (Ok _, f) =>
      let* kept := DistanceFilter.filtered_indices f in
      Ok (filter (fun i => DistanceFilter.memb i kept) (firstn n order))
  | Ok (Throw e, _) => Throw e
  | Ok (UB, _) => UB
  | Throw e => Throw e
  | UB => UB
  end.

(** The next starting weights (incremental_fitter.hpp:173-177): last_weights.head(last_mu), zeros for the new points, the
    gradient block, zeros, and the tail. *)
Definition carry (w : list D) (last_mu last_sigma mu sigma : nat) : outcome (list D) :=
  if Nat.eqb (length w) (last_mu + E.(dim) * last_sigma + E.(l)) then
    Ok (firstn last_mu w ++ repeat E.(zero) (mu - last_mu) ++
        firstn (E.(dim) * last_sigma) (skipn last_mu w) ++
        repeat E.(zero) (E.(dim) * (sigma - last_sigma)) ++
        skipn (last_mu + E.(dim) * last_sigma) w)
  else UB.

(** Helper without code of its own. *)
Inductive progress :=
| Finished (centers grad_centers : list nat) (weights : list D)
| Next (s : state).

(** One round of the loop (incremental_fitter.hpp:71-180). *)
Definition step (s : state) : outcome progress :=
  let* w := solve_step s in
  let mu := length (centers s) in
  let sigma := length (grad_centers s) in
  if Nat.eqb mu mu_full && Nat.eqb sigma sigma_full then Ok (Finished (centers s) (grad_centers s) w)
  else
    let* cc := complement (centers s) mu_full in
    let* cg := complement (grad_centers s) sigma_full in
    let fit := E.(evaluate) (round s) (centers s) (grad_centers s) w cc cg in
    let* res := residuals_from fit 0 cc in
    let* gres := grad_residuals_from fit (length cc) cg in
    let sorted := E.(sort) res in
    let gsorted := E.(sort) gres in
    let n := need_fitting E.(tolerance) sorted in
    let gn := need_fitting E.(grad_tolerance) gsorted in
    if Nat.eqb n 0 && Nat.eqb gn 0 then Ok (Finished (centers s) (grad_centers s) w)
    else
      let* new := new_rows E.(points_full) (centers s) sorted n (filtering_distance s) in
      let* gnew := new_rows E.(grad_points_full) (grad_centers s) gsorted gn (filtering_distance s) in
      let centers' := centers s ++ new in
      let grad_centers' := grad_centers s ++ gnew in
      let* w' := carry w mu sigma (length centers') (length grad_centers') in
      Ok (Next (mk_state (S (round s)) centers' grad_centers' w'
                  (Rmax (1 / 2 * filtering_distance s) kMinDistance))).

(** The loop, for at most [n] rounds. *)
Fixpoint run (n : nat) (s : state) : outcome progress :=
  match n with
  | 0 => Ok (Next s)
  | S n' =>
      let* p := step s in
      match p with
      | Finished c g w => Ok (Finished c g w)
      | Next s' => run n' s'
      end
  end.

End IncrementalFitter.

Arguments env : clear implicits.
Arguments state : clear implicits.
Arguments progress : clear implicits.
