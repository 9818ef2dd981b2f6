From Coq Require Import List Arith Bool ZArith Reals.
From Verif Require Import Model.Outcome Model.SolverRun Model.DomainDivider.
Import ListNotations.

(** The levels of RasPreconditioner (include/polatory/preconditioner/ras_preconditioner.hpp:56-167): which points and subdomains each
    gets. Their number and sizes are those of SolverRun. The grids themselves, printing and the Lagrange basis are left out. *)

(** n_coarse_points (ras_preconditioner.hpp:134-137) as the argument of choose_coarse_points. *)
Definition asked (n level : nat) : nat := Z.to_nat (n_coarse_points n (n_levels n) level).

(** The points of the finest level (ras_preconditioner.hpp:94-104). The binary search is membership, as the polynomial points
    are sorted; without polynomial both branches give all indices in order. *)
Definition finest_points (mu : nat) (poly : list nat) : list nat :=
  poly ++ filter (fun i => negb (existsb (Nat.eqb i) poly)) (seq 0 mu).

(** point_idcs_, grad_point_idcs_ and the subdomains of fine_grids_ of one level (ras_preconditioner.hpp:73-74, 121, 141-143). *)
Record level_grids := Level { g_points : list nat; g_grads : list nat; g_domains : list domain }.

Section Levels.
Variable dim : nat.
Variable sub : nat -> nat.
Variable sort arrange : list mixed -> list mixed.
Variable nearest : list mixed -> nat.
Variable pick : list cluster -> nat.
Variable level_read : cluster -> list cluster -> nat.
Variable drain : list cluster -> list cluster.
Variable poly : list nat.

(** The loop over the levels (ras_preconditioner.hpp:127-153) and the coarse grid (ras_preconditioner.hpp:155-166), coarsest level
    first. [wanted level] is n_coarse_points. The level of a popped cluster is whatever [level_read] yields. *)
Fixpoint descend (fuel : nat) (wanted : nat -> nat) (level : nat) (pts grads : list nat) {struct level} : option (outcome (list level_grids)) :=
  match level with
  | O => Some (Ok [Level pts grads []])
  | S k =>
      match domains dim sub sort fuel pts grads poly with
      | None => None
      | Some ds =>
          match choose_coarse_points dim arrange nearest pick false level_read drain fuel pts grads poly (wanted level) with
          | None => None
          | Some UB => Some UB
          | Some (Throw e) => Some (Throw e)
          | Some (Ok (p, g)) =>
              match descend fuel wanted k p g with
              | Some (Ok ls) => Some (Ok (ls ++ [Level pts grads ds]))
              | r => r
              end
          end
      end
  end.

(** The constructor (ras_preconditioner.hpp:56-167) for mu points, sigma gradient points and the given polynomial points.
    Without any the number of levels is minus infinity converted to int, which is undefined (ras_preconditioner.hpp:67-72). *)
Definition hierarchy (fuel mu sigma : nat) : option (outcome (list level_grids)) :=
  match mu + dim * sigma with
  | O => Some UB
  | n => descend fuel (asked n) (n_levels n - 1) (finest_points mu poly) (seq 0 sigma)
  end.
End Levels.

(** solve (ras_preconditioner.hpp:280-297): the coarse grid on level 0, otherwise the writes of all grids of the level into zeros, in
    any order. [lam level residuals k] is the solution of the k-th grid of the level. *)
Definition level_solve (dim mu : nat) (ls : list level_grids) (coarse : (nat -> R) -> nat -> R)
    (order : nat -> (nat -> R) -> list (nat * R) -> list (nat * R)) (lam : nat -> (nat -> R) -> nat -> nat -> R) (level : nat) (res : nat -> R) : nat -> R :=
  match level with
  | O => coarse res
  | _ => match nth_error ls level with
         | Some g => store_all R (order level res (level_writes R dim mu (g_domains g) (lam level res))) (fun _ => 0%R)
         | None => fun _ => 0%R
         end
  end.
