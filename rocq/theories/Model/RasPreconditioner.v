From Coq Require Import Reals List Arith.
From Verif Require Import Model.LinAlg.
Import ListNotations.
Local Open Scope R_scope.

(** RasPreconditioner (include/polatory/preconditioner/ras_preconditioner.hpp) and orthonormalize_cols
    (common/orthonormalize.hpp). Numbers are real. Vectors have [n] rows for the RBF part followed by [l] for the
    polynomial part. Evaluators are exact sums with the matrix [kern] of the RBFs, which has no nugget (evaluator.hpp:65-81,
    symmetric_evaluator.hpp:55-71). *)

(** orthonormalize_cols (orthonormalize.hpp:9-18) on the first [l] columns of a matrix with [n] rows. *)
Definition norm (n : nat) (x : nat -> R) : R := sqrt (dot n x x).
(** Within orthonormalize.hpp:9-18. *)
Definition gs_step (n l i : nat) (m : nat -> nat -> R) : nat -> nat -> R :=
  let q := fun r => m r i / norm n (fun r => m r i) in
  fun r j => if Nat.eqb j i then q r
             else if (i <? j)%nat then m r j - dot n q (fun r => m r j) * q r
             else m r j.
(** Within orthonormalize.hpp:9-18. *)
Definition orthonormalize (n l : nat) (m : nat -> nat -> R) : nat -> nat -> R :=
  fold_left (fun m i => gs_step n l i m) (seq 0 l) m.

Section Ras.
Variable n l : nat.
(** Rows of the levels, 0 is the coarsest. *)
Variable lev : nat -> list nat.
Variable kern : nat -> nat -> R.
Variable p_full : nat -> nat -> R.
(** solve (ras_preconditioner.hpp:280-297): the corrections of all grids of a level, in a vector of zeros. *)
Variable solve : nat -> (nat -> R) -> nat -> R.

(** ras_preconditioner.hpp:176-187. *)
Definition p_ : nat -> nat -> R := orthonormalize n l p_full.
(** Within ras_preconditioner.hpp:176-187. *)
Definition ap (i k : nat) : R := mat_vec n kern (fun j => p_ j k) i.

(** update_residuals (ras_preconditioner.hpp:299-328): the weights are gathered from the rows of the source level. *)
Fixpoint gathered (rows : list nat) (f : nat -> R) : R := match rows with [] => 0 | j :: rows' => f j + gathered rows' f end.
(** Within ras_preconditioner.hpp:299-328. *)
Definition fit (src : nat) (w : nat -> R) (i : nat) : R :=
  gathered (lev src) (fun j => kern i j * w j) + mat_vec l p_full (fun k => w (n + k)%nat) i.
(** Within ras_preconditioner.hpp:299-328. *)
Definition update (src trg : nat) (w res : nat -> R) : nat -> R :=
  fun i => if existsb (Nat.eqb i) (lev trg) then res i - fit src w i else res i.
(** orthogonalize (ras_preconditioner.hpp:271-278). *)
Definition orthogonalize (st : (nat -> R) * (nat -> R)) : (nat -> R) * (nat -> R) :=
  let (w, res) := st in
  let d := fun k => rsum n (fun i => p_ i k * w i) in
  ((fun i => if (i <? n)%nat then w i - mat_vec l p_ d i else w i), (fun i => res i + mat_vec l ap d i)).

(** operator() (ras_preconditioner.hpp:191-250) as a list of steps: solve a level and update the residuals of another one (or none), or
    orthogonalize. The state is weights_total and residuals; [run] also lists level and state of every solve. *)
Inductive step := Solve (level : nat) (trg : option nat) | Orthogonalize.
(** Within ras_preconditioner.hpp:191-250. *)
Definition run_step (s : step) (st : (nat -> R) * (nat -> R)) : (nat -> R) * (nat -> R) :=
  match s with
  | Solve level trg =>
      let (total, res) := st in
      let w := solve level res in
      ((fun i => total i + w i), match trg with Some t => update level t w res | None => res end)
  | Orthogonalize => if Nat.eqb l 0 then st else orthogonalize st
  end.
(** Within ras_preconditioner.hpp:191-250. *)
Definition run (ss : list step) (st : (nat -> R) * (nat -> R)) : (nat -> R) * (nat -> R) := fold_left (fun st s => run_step s st) ss st.
(** Within ras_preconditioner.hpp:191-250. *)
Fixpoint solves_of (ss : list step) (st : (nat -> R) * (nat -> R)) : list (nat * ((nat -> R) * (nat -> R))) :=
  match ss with
  | [] => []
  | s :: ss' => match s with Solve level _ => [(level, st)] | Orthogonalize => [] end ++ solves_of ss' (run_step s st)
  end.
(** Within ras_preconditioner.hpp:191-250. *)
Definition program (n_levels : nat) : list step :=
  let finest := (n_levels - 1)%nat in
  [Solve 0 (Some finest)] ++
  flat_map (fun level => [Solve level (Some finest); Orthogonalize; Solve 0 (Some finest)]) (seq 1 (n_levels - 2)) ++
  flat_map (fun level => [Solve level (Some (level - 1)%nat); Orthogonalize;
                          Solve 0 (if (1 <? level)%nat then Some (level - 1)%nat else None)]) (rev (seq 1 (n_levels - 1))).
(** Within ras_preconditioner.hpp:191-250. *)
Definition start (v : nat -> R) : (nat -> R) * (nat -> R) := ((fun _ => 0), v).
(** Within ras_preconditioner.hpp:191-250. *)
Definition precondition (n_levels : nat) (v : nat -> R) : nat -> R :=
  if Nat.eqb n_levels 1 then solve 0 v else fst (run (program n_levels) (start v)).
End Ras.
