From Coq Require Import List Arith ZArith Bool Reals.
From Verif Require Import Model.Outcome Model.PrimitiveLattice.
Import ListNotations.

(** What the commands (cli/*.cpp) do with tables. A matrix is its size and a function of row and column. *)
Section Tables.
Context {D : Type}.
(** Helper without code of its own. *)
Record mat := Mat { rows : nat; cols : nat; entry : nat -> nat -> D }.

(** concatenate_cols and concatenate_rows (include/polatory/common/concatenate.hpp). common_cols and common_rows (concatenate.hpp:12-38). *)
Fixpoint common_rows (m : mat) (ms : list mat) : outcome nat :=
  match ms with
  | [] => Ok (rows m)
  | m' :: ms' => let* r := common_rows m' ms' in if Nat.eqb (rows m) r then Ok (rows m) else Throw ExInvalidArgument
  end.
(** common_cols (concatenate.hpp:12-24). *)
Fixpoint common_cols (m : mat) (ms : list mat) : outcome nat :=
  match ms with
  | [] => Ok (cols m)
  | m' :: ms' => let* c := common_cols m' ms' in if Nat.eqb (cols m) c then Ok (cols m) else Throw ExInvalidArgument
  end.
(** Assignment to the columns (rows) from [first] of the underlying memory. *)
Definition put_cols (first : nat) (m : mat) (x : nat -> nat -> D) : nat -> nat -> D :=
  fun i j => if (first <=? j) && (j <? first + cols m) then entry m i (j - first) else x i j.
(** Within cli/fit_command.cpp:51-72. *)
Definition put_rows (first : nat) (m : mat) (x : nat -> nat -> D) : nat -> nat -> D :=
  fun i j => if (first <=? i) && (i <? first + rows m) then entry m (i - first) j else x i j.
(** concatenate.hpp:40-68: the view of [width] columns (rows) from [first]; rightCols(k) begins k before its end. *)
Fixpoint cols_impl (first width : nat) (m : mat) (ms : list mat) (x : nat -> nat -> D) : nat -> nat -> D :=
  match ms with
  | [] => put_cols first m x
  | m' :: ms' => cols_impl (first + (width - (width - cols m))) (width - cols m) m' ms' (put_cols first m x)
  end.
(** Within concatenate.hpp:40-68. *)
Fixpoint rows_impl (first height : nat) (m : mat) (ms : list mat) (x : nat -> nat -> D) : nat -> nat -> D :=
  match ms with
  | [] => put_rows first m x
  | m' :: ms' => rows_impl (first + (height - (height - rows m))) (height - rows m) m' ms' (put_rows first m x)
  end.
(** concatenate.hpp:72-88; [junk] is what the memory of the result contains at first. *)
Definition total (f : mat -> nat) (ms : list mat) : nat := list_sum (map f ms).
(** concatenate_cols (concatenate.hpp:72-79). *)
Definition concatenate_cols (junk : nat -> nat -> D) (m : mat) (ms : list mat) : outcome mat :=
  let* r := common_rows m ms in
  let c := total cols (m :: ms) in Ok (Mat r c (cols_impl 0 c m ms junk)).
(** concatenate_rows (concatenate.hpp:81-88). *)
Definition concatenate_rows (junk : nat -> nat -> D) (m : mat) (ms : list mat) : outcome mat :=
  let* c := common_cols m ms in
  let r := total rows (m :: ms) in Ok (Mat r c (rows_impl 0 r m ms junk)).

(** table(kAll, seqN(first, n)), head, tail and the two uses of reshaped<RowMajor>; a vector is a matrix of one column. Out of range is
    undefined in a release build. *)
Definition columns (first n : nat) (t : mat) : outcome mat :=
  if first + n <=? cols t then Ok (Mat (rows t) n (fun i j => entry t i (first + j))) else UB.
(** Within cli/fit_command.cpp:51-72. *)
Definition head (n : nat) (v : mat) : outcome mat := if n <=? rows v then Ok (Mat n 1 (fun i _ => entry v i 0)) else UB.
(** Within cli/fit_command.cpp:51-72. *)
Definition tail (n : nat) (v : mat) : outcome mat := if n <=? rows v then Ok (Mat n 1 (fun i _ => entry v (rows v - n + i) 0)) else UB.
(** Helper without code of its own. *)
Definition to_vector (m : mat) : mat := Mat (rows m * cols m) 1 (fun k _ => entry m (k / cols m) (k mod cols m)).
(** Within cli/fit_command.cpp:51-72. *)
Definition to_matrix (n c : nat) (v : mat) : outcome mat :=
  if Nat.eqb (rows v) (n * c) then Ok (Mat n c (fun i j => entry v (i * c + j) 0)) else UB.
(** Within cli/fit_command.cpp:51-72. *)
Definition no_rows (c : nat) (junk : nat -> nat -> D) : mat := Mat 0 c junk.

(** The data given to the interpolant by fit (cli/fit_command.cpp:51-72). The comma initializer puts the values before the gradients. *)
Record fit_data := FitData { fit_points : mat; fit_values : mat; fit_bounds : option (mat * mat); fit_grad_points : mat; fit_rhs : mat }.
(** Within cli/fit_command.cpp:51-72. *)
Definition read_fit (junk : nat -> nat -> D) (dim : nat) (ineq : bool) (table : mat) (grad_table : option mat) : outcome fit_data :=
  let* points := columns 0 dim table in
  let* values := columns dim 1 table in
  let* bounds := if ineq then let* lb := columns (dim + 1) 1 table in let* ub := columns (dim + 2) 1 table in Ok (Some (lb, ub)) else Ok None in
  let* grads :=
    match grad_table with
    | None => Ok (no_rows dim junk, no_rows dim junk)
    | Some t => let* p := columns 0 dim t in let* g := columns dim dim t in Ok (p, g)
    end in
  let n := rows values in
  let g := to_vector (snd grads) in
  Ok (FitData points values bounds (fst grads) (Mat (n + rows g) 1 (fun k _ => if k <? n then entry values k 0 else entry g (k - n) 0))).

(** The table written by evaluate (cli/evaluate_command.cpp:36-50); [eval] is Interpolant::evaluate. *)
Definition evaluate_table (junk : nat -> nat -> D) (eval : mat -> mat -> mat) (dim : nat) (grads : bool) (table : mat) : outcome mat :=
  let* points := columns 0 dim table in
  let n := rows points in
  if grads then
    let values := eval points points in
    let* v := head n values in
    let* t := tail (dim * n) values in
    let* g := to_matrix n dim t in
    concatenate_cols junk points [v; g]
  else concatenate_cols junk points [eval points (no_rows dim junk)].

(** normals_to_sdf (cli/normals_to_sdf_command.cpp:41-52): all but round(ratio * n) normals are multiplied by zero, those that a shuffle puts
    first. resize to a negative size throws length_error; a larger size appends zeros. *)
Variable times_zero : D -> D.
(** Within cli/normals_to_sdf_command.cpp:41-52. *)
Definition normals_to_keep (ratio : R) (n : nat) : Z := round (ratio * INR n).
(** Within cli/normals_to_sdf_command.cpp:41-52. *)
Definition drop_normals (ratio : R) (shuffled : list nat) (normals : mat) : outcome mat :=
  let n := rows normals in
  let size := (Z.of_nat n - normals_to_keep ratio n)%Z in
  if (size <? 0)%Z then Throw ExLengthError
  else
    let k := Z.to_nat size in
    let indices := firstn k shuffled ++ repeat 0 (k - length shuffled) in
    Ok (Mat n (cols normals) (fun i j => if existsb (Nat.eqb i) indices then times_zero (entry normals i j) else entry normals i j)).
End Tables.
Arguments mat : clear implicits.
Arguments fit_data : clear implicits.

(** Which fitting function is called, and whether with an initial interpolant (cli/fit_command.cpp:81-93, 162-186). *)
Inductive fit_call := FitInequality (initial : bool) | FitIncrementally | Fit (initial : bool).
(** Within cli/fit_command.cpp:81-93, 162-186. *)
Definition choose_fit (dim : Z) (grad_in initial ineq reduce : bool) : outcome fit_call :=
  if grad_in && ineq then Throw ExRuntimeError
  else if initial && reduce then Throw ExRuntimeError
  else if (dim =? 1)%Z || (dim =? 2)%Z || (dim =? 3)%Z then
    Ok (if ineq then FitInequality initial else if reduce then FitIncrementally else Fit initial)
  else Throw ExRuntimeError.

(** The best of several trials (cli/fit_model_to_variogram_command.cpp:44-52). A cost is a number, infinite or not a number. *)
Inductive cost := Finite (x : R) | Infinite | NotANumber.
(** Within cli/fit_model_to_variogram_command.cpp:44-52. *)
Definition cost_lt (a b : cost) : bool :=
  match a, b with
  | Finite x, Finite y => if Rlt_dec x y then true else false
  | Finite _, Infinite => true
  | _, _ => false
  end.
(** Within cli/fit_model_to_variogram_command.cpp:44-52. *)
Definition best_trial {M : Type} (model : M) (trials : list (cost * M)) : M :=
  fst (fold_left (fun best t => if cost_lt (fst t) (snd best) then (snd t, fst t) else best) trials (model, Infinite)).

(** The direction printed by show-variogram (cli/show_variogram_command.cpp:46-57) in degrees; [asin_] and [atan2_] are the results of asin(dir(2))
    and atan2(dir(0), dir(1)). Reading beyond the coordinates is undefined. *)
Definition deg : R := (PI / 180)%R.
(** Within cli/show_variogram_command.cpp:46-57. *)
Definition listed_direction (asin_ : R -> R) (atan2_ : R -> R -> R) (dir : list R) : outcome (R * R) :=
  match dir with
  | [x; y; z] =>
      let elev := (asin_ z / deg)%R in
      let az := (atan2_ x y / deg)%R in
      let '(az, elev) := if Rlt_dec elev 0 then ((az + 180)%R, (- elev)%R) else (az, elev) in
      Ok (if Rlt_dec az 0 then (az + 360)%R else az, elev)
  | _ => UB
  end.
