From Coq Require Import List Arith ZArith Bool Reals Ascii.
From Verif Require Import Model.Outcome Model.LinAlg Model.Table Model.Bbox Model.Variogram Model.Directions Model.DistanceFilter Model.CrossValidate Model.Commands.
Import ListNotations.
Local Open Scope nat_scope.

(** The commands that Model/Commands.v leaves out. Files are the tables read from them; option parsing is left out, an option that is not given
    is None. *)
Section Rows.
Context {D : Type}.
(** switch (opts.dim) at the end of the commands (e.g. cli/unique_command.cpp:78-90, cli/cross_validate_command.cpp:109-121,
    cli/variogram_command.cpp:130-142). *)
Definition with_dimension {A : Type} (run : nat -> outcome A) (dim : Z) : outcome A :=
  if (dim =? 1)%Z then run 1 else if (dim =? 2)%Z then run 2 else if (dim =? 3)%Z then run 3 else Throw ExRuntimeError.
(** The rows of a matrix as a list. *)
Definition list_of (m : mat D) : list (list D) := map (fun i => map (entry m i) (seq 0 (cols m))) (seq 0 (rows m)).
(** Helper without code of its own: the matrix of a table as it is read (table.hpp:54-59). *)
Definition of_list (zero : D) (l : list (list D)) : mat D := Mat (length l) (length (hd [] l)) (fun i j => nth j (nth i l []) zero).

(** unique (cli/unique_command.cpp:26-36); the rows of the table are filtered by the distances of their first [dim] entries. *)
Definition unique {L : Type} (valid_distance : L -> bool) (search : list (list D) -> list D -> L -> list nat) (dist : L) (table : mat D) (dim : nat) : outcome (mat D) :=
  let* points := columns 0 dim table in
  let* r := filter_all valid_distance search (init (list_of points)) dist in
  let* _ := fst r in
  let* kept := apply (snd r) (map (entry table) (seq 0 (rows table))) in
  Ok (Mat (length kept) (cols table) (fun i => nth i kept (entry table 0))).

(** cross-validate (cli/cross_validate_command.cpp:43-54). [to_int] is the cast of a double to int; [fit_evaluate] is what cross_validate does for one
    set; [order] the order in which it goes through the sets. *)
Definition cross_validate_table (junk : nat -> nat -> D) (zero : D) (to_int : D -> Z) (fit_evaluate : list (list D) -> list D -> list (list D) -> outcome (list D))
  (order : list Z) (table : mat D) (dim : nat) : outcome (mat D) :=
  let* points := columns 0 dim table in
  let* values := columns dim 1 table in
  let* ids := columns (dim + 1) 1 table in
  let column := fun m : mat D => map (fun i => entry m i 0) (seq 0 (rows m)) in
  let* predictions := cross_validate zero fit_evaluate (list_of points) (column values) (map to_int (column ids)) order in
  concatenate_cols junk table [Mat (length predictions) 1 (fun i _ => nth i predictions zero)].

(** The table written by estimate-normals (cli/estimate_normals_command.cpp:43-46, 71-73). *)
Definition normals_table (junk : nat -> nat -> D) (estimate : mat D -> mat D) (table : mat D) : outcome (mat D) :=
  let* points := columns 0 3 table in concatenate_cols junk points [estimate points].
End Rows.

(** The conversion of a real number to int: towards zero (cli/cross_validate_command.cpp:46). Numbers beyond int are undefined; not modelled. *)
Definition truncate (x : R) : Z := if Rle_dec 0 x then Int_part x else (- Int_part (- x))%Z.

(** The options of estimate-normals (cli/estimate_normals_command.cpp:126-152). *)
Inductive estimation (D : Type) := Knn (ks : list Z) | Radius (radii : list D).
Arguments Knn {D} _.
Arguments Radius {D} _.
(** cli/estimate_normals_command.cpp:27, 59-69. *)
Inductive orientation (P : Type) := TowardPoint (p : P) | TowardDirection (v : P) | ClosedSurface (k : Z).
Arguments TowardPoint {P} _.
Arguments TowardDirection {P} _.
Arguments ClosedSurface {P} _.
(** cli/estimate_normals_command.cpp:126-137. *)
Definition choose_estimation {D : Type} (k : option (list Z)) (radius : option (list D)) : outcome (estimation D) :=
  match k, radius with
  | Some _, Some _ => Throw ExRuntimeError
  | Some ks, None => Ok (Knn ks)
  | None, Some rs => Ok (Radius rs)
  | None, None => Ok (Knn [10; 30; 100; 300]%Z)
  end.
(** Helper without code of its own: vm.count. *)
Definition count {A : Type} (o : option A) : nat := match o with Some _ => 1 | None => 0 end.
(** cli/estimate_normals_command.cpp:139-152. *)
Definition choose_orientation {P : Type} (point direction : option P) (closed : option Z) : outcome (orientation P) :=
  if 1 <? count point + count direction + count closed then Throw ExRuntimeError
  else
    match point, direction, closed with
    | Some p, _, _ => Ok (TowardPoint p)
    | None, Some v, _ => Ok (TowardDirection v)
    | None, None, Some k => Ok (ClosedSurface k)
    | None, None, None => Ok (ClosedSurface 100)
    end.

(** isosurface (cli/isosurface_command.cpp:44): the box of the mesh. The default of the option is the empty box (97-102). *)
Definition mesh_box (given of_interpolant : bbox) : bbox := if is_empty given then of_interpolant else given.
(** Which function is called (cli/isosurface_command.cpp:49-53, 63-65; cli/surface_25d_command.cpp:43-50). *)
Inductive start {D : Type} := FromSeeds (seeds : mat D) | Everywhere.
Arguments start : clear implicits.
(** Within cli/isosurface_command.cpp:49-65, cli/surface_25d_command.cpp:43-50. *)
Definition choose_start {D : Type} (seeds : option (mat D)) : outcome (start D) :=
  match seeds with
  | None => Ok Everywhere
  | Some t => let* p := columns 0 3 t in Ok (if 0 <? rows p then FromSeeds p else Everywhere)
  end.
(** The points to snap to and their tolerances (cli/isosurface_command.cpp:55-61). *)
Definition snap_input {D : Type} (table : mat D) : outcome (mat D * list D) :=
  let* tolerances := if 4 <=? cols table then let* c := columns 3 1 table in Ok (map (fun i => entry c i 0) (seq 0 (rows c))) else Ok [] in
  let* points := columns 0 3 table in
  Ok (points, tolerances).
(** The nine values of --aniso (cli/isosurface_command.cpp:140-153); any other number of values is refused while parsing. *)
Definition aniso_option {D : Type} (zero : D) (values : list D) : option (nat -> nat -> D) :=
  if Nat.eqb (length values) 9 then Some (fun i j => nth (3 * i + j) values zero) else None.

Local Open Scope R_scope.
(** variogram (cli/variogram_command.cpp:55-60, 125-128): the calculator; angles are given in degrees. *)
Definition degrees (a : R) : R := if Req_EM_T a automatic then a else a * (PI / 180).
(** Within cli/variogram_command.cpp:55-60. *)
Definition variogram_calculator (distance : R) (lags : nat) (lag_tol angle_tol : R) (aniso : bool) (dim : nat) : outcome calculator :=
  let* c1 := set_lag_tolerance lag_tol (make dim distance lags) in
  let* c2 := set_angle_tolerance (degrees angle_tol) c1 in
  if aniso then set_directions dim (length (anisotropic dim)) (Directions.rows (anisotropic dim)) c2 else Ok c2.
(** The values of which the variogram is taken (cli/variogram_command.cpp:42-53): coordinates, value; residuals of a polynomial if a degree is given,
    then normal scores. *)
Definition variogram_values {V : Type} (detrend : Z -> V -> V) (transform : V -> V) (degree : Z) (normal_score : bool) (values : V) : V :=
  let v := if (0 <=? degree)%Z then detrend degree values else values in if normal_score then transform v else v.
