From Coq Require Import List NArith ZArith Ascii String Bool Reals.
From Verif Require Import Model.Outcome Model.RbfModel Model.ModelArgs Model.Io.
From Verif Require Model.Rbfs Model.VariogramFitting Model.Description.
Import ListNotations.
Local Open Scope N_scope.

(** The commands that make and use model files (cli/create_model_command.cpp, cli/fit_command.cpp, cli/extract_model_command.cpp,
    cli/show_model_command.cpp), and the choice of the evaluators for the functions of a model (src/fmm/make_fmm_evaluator.cpp). A file is its bytes; doubles
    are their bits; parsing of the other options is left out. *)

(** short_name (kShortName of the RBF headers): the name as it is written to a file. *)
Definition file_name (k : kind) : list N :=
  bytes_of_string
    (match k with
     | Cub => "cub" | Exp => "exp" | Gau => "gau" | Gc3 => "gc3" | Gc5 => "gc5" | Gc7 => "gc7" | Gc9 => "gc9" | Sph => "sph" | Sp3 => "sp3"
     | Sp5 => "sp5" | Sp7 => "sp7" | Sp9 => "sp9" | Bh2 => "bh2" | Bh3 => "bh3" | Th2 => "th2" | Th3 => "th3"
     end)%string.

Section Files.
(** Dim, uninitialised memory, the largest size, and the test of the determinant, as in Io. *)
Variable d : nat.
Variable junk : nat -> N.
Variable max_elems : N.
Variable det_pos : list N -> bool.
(** The test `x >= 0.0`, and to_double, as in ModelArgs. *)
Variable nonneg : N -> bool.
Variable to_double : token -> N.

(** The members that are saved of a model made from arguments (rbf_io.hpp:29-34, model.hpp:313-320); without an anisotropy it is the identity (rbf_base.hpp:100). *)
Definition saved_rbf (x : arbf (D := N)) : Io.rbf :=
  Io.mk_rbf (file_name (rkind (fst x))) (rparams (fst x)) (match snd x with None => identity d | Some a => a end).
(** Within model.hpp:313-320. *)
Definition saved_model (x : list (arbf (D := N)) * Z * N) : Io.model := let '(rs, deg, nug) := x in Io.mk_model (map saved_rbf rs) deg nug.
(** create-model (create_model_command.cpp:21-25): the file that is written. Running out of fuel is excluded by C61_total. *)
Definition create_model (ts : list token) (nug : N) (deg : Z) : outcome (list N) :=
  let* x := make_model nonneg zero Io.one to_double d det_pos ts nug deg in
  match x with Some x => Ok (write_model (saved_model x)) | None => UB end.

(** What fit leaves in the interpolant besides the model (interpolant.hpp:331-338): centers, gradient centers, bounding box, weights. *)
Definition fit_result := (dynmat * dynmat * bbox * dynmat)%type.
(** fit with a model file (fit_command.cpp:72-73, 80-92); [fit] stands for the three ways of fitting, which do not change the model. *)
Definition fit_model (fit : Io.model -> outcome fit_result) (file : list N) : outcome (list N) :=
  let* m := load_model d junk max_elems det_pos file in
  let* r := fit m in
  let '(c, gc, b, w) := r in
  Ok (write_interpolant (mk_interpolant m true c gc b w)).
(** extract-model (extract_model_command.cpp:23-30). *)
Definition extract_model (file : list N) : outcome (list N) :=
  let* t := load_interpolant d junk max_elems det_pos file in Ok (write_model (model_ t)).

(** The function that a name in a file stands for (make_rbf.hpp:30-45). *)
Definition stored_kind (n : list N) : option kind := kind_of (map ascii_of_N n).
(** The kinds of Model/Rbfs.v; the direct and fast parts have no names. *)
Definition formula (k : kind) : Rbfs.kind :=
  match k with
  | Cub => Rbfs.Cub | Exp => Rbfs.Exp | Gau => Rbfs.Gau | Gc3 => Rbfs.Gc3 | Gc5 => Rbfs.Gc5 | Gc7 => Rbfs.Gc7 | Gc9 => Rbfs.Gc9 | Sph => Rbfs.Sph
  | Sp3 => Rbfs.Sp Rbfs.sp3 Rbfs.Full | Sp5 => Rbfs.Sp Rbfs.sp5 Rbfs.Full | Sp7 => Rbfs.Sp Rbfs.sp7 Rbfs.Full | Sp9 => Rbfs.Sp Rbfs.sp9 Rbfs.Full
  | Bh2 => Rbfs.Bh2 | Bh3 => Rbfs.Bh3 | Th2 => Rbfs.Th2 | Th3 => Rbfs.Th3
  end.
(** The number that the bits of a double stand for. *)
Variable real : N -> R.
(** A stored function as a function (rbf_base.hpp:99-100). *)
Definition stored_function (r : Io.rbf) : option VariogramFitting.function :=
  option_map (fun k => VariogramFitting.Function (formula k) (real (nth 0 (params r) 0)) (real (nth 1 (params r) 0)) (fun i j => real (nth (i * d + j) (aniso r) 0)))
    (stored_kind (name r)).
(** All of them; without one of the names the file could not have been loaded. *)
Fixpoint stored_functions (rs : list Io.rbf) : option (list VariogramFitting.function) :=
  match rs with
  | [] => Some []
  | r :: rs' => match stored_function r, stored_functions rs' with Some f, Some fs => Some (f :: fs) | _, _ => None end
  end.
(** show-model (show_model_command.cpp:20-26): the numbers of the text, as in Description. *)
Definition show_model (eigen : VariogramFitting.function -> (nat -> R) * (nat -> nat -> R)) (file : list N) : outcome (R * list (R * list R)) :=
  let* m := load_model d junk max_elems det_pos file in
  match stored_functions (rbfs m) with
  | Some fs => Description.description d (VariogramFitting.RbfModel (real (nugget m)) fs) eigen
  | None => UB
  end.
End Files.

(** The six kinds of evaluators (make_fmm_evaluator.cpp:41, 78, 119, 160, 200, 241). *)
Inductive family := Values | Gradients | GradientTransposes | Hessians | SymmetricValues | SymmetricHessians.
(** The cases of the functions, in their order (make_fmm_evaluator.cpp:49-64, 87-102, 128-143, 168-183, 209-224, 250-265): the same for all. *)
Definition cases (f : family) : list kind :=
  match f with
  | Values => [Bh2; Bh3; Cub; Exp; Gau; Gc3; Gc5; Gc7; Gc9; Sph; Sp3; Sp5; Sp7; Sp9; Th2; Th3]
  | Gradients => [Bh2; Bh3; Cub; Exp; Gau; Gc3; Gc5; Gc7; Gc9; Sph; Sp3; Sp5; Sp7; Sp9; Th2; Th3]
  | GradientTransposes => [Bh2; Bh3; Cub; Exp; Gau; Gc3; Gc5; Gc7; Gc9; Sph; Sp3; Sp5; Sp7; Sp9; Th2; Th3]
  | Hessians => [Bh2; Bh3; Cub; Exp; Gau; Gc3; Gc5; Gc7; Gc9; Sph; Sp3; Sp5; Sp7; Sp9; Th2; Th3]
  | SymmetricValues => [Bh2; Bh3; Cub; Exp; Gau; Gc3; Gc5; Gc7; Gc9; Sph; Sp3; Sp5; Sp7; Sp9; Th2; Th3]
  | SymmetricHessians => [Bh2; Bh3; Cub; Exp; Gau; Gc3; Gc5; Gc7; Gc9; Sph; Sp3; Sp5; Sp7; Sp9; Th2; Th3]
  end.
(** Whether two kinds are the same: dynamic_cast gives a pointer that is not null (no RBF class derives from another of them). *)
Definition kind_eqb (a b : kind) : bool := if list_eq_dec N.eq_dec (file_name a) (file_name b) then true else false.
(** make_fmm_evaluator and its five siblings (make_fmm_evaluator.cpp:40-69, 77-107, 118-148, 159-188, 199-229, 240-270): the evaluator that is made is
    given by its family and the function its kernel uses. *)
Definition make_fmm (f : family) (k : kind) : outcome (family * kind) :=
  match find (kind_eqb k) (cases f) with Some k' => Ok (f, k') | None => Throw ExRuntimeError end.
(** The evaluators of all functions of a model (interpolation/evaluator.hpp:53-58, operator.hpp:44-49, symmetric_evaluator.hpp:43-48). *)
Fixpoint make_all (fs : list family) (ks : list kind) : outcome (list (list (family * kind))) :=
  match ks with
  | [] => Ok []
  | k :: ks' =>
      let* row := (fix each fs := match fs with [] => Ok [] | f :: fs' => let* e := make_fmm f k in let* es := each fs' in Ok (e :: es) end) fs in
      let* rows := make_all fs ks' in
      Ok (row :: rows)
  end.
(** Evaluator (evaluator.hpp:53-58). *)
Definition evaluator_families : list family := [Values; Gradients; GradientTransposes; Hessians].
(** Operator and SymmetricEvaluator (operator.hpp:44-49, symmetric_evaluator.hpp:43-48). *)
Definition operator_families : list family := [SymmetricValues; Gradients; GradientTransposes; SymmetricHessians].
