From Coq Require Import List Arith ZArith Bool String.
From Verif Require Import Model.Outcome.
Import ListNotations.

(** Model<Dim> (include/polatory/model.hpp:24-183) and the parameter handling of the RBF classes
    (include/polatory/rbf/rbf_base.hpp:81-87, covariance_function_base.hpp:17-37,
    polyharmonic_even.hpp:75-105, polyharmonic_odd.hpp:69-99). Anisotropies are not modelled here. *)
Section RbfModel.

(** Doubles; the test `x >= 0.0` (false for NaN); 0.0, 1.0 and +infinity. *)
Context {D : Type}.
Variable nonneg : D -> bool.
Variables (dzero done dinf : D).

(** The sixteen RBFs of make_rbf.hpp:30-45. *)
Inductive kind :=
| Cub | Exp | Gau | Gc3 | Gc5 | Gc7 | Gc9 | Sph | Sp3 | Sp5 | Sp7 | Sp9 | Bh2 | Bh3 | Th2 | Th3.

(** cpd_order(): 0 for covariance functions (covariance_function_base.hpp:17), K/2+1 for even
    polyharmonics with K = 2, 4 (polyharmonic_even.hpp:31), (K+1)/2 for odd ones with K = 1, 3
    (polyharmonic_odd.hpp:30). *)
Definition cpd_order1 (k : kind) : Z :=
  match k with
  | Bh2 => 2 / 2 + 1
  | Th2 => 4 / 2 + 1
  | Bh3 => (1 + 1) / 2
  | Th3 => (3 + 1) / 2
  | _ => 0
  end%Z.

(** Within covariance_function_base.hpp:17, polyharmonic_even.hpp:31, polyharmonic_odd.hpp:30. *)
Definition is_poly (k : kind) : bool :=
  match k with Bh2 | Bh3 | Th2 | Th3 => true | _ => false end.

(** num_parameters() is 2 everywhere (covariance_function_base.hpp:21, polyharmonic_even.hpp:75,
    polyharmonic_odd.hpp:69). *)
Definition num_parameters1 (k : kind) : nat := 2.

(** Within covariance_function_base.hpp:21, polyharmonic_even.hpp:75, polyharmonic_odd.hpp:69. *)
Record rbf := mk_rbf { rkind : kind; rparams : list D }.

(** RbfBase::set_parameters (rbf_base.hpp:81-87) and the polyharmonic override
    (polyharmonic_even.hpp:93-105, polyharmonic_odd.hpp:87-99). *)
Definition base_set_parameters (r : rbf) (ps : list D) : outcome rbf :=
  if Nat.eqb (List.length ps) (num_parameters1 (rkind r)) then Ok (mk_rbf (rkind r) ps)
  else Throw ExInvalidArgument.
(** Within rbf_base.hpp:81-87, polyharmonic_even.hpp:93-105, polyharmonic_odd.hpp:87-99. *)
Definition set_parameters1 (r : rbf) (ps : list D) : outcome rbf :=
  if is_poly (rkind r) then
    match ps with
    | [] => base_set_parameters r [done; dzero]
    | [p] => base_set_parameters r [p; dzero]
    | _ => base_set_parameters r ps
    end
  else base_set_parameters r ps.

(** Construction of an RBF from parameters: set_parameters on an object without parameters. *)
Definition make (k : kind) (ps : list D) : outcome rbf := set_parameters1 (mk_rbf k []) ps.

(** Within covariance_function_base.hpp:23-37. *)
Definition names1 (k : kind) : list string :=
  if is_poly k then ["scale"; "c"]%string else ["psill"; "range"]%string.
(** Within covariance_function_base.hpp:23-37. *)
Definition lower1 (k : kind) : list D := [dzero; dzero].
(** Within covariance_function_base.hpp:23-37. *)
Definition upper1 (k : kind) : list D := [dinf; dinf].

(** Members (model.hpp:180-182). *)
Record model := mk_model { rbfs : list rbf; poly_degree : Z; nugget : D }.

(** cpd_order (model.hpp:60-66). *)
Definition cpd_order (rs : list rbf) : Z :=
  fold_left (fun order r => Z.max order (cpd_order1 (rkind r))) rs 0%Z.

(** Constructor (model.hpp:35-51). *)
Definition kMinRequiredPolyDegree : Z := -2.
(** Within model.hpp:35-51. *)
Definition construct (rs : list rbf) (deg : Z) : outcome model :=
  match rs with
  | [] => Throw ExInvalidArgument
  | _ =>
      let min_poly_degree := (cpd_order rs - 1)%Z in
      let max_poly_degree := 2%Z in
      if Z.eqb deg kMinRequiredPolyDegree then Ok (mk_model rs min_poly_degree dzero)
      else if (min_poly_degree <=? deg)%Z && (deg <=? max_poly_degree)%Z
      then Ok (mk_model rs deg dzero)
      else Throw ExInvalidArgument
  end.

(** num_parameters, parameters, names and bounds (model.hpp:81-123). *)
Definition num_parameters (m : model) : nat :=
  fold_left (fun np r => np + num_parameters1 (rkind r)) (rbfs m) 1.
(** parameters (model.hpp:117-123). *)
Definition parameters (m : model) : list D :=
  fold_left (fun ps r => ps ++ rparams r) (rbfs m) [nugget m].
(** parameter_names (model.hpp:100-106). *)
Definition parameter_names (m : model) : list string :=
  fold_left (fun ps r => ps ++ names1 (rkind r)) (rbfs m) ["nugget"%string].
(** parameter_lower_bounds (model.hpp:91-98). *)
Definition parameter_lower_bounds (m : model) : list D :=
  fold_left (fun ps r => ps ++ lower1 (rkind r)) (rbfs m) [dzero].
(** parameter_upper_bounds (model.hpp:108-115). *)
Definition parameter_upper_bounds (m : model) : list D :=
  fold_left (fun ps r => ps ++ upper1 (rkind r)) (rbfs m) [dinf].

(** A member function that may throw part-way: what the caller sees and the object afterwards. *)
Definition effect := (outcome unit * model)%type.

(** set_nugget (model.hpp:135-141). *)
Definition set_nugget (m : model) (n : D) : effect :=
  if negb (nonneg n) then (Throw ExInvalidArgument, m)
  else (Ok tt, mk_model (rbfs m) (poly_degree m) n).

(** The loop of set_parameters (model.hpp:150-155). [done_] are the RBFs already updated (in reverse),
    [i] is the position in [ps]; the iterator range is undefined beyond the end of [ps]. *)
Fixpoint set_rbfs (ps : list D) (i : nat) (done_ todo : list rbf) : outcome unit * list rbf :=
  match todo with
  | [] => (Ok tt, rev done_)
  | r :: todo' =>
      let n := num_parameters1 (rkind r) in
      if Nat.ltb (List.length ps) (i + n) then (UB, rev done_ ++ todo)
      else
        match set_parameters1 r (firstn n (skipn i ps)) with
        | Ok r' => set_rbfs ps (i + n) (r' :: done_) todo'
        | Throw e => (Throw e, rev done_ ++ todo)
        | UB => (UB, rev done_ ++ todo)
        end
  end.

(** set_parameters (model.hpp:143-156). *)
Definition set_parameters (m : model) (ps : list D) : effect :=
  if negb (Nat.eqb (List.length ps) (num_parameters m)) then (Throw ExInvalidArgument, m)
  else
    match nth_error ps 0 with
    | None => (Throw ExOutOfRange, m)
    | Some n =>
        match set_nugget m n with
        | (Ok _, m1) =>
            let (o, rs) := set_rbfs ps 1 [] (rbfs m1) in
            (o, mk_model rs (poly_degree m1) (nugget m1))
        | (Throw e, m1) => (Throw e, m1)
        | (UB, m1) => (UB, m1)
        end
    end.

End RbfModel.

Arguments rbf : clear implicits.
Arguments model : clear implicits.
