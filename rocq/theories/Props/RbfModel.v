From Coq Require Import List Arith ZArith Bool String Lia.
From Verif Require Import Model.Outcome Model.RbfModel Spec.RbfModel Proofs.RbfModel.
Import ListNotations.

(** Examples use integers for doubles. *)
Definition ex_rbfs : list (rbf Z) := [mk_rbf Exp [2; 3]%Z; mk_rbf Bh3 [1; 0]%Z].
Definition ex_m : model Z := mk_model ex_rbfs 0 5%Z.

(** C05: set_parameters throws (wrong length or a nugget that is not >= 0) and changes nothing, or
    afterwards parameters() is exactly the given vector, with the same RBFs and degree. It is never
    undefined and never stops half-way. *)
Theorem C05_set_parameters_all_or_nothing :
  forall (D : Type) nonneg (dzero done : D) (m : model D) ps out m',
  set_parameters nonneg dzero done m ps = (out, m') ->
  (exists e, out = Throw e /\ m' = m /\
     (List.length ps <> num_parameters m \/ exists n ps', ps = n :: ps' /\ nonneg n = false)) \/
  (out = Ok tt /\ parameters m' = ps /\ poly_degree m' = poly_degree m /\
   map (rkind (D:=D)) (rbfs m') = map (rkind (D:=D)) (rbfs m) /\ valid_model m').
Proof. exact @set_parameters_spec. Qed.
Print Assumptions C05_set_parameters_all_or_nothing.

Example C05_set_parameters_all_or_nothing_ex :
  set_parameters (Z.leb 0) 0%Z 1%Z ex_m [7; 1; 2; 3; 4]%Z
  = (Ok tt, mk_model [mk_rbf Exp [1; 2]%Z; mk_rbf Bh3 [3; 4]%Z] 0 7%Z) /\
  set_parameters (Z.leb 0) 0%Z 1%Z ex_m [-7; 1; 2; 3; 4]%Z = (Throw ExInvalidArgument, ex_m).
Proof. split; reflexivity. Qed.

(** C05: setting the current parameters is the identity. *)
Theorem C05_set_current_parameters_identity :
  forall (D : Type) nonneg (dzero done : D) (m : model D),
  valid_model m -> nonneg (nugget m) = true ->
  set_parameters nonneg dzero done m (parameters m) = (Ok tt, m).
Proof. exact @set_parameters_current. Qed.
Print Assumptions C05_set_current_parameters_identity.

Example C05_set_current_parameters_identity_ex :
  valid_model ex_m /\ parameters ex_m = [5; 2; 3; 1; 0]%Z.
Proof. split; [repeat constructor|reflexivity]. Qed.

(** C05: every RBF object made by a constructor is valid (has its two parameters). *)
Theorem C05_constructed_rbf_valid :
  forall (D : Type) (dzero done : D) k ps r,
  make dzero done k ps = Ok r -> valid_rbf r /\ rkind r = k.
Proof. exact @make_valid. Qed.
Print Assumptions C05_constructed_rbf_valid.

Example C05_constructed_rbf_valid_ex :
  make 0%Z 1%Z Bh3 [] = Ok (mk_rbf Bh3 [1; 0]%Z) /\ make 0%Z 1%Z Exp [3]%Z = Throw ExInvalidArgument.
Proof. split; reflexivity. Qed.

(** C05: exactly which parameter lists a constructor accepts, and what it makes of them. *)
Theorem C05_constructor_parameters :
  forall (D : Type) (dzero done : D) k ps, make dzero done k ps =
  match constructed_parameters dzero done k ps with
  | Some ps' => Ok (mk_rbf k ps') | None => Throw ExInvalidArgument end.
Proof. exact @make_spec. Qed.
Print Assumptions C05_constructor_parameters.

(** C05: names and bounds have as many entries as the parameters ... *)
Theorem C05_names_and_bounds_lengths :
  forall (D : Type) (dzero dinf : D) (m : model D),
  List.length (parameter_names m) = num_parameters m /\
  List.length (parameter_lower_bounds dzero m) = num_parameters m /\
  List.length (parameter_upper_bounds dinf m) = num_parameters m.
Proof. exact @names_bounds_lengths. Qed.
Print Assumptions C05_names_and_bounds_lengths.

(** ... in the same order: entry 1 + 2i + j of each list belongs to parameter j of RBF i. *)
Theorem C05_same_order :
  forall (D : Type) (dzero dinf : D) (m : model D) i r j,
  valid_model m -> nth_error (rbfs m) i = Some r -> j < 2 ->
  nth_error (parameters m) (1 + 2 * i + j) = nth_error (rparams r) j /\
  nth_error (parameter_names m) (1 + 2 * i + j) = nth_error (names1 (rkind r)) j /\
  nth_error (parameter_lower_bounds dzero m) (1 + 2 * i + j) = nth_error (lower1 dzero (rkind r)) j /\
  nth_error (parameter_upper_bounds dinf m) (1 + 2 * i + j) = nth_error (upper1 dinf (rkind r)) j.
Proof. exact @same_order. Qed.
Print Assumptions C05_same_order.

Example C05_same_order_ex :
  parameter_names ex_m = ["nugget"; "psill"; "range"; "scale"; "c"]%string.
Proof. reflexivity. Qed.

(** C06: an admissible degree is taken as it is. *)
Theorem C06_admissible_degree_accepted :
  forall (D : Type) (dzero : D) (rs : list (rbf D)) deg,
  rs <> [] -> (high_enough rs deg /\ deg <= 2)%Z ->
  construct dzero rs deg = Ok (mk_model rs deg dzero).
Proof. exact @construct_ok. Qed.
Print Assumptions C06_admissible_degree_accepted.

(** C06: the default marker always succeeds and selects the least admissible degree. *)
Theorem C06_default_degree_is_least :
  forall (D : Type) (dzero : D) (rs : list (rbf D)), rs <> [] ->
  exists deg, construct dzero rs kMinRequiredPolyDegree = Ok (mk_model rs deg dzero) /\
    high_enough rs deg /\ (deg <= 2)%Z /\ (forall deg', high_enough rs deg' -> deg <= deg')%Z.
Proof. exact @construct_default. Qed.
Print Assumptions C06_default_degree_is_least.

(** C06: everything else is rejected. *)
Theorem C06_inadmissible_rejected :
  forall (D : Type) (dzero : D) (rs : list (rbf D)) deg,
  rs = [] \/ (deg <> kMinRequiredPolyDegree /\ ~ (high_enough rs deg /\ deg <= 2)%Z) ->
  construct dzero rs deg = Throw ExInvalidArgument.
Proof. exact @construct_reject. Qed.
Print Assumptions C06_inadmissible_rejected.

Example C06_ex :
  construct 0%Z [mk_rbf Exp [1; 1]%Z] (-2) = Ok (mk_model [mk_rbf Exp [1; 1]%Z] (-1) 0%Z) /\
  construct 0%Z [mk_rbf Exp [1; 1]%Z; mk_rbf Th2 [1; 0]%Z] (-2)
    = Ok (mk_model [mk_rbf Exp [1; 1]%Z; mk_rbf Th2 [1; 0]%Z] 2 0%Z) /\
  construct 0%Z [mk_rbf Th3 [1; 0]%Z] 0 = Throw ExInvalidArgument /\
  construct 0%Z [mk_rbf Exp [1; 1]%Z] 3 = Throw ExInvalidArgument.
Proof. repeat split. Qed.
