From Coq Require Import String Ascii List Arith ZArith Bool.
From Verif Require Import Proofs.ModelArgs.
From Verif Require Import Model.Outcome Model.RbfModel Model.ModelArgs Spec.RbfModel Spec.ModelArgs.
Import ListNotations.

(** C61: the two regular expressions accept exactly the numbers and the identifiers, as whole tokens, ... *)
Theorem C61_number : forall t, is_number t = true <-> number_text t.
Proof. exact number_spec. Qed.
Print Assumptions C61_number.
Theorem C61_identifier : forall t, is_identifier t = true <-> identifier_text t.
Proof. exact identifier_spec. Qed.
Print Assumptions C61_identifier.
(** ... and no token is both. *)
Theorem C61_not_both : forall t, ~ (is_identifier t = true /\ is_number t = true).
Proof. exact not_both. Qed.
Print Assumptions C61_not_both.

(** C61: the arguments give a model exactly when they spell a list of functions, each a known name with its numbers and its anisotropies of
    dim * dim numbers, which the constructors accept with the given degree and nugget; the model consists of what they stand for, in order. *)
Theorem C61_accepts :
  forall (D : Type) (nonneg : D -> bool) (dzero done : D) (to_double : token -> D) (dim : nat) (positive : list D -> bool) ts nug deg rs d n,
  make_model nonneg dzero done to_double dim positive ts nug deg = Ok (Some (rs, d, n)) <->
  exists xs, ts = concat (map text xs) /\ Forall (well_formed dim) xs /\ Forall2 (means dzero done to_double positive) xs rs /\
    construct dzero (map fst rs) deg = Ok (mk_model (map fst rs) d dzero) /\ nonneg nug = true /\ n = nug.
Proof. exact @make_model_accepts. Qed.
Print Assumptions C61_accepts.

(** C61: anything else is answered by an exception: the loops end and nothing is read past the end. *)
Theorem C61_total :
  forall (D : Type) (nonneg : D -> bool) (dzero done : D) (to_double : token -> D) (dim : nat) (positive : list D -> bool) ts nug deg,
  (exists m, make_model nonneg dzero done to_double dim positive ts nug deg = Ok (Some m)) \/
  (exists e, make_model nonneg dzero done to_double dim positive ts nug deg = Throw e).
Proof. exact @make_model_total. Qed.
Print Assumptions C61_total.

(** C61: the spelling is unambiguous. *)
Theorem C61_unique_reading : forall dim xs ys, Forall (well_formed dim) xs -> Forall (well_formed dim) ys ->
  concat (map text xs) = concat (map text ys) -> xs = ys.
Proof. exact unique_reading. Qed.
Print Assumptions C61_unique_reading.

(** Doubles that remember their text. *)
Definition example_model (dim : nat) (args : list string) (deg : Z) : outcome (option (list arbf * Z * token)) :=
  make_model (fun x => negb (token_eqb x (tok "-1"%string))) (tok "0"%string) (tok "1"%string) (fun t => t) dim
    (fun l => negb (existsb (token_eqb (tok "-1"%string)) l)) (map tok args) (tok "0.5"%string) deg.
Local Open Scope string_scope.
Theorem C61_example :
  example_model 2 ["exp"; "1"; "2."; "aniso"; "1"; "2"; "3"; "4"; "aniso"; ".5"; "6"; "7e2"; "8"; "bh3"] (-2) =
    Ok (Some ([(mk_rbf Exp [tok "1"; tok "2."], Some [tok ".5"; tok "6"; tok "7e2"; tok "8"]); (mk_rbf Bh3 [tok "1"; tok "0"], None)], 0%Z, tok "0.5")) /\
  example_model 1 ["exp"; "1"] (-1) = Throw ExInvalidArgument /\
  example_model 1 ["expo"; "1"; "2"] (-1) = Throw ExRuntimeError /\
  example_model 1 ["exp"; "1"; "+2"] (-1) = Throw ExInvalidArgument /\
  example_model 1 ["exp"; "1"; "2"; "+2"] (-1) = Throw ExRuntimeError /\
  example_model 2 ["exp"; "1"; "2"; "aniso"; "1"; "2"; "3"] (-1) = Throw ExRuntimeError /\
  example_model 2 ["exp"; "1"; "2"; "aniso"; "1"; "2"; "3"; "4"; "5"] (-1) = Throw ExRuntimeError /\
  example_model 2 ["exp"; "1"; "2"; "aniso"; "1"; "2"; "3"; "-1"] (-1) = Throw ExInvalidArgument /\
  example_model 2 [] (-1) = Throw ExInvalidArgument /\
  (is_number (tok "-.5E+10") = true /\ is_number (tok ".") = false /\ is_number (tok "1e") = false /\ is_number (tok "+1") = false /\
   is_identifier (tok "_a1") = true /\ is_identifier (tok "1a") = false /\ is_identifier [] = false).
Proof. repeat split; vm_compute; reflexivity. Qed.
Print Assumptions C61_example.
