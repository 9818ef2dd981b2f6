(** Results of C++ calls: a value, a thrown exception, or undefined behaviour.
    Shared by all model files; models no particular piece of code. *)

Inductive exn : Type :=
| ExInvalidArgument   (* std::invalid_argument *)
| ExRuntimeError      (* std::runtime_error *)
| ExOutOfRange        (* std::out_of_range, thrown by .at() *)
| ExLengthError       (* std::length_error / std::bad_alloc from an impossible size *)
| ExBadOptional       (* std::bad_optional_access *).

(** Helper without code of its own. *)
Inductive outcome (A : Type) : Type :=
| Ok : A -> outcome A
| Throw : exn -> outcome A
| UB : outcome A.

Arguments Ok {A} _.
Arguments Throw {A} _.
Arguments UB {A}.

(** Helper without code of its own. *)
Definition bind {A B : Type} (x : outcome A) (f : A -> outcome B) : outcome B :=
  match x with
  | Ok a => f a
  | Throw e => Throw e
  | UB => UB
  end.

Notation "'let*' x ':=' e 'in' f" := (bind e (fun x => f))
  (at level 200, x name, e at level 100, f at level 200, right associativity).

(** Helper without code of its own. *)
Definition of_option {A : Type} (o : option A) : outcome A :=
  match o with Some a => Ok a | None => UB end.
