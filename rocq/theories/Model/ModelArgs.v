From Coq Require Import String Ascii List Arith ZArith Bool.
From Verif Require Import Model.Outcome Model.RbfModel.
Import ListNotations.

(** make_model (examples/common/make_model.hpp), which turns the arguments of --rbf, --nug and --deg into a model. *)
Definition token := list ascii.

(** std::regex_match: the whole token. The expressions used are built from sets of characters; matching is by derivatives. *)
Inductive regex := RNone | REmpty | RChar (set : ascii -> bool) | RSeq (a b : regex) | RAlt (a b : regex) | RStar (a : regex).
(** Helper without code of its own. *)
Fixpoint nullable (r : regex) : bool :=
  match r with
  | RNone | RChar _ => false | REmpty | RStar _ => true | RSeq a b => nullable a && nullable b | RAlt a b => nullable a || nullable b
  end.
(** Helper without code of its own. *)
Fixpoint derivative (c : ascii) (r : regex) : regex :=
  match r with
  | RNone | REmpty => RNone
  | RChar set => if set c then REmpty else RNone
  | RSeq a b => if nullable a then RAlt (RSeq (derivative c a) b) (derivative c b) else RSeq (derivative c a) b
  | RAlt a b => RAlt (derivative c a) (derivative c b)
  | RStar a => RSeq (derivative c a) (RStar a)
  end.
(** Within make_model.hpp:14-24. *)
Fixpoint regex_match (t : token) (r : regex) : bool := match t with [] => nullable r | c :: t' => regex_match t' (derivative c r) end.
(** Helper without code of its own. *)
Definition ROpt (r : regex) := RAlt r REmpty.
(** Helper without code of its own. *)
Definition RPlus (r : regex) := RSeq r (RStar r).
(** Helper without code of its own. *)
Definition range (lo hi c : ascii) : bool := (nat_of_ascii lo <=? nat_of_ascii c) && (nat_of_ascii c <=? nat_of_ascii hi).
(** Helper without code of its own. *)
Definition one (x c : ascii) : bool := Ascii.eqb x c.
Open Scope char_scope.
(** Within make_model.hpp:14-24. *)
Definition is_digit (c : ascii) : bool := range "0" "9" c.
(** Within make_model.hpp:14-24. *)
Definition is_letter (c : ascii) : bool := range "A" "Z" c || one "_" c || range "a" "z" c.
(** make_model.hpp:15: [A-Z_a-z][0-9A-Z_a-z]* *)
Definition identifier_regex : regex := RSeq (RChar is_letter) (RStar (RChar (fun c => is_digit c || is_letter c))).
(** make_model.hpp:21: -?([0-9]+\.?|[0-9]*\.[0-9]+)([Ee][+-]?[0-9]+)? *)
Definition number_regex : regex :=
  RSeq (ROpt (RChar (one "-")))
    (RSeq (RAlt (RSeq (RPlus (RChar is_digit)) (ROpt (RChar (one "."))))
                (RSeq (RStar (RChar is_digit)) (RSeq (RChar (one ".")) (RPlus (RChar is_digit)))))
      (ROpt (RSeq (RChar (fun c => one "E" c || one "e" c)) (RSeq (ROpt (RChar (fun c => one "+" c || one "-" c))) (RPlus (RChar is_digit)))))).
Close Scope char_scope.
(** is_identifier (make_model.hpp:14-18). *)
Definition is_identifier (t : token) : bool := regex_match t identifier_regex.
(** is_number (make_model.hpp:20-24). *)
Definition is_number (t : token) : bool := regex_match t number_regex.

(** Helper without code of its own. *)
Definition tok (s : string) : token := list_ascii_of_string s.
(** Helper without code of its own. *)
Definition token_eqb (a b : token) : bool := if list_eq_dec ascii_dec a b then true else false.
(** kShortName (the RBF headers) in the order of make_rbf.hpp:30-45. *)
Definition short_names : list (token * kind) :=
  [(tok "bh2"%string, Bh2); (tok "bh3"%string, Bh3); (tok "cub"%string, Cub); (tok "exp"%string, Exp); (tok "gau"%string, Gau); (tok "gc3"%string, Gc3); (tok "gc5"%string, Gc5);
   (tok "gc7"%string, Gc7); (tok "gc9"%string, Gc9); (tok "sph"%string, Sph); (tok "sp3"%string, Sp3); (tok "sp5"%string, Sp5); (tok "sp7"%string, Sp7); (tok "sp9"%string, Sp9);
   (tok "th2"%string, Th2); (tok "th3"%string, Th3)].
(** Within make_rbf.hpp:30-45. *)
Definition kind_of (name : token) : option kind := option_map snd (find (fun x => token_eqb name (fst x)) short_names).
(** Within make_rbf.hpp:30-45. *)
Definition aniso_word : token := tok "aniso"%string.

Section Args.
(** Doubles as in RbfModel; to_double (include/polatory/numeric/conv.hpp:12-16), the dimension, and the test of the determinant in
    set_anisotropy (rbf_base.hpp:73-79) for the entries given row by row. *)
Context {D : Type}.
Variable nonneg : D -> bool.
Variables (dzero done : D).
Variable to_double : token -> D.
Variable dim : nat.
Variable positive : list D -> bool.

(** An RBF and its anisotropy, None for the identity. *)
Definition arbf := (rbf D * option (list D))%type.
(** make_rbf (make_rbf.hpp:23-50). *)
Definition make_rbf (name : token) (ps : list D) : outcome (rbf D) :=
  match kind_of name with None => Throw ExRuntimeError | Some k => make dzero done k ps end.
(** make_model.hpp:48-51. *)
Fixpoint numbers (ts : list token) : list D * list token :=
  match ts with
  | t :: ts' => if is_number t then (to_double t :: fst (numbers ts'), snd (numbers ts')) else ([], ts)
  | [] => ([], [])
  end.
(** make_model.hpp:59-66; throw_unexpected_input (make_model.hpp:26-33) throws in both of its cases. *)
Fixpoint exactly (k : nat) (ts : list token) : outcome (list D * list token) :=
  match k with
  | 0 => Ok ([], ts)
  | S k' =>
      match ts with
      | t :: ts' => if is_number t then let* r := exactly k' ts' in Ok (to_double t :: fst r, snd r) else Throw ExRuntimeError
      | [] => Throw ExRuntimeError
      end
  end.
(** make_model.hpp:55-72; Ok None if the fuel is used up. *)
Fixpoint anisos (fuel : nat) (a : option (list D)) (ts : list token) : outcome (option (option (list D) * list token)) :=
  match ts with
  | t :: ts' =>
      if token_eqb t aniso_word then
        match fuel with
        | 0 => Ok None
        | S fuel' => let* r := exactly (dim * dim) ts' in if positive (fst r) then anisos fuel' (Some (fst r)) (snd r) else Throw ExInvalidArgument
        end
      else Ok (Some (a, ts))
  | [] => Ok (Some (a, ts))
  end.
(** make_model.hpp:45-75. *)
Fixpoint rbf_list (fuel : nat) (ts : list token) : outcome (option (list arbf * list token)) :=
  match ts with
  | name :: ts' =>
      if is_identifier name then
        match fuel with
        | 0 => Ok None
        | S fuel' =>
            let '(ps, rest) := numbers ts' in
            let* r := make_rbf name ps in
            let* x := anisos fuel None rest in
            match x with
            | None => Ok None
            | Some (a, rest) =>
                let* y := rbf_list fuel' rest in
                match y with None => Ok None | Some (rs, rest) => Ok (Some ((r, a) :: rs, rest)) end
            end
        end
      else Ok (Some ([], ts))
  | [] => Ok (Some ([], []))
  end.
(** make_model.hpp:77-84: the constructor of the model and set_nugget; the anisotropies go along. *)
Definition make_model (ts : list token) (nug : D) (deg : Z) : outcome (option (list arbf * Z * D)) :=
  let* x := rbf_list (length ts) ts in
  match x with
  | None => Ok None
  | Some (rs, rest) =>
      match rest with
      | _ :: _ => Throw ExRuntimeError
      | [] =>
          let* m := construct dzero (map fst rs) deg in
          match set_nugget nonneg m nug with (Ok _, m) => Ok (Some (rs, poly_degree m, nugget m)) | (Throw e, _) => Throw e | (UB, _) => UB end
      end
  end.
End Args.
