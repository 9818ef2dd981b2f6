From Coq Require Import String Ascii List Arith ZArith.
From Verif Require Import Model.RbfModel Model.ModelArgs Spec.RbfModel.
Import ListNotations.

(** The tokens: a number is an optional minus, digits with at most one point (a digit on one side of it at least) and an optional exponent;
    an identifier is a letter or underscore followed by letters, digits and underscores. *)
Definition digit_chars : list ascii := list_ascii_of_string "0123456789"%string.
Definition letter_chars : list ascii := list_ascii_of_string "_abcdefghijklmnopqrstuvwxyzABCDEFGHIJKLMNOPQRSTUVWXYZ"%string.
Definition digits (t : token) : Prop := Forall (fun c => In c digit_chars) t.
Definition mantissa (t : token) : Prop :=
  (exists a, digits a /\ a <> [] /\ (t = a \/ t = a ++ ["."%char])) \/ (exists a b, digits a /\ digits b /\ b <> [] /\ t = a ++ "."%char :: b).
Definition exponent (t : token) : Prop :=
  t = [] \/ exists e s a, (e = "E"%char \/ e = "e"%char) /\ (s = [] \/ s = ["+"%char] \/ s = ["-"%char]) /\ digits a /\ a <> [] /\ t = e :: s ++ a.
Definition number_text (t : token) : Prop := exists s m e, (s = [] \/ s = ["-"%char]) /\ mantissa m /\ exponent e /\ t = s ++ m ++ e.
Definition identifier_text (t : token) : Prop :=
  exists c t', t = c :: t' /\ In c letter_chars /\ Forall (fun c => In c (digit_chars ++ letter_chars)) t'.

Definition short_name (k : kind) : token :=
  list_ascii_of_string
    (match k with
     | Cub => "cub" | Exp => "exp" | Gau => "gau" | Gc3 => "gc3" | Gc5 => "gc5" | Gc7 => "gc7" | Gc9 => "gc9" | Sph => "sph" | Sp3 => "sp3"
     | Sp5 => "sp5" | Sp7 => "sp7" | Sp9 => "sp9" | Bh2 => "bh2" | Bh3 => "bh3" | Th2 => "th2" | Th3 => "th3"
     end)%string.
(** One function as it is written: its name, its parameters, and any number of anisotropies. *)
Record item := Item { i_name : token; i_params : list token; i_anisos : list (list token) }.
Definition text (x : item) : list token := i_name x :: i_params x ++ concat (map (fun a => list_ascii_of_string "aniso"%string :: a) (i_anisos x)).
Definition well_formed (dim : nat) (x : item) : Prop :=
  (exists k, i_name x = short_name k) /\ Forall number_text (i_params x) /\
  Forall (fun a => length a = dim * dim /\ Forall number_text a) (i_anisos x).
Section Meaning.
Context {D : Type}.
Variables (dzero done : D).
Variable to_double : token -> D.
Variable positive : list D -> bool.
(** What it stands for: the function of that name with these parameters and the last anisotropy; all of them must have a positive determinant. *)
Definition means (x : item) (r : rbf D * option (list D)) : Prop :=
  exists k ps, i_name x = short_name k /\ constructed_parameters dzero done k (map to_double (i_params x)) = Some ps /\ fst r = mk_rbf k ps /\
    Forall (fun a => positive (map to_double a) = true) (i_anisos x) /\
    snd r = match rev (i_anisos x) with [] => None | a :: _ => Some (map to_double a) end.
End Meaning.
