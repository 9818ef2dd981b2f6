From Coq Require Import List Arith Bool Ascii.
From Verif Require Import Model.Table.
Import ListNotations.

(** A file made of whole lines. *)
Definition unlines (ls : list (list ascii)) : list ascii := flat_map (fun l => l ++ [newline]) ls.
Definition whole_line (l : list ascii) : Prop := ~ In newline l.

(** A printed cell that read_table can find again: it parses back, it is not empty, it does not start
    with '#', and no character of it is a delimiter, a line end or white space. *)
Definition good_cell {D : Type} (to_double : list ascii -> D) (to_string : D -> list ascii)
  (delims : list ascii) (x : D) : Prop :=
  to_double (to_string x) = x /\
  to_string x <> [] /\
  (forall c, In c (to_string x) -> ~ In c delims /\ is_space c = false /\ c <> hash).

(** The cells of a line. *)
Definition cells (delims line : list ascii) : list (list ascii) :=
  split_on (fun c => memb c delims) line.

(** The table that a list of lines stands for: the first non-comment line fixes the width; the rows are
    the non-comment lines of that width. *)
Definition table_of {D : Type} (to_double : list ascii -> D) (delims : list ascii)
  (ls : list (list ascii)) : option (list (list D)) :=
  match filter (fun l => negb (is_comment l)) ls with
  | [] => None
  | l0 :: rest =>
      Some (map (fun l => map (fun c => to_double (trim c)) (cells delims l))
              (filter (fun l => Nat.eqb (length (cells delims l)) (length (cells delims l0)))
                 (l0 :: rest)))
  end.
