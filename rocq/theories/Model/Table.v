From Coq Require Import List Arith Bool Ascii.
From Verif Require Import Model.Outcome.
Import ListNotations.

(** Text tables (include/polatory/table.hpp). Texts are lists of characters; the warning printed for a
    skipped line is not modelled, and reading never fails part-way (no I/O errors). *)
Section Table.

Context {D : Type}.
(** numeric::to_double applied to a trimmed cell (NaN when it does not parse; it may ignore a
    trailing part) and numeric::to_string (numeric/conv.hpp:12-31). *)
Variable to_double : list ascii -> D.
Variable to_string : D -> list ascii.

(** Helper without code of its own. *)
Definition newline : ascii := "010".
(** Helper without code of its own. *)
Definition hash : ascii := "#".
(** Helper without code of its own. *)
Definition memb (c : ascii) (s : list ascii) : bool := existsb (Ascii.eqb c) s.

(** Pieces between separators (boost::split without token compression; the empty text gives one
    empty piece). *)
Fixpoint split_on (sep : ascii -> bool) (s : list ascii) : list (list ascii) :=
  match s with
  | [] => [[]]
  | c :: s' =>
      if sep c then [] :: split_on sep s'
      else match split_on sep s' with
           | [] => [[c]]
           | p :: ps => (c :: p) :: ps
           end
  end.

(** What the std::getline loop sees: a last piece without characters is not a line. *)
Fixpoint drop_last_empty (ps : list (list ascii)) : list (list ascii) :=
  match ps with
  | [] => []
  | [[]] => []
  | p :: ps' => p :: drop_last_empty ps'
  end.
(** Within table.hpp:27-50. *)
Definition getlines (file : list ascii) : list (list ascii) :=
  drop_last_empty (split_on (Ascii.eqb newline) file).

(** boost::trim_copy in the classic locale. *)
Definition is_space (c : ascii) : bool :=
  memb c [" "; "009"; "010"; "011"; "012"; "013"]%char.
(** Helper without code of its own. *)
Fixpoint trim_left (s : list ascii) : list ascii :=
  match s with
  | [] => []
  | c :: s' => if is_space c then trim_left s' else s
  end.
(** Within table.hpp:27-50. *)
Definition trim (s : list ascii) : list ascii := rev (trim_left (rev (trim_left s))).

(** boost::starts_with(line, "#"). *)
Definition is_comment (line : list ascii) : bool :=
  match line with [] => false | c :: _ => Ascii.eqb c hash end.

(** The loop (table.hpp:27-52): [n_cols] and [buffer]. *)
Fixpoint read_lines (delims : list ascii) (lines : list (list ascii)) (n_cols : nat)
  (buffer : list D) : nat * list D :=
  match lines with
  | [] => (n_cols, buffer)
  | line :: rest =>
      if is_comment line then read_lines delims rest n_cols buffer
      else
        let row := split_on (fun c => memb c delims) line in
        let row_size := length row in
        if Nat.eqb n_cols 0 then
          read_lines delims rest row_size (buffer ++ map (fun c => to_double (trim c)) row)
        else if negb (Nat.eqb row_size n_cols) then read_lines delims rest n_cols buffer
        else read_lines delims rest n_cols (buffer ++ map (fun c => to_double (trim c)) row)
  end.

(** MatX::Map(buffer.data(), n_rows, n_cols), row major. *)
Fixpoint reshape (n_rows n_cols : nat) (buffer : list D) : list (list D) :=
  match n_rows with
  | 0 => []
  | S r => firstn n_cols buffer :: reshape r n_cols (skipn n_cols buffer)
  end.

(** read_table (table.hpp:16-60); None is a file that cannot be opened. A table is its list of rows. *)
Definition read_table (delims : list ascii) (file : option (list ascii)) : outcome (list (list D)) :=
  match file with
  | None => Throw ExRuntimeError
  | Some text =>
      let (n_cols, buffer) := read_lines delims (getlines text) 0 [] in
      if Nat.eqb n_cols 0 then Throw ExRuntimeError
      else Ok (reshape (length buffer / n_cols) n_cols buffer)
  end.

(** write_table (table.hpp:62-80). *)
Fixpoint write_row (delim : ascii) (row : list D) : list ascii :=
  match row with
  | [] => []
  | [x] => to_string x
  | x :: row' => to_string x ++ delim :: write_row delim row'
  end.
(** write_table (table.hpp:62-80). *)
Definition write_table (delim : ascii) (table : list (list D)) : list ascii :=
  flat_map (fun row => write_row delim row ++ [newline]) table.

End Table.
