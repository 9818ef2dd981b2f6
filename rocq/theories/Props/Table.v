From Coq Require Import List Arith Bool Ascii.
From Verif Require Import Model.Outcome Model.Table Spec.Table Proofs.Table.
Import ListNotations.
Open Scope char_scope.

(** Examples: a number is a digit, None is NaN. *)
Definition ex_to_double (s : list ascii) : option ascii :=
  match s with [c] => if memb c ["0"; "1"; "2"; "3"; "4"] then Some c else None | _ => None end.
Definition ex_to_string (x : option ascii) : list ascii :=
  match x with Some c => [c] | None => ["n"; "a"; "n"] end.
Definition ex_delims : list ascii := [" "; "009"; ","].

(** C08: what a file of whole lines means: the first non-comment line fixes the width, and the rows are
    exactly the non-comment lines of that width, in order; with no such line the read throws. *)
Theorem C08_read_table_meaning :
  forall (D : Type) (to_double : list ascii -> D) ds ls, Forall whole_line ls ->
  read_table to_double ds (Some (unlines ls)) =
  match table_of to_double ds ls with Some t => Ok t | None => Throw ExRuntimeError end.
Proof. exact @read_table_spec. Qed.
Print Assumptions C08_read_table_meaning.

Example C08_read_table_meaning_ex :
  read_table ex_to_double ex_delims
    (Some (unlines [["#"; "a"]; ["1"; " "; "2"]; ["3"]; ["3"; ","; "x"; "013"]]))
  = Ok [[Some "1"; Some "2"]; [Some "3"; None]].
Proof. reflexivity. Qed.

(** C08: comment lines never change the result. *)
Theorem C08_comments_irrelevant :
  forall (D : Type) (to_double : list ascii -> D) ds ls, Forall whole_line ls ->
  read_table to_double ds (Some (unlines (filter (fun l => negb (is_comment l)) ls))) =
  read_table to_double ds (Some (unlines ls)).
Proof. exact @comments_irrelevant. Qed.
Print Assumptions C08_comments_irrelevant.

(** C08: a table that is written is read back, for every matrix with at least one row and column whose
    printed cells parse back, and every delimiter that the reader knows. *)
Theorem C08_write_read_round_trip :
  forall (D : Type) (to_double : list ascii -> D) (to_string : D -> list ascii) ds d n table,
  In d ds -> d <> newline -> table <> [] -> n <> 0 ->
  Forall (fun row => length row = n /\ Forall (good_cell to_double to_string ds) row) table ->
  read_table to_double ds (Some (write_table to_string d table)) = Ok table.
Proof. exact @round_trip. Qed.
Print Assumptions C08_write_read_round_trip.

Example C08_write_read_round_trip_ex :
  let t := [[Some "1"; Some "2"]; [None; Some "4"]] in
  Forall (fun row => length row = 2 /\ Forall (good_cell ex_to_double ex_to_string ex_delims) row) t /\
  write_table ex_to_string " " t
    = ["1"; " "; "2"; newline; "n"; "a"; "n"; " "; "4"; newline].
Proof.
  split; [|reflexivity].
  repeat constructor; try discriminate;
    cbn; try (intros C; repeat (destruct C as [C|C]; try discriminate); auto);
    repeat (destruct H as [<-|H]; [cbn; try tauto; try reflexivity; try discriminate;
      intros X; repeat (destruct X as [X|X]; try discriminate); auto|]); try contradiction.
Qed.

(** C08, the exception: after an empty first line every row with two or more cells is dropped. *)
Theorem C08_empty_first_line_refuted :
  forall (D : Type) (to_double : list ascii -> D) ds ls, Forall whole_line ls ->
  (forall l, In l ls -> length (cells ds l) <> 1) ->
  read_table to_double ds (Some (unlines ([] :: ls))) = Ok [[to_double []]].
Proof. exact @empty_first_line. Qed.
Print Assumptions C08_empty_first_line_refuted.

Example C08_empty_first_line_refuted_ex :
  read_table ex_to_double ex_delims (Some (unlines [[]; ["1"; " "; "2"]; ["3"; ","; "4"]]))
  = Ok [[None]].
Proof. reflexivity. Qed.

(** C08: a matrix without columns does not survive: it comes back with one column. *)
Theorem C08_no_columns_refuted :
  exists table : list (list (option ascii)), table <> [] /\
  read_table ex_to_double ex_delims (Some (write_table ex_to_string " " table)) <> Ok table.
Proof. exists [[]]. split; discriminate. Qed.
Print Assumptions C08_no_columns_refuted.
