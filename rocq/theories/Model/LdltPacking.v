From Coq Require Import List Arith Bool.
From Verif Require Import Model.Outcome Model.BinaryCache.
Import ListNotations.

(** Packing of the LDLT factor into the on-disk cache (preconditioner/fine_grid.hpp:145-170).
    The matrix is row-major (types.hpp:9-10), n rows and n columns, stored as a flat list of n*n
    scalars; all sizes are counted in scalars instead of bytes (every length is a multiple of
    sizeof(double)). *)
Section Pack.

Variable A : Type.

(** std::memcpy of [len] scalars from offset [src] to offset [dst] of the same array: undefined when
    a range leaves the array or when the two ranges overlap. *)
Definition memcpy (a : list A) (dst src len : nat) : outcome (list A) :=
  if Nat.leb (dst + len) (length a) && Nat.leb (src + len) (length a) then
    if Nat.leb (dst + len) src || Nat.leb (src + len) dst then
      Ok (firstn dst a ++ firstn len (skipn src a) ++ skipn (dst + len) a)
    else UB
  else UB.

(** Loop body of save_ldlt_of_qtaq (fine_grid.hpp:158-170): row [row] goes to row*(row+1)/2. *)
Definition pack_row (n : nat) (a : list A) (row : nat) : outcome (list A) :=
  memcpy a (row * (row + 1) / 2) (row * n) (row + 1).

(** Loop body of load_ldlt_of_qtaq (fine_grid.hpp:145-156). *)
Definition unpack_row (n : nat) (a : list A) (row : nat) : outcome (list A) :=
  memcpy a (row * n) (row * (row + 1) / 2) (row + 1).

(** Helper without code of its own. *)
Fixpoint fold_rows (f : list A -> nat -> outcome (list A)) (rows : list nat) (a : list A)
  : outcome (list A) :=
  match rows with
  | [] => Ok a
  | r :: rows' => let* a' := f a r in fold_rows f rows' a'
  end.

(** for (row = 1; row < rows; row++) (fine_grid.hpp:162). *)
Definition pack (n : nat) (a : list A) : outcome (list A) :=
  fold_rows (pack_row n) (seq 1 (n - 1)) a.

(** for (row = rows - 1; row >= 1; row--) (fine_grid.hpp:150). *)
Definition unpack (n : nat) (a : list A) : outcome (list A) :=
  fold_rows (unpack_row n) (rev (seq 1 (n - 1))) a.

(** save_ldlt_of_qtaq (fine_grid.hpp:158-170): pack, then put the first rows*(rows+1)/2 scalars.
    The cache is used with scalars as its unit, and with a complete write. *)
Definition save (n : nat) (a : list A) (c : cache A) : outcome (nat * cache A) :=
  let* p := pack n a in
  let len := n * (n + 1) / 2 in
  if Nat.leb len (length p) then put c (firstn len p) len else UB.

(** load_ldlt_of_qtaq (fine_grid.hpp:145-156): the matrix is resized to n x n, its new memory
    [junk] has arbitrary contents. *)
Definition load (n : nat) (junk : list A) (c : cache A) (id : nat) : outcome (list A) :=
  let* b := get c id junk (n * (n + 1) / 2) in
  unpack n b.

End Pack.

Arguments memcpy {A}.
Arguments pack_row {A}.
Arguments unpack_row {A}.
Arguments fold_rows {A}.
Arguments pack {A}.
Arguments unpack {A}.
Arguments save {A}.
Arguments load {A}.
