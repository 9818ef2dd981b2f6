From Coq Require Import List Arith.
From Verif Require Import Model.Outcome.
Import ListNotations.

(** BinaryCache (preconditioner/binary_cache.hpp:18-105), POSIX branch.

    The temporary file is a byte string; [records] is records_ as (offset, size) pairs. Every call
    holds mutex_ for its whole duration (binary_cache.hpp:57 and 73), so a concurrent execution is a sequence of
    atomic calls in lock order. The results of ::write and ::read are ignored by the code
    (binary_cache.hpp:68, 82), so the number of bytes the operating system actually transfers is a parameter of
    each call. lseek is assumed to succeed; the offsets are unbounded (std::size_t/off_t overflow is
    not modelled). *)
Section Cache.

Variable Byte : Type.

(** Within preconditioner/binary_cache.hpp:18-105, binary_cache.hpp:57, binary_cache.hpp:68, 82. *)
Record cache := mk_cache { file : list Byte; records : list (nat * nat) }.

(** Constructor (binary_cache.hpp:20-41): an empty file and a first record (0, 0) (binary_cache.hpp:40). *)
Definition init : cache := mk_cache [] [(0, 0)].

(** put (binary_cache.hpp:72-89). [written] is what ::write transferred; the record is appended regardless.
    The offset is computed from the previous record (binary_cache.hpp:86), not from the file position.
    records_.back() (binary_cache.hpp:86) would be undefined on an empty vector. *)
Definition put (c : cache) (data : list Byte) (written : nat) : outcome (nat * cache) :=
  let file' := file c ++ firstn written data in
  let id := length (records c) in
  match rev (records c) with
  | [] => UB
  | (o, s) :: _ => Ok (id, mk_cache file' (records c ++ [(o + s, length data)]))
  end.

(** get (binary_cache.hpp:56-70). [buf] is the caller's memory at [data], [nread] what ::read is prepared to
    transfer (the full size in the absence of errors); it is additionally limited by the end of the
    file. Storing more bytes than the caller's memory holds is undefined. records_.at throws
    (binary_cache.hpp:59). *)
Definition get (c : cache) (id : nat) (buf : list Byte) (nread : nat) : outcome (list Byte) :=
  match nth_error (records c) id with
  | None => Throw ExOutOfRange
  | Some (o, s) =>
      let bytes := firstn (min nread s) (skipn o (file c)) in
      if Nat.leb (length bytes) (length buf) then Ok (bytes ++ skipn (length bytes) buf) else UB
  end.

(** A put as issued by some thread: the data and how much of it ::write accepted. *)
Fixpoint puts (c : cache) (ps : list (list Byte * nat)) : outcome (list nat * cache) :=
  match ps with
  | [] => Ok ([], c)
  | (d, w) :: ps' =>
      let* r := put c d w in
      let* rs := puts (snd r) ps' in
      Ok (fst r :: fst rs, snd rs)
  end.

End Cache.

Arguments mk_cache {Byte}.
Arguments file {Byte}.
Arguments records {Byte}.
Arguments init {Byte}.
Arguments put {Byte}.
Arguments get {Byte}.
Arguments puts {Byte}.
