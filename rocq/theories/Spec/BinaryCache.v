From Coq Require Import List Arith.
Import ListNotations.

(** A write that the operating system performed completely. *)
Definition complete {Byte : Type} (p : list Byte * nat) : Prop := snd p = length (fst p).

(** The caller's memory after receiving [data] at its beginning. *)
Definition received {Byte : Type} (data buf : list Byte) : list Byte :=
  data ++ skipn (length data) buf.
