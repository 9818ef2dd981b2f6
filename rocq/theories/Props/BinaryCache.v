From Coq Require Import List Arith Lia.
From Verif Require Import Model.Outcome Model.BinaryCache Spec.BinaryCache Proofs.BinaryCache.
Import ListNotations.

(** C25: whatever puts other threads get in before and after (each atomic under the mutex and
    completely written), a get with the id returned by a put delivers exactly that put's bytes at the
    start of the caller's buffer and touches nothing else; the id is unique among all puts. *)
Theorem C25_get_returns_what_was_put :
  forall (Byte : Type) (before after : list (list Byte * nat)) (data buf : list Byte),
  Forall complete before -> Forall complete after -> length data <= length buf ->
  exists id c1 c2 ids,
    (exists ids0 c0, puts init before = Ok (ids0, c0) /\ put c0 data (length data) = Ok (id, c1) /\
                     ~ In id ids0) /\
    puts c1 after = Ok (ids, c2) /\ ~ In id ids /\
    get c2 id buf (length data) = Ok (received data buf).
Proof. exact get_put. Qed.
Print Assumptions C25_get_returns_what_was_put.

Example C25_get_returns_what_was_put_ex :
  Forall complete [([1; 2; 3], 3); ([], 0)] /\
  exists c, puts init [([1; 2; 3], 3); ([], 0); ([7; 8], 2); ([9], 1)] = Ok ([1; 2; 3; 4], c) /\
            get c 3 [0; 0; 5] 2 = Ok [7; 8; 5].
Proof. split; [repeat constructor|]. eexists; split; reflexivity. Qed.

(** C25: an id that no put returned (other than the built-in empty record 0) is rejected. *)
Theorem C25_unknown_id_rejected :
  forall (Byte : Type) (ps : list (list Byte * nat)) ids c id buf n,
  puts init ps = Ok (ids, c) -> ~ In id ids -> id <> 0 -> get c id buf n = Throw ExOutOfRange.
Proof. exact get_unknown. Qed.
Print Assumptions C25_unknown_id_rejected.

Example C25_unknown_id_rejected_ex :
  exists c, puts init [([4; 5], 2)] = Ok ([1], c) /\ get c 2 [0; 0] 2 = Throw ExOutOfRange.
Proof. eexists; split; reflexivity. Qed.

(** C25: when the operating system performs one write only partly, a later and completely written
    entry reads back as different bytes, with no error reported anywhere. *)
Theorem C25_short_write_refuted :
  exists (d1 d2 : list nat) (w : nat) ids c,
    w < length d1 /\ puts init [(d1, w); (d2, length d2)] = Ok (ids, c) /\
    get c (nth 1 ids 0) [0; 0] (length d2) = Ok [6; 0] /\ d2 = [5; 6].
Proof. exact short_write_refuted. Qed.
Print Assumptions C25_short_write_refuted.
