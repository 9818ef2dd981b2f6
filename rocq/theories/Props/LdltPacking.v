From Coq Require Import List Arith Lia.
From Verif Require Import Model.Outcome Model.BinaryCache Model.LdltPacking Spec.BinaryCache.
From Verif Require Import Proofs.LdltPacking.
Import ListNotations.

(** C26: saving the factor of an n x n system and loading it back later, with any other factors saved
    before and in between, restores every entry on and below the diagonal, whatever the freshly
    resized matrix contained. *)
Theorem C26_save_load_lower_triangle :
  forall (A : Type) n (a junk : list A) before after, n <> 2 ->
  length a = n * n -> length junk = n * n ->
  Forall complete before -> Forall complete after ->
  exists ids0 c0 id c1 ids c2 a',
    puts init before = Ok (ids0, c0) /\ save n a c0 = Ok (id, c1) /\
    puts c1 after = Ok (ids, c2) /\ load n junk c2 id = Ok a' /\ length a' = n * n /\
    (forall r j, r < n -> j <= r -> nth_error a' (r * n + j) = nth_error a (r * n + j)).
Proof. exact save_load. Qed.
Print Assumptions C26_save_load_lower_triangle.

Example C26_save_load_lower_triangle_ex :
  let a := [11; 12; 13; 21; 22; 23; 31; 32; 33] in
  let junk := [0; 0; 0; 0; 0; 0; 0; 0; 0] in
  exists c, save 3 a init = Ok (1, c) /\ load 3 junk c 1 = Ok [11; 21; 22; 21; 22; 33; 31; 32; 33].
Proof. eexists; split; reflexivity. Qed.

(** C26: for a 2 x 2 factor the single row move has overlapping source and destination, which
    std::memcpy does not allow. *)
Theorem C26_two_by_two_refuted :
  forall (A : Type) (a : list A), length a = 4 -> pack 2 a = UB.
Proof. exact pack_two_ub. Qed.
Print Assumptions C26_two_by_two_refuted.

Example C26_two_by_two_ex : length [1; 2; 3; 4] = 4.
Proof. reflexivity. Qed.
