From Coq Require Import List Arith Permutation.
From Verif Require Import Model.DomainDivider.
Import ListNotations.

(** The rounded size of a subdomain is (n + 512) / 2 up to the direction of a tie. *)
Definition rounding_ok (sub : nat -> nat) : Prop := forall n, 1024 < n -> n + 511 <= 2 * sub n <= n + 513.
Definition reorders (f : list mixed -> list mixed) : Prop := forall l, Permutation (f l) l.

(** The rows a domain is responsible for. *)
Definition owned (rows : list (nat * bool)) : list nat := map fst (filter snd rows).

(** A division of [pts] and [grads]: every index is owned once, a domain lists no index twice and starts with the
    polynomial points, and apart from these it is no larger than a leaf. *)
Definition division (dim : nat) (pts grads poly : list nat) (ds : list domain) : Prop :=
  Permutation (flat_map (fun d => owned (d_points d)) ds) pts /\
  Permutation (flat_map (fun d => owned (d_grads d)) ds) grads /\
  forall d, In d ds ->
    NoDup (map fst (d_points d)) /\ NoDup (map fst (d_grads d)) /\
    incl (map fst (d_points d)) pts /\ incl (map fst (d_grads d)) grads /\
    firstn (length poly) (map fst (d_points d)) = poly /\
    length (d_points d) + dim * length (d_grads d) <= 1024 + length poly.

(** The candidates for coarse points and their number of rows. *)
Definition candidates (pts grads poly : list nat) : list mixed :=
  map (fun i => Mixed i true false) (filter (fun i => negb (existsb (Nat.eqb i) poly)) pts) ++ map (fun i => Mixed i true true) grads.
Definition rows (dim : nat) (pts grads poly : list nat) : nat :=
  length (filter (fun i => negb (existsb (Nat.eqb i) poly)) pts) + dim * length grads.

(** A row of a nonempty list, and the top of a queue ordered by level. *)
Definition in_range (nearest : list mixed -> nat) : Prop := forall l, l <> [] -> nearest l < length l.
Definition tops (pick : list cluster -> nat) : Prop :=
  forall q, q <> [] -> exists c, nth_error q (pick q) = Some c /\ forall c', In c' q -> c_level c <= c_level c'.

(** The most rows one point can have. *)
Definition most (dim : nat) (grads : list nat) : nat := match grads with [] => 1 | _ => dim end.
(** A coarse selection: the polynomial points first, distinct points of the level, and the wanted number of rows up to what
    the last split added. *)
Definition selection (dim : nat) (pts grads poly : list nat) (wanted : nat) (idcs gidcs : list nat) : Prop :=
  exists rest, idcs = poly ++ rest /\ NoDup idcs /\ NoDup gidcs /\ incl rest pts /\ incl gidcs grads /\
    wanted <= length rest + dim * length gidcs <= Nat.max (most dim grads) (wanted + 2 * most dim grads - 2).
