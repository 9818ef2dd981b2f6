From Coq Require Import List Arith Bool Lia.
From Verif Require Import Model.Outcome Model.DistanceFilter Spec.DistanceFilter Proofs.DistanceFilter.
Import ListNotations.

(** Examples: points on a line with natural coordinates. *)
Definition ex_close (d p q : nat) : bool := Nat.leb (p - q) d && Nat.leb (q - p) d.
Definition ex_search (ps : list nat) (p d : nat) : list nat :=
  filter (fun j => match nth_error ps j with Some q => ex_close d p q | None => false end)
         (rev (seq 0 (length ps))).
Definition ex_valid (d : nat) : bool := Nat.leb 1 d.

Lemma ex_search_ok : search_ok (fun d p q => ex_close d p q = true) ex_search.
Proof.
  intros ps p d j. unfold ex_search. rewrite filter_In, <- in_rev, in_seq. split.
  - intros [_ H]. destruct (nth_error ps j); [eauto|discriminate].
  - intros (q & Q & N). rewrite Q. split; auto. assert (j < length ps); [|lia].
    apply nth_error_Some. congruence.
Qed.
Lemma ex_sym : forall d p q, ex_close d p q = true -> ex_close d q p = true.
Proof. intros d p q. unfold ex_close. rewrite andb_comm. auto. Qed.

(** C10: filter(d, indices) is a greedy thinning of the given order: a sublist of it, pairwise not near,
    and every dropped index is near an earlier kept one. *)
Theorem C10_filter_is_greedy_thinning :
  forall (Pt D : Type) valid_distance near (search : list Pt -> Pt -> D -> list nat),
  search_ok near search -> (forall d p q, near d p q -> near d q p) ->
  forall s d order s',
  filter_indices valid_distance search s d order = Ok (Ok tt, s') ->
  points s' = points s /\ filtered s' = true /\
  thinning (near_at (near d) (points s)) order (filtered_indices_ s').
Proof. exact @filter_thinning. Qed.
Print Assumptions C10_filter_is_greedy_thinning.

(** C10: filter(d) keeps an increasing list of rows, pairwise not near; every dropped row is near a kept
    row with a smaller index; the first row is kept. *)
Theorem C10_filter_keeps_maximal_separated_subset :
  forall (Pt D : Type) valid_distance near (search : list Pt -> Pt -> D -> list nat),
  search_ok near search -> (forall d p q, near d p q -> near d q p) ->
  forall s d s',
  filter_all valid_distance search s d = Ok (Ok tt, s') ->
  let kept := filtered_indices_ s' in
  points s' = points s /\
  increasing kept /\
  (forall i, In i kept -> i < length (points s)) /\
  (forall i j, In i kept -> In j kept -> i <> j -> ~ near_at (near d) (points s) i j) /\
  (forall j, j < length (points s) -> ~ In j kept ->
     exists i, In i kept /\ i < j /\ near_at (near d) (points s) i j) /\
  (points s <> [] -> In 0 kept).
Proof. exact @filter_all_spec. Qed.
Print Assumptions C10_filter_keeps_maximal_separated_subset.

Example C10_filter_ex : exists s',
  filter_all ex_valid ex_search (init [0; 1; 2; 5; 6; 3]) 1 = Ok (Ok tt, s') /\
  filtered_indices_ s' = [0; 2; 3].
Proof. eexists. split; reflexivity. Qed.

(** C10: the filter succeeds for a valid distance and existing rows, and otherwise throws without
    changing anything. *)
Theorem C10_filter_defined :
  forall (Pt D : Type) valid_distance (search : list Pt -> Pt -> D -> list nat) s d order,
  valid_distance d = true -> Forall (fun i => i < length (points s)) order ->
  exists s', filter_indices valid_distance search s d order = Ok (Ok tt, s').
Proof. exact @filter_defined. Qed.
Print Assumptions C10_filter_defined.

Theorem C10_invalid_distance_rejected :
  forall (Pt D : Type) valid_distance (search : list Pt -> Pt -> D -> list nat) s d order,
  valid_distance d = false ->
  filter_indices valid_distance search s d order = Ok (Throw ExInvalidArgument, s).
Proof. exact @filter_rejects. Qed.
Print Assumptions C10_invalid_distance_rejected.

(** C10: operator() returns exactly the kept rows, in order. *)
Theorem C10_apply_returns_kept_rows :
  forall (Pt D : Type) valid_distance near (search : list Pt -> Pt -> D -> list nat),
  search_ok near search -> (forall d p q, near d p q -> near d q p) ->
  forall (A : Type) s d s' (m : list A),
  filter_all valid_distance search s d = Ok (Ok tt, s') -> length m = length (points s) ->
  exists r, apply s' m = Ok r /\ length r = length (filtered_indices_ s') /\
    forall k i, nth_error (filtered_indices_ s') k = Some i -> nth_error r k = nth_error m i.
Proof. exact @apply_spec. Qed.
Print Assumptions C10_apply_returns_kept_rows.

(** C10: tables of another height are rejected; nothing is available before filter(). *)
Theorem C10_apply_rejects_other_heights :
  forall (Pt D : Type) valid_distance near (search : list Pt -> Pt -> D -> list nat),
  search_ok near search -> (forall d p q, near d p q -> near d q p) ->
  forall (A : Type) s d s' (m : list A),
  filter_all valid_distance search s d = Ok (Ok tt, s') -> length m <> length (points s) ->
  apply s' m = Throw ExInvalidArgument.
Proof. exact @apply_rejects. Qed.
Print Assumptions C10_apply_rejects_other_heights.

Theorem C10_unfiltered_throws :
  forall (Pt A : Type) (ps : list Pt) (m : list A),
  apply (init ps) m = Throw ExRuntimeError /\ filtered_indices (init ps) = Throw ExRuntimeError.
Proof. intros Pt A. exact (@unfiltered Pt A). Qed.
Print Assumptions C10_unfiltered_throws.

(** C10: filtering the kept points again with the same distance keeps all of them. *)
Theorem C10_filter_idempotent :
  forall (Pt D : Type) valid_distance near (search : list Pt -> Pt -> D -> list nat),
  search_ok near search -> (forall d p q, near d p q -> near d q p) ->
  forall s d s' ps' s'',
  filter_all valid_distance search s d = Ok (Ok tt, s') ->
  apply s' (points s) = Ok ps' ->
  filter_all valid_distance search (init ps') d = Ok (Ok tt, s'') ->
  filtered_indices_ s'' = seq 0 (length ps') /\ apply s'' ps' = Ok ps'.
Proof. exact @filter_idempotent. Qed.
Print Assumptions C10_filter_idempotent.

Example C10_filter_idempotent_ex : exists s' s'',
  filter_all ex_valid ex_search (init [0; 1; 2; 5; 6; 3]) 1 = Ok (Ok tt, s') /\
  apply s' [0; 1; 2; 5; 6; 3] = Ok [0; 2; 5] /\
  filter_all ex_valid ex_search (init [0; 2; 5]) 1 = Ok (Ok tt, s'') /\
  filtered_indices_ s'' = [0; 1; 2].
Proof. do 2 eexists. repeat split; reflexivity. Qed.
