From Coq Require Import List Arith Bool Lia Permutation.
From Verif Require Import Model.Outcome Model.DomainDivider Spec.DomainDivider Proofs.DomainDivider Proofs.DomainWrites Proofs.CoarsePoints.
Import ListNotations.

(** C22: division ends, and every point and gradient point is an inner point of exactly one subdomain; a
    subdomain lists nothing twice, starts with the polynomial points and has at most 1024 rows besides these. The
    geometry only enters through the sorting. *)
Theorem C22_division : forall dim sub sort pts grads poly, 1 <= dim <= 3 -> rounding_ok sub -> reorders sort ->
  NoDup pts -> NoDup grads -> NoDup poly -> incl poly pts ->
  exists fuel0 ds, (forall fuel, fuel0 <= fuel -> domains dim sub sort fuel pts grads poly = Some ds) /\ division dim pts grads poly ds.
Proof. exact domains_spec. Qed.
Print Assumptions C22_division.

(** The subdomain size of the source satisfies the condition on rounding, with ties to even or away from zero. *)
Theorem C22_rounding : rounding_ok (fun n => half_even (n + 512)) /\ rounding_ok (fun n => (n + 513) / 2).
Proof. exact rounding_exact. Qed.
Print Assumptions C22_rounding.

(** C22: whatever order the threads process the subdomains of a level in, no weight is written twice, every
    point and gradient component gets the value computed by its owner, and no other weight changes. *)
Theorem C22_schedule : forall (A : Type) dim, 1 <= dim -> forall mu ds lam pts grads poly ws (w : nat -> A),
  division dim pts grads poly ds -> NoDup pts -> NoDup grads -> (forall i, In i pts -> i < mu) ->
  Permutation ws (level_writes A dim mu ds lam) ->
  NoDup (map fst ws) /\
  (forall k d p i, nth_error ds k = Some d -> nth_error (d_points d) p = Some (i, true) -> store_all A ws w i = lam k p) /\
  (forall k d p i j, nth_error ds k = Some d -> nth_error (d_grads d) p = Some (i, true) -> j < dim ->
     store_all A ws w (mu + dim * i + j) = lam k (length (d_points d) + dim * p + j)) /\
  (forall i, ~ In i pts -> ~ (exists g j, In g grads /\ j < dim /\ i = mu + dim * g + j) -> store_all A ws w i = w i) /\
  (forall i, In i pts -> exists k d p, nth_error ds k = Some d /\ nth_error (d_points d) p = Some (i, true)) /\
  (forall i, In i grads -> exists k d p, nth_error ds k = Some d /\ nth_error (d_grads d) p = Some (i, true)).
Proof. exact level_spec. Qed.
Print Assumptions C22_schedule.

(** 1030 points are divided into two overlapping subdomains, each owning half of them. *)
Example C22_two_domains :
  option_map (map (fun d => (length (d_points d), length (owned (d_points d)), firstn 2 (d_points d))))
    (domains 1 (fun n => half_even (n + 512)) (fun l => l) 5 (seq 0 1030) [] [3; 7]) =
  Some [(771, 515, [(3, true); (7, true)]); (773, 515, [(3, false); (7, false)])].
Proof. vm_compute. reflexivity. Qed.

(** C23: if the level of the popped cluster were read before the pop, the selection would always end when no
    more rows are asked for than there are, and give the polynomial points followed by distinct points of the level, with
    the wanted number of rows; it is exact without gradients. *)
Theorem C23_selection : forall dim, 1 <= dim <= 3 -> forall arrange, reorders arrange -> forall nearest, in_range nearest ->
  forall pick level_read drain pts grads poly wanted, tops pick -> (forall c rest, level_read c rest = c_level c) ->
  (forall q, Permutation (drain q) q) -> NoDup pts -> NoDup grads -> NoDup poly ->
  candidates pts grads poly <> [] -> wanted <= rows dim pts grads poly ->
  exists fuel0 idcs gidcs, selection dim pts grads poly wanted idcs gidcs /\ forall fuel, fuel0 <= fuel ->
    choose_coarse_points dim arrange nearest pick false level_read drain fuel pts grads poly wanted = Some (Ok (idcs, gidcs)).
Proof. exact choose_total. Qed.
Print Assumptions C23_selection.

(** C23: whatever level the dangling reference yields, a selection that ends is a correct one. *)
Theorem C23_any_level : forall dim, 1 <= dim <= 3 -> forall arrange, reorders arrange -> forall nearest, in_range nearest ->
  forall pick, (forall q, q <> [] -> pick q < length q) -> forall level_read drain, (forall q, Permutation (drain q) q) ->
  forall fuel pts grads poly wanted, NoDup pts -> NoDup grads -> NoDup poly -> candidates pts grads poly <> [] ->
  match choose_coarse_points dim arrange nearest pick false level_read drain fuel pts grads poly wanted with
  | Some (Ok (idcs, gidcs)) => selection dim pts grads poly wanted idcs gidcs
  | Some _ => False
  | None => True
  end.
Proof. exact choose_sound. Qed.
Print Assumptions C23_any_level.

(** C23: as written every selection that has to divide a cluster reads an element of the queue after its pop. *)
Theorem C23_dangling_read_refuted : forall dim, 1 <= dim <= 3 -> forall arrange, reorders arrange -> forall nearest, in_range nearest ->
  forall pick, (forall q, q <> [] -> pick q < length q) -> forall level_read drain fuel pts grads poly wanted,
  candidates pts grads poly <> [] -> dim < wanted -> 0 < fuel ->
  choose_coarse_points dim arrange nearest pick true level_read drain fuel pts grads poly wanted = Some UB.
Proof. exact choose_strict. Qed.
Print Assumptions C23_dangling_read_refuted.

(** C23: asking for more rows than there are never ends. *)
Theorem C23_endless_refuted : forall dim, 1 <= dim <= 3 -> forall arrange, reorders arrange -> forall nearest, in_range nearest ->
  forall pick, (forall q, q <> [] -> pick q < length q) -> forall level_read drain fuel pts grads poly wanted,
  candidates pts grads poly <> [] -> rows dim pts grads poly < wanted ->
  choose_coarse_points dim arrange nearest pick false level_read drain fuel pts grads poly wanted = None.
Proof. exact choose_endless. Qed.
Print Assumptions C23_endless_refuted.

(** C23: a level whose points are all polynomial points has no center to start from. *)
Theorem C23_no_candidate_refuted : forall dim arrange nearest pick strict level_read drain fuel pts grads poly wanted,
  candidates pts grads poly = [] ->
  choose_coarse_points dim arrange nearest pick strict level_read drain fuel pts grads poly wanted = Some UB.
Proof. exact choose_empty. Qed.
Print Assumptions C23_no_candidate_refuted.

Definition lowest (q : list cluster) : nat :=
  fst (fold_left (fun b ic => if c_level (snd ic) <? snd b then (fst ic, c_level (snd ic)) else b)
    (combine (seq 0 (length q)) q) (0, match q with c :: _ => c_level c | [] => 0 end)).
(** Eight points of which two are polynomial ones, four rows wanted. *)
Example C23_four :
  choose_coarse_points 2 (fun l => l) (fun l => length l / 2) lowest false (fun c _ => c_level c) (fun q => q) 20
    (seq 10 8) [5] [11; 13] 4 = Some (Ok ([11; 13; 17; 14], [5])).
Proof. vm_compute. reflexivity. Qed.
