From Coq Require Import List Arith Bool Lia Permutation Sorted.
From Verif Require Import Model.Outcome Model.DomainDivider Spec.DomainDivider Proofs.LatticeVertices.
Import ListNotations.

Fixpoint sumn (l : list nat) : nat := match l with [] => 0 | x :: l' => x + sumn l' end.
Lemma sumn_app : forall a b, sumn (a ++ b) = sumn a + sumn b.
Proof. intros a b. induction a as [|x a IH]; cbn [sumn app]; lia. Qed.
Definition key (p : mixed) : nat * bool := (x_index p, x_grad p).
Definition inner_of (d : domain) : list mixed := filter x_inner (mix d).

Lemma perm_filter : forall (A : Type) (f : A -> bool) l l', Permutation l l' -> Permutation (filter f l) (filter f l').
Proof.
  intros A f l l' P. induction P; cbn; auto.
  - destruct (f x); auto.
  - destruct (f x), (f y); auto. apply perm_swap.
  - eapply Permutation_trans; eauto.
Qed.
Lemma perm_split : forall (A : Type) (f : A -> bool) l, Permutation (filter (fun x => negb (f x)) l ++ filter f l) l.
Proof.
  intros A f l. induction l as [|x l IH]; cbn; auto. destruct (f x); cbn; [|constructor; auto].
  apply Permutation_sym, Permutation_cons_app, Permutation_sym. exact IH.
Qed.

Lemma mix_unmix : forall ps, Permutation (mix (unmix ps)) ps.
Proof.
  intros ps. unfold mix, unmix. cbn [d_points d_grads]. rewrite !map_map. cbn [fst snd].
  rewrite <- (perm_split _ x_grad ps) at 3. apply Permutation_app.
  - erewrite (map_ext_in _ (fun p => p)); [rewrite map_id; auto|]. intros [i b g] H. apply filter_In in H. destruct H as [_ H]. cbn in *. destruct g; [discriminate|auto].
  - erewrite (map_ext_in _ (fun p => p)); [rewrite map_id; auto|]. intros [i b g] H. apply filter_In in H. destruct H as [_ H]. cbn in *. destruct g; [auto|discriminate].
Qed.

(** ** Sizes *)
Section Sizes.
Variable dim : nat.
Hypothesis DIM : 1 <= dim <= 3.
Definition total (ps : list mixed) : nat := sumn (map (mult dim) ps).
Lemma total_app : forall a b, total (a ++ b) = total a + total b.
Proof. intros a b. unfold total. rewrite map_app, sumn_app. reflexivity. Qed.
Lemma total_perm : forall a b, Permutation a b -> total a = total b.
Proof. intros a b P. unfold total. induction P; cbn [map sumn] in *; lia. Qed.
Lemma mult_bounds : forall p, 1 <= mult dim p <= dim.
Proof. intros p. unfold mult. destruct (x_grad p); lia. Qed.
Lemma total_mix : forall d, total (mix d) = size dim d.
Proof.
  intros d. unfold mix, size. rewrite total_app. unfold total. rewrite !map_map. cbn [mult x_grad].
  assert (forall (l : list (nat * bool)) c, sumn (map (fun _ => c) l) = c * length l) as H.
  { intros l c. induction l as [|x l IH]; cbn; [lia|rewrite IH; lia]. }
  change (fun x : nat * bool => mult dim {| x_index := fst x; x_inner := snd x; x_grad := false |}) with (fun _ : nat * bool => 1).
  change (fun x : nat * bool => mult dim {| x_index := fst x; x_inner := snd x; x_grad := true |}) with (fun _ : nat * bool => dim).
  rewrite !H. lia.
Qed.
Lemma total_mark : forall left mid ps i, total (mark left mid i ps) = total ps.
Proof. intros left mid ps. induction ps as [|p ps IH]; intros i; cbn [mark]; auto. unfold total in *. cbn [map sumn] in *. rewrite <- (IH (S i)). reflexivity. Qed.
Lemma size_unmix : forall ps, size dim (unmix ps) = total ps.
Proof. intros ps. rewrite <- total_mix. apply total_perm, mix_unmix. Qed.

(** The rows chosen by upper_bound. *)
Lemma prefix_nth : forall ps acc k, k <= length ps -> nth k (prefix dim acc ps) 0 = acc + total (firstn k ps).
Proof.
  induction ps as [|p ps IH]; intros acc k L; cbn [length] in L.
  - replace k with 0 by lia. cbn. unfold total. cbn. lia.
  - destruct k as [|k]; cbn [prefix nth firstn]; [unfold total; cbn; lia|]. rewrite IH by lia. unfold total. cbn. lia.
Qed.
Lemma prefix_length : forall ps acc, length (prefix dim acc ps) = S (length ps).
Proof. induction ps as [|p ps IH]; intros acc; cbn [prefix length]; auto. Qed.
Lemma upper_bound_spec : forall l x, (forall k, k < upper_bound l x -> nth k l 0 <= x) /\ upper_bound l x <= length l /\
  (upper_bound l x < length l -> x < nth (upper_bound l x) l 0).
Proof.
  induction l as [|y l IH]; intros x; cbn [upper_bound]; [cbn; repeat split; lia|].
  destruct (Nat.leb_spec y x).
  - destruct (IH x) as (A & B & C). split; [|split; cbn; [lia|]].
    + intros [|k] K; cbn; [auto|]. apply A. lia.
    + intros K. apply C. lia.
  - cbn. repeat split; intros; lia.
Qed.
Lemma cut_spec : forall ps x, cut dim ps x <= length ps /\ total (firstn (cut dim ps x) ps) <= x /\
  (cut dim ps x < length ps -> x < total (firstn (S (cut dim ps x)) ps)).
Proof.
  intros ps x. unfold cut. destruct (upper_bound_spec (prefix dim 0 ps) x) as (A & B & C). rewrite prefix_length in *.
  assert (1 <= upper_bound (prefix dim 0 ps) x) as P. { destruct ps; cbn [prefix upper_bound]; destruct (Nat.leb_spec 0 x); lia. }
  set (u := upper_bound (prefix dim 0 ps) x) in *. split; [lia|]. split.
  - specialize (A (u - 1)). rewrite prefix_nth in A by lia. apply A. lia.
  - intros L. replace (S (u - 1)) with u by lia. rewrite prefix_nth in C by lia. apply C. lia.
Qed.
Lemma total_firstn : forall ps j k, j <= k -> total (firstn j ps) <= total (firstn k ps).
Proof.
  induction ps as [|p ps IH]; intros j k L; [rewrite !firstn_nil; auto|]. destruct j as [|j]; [unfold total; cbn; lia|]. destruct k as [|k]; [lia|].
  specialize (IH j k). unfold total in *. cbn. lia.
Qed.
Lemma total_next : forall ps k, total (firstn (S k) ps) <= total (firstn k ps) + dim.
Proof.
  induction ps as [|p ps IH]; intros k; [rewrite !firstn_nil; lia|]. destruct k as [|k].
  - pose proof (mult_bounds p). unfold total. cbn. lia.
  - specialize (IH k). unfold total in *. cbn in *. lia.
Qed.
Lemma cut_mono : forall ps x y, x <= y -> cut dim ps x <= cut dim ps y.
Proof.
  intros ps x y L. destruct (cut_spec ps x) as (A & B & C), (cut_spec ps y) as (A' & B' & C').
  destruct (Nat.le_gt_cases (cut dim ps x) (cut dim ps y)) as [|G]; auto. exfalso.
  assert (y < total (firstn (S (cut dim ps y)) ps)) as H by (apply C'; lia).
  pose proof (total_firstn ps (S (cut dim ps y)) (cut dim ps x)). lia.
Qed.

(** ** One division *)
Variable sub : nat -> nat.
Hypothesis SUB : rounding_ok sub.
Variable sort : list mixed -> list mixed.
Hypothesis SORT : reorders sort.

Lemma half_even_bounds : forall n, n <= 2 * half_even n + 1 /\ 2 * half_even n <= n + 1.
Proof.
  intros n. unfold half_even. pose proof (Nat.div_mod n 2 ltac:(lia)) as D. pose proof (Nat.mod_upper_bound n 2 ltac:(lia)) as M.
  destruct (Nat.even n) eqn:EV.
  - apply Nat.even_spec in EV. destruct EV as [m ->]. rewrite (Nat.mul_comm 2 m), Nat.div_mul by lia. lia.
  - assert (n mod 2 = 1) as O.
    { destruct (Nat.eq_dec (n mod 2) 0) as [Z|]; [|lia]. assert (Nat.even n = true); [|congruence]. apply Nat.even_spec. exists (n / 2). lia. }
    destruct (Nat.even (n / 2)); lia.
Qed.

Lemma mark_left : forall mid ps i, filter x_inner (mark true mid i ps) = filter x_inner (firstn (mid - i) ps).
Proof.
  intros mid ps. induction ps as [|[n b g] ps IH]; intros i; cbn [mark]; [rewrite firstn_nil; reflexivity|].
  destruct (Nat.ltb_spec i mid) as [L|L].
  - replace (mid - i) with (S (mid - S i)) by lia. cbn [firstn filter]. unfold keep_inner. cbn [x_inner x_index x_grad]. rewrite andb_true_r, IH. reflexivity.
  - replace (mid - i) with 0 by lia. cbn [firstn filter]. unfold keep_inner. cbn [x_inner x_index x_grad]. rewrite andb_false_r, IH. replace (mid - S i) with 0 by lia. reflexivity.
Qed.
Lemma mark_right : forall mid ps i, filter x_inner (mark false mid i ps) = filter x_inner (skipn (mid - i) ps).
Proof.
  intros mid ps. induction ps as [|[n b g] ps IH]; intros i; cbn [mark]; [rewrite skipn_nil; reflexivity|].
  destruct (Nat.leb_spec mid i) as [L|L].
  - replace (mid - i) with 0 by lia. cbn [skipn filter]. unfold keep_inner. cbn [x_inner x_index x_grad]. rewrite andb_true_r, IH. replace (mid - S i) with 0 by lia. reflexivity.
  - replace (mid - i) with (S (mid - S i)) by lia. cbn [skipn filter]. unfold keep_inner. cbn [x_inner x_index x_grad]. rewrite andb_false_r, IH. reflexivity.
Qed.
Lemma mark_keys : forall left mid ps i, map key (mark left mid i ps) = map key ps.
Proof. intros left mid ps. induction ps as [|p ps IH]; intros i; cbn [mark map]; f_equal; auto. Qed.

Lemma skipn_add : forall (A : Type) (l : list A) a b, skipn a (skipn b l) = skipn (b + a) l.
Proof. intros A l a b. revert l. induction b as [|b IH]; intros l; [reflexivity|]. destruct l; [rewrite !skipn_nil; reflexivity|]. apply IH. Qed.

Lemma divide_domain_spec : forall d, max_leaf < size dim d -> let lr := divide_domain dim sub sort d in
  Permutation (inner_of (fst lr) ++ inner_of (snd lr)) (inner_of d) /\
  size dim (fst lr) < size dim d /\ size dim (snd lr) < size dim d /\
  (forall x, x = fst lr \/ x = snd lr -> (NoDup (map key (mix d)) -> NoDup (map key (mix x))) /\ incl (map key (mix x)) (map key (mix d))).
Proof.
  intros d L. unfold divide_domain. cbn zeta. set (ps := sort (mix d)). set (n := size dim d) in *. unfold max_leaf in L.
  pose proof (SUB n L) as SB. pose proof (SORT (mix d)) as PS. fold ps in PS.
  assert (total ps = n) as TP by (rewrite (total_perm _ _ PS); apply total_mix).
  replace (n - sub n + sub n) with n by lia. pose proof (half_even_bounds n) as HE.
  set (l := cut dim ps (n - sub n)). set (r := cut dim ps (sub n)). set (mid := cut dim ps (half_even n)).
  assert (l <= mid /\ mid <= r) as [LM MR] by (split; apply cut_mono; lia).
  cbn [fst snd]. split; [|split; [|split]].
  - unfold inner_of. rewrite (perm_filter _ _ _ _ (mix_unmix _)), (perm_filter _ _ _ _ (mix_unmix (mark false _ _ _))).
    rewrite mark_left, mark_right, Nat.sub_0_r, firstn_firstn, Nat.min_l, skipn_add by lia.
    replace (l + (mid - l)) with mid by lia. rewrite <- filter_app, firstn_skipn. apply perm_filter. exact PS.
  - rewrite size_unmix, total_mark. destruct (cut_spec ps (sub n)) as (_ & B & _). fold r in B. lia.
  - rewrite size_unmix, total_mark. destruct (cut_spec ps (n - sub n)) as (A & B & C). fold l in A, B, C.
    pose proof (total_next ps l) as TN. rewrite <- (firstn_skipn l ps), total_app in TP. destruct (Nat.eq_dec l (length ps)) as [EQ|NE].
    + rewrite EQ, skipn_all. unfold total at 1. cbn. lia.
    + specialize (C ltac:(lia)). lia.
  - assert (Permutation (map key ps) (map key (mix d))) as PK by (apply Permutation_map; auto).
    assert (forall qs k, (forall z, In z qs -> In z ps) -> (NoDup (map key ps) -> NoDup (map key qs)) -> 
      (forall lf, (NoDup (map key (mix d)) -> NoDup (map key (mix (unmix (mark lf mid k qs))))) /\ incl (map key (mix (unmix (mark lf mid k qs)))) (map key (mix d)))) as G.
    { intros qs k IN ND lf. assert (Permutation (map key (mix (unmix (mark lf mid k qs)))) (map key qs)) as PQ.
      { rewrite (Permutation_map key (mix_unmix _)). rewrite mark_keys. auto. }
      split.
      - intros H. apply (Permutation_NoDup (Permutation_sym PQ)). apply ND. apply (Permutation_NoDup (Permutation_sym PK)). auto.
      - intros z Z. apply (Permutation_in _ PK). apply (Permutation_in _ PQ) in Z. apply in_map_iff in Z. destruct Z as (q & <- & Q). apply in_map. auto. }
    intros x [->| ->]; apply G.
    + intros z Z. rewrite <- (firstn_skipn r ps). apply in_app_iff. auto.
    + intros H. rewrite <- (firstn_skipn r ps), map_app in H. clear - H. induction (map key (firstn r ps)) as [|y ys IH]; [constructor|].
      inversion H; subst. constructor; auto. rewrite in_app_iff in *. tauto.
    + intros z Z. rewrite <- (firstn_skipn l ps). apply in_app_iff. auto.
    + intros H. rewrite <- (firstn_skipn l ps), map_app in H. clear - H. induction (map key (firstn l ps)) as [|y ys IH]; [auto|].
      inversion H; subst. auto.
Qed.

(** ** The loop *)
Definition weight (ds : list domain) : nat := sumn (map (fun d => 3 ^ size dim d) ds).
Lemma weight_app : forall a b, weight (a ++ b) = weight a + weight b.
Proof. intros a b. unfold weight. rewrite map_app, sumn_app. reflexivity. Qed.
Lemma pow_pos : forall n, 1 <= 3 ^ n.
Proof. intros n. induction n; cbn; lia. Qed.
Lemma pow_lt : forall a b n, a < n -> b < n -> 3 ^ a + 3 ^ b < 3 ^ n.
Proof.
  intros a b n A B. destruct n as [|n]; [lia|].
  assert (3 ^ a <= 3 ^ n) by (apply Nat.pow_le_mono_r; lia). assert (3 ^ b <= 3 ^ n) by (apply Nat.pow_le_mono_r; lia).
  pose proof (pow_pos n). rewrite Nat.pow_succ_r'. lia.
Qed.

Definition fine_domain (d0 d : domain) : Prop := NoDup (map key (mix d)) /\ incl (map key (mix d)) (map key (mix d0)).

Lemma divide_spec : forall fuel done todo d0, weight todo <= fuel ->
  Permutation (flat_map inner_of (done ++ todo)) (mix d0) -> Forall (fine_domain d0) (done ++ todo) -> Forall (fun d => size dim d <= 1024) done ->
  exists ds, divide dim sub sort fuel done todo = Some ds /\ Permutation (flat_map inner_of ds) (mix d0) /\ Forall (fine_domain d0) ds /\ Forall (fun d => size dim d <= 1024) ds.
Proof.
  induction fuel as [|fuel IH]; intros done todo d0 W P F S.
  - destruct todo as [|d todo].
    + cbn. rewrite app_nil_r in *. eauto.
    + exfalso. unfold weight in W. cbn in W. pose proof (pow_pos (size dim d)). lia.
  - destruct todo as [|d todo]; cbn [divide]; [rewrite app_nil_r in *; eauto|].
    assert (weight (d :: todo) = 3 ^ size dim d + weight todo) as WE by reflexivity. pose proof (pow_pos (size dim d)) as PP.
    destruct (Nat.leb_spec (size dim d) max_leaf) as [L|L].
    + apply IH; [lia| | |].
      * rewrite <- app_assoc. exact P.
      * rewrite <- app_assoc. exact F.
      * apply Forall_app. split; auto.
    + destruct (divide_domain_spec d L) as (PI & S1 & S2 & K). cbn zeta in *. set (lr := divide_domain dim sub sort d) in *.
      apply IH; auto.
      * rewrite weight_app. unfold weight at 2. cbn [map sumn]. pose proof (pow_lt _ _ _ S1 S2). lia.
      * rewrite <- P. rewrite !flat_map_app. cbn [flat_map]. rewrite app_nil_r. apply Permutation_app_head.
        rewrite <- PI. apply Permutation_app_comm.
      * apply Forall_app in F. destruct F as [F1 F2]. inversion F2 as [|? ? [D1 D2] F3]; subst. apply Forall_app. split; auto. apply Forall_app. split; auto.
        assert (forall x, x = fst lr \/ x = snd lr -> fine_domain d0 x) as G.
        { intros x X. destruct (K x X) as [K1 K2]. split; auto. eapply incl_tran; eauto. }
        repeat constructor; apply G; auto.
Qed.
Lemma divide_more : forall fuel fuel' done todo ds, divide dim sub sort fuel done todo = Some ds -> fuel <= fuel' -> divide dim sub sort fuel' done todo = Some ds.
Proof.
  induction fuel as [|fuel IH]; intros fuel' done todo ds H L.
  - destruct todo; [|discriminate]. destruct fuel'; exact H.
  - destruct todo as [|d todo]; [destruct fuel'; exact H|]. destruct fuel' as [|fuel']; [lia|]. cbn [divide] in *.
    destruct (size dim d <=? max_leaf); apply IH; auto; lia.
Qed.
End Sizes.

(** ** Merging the polynomial points *)
Lemma insert_row_perm : forall p l, Permutation (insert_row p l) (p :: l).
Proof. intros p l. induction l as [|q l IH]; cbn [insert_row]; auto. destruct (fst p <=? fst q); auto. rewrite IH. apply perm_swap. Qed.
Lemma sort_rows_perm : forall l, Permutation (sort_rows l) l.
Proof. intros l. induction l as [|p l IH]; cbn [sort_rows fold_right]; auto. fold (sort_rows l). rewrite insert_row_perm. auto. Qed.
Lemma insert_row_sorted : forall p l, StronglySorted (fun a b => fst a <= fst b) l -> StronglySorted (fun a b : nat * bool => fst a <= fst b) (insert_row p l).
Proof.
  intros p l S. induction S as [|q l S IH F]; cbn [insert_row]; [repeat constructor|]. destruct (Nat.leb_spec (fst p) (fst q)) as [L|L].
  - constructor; [constructor; auto|]. constructor; auto. eapply Forall_impl; [|exact F]. cbn. intros. lia.
  - constructor; auto. rewrite Forall_forall in *. intros x X. apply (Permutation_in _ (insert_row_perm p l)) in X. destruct X as [<-|X]; [lia|auto].
Qed.
Lemma sort_rows_sorted : forall l, StronglySorted (fun a b : nat * bool => fst a <= fst b) (sort_rows l).
Proof. intros l. induction l as [|p l IH]; cbn [sort_rows fold_right]; [constructor|]. apply insert_row_sorted. exact IH. Qed.

Lemma take_row_spec : forall i l, StronglySorted (fun a b : nat * bool => fst a <= fst b) l -> NoDup (map fst l) ->
  let r := take_row i l in
  StronglySorted (fun a b : nat * bool => fst a <= fst b) (snd r) /\ ~ In i (map fst (snd r)) /\
  ((In i (map fst l) /\ Permutation ((i, fst r) :: snd r) l) \/ (~ In i (map fst l) /\ fst r = false /\ snd r = l)).
Proof.
  intros i l S. induction S as [|q l S IH F]; intros ND; cbn [take_row]; cbn zeta.
  - cbn. split; [constructor|]. split; [auto|]. right. auto.
  - inversion ND as [|? ? N1 N2]; subst. specialize (IH N2). cbn zeta in IH. rewrite Forall_forall in F.
    destruct (Nat.ltb_spec (fst q) i) as [L|L].
    + destruct IH as (S' & N' & C). cbn [fst snd].
      assert (forall x, In x (snd (take_row i l)) -> In x l) as IN.
      { intros x X. destruct C as [[_ P]|(_ & _ & EQ)]; [apply (Permutation_in _ P); right; auto|rewrite <- EQ; auto]. }
      split; [constructor; auto; apply Forall_forall; auto|]. split.
      { cbn. intros [X|X]; [lia|auto]. }
      destruct C as [[I P]|(I & E1 & E2)].
      * left. split; [right; auto|]. rewrite perm_swap. auto.
      * right. cbn. rewrite E1, E2. split; [intros [X|X]; [lia|auto]|auto].
    + destruct (Nat.eqb_spec (fst q) i) as [EQ|NE]; cbn [fst snd].
      * split; [auto|]. split; [rewrite <- EQ; auto|]. left. split; [left; auto|]. rewrite <- EQ. destruct q; auto.
      * assert (~ In i (map fst (q :: l))) as NI.
        { cbn. intros [X|X]; [auto|]. apply in_map_iff in X. destruct X as (y & <- & Y). apply F in Y. lia. }
        split; [constructor; auto; apply Forall_forall; auto|]. split; auto.
Qed.

Lemma owned_perm : forall a b, Permutation a b -> Permutation (owned a) (owned b).
Proof. intros a b P. unfold owned. apply Permutation_map, perm_filter. auto. Qed.
Lemma owned_app : forall a b, owned (a ++ b) = owned a ++ owned b.
Proof. intros a b. unfold owned. rewrite filter_app, map_app. reflexivity. Qed.

Lemma merge_rows_spec : forall poly l, NoDup poly -> StronglySorted (fun a b : nat * bool => fst a <= fst b) l -> NoDup (map fst l) ->
  let r := merge_rows poly l in
  map fst (fst r) = poly /\ Permutation (owned (fst r ++ snd r)) (owned l) /\
  (forall i, In i (map fst (snd r)) -> In i (map fst l) /\ ~ In i poly) /\ NoDup (map fst (snd r)) /\ length (snd r) <= length l.
Proof.
  induction poly as [|i poly IH]; intros l NP S ND; cbn [merge_rows]; cbn zeta.
  - cbn. split; [auto|]. split; [auto|]. split; [auto|]. split; auto.
  - inversion NP as [|? ? N1 N2]; subst. destruct (take_row_spec i l S ND) as (S' & NI & C). cbn zeta in *. set (t := take_row i l) in *.
    assert (NoDup (map fst (snd t)) /\ (forall x, In x (map fst (snd t)) -> In x (map fst l)) /\ length (snd t) <= length l /\
      Permutation (owned ((i, fst t) :: snd t)) (owned l)) as (ND' & IN & LE & PO).
    { destruct C as [[I P]|(I & E1 & E2)].
      - pose proof (Permutation_map fst P) as PM. cbn in PM. pose proof (Permutation_NoDup (Permutation_sym PM) ND) as NX. inversion NX; subst.
        split; [auto|]. split; [intros x X; apply (Permutation_in _ PM); right; auto|]. split; [apply Permutation_length in P; cbn in P; lia|].
        apply owned_perm. auto.
      - rewrite E1, E2. split; [auto|]. split; [auto|]. split; [auto|]. reflexivity. }
    destruct (IH (snd t) N2 S' ND') as (A & B & D & F & G). cbn [fst snd map app]. set (r := merge_rows poly (snd t)) in *.
    split; [f_equal; auto|]. split.
    { rewrite <- PO. change ((i, fst t) :: fst r ++ snd r) with ([(i, fst t)] ++ (fst r ++ snd r)).
      change ((i, fst t) :: snd t) with ([(i, fst t)] ++ snd t). rewrite !(owned_app [_]). apply Permutation_app_head. auto. }
    split; [|split; [auto|lia]]. intros j J. destruct (D j J) as [D1 D2]. split; [auto|]. intros [<-|X]; auto.
Qed.

Lemma merge_spec : forall poly d, NoDup poly -> NoDup (map fst (d_points d)) -> let d' := merge_poly_points poly d in
  Permutation (owned (d_points d')) (owned (d_points d)) /\ d_grads d' = d_grads d /\ NoDup (map fst (d_points d')) /\
  (forall i, In i (map fst (d_points d')) -> In i poly \/ In i (map fst (d_points d))) /\
  firstn (length poly) (map fst (d_points d')) = poly /\ length (d_points d') <= length poly + length (d_points d).
Proof.
  intros poly d NP ND. unfold merge_poly_points. cbn zeta. cbn [d_points d_grads].
  pose proof (sort_rows_perm (d_points d)) as SP. pose proof (Permutation_map fst SP) as SM.
  destruct (merge_rows_spec poly (sort_rows (d_points d)) NP (sort_rows_sorted _) (Permutation_NoDup (Permutation_sym SM) ND)) as (A & B & C & D & F).
  cbn zeta in *. set (r := merge_rows poly (sort_rows (d_points d))) in *.
  assert (length (fst r) = length poly) as LP by (rewrite <- A, map_length; reflexivity).
  split; [rewrite B; apply owned_perm; auto|]. split; [auto|]. split.
  { rewrite map_app, A. clearbody r. clear - NP C D. induction NP as [|x poly NX NP IH]; cbn; auto. constructor.
    - rewrite in_app_iff. intros [X|X]; [auto|]. apply C in X. destruct X as [_ X]. apply X. left. auto.
    - apply IH. intros i I. destruct (C i I) as [C1 C2]. split; auto. intros X. apply C2. right. auto. }
  split.
  { intros i I. rewrite map_app, A, in_app_iff in I. destruct I as [I|I]; auto. apply C in I. right. apply (Permutation_in _ SM). apply I. }
  split; [rewrite map_app, A, firstn_app, Nat.sub_diag, firstn_O, app_nil_r, firstn_all; reflexivity|].
  rewrite app_length, LP. apply Permutation_length in SP. lia.
Qed.

(** ** The constructor *)
Lemma owned_points_inner : forall d, owned (d_points d) = map x_index (filter (fun p => negb (x_grad p)) (inner_of d)).
Proof.
  intros d. unfold inner_of, mix, owned. rewrite !filter_app, map_app.
  assert (forall l g, filter x_inner (map (fun p : nat * bool => Mixed (fst p) (snd p) g) l) = map (fun p => Mixed (fst p) (snd p) g) (filter snd l)) as H.
  { intros l g. induction l as [|[i b] l IH]; cbn; auto. destruct b; cbn; rewrite IH; auto. }
  rewrite !H. assert (forall l (g : bool), filter (fun p => negb (x_grad p)) (map (fun p : nat * bool => Mixed (fst p) (snd p) g) l) = if g then [] else map (fun p => Mixed (fst p) (snd p) g) l) as K.
  { intros l g. induction l as [|[i b] l IH]; cbn; [destruct g; auto|]. destruct g; cbn; rewrite IH; auto. }
  rewrite !K, map_map, app_nil_r. reflexivity.
Qed.
Lemma owned_grads_inner : forall d, owned (d_grads d) = map x_index (filter x_grad (inner_of d)).
Proof.
  intros d. unfold inner_of, mix, owned. rewrite !filter_app, map_app.
  assert (forall l g, filter x_inner (map (fun p : nat * bool => Mixed (fst p) (snd p) g) l) = map (fun p => Mixed (fst p) (snd p) g) (filter snd l)) as H.
  { intros l g. induction l as [|[i b] l IH]; cbn; auto. destruct b; cbn; rewrite IH; auto. }
  rewrite !H. assert (forall l (g : bool), filter x_grad (map (fun p : nat * bool => Mixed (fst p) (snd p) g) l) = if g then map (fun p => Mixed (fst p) (snd p) g) l else []) as K.
  { intros l g. induction l as [|[i b] l IH]; cbn; [destruct g; auto|]. destruct g; cbn; rewrite IH; auto. }
  rewrite !K, map_map. reflexivity.
Qed.
Lemma flat_owned : forall (f : mixed -> bool) (g : domain -> list nat), (forall d, g d = map x_index (filter f (inner_of d))) ->
  forall ds, flat_map g ds = map x_index (filter f (flat_map inner_of ds)).
Proof. intros f g H ds. induction ds as [|d ds IH]; cbn; auto. rewrite filter_app, map_app, <- H, IH. reflexivity. Qed.
Lemma keys_points : forall d, NoDup (map key (mix d)) -> NoDup (map fst (d_points d)) /\ NoDup (map fst (d_grads d)).
Proof.
  intros d H. unfold mix in H. rewrite map_app, !map_map in H. cbn in H.
  assert (forall (a b : list (nat * bool)), NoDup (a ++ b) -> NoDup a /\ NoDup b) as SP.
  { intros a b. induction a as [|x a IH]; cbn; intros X; [split; [constructor|auto]|]. inversion X; subst. destruct IH; auto. split; auto. constructor; auto. rewrite in_app_iff in *. tauto. }
  apply SP in H. destruct H as [H1 H2].
  assert (forall (l : list (nat * bool)) (g : bool), NoDup (map (fun x => (fst x, g)) l) -> NoDup (map fst l)) as K.
  { intros l g X. rewrite <- (map_map fst (fun i => (i, g))) in X. apply NoDup_map_inv in X. auto. }
  split; [exact (K _ _ H1)|exact (K _ _ H2)].
Qed.
Lemma key_in : forall d i g, In (i, g) (map key (mix d)) <-> In i (map fst (if g then d_grads d else d_points d)).
Proof.
  intros d i g. unfold mix. rewrite map_app, !map_map, in_app_iff, !in_map_iff. unfold key. cbn. split.
  - intros [(x & X & I)|(x & X & I)]; injection X as <- <-; exists x; auto.
  - intros H. destruct H as (x & <- & I). destruct g; [right|left]; exists x; auto.
Qed.

Theorem domains_spec : forall dim sub sort pts grads poly, 1 <= dim <= 3 -> rounding_ok sub -> reorders sort ->
  NoDup pts -> NoDup grads -> NoDup poly -> incl poly pts ->
  exists fuel0 ds, (forall fuel, fuel0 <= fuel -> domains dim sub sort fuel pts grads poly = Some ds) /\ division dim pts grads poly ds.
Proof.
  intros dim sub sort pts grads poly DIM SUB SORT NP NG NO IP.
  set (d0 := root pts grads).
  assert (map fst (d_points d0) = pts /\ map fst (d_grads d0) = grads) as [E1 E2].
  { unfold d0, root. cbn. rewrite !map_map. cbn. rewrite !map_id. auto. }
  assert (NoDup (map key (mix d0))) as NK.
  { unfold mix, d0, root. cbn [d_points d_grads]. rewrite map_app, !map_map. cbn [key x_index x_grad fst snd].
    unfold key. cbn. clear - NP NG.
    assert (forall (l : list nat) (g : bool), NoDup l -> NoDup (map (fun x => (x, g)) l)) as K.
    { intros l g X. induction X as [|x l NX X IH]; cbn; constructor; auto. intros Y. apply in_map_iff in Y. destruct Y as (y & Y1 & Y2). injection Y1 as ->. auto. }
    apply NoDup_app; auto. intros x X Y. apply in_map_iff in X. apply in_map_iff in Y. destruct X as (a & <- & _), Y as (b & E & _). discriminate. }
  assert (flat_map inner_of [d0] = mix d0) as ID.
  { cbn. rewrite app_nil_r. unfold inner_of, mix, d0, root. cbn [d_points d_grads]. rewrite !map_map, filter_app. cbn [fst snd].
    assert (forall (l : list nat) g, filter x_inner (map (fun x => Mixed x true g) l) = map (fun x => Mixed x true g) l) as K.
    { intros l g. induction l as [|x l IH]; cbn; auto. rewrite IH. auto. }
    rewrite !K. reflexivity. }
  destruct (divide_spec dim DIM sub SUB sort SORT (weight dim [d0]) [] [d0] d0) as (ds & DV & PM & FD & FS); auto.
  { cbn [app]. rewrite ID. auto. }
  { constructor; [|constructor]. split; auto. apply incl_refl. }
  exists (weight dim [d0]), (map (merge_poly_points poly) ds). split.
  { intros fuel L. unfold domains. fold d0. assert (divide dim sub sort fuel [] [d0] = Some ds) as -> by (eapply divide_more; eauto). reflexivity. }
  rewrite Forall_forall in FD, FS.
  assert (forall d, In d ds -> NoDup (map fst (d_points d))) as NDP by (intros d I; apply (keys_points d); apply FD; auto).
  assert (forall f, (forall d, In d ds -> Permutation (f (merge_poly_points poly d)) (f d)) -> Permutation (flat_map f (map (merge_poly_points poly) ds)) (flat_map (f : domain -> list nat) ds)) as FM.
  { intros f. clear. induction ds as [|d ds IH]; intros H; cbn; auto. apply Permutation_app; [apply H; left; auto|apply IH; intros x X; apply H; right; auto]. }
  assert (filter (fun p => negb (x_grad p)) (mix d0) = map (fun i => Mixed i true false) pts /\ filter x_grad (mix d0) = map (fun i => Mixed i true true) grads) as [M1 M2].
  { unfold mix, d0, root. cbn [d_points d_grads]. rewrite !map_map, !filter_app. cbn [fst snd].
    assert (forall (l : list nat) (f : mixed -> bool) (g : bool), (forall x, f (Mixed x true g) = true) -> filter f (map (fun x => Mixed x true g) l) = map (fun x => Mixed x true g) l) as K1.
    { intros l f g H. induction l as [|x l IH]; cbn; auto. rewrite H, IH. auto. }
    assert (forall (l : list nat) (f : mixed -> bool) (g : bool), (forall x, f (Mixed x true g) = false) -> filter f (map (fun x => Mixed x true g) l) = []) as K2.
    { intros l f g H. induction l as [|x l IH]; cbn; auto. rewrite H, IH. auto. }
    rewrite (K1 pts), (K2 grads), (K2 pts), (K1 grads), app_nil_r by auto. auto. }
  split; [|split].
  - rewrite FM; [|intros d I; apply (merge_spec poly d); auto].
    rewrite (flat_owned _ _ owned_points_inner). rewrite (Permutation_map x_index (perm_filter _ _ _ _ PM)). rewrite M1, map_map, map_id. auto.
  - rewrite FM; [|intros d I; destruct (merge_spec poly d) as (_ & -> & _); auto].
    rewrite (flat_owned _ _ owned_grads_inner). rewrite (Permutation_map x_index (perm_filter _ _ _ _ PM)). rewrite M2, map_map, map_id. auto.
  - intros d' I. apply in_map_iff in I. destruct I as (d & <- & I). destruct (FD d I) as [K1 K2]. destruct (keys_points d K1) as [P1 P2].
    destruct (merge_spec poly d NO P1) as (_ & EG & ND & IN & FN & LE). cbn zeta in *.
    assert (forall g i, In i (map fst (if g : bool then d_grads d else d_points d)) -> In i (if g then grads else pts)) as SUBS.
    { intros g i X. apply key_in in X. apply K2 in X. apply key_in in X. destruct g; congruence. }
    split; [auto|]. split; [rewrite EG; auto|]. split.
    { intros i X. destruct (IN i X) as [Y|Y]; [apply IP; auto|apply (SUBS false); auto]. }
    split; [rewrite EG; intros i X; apply (SUBS true); auto|]. split; [auto|].
    rewrite EG. pose proof (FS d I) as SZ. unfold size in SZ. lia.
Qed.
