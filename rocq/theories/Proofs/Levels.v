From Coq Require Import Reals Lra List Arith Bool Lia Permutation ZArith.
From Verif Require Proofs.Grid Spec.RasPreconditioner Model.Grid.
From Verif Require Import Proofs.DomainDivider Proofs.CoarsePoints Proofs.SolverRun.
From Verif Require Import Model.Outcome Model.SolverRun Model.DomainDivider Spec.DomainDivider Model.Levels Spec.Levels.
Import ListNotations.

(** ** Lists *)
Definition mem (poly : list nat) (i : nat) : bool := existsb (Nat.eqb i) poly.
Lemma mem_in : forall poly i, mem poly i = true <-> In i poly.
Proof.
  intros. unfold mem. rewrite existsb_exists. split.
  - intros (x & X & E). apply Nat.eqb_eq in E. subst. auto.
  - intros H. exists i. split; auto. apply Nat.eqb_refl.
Qed.
Lemma filter_keep : forall poly rest, (forall i, In i rest -> ~ In i poly) -> filter (fun i => negb (existsb (Nat.eqb i) poly)) rest = rest.
Proof.
  intros poly rest H. induction rest as [|i rest IH]; auto. cbn [filter].
  destruct (existsb (Nat.eqb i) poly) eqn:E.
  - apply mem_in in E. exfalso. apply (H i); [left; auto|auto].
  - cbn [negb]. rewrite IH; auto. intros j J. apply H. right. auto.
Qed.
Lemma filter_drop : forall poly l, incl l poly -> filter (fun i => negb (existsb (Nat.eqb i) poly)) l = [].
Proof.
  intros poly l H. induction l as [|i l IH]; auto. cbn [filter].
  assert (E : existsb (Nat.eqb i) poly = true) by (apply mem_in, H; left; auto).
  rewrite E. cbn [negb]. apply IH. intros j J. apply H. right. auto.
Qed.
Lemma nodup_app : forall (A : Type) (l l' : list A), NoDup (l ++ l') -> NoDup l /\ NoDup l' /\ forall x, In x l' -> ~ In x l.
Proof.
  intros A l l'. induction l as [|a l IH]; intros H; cbn [app] in *; [repeat split; auto; constructor|].
  inversion H as [|? ? N1 N2]; subst. destruct (IH N2) as (A1 & A2 & A3). repeat split; auto.
  - constructor; auto. intros X. apply N1, in_or_app. auto.
  - intros x X [->|Y]; [apply N1, in_or_app; auto|apply (A3 x); auto].
Qed.
Lemma filter_prefixed : forall poly rest, NoDup (poly ++ rest) ->
  filter (fun i => negb (existsb (Nat.eqb i) poly)) (poly ++ rest) = rest.
Proof.
  intros poly rest H. apply nodup_app in H as (_ & _ & D). rewrite filter_app, filter_drop by apply incl_refl.
  apply filter_keep. auto.
Qed.
Lemma finest_perm : forall mu poly, poly_ok mu poly -> Permutation (finest_points mu poly) (seq 0 mu).
Proof.
  intros mu poly [N R]. unfold finest_points. apply NoDup_Permutation.
  - assert (F : NoDup (filter (fun i => negb (existsb (Nat.eqb i) poly)) (seq 0 mu))) by apply NoDup_filter, seq_NoDup.
    revert F. generalize (seq 0 mu). clear R. intros l F. induction poly as [|a poly IH] using rev_ind; [exact F|].
    clear IH. assert (D : forall x, In x (poly ++ [a]) -> ~ In x (filter (fun i => negb (existsb (Nat.eqb i) (poly ++ [a]))) l)).
    { intros x X Y. apply filter_In in Y as [_ Y]. apply mem_in in X. unfold mem in X. rewrite X in Y. discriminate. }
    revert N D F. generalize (filter (fun i => negb (existsb (Nat.eqb i) (poly ++ [a]))) l). generalize (poly ++ [a]). clear.
    intros p m N D F. induction p as [|x p IH]; [exact F|]. inversion N as [|? ? N1 N2]; subst. cbn [app]. constructor.
    + intros X. apply in_app_or in X as [X|X]; [auto|]. apply (D x); [left; auto|auto].
    + apply IH; auto. intros y Y. apply D. right. auto.
  - apply seq_NoDup.
  - intros i. rewrite in_app_iff, filter_In, in_seq. split.
    + intros [H|[H _]]; [apply R in H; lia|lia].
    + intros H. destruct (existsb (Nat.eqb i) poly) eqn:E; [left; apply mem_in; auto|right; split; auto; lia].
Qed.
Lemma finest_rows : forall dim mu sigma poly, poly_ok mu poly ->
  rows dim (finest_points mu poly) (seq 0 sigma) poly + length poly = mu + dim * sigma.
Proof.
  intros dim mu sigma poly OK. pose proof (finest_perm mu poly OK) as P. pose proof (Permutation_length P) as L. rewrite seq_length in L.
  assert (N : NoDup (finest_points mu poly)) by (apply (Permutation_NoDup (Permutation_sym P)), seq_NoDup).
  unfold rows. unfold finest_points in *. rewrite filter_prefixed by auto. rewrite app_length in L. rewrite seq_length. lia.
Qed.
Lemma rows_selected : forall dim poly rest gidcs, NoDup (poly ++ rest) -> rows dim (poly ++ rest) gidcs poly = length rest + dim * length gidcs.
Proof. intros. unfold rows. rewrite filter_prefixed; auto. Qed.
Lemma some_candidate : forall dim pts grads poly, 1 <= rows dim pts grads poly -> candidates pts grads poly <> [].
Proof.
  intros dim pts grads poly H E. unfold candidates in E. unfold rows in H. apply app_eq_nil in E as [E1 E2].
  apply map_eq_nil in E1, E2. rewrite E1, E2 in H. cbn [length] in H. lia.
Qed.

Section Build.
Variable dim : nat.
Variable sub : nat -> nat.
Variable sort arrange : list mixed -> list mixed.
Variable nearest : list mixed -> nat.
Variable pick : list cluster -> nat.
Variable level_read : cluster -> list cluster -> nat.
Variable drain : list cluster -> list cluster.
Variable poly : list nat.
Hypothesis D : 1 <= dim <= 3.
Hypothesis OK : orders_ok sub sort arrange nearest pick level_read drain.
Hypothesis NP : NoDup poly.
Notation run := (descend dim sub sort arrange nearest pick level_read drain poly).

(** What holds of the levels from a given one down. *)
Definition chain (wanted : nat -> nat) (ls : list level_grids) : Prop :=
  (forall k g, nth_error ls k = Some g ->
     NoDup (g_points g) /\ NoDup (g_grads g) /\ firstn (length poly) (g_points g) = poly) /\
  (forall k coarse fine, nth_error ls k = Some coarse -> nth_error ls (S k) = Some fine ->
     division dim (g_points fine) (g_grads fine) poly (g_domains fine) /\
     selection dim (g_points fine) (g_grads fine) poly (wanted (S k)) (g_points coarse) (g_grads coarse) /\
     incl (g_points coarse) (g_points fine) /\ incl (g_grads coarse) (g_grads fine)).

Lemma firstn_prefix : forall rest : list nat, firstn (length poly) (poly ++ rest) = poly.
Proof. intros. rewrite firstn_app, Nat.sub_diag, firstn_all, firstn_O, app_nil_r. auto. Qed.

Lemma descend_spec : forall wanted level rest grads, NoDup (poly ++ rest) -> NoDup grads ->
  (forall k, 1 <= k <= level -> 1 <= wanted k) -> (forall k, 1 <= k -> S k <= level -> wanted k <= wanted (S k)) ->
  (1 <= level -> wanted level <= length rest + dim * length grads) ->
  exists fuel0 ls, (forall fuel, fuel0 <= fuel -> run fuel wanted level (poly ++ rest) grads = Some (Ok ls)) /\
    length ls = S level /\ chain wanted ls /\
    exists g, nth_error ls level = Some g /\ g_points g = poly ++ rest /\ g_grads g = grads.
Proof.
  intros wanted level. induction level as [|level IH]; intros rest grads N NG POS MON LAST.
  - exists 0, [Level (poly ++ rest) grads []]. split; [intros; reflexivity|]. split; [reflexivity|]. split; [split|].
    + intros [|k] g E; [|destruct k; discriminate]. injection E as <-. cbn [g_points g_grads]. split; [exact N|]. split; [exact NG|]. apply firstn_prefix.
    + intros k c f _ E. destruct k; discriminate.
    + eexists. split; [reflexivity|]. auto.
  - destruct OK as (RO & SO & AR & NE & TO & LR & DR).
    destruct (domains_spec dim sub sort (poly ++ rest) grads poly D RO SO N NG NP) as (f1 & ds & DS & DIV); [apply incl_appl, incl_refl|].
    assert (W : wanted (S level) <= rows dim (poly ++ rest) grads poly) by (rewrite rows_selected by auto; apply LAST; lia).
    assert (W1 : 1 <= wanted (S level)) by (apply POS; lia).
    destruct (choose_total dim D arrange AR nearest NE pick level_read drain (poly ++ rest) grads poly (wanted (S level)) TO LR DR N NG NP)
      as (f2 & idcs & gidcs & SEL & CH); [apply (some_candidate dim); lia|exact W|].
    pose proof SEL as (r & EI & NI & NGI & IR & IG & CNT & _). subst idcs.
    assert (L' : 1 <= level -> wanted level <= length r + dim * length gidcs).
    { intros H. pose proof (MON level H (le_n _)). lia. }
    destruct (IH r gidcs NI NGI) as (f3 & ls & RUN & LEN & [C1 C2] & g & G1 & G2 & G3); [intros; apply POS; lia|intros; apply MON; lia|exact L'|].
    exists (f1 + f2 + f3), (ls ++ [Level (poly ++ rest) grads ds]). split; [|split; [|split]].
    + intros fuel F. cbn [descend]. rewrite DS by lia. rewrite CH by lia. rewrite RUN by lia. reflexivity.
    + rewrite app_length, LEN. cbn [length]. lia.
    + assert (TOP : nth_error (ls ++ [Level (poly ++ rest) grads ds]) (S level) = Some (Level (poly ++ rest) grads ds)).
      { rewrite nth_error_app2 by lia. rewrite LEN, Nat.sub_diag. reflexivity. }
      assert (LOW : forall k, k < S level -> nth_error (ls ++ [Level (poly ++ rest) grads ds]) k = nth_error ls k) by (intros; apply nth_error_app1; lia).
      assert (RNG : forall k g, nth_error (ls ++ [Level (poly ++ rest) grads ds]) k = Some g -> k < S level \/ k = S level).
      { intros k g' E. assert (k < length (ls ++ [Level (poly ++ rest) grads ds])) as X by (apply nth_error_Some; congruence).
        rewrite app_length, LEN in X. cbn [length] in X. lia. }
      split.
      * intros k g' E. destruct (RNG _ _ E) as [K| ->]; [rewrite LOW in E by auto; eapply C1; eauto|].
        rewrite TOP in E. injection E as <-. cbn [g_points g_grads]. split; [exact N|]. split; [exact NG|]. apply firstn_prefix.
      * intros k c f E1 E2. destruct (RNG _ _ E2) as [K|K].
        -- rewrite LOW in E1, E2 by lia. eapply C2; eauto.
        -- assert (k = level) by lia. subst k. rewrite LOW in E1 by lia. rewrite G1 in E1. injection E1 as <-. rewrite TOP in E2. injection E2 as <-.
           cbn [g_points g_grads g_domains]. rewrite G2, G3. split; [exact DIV|]. split; [exact SEL|]. split; [|exact IG].
           apply incl_app; [apply incl_appl, incl_refl|exact IR].
    + eexists. rewrite nth_error_app2 by lia. rewrite LEN, Nat.sub_diag. split; [reflexivity|]. auto.
Qed.

Lemma descend_hierarchy : forall wanted levels mu sigma, poly_ok mu poly -> 1 <= levels -> counts_ok (mu + dim * sigma) (length poly) wanted levels ->
  exists fuel0 ls, (forall fuel, fuel0 <= fuel -> run fuel wanted (levels - 1) (finest_points mu poly) (seq 0 sigma) = Some (Ok ls)) /\
    hierarchy_of dim mu sigma poly wanted levels ls.
Proof.
  intros wanted levels mu sigma PO L1 (POS & MON & LAST). pose proof (finest_perm mu poly PO) as P. pose proof (finest_rows dim mu sigma poly PO) as R.
  assert (N : NoDup (finest_points mu poly)) by (apply (Permutation_NoDup (Permutation_sym P)), seq_NoDup).
  destruct (descend_spec wanted (levels - 1) (filter (fun i => negb (existsb (Nat.eqb i) poly)) (seq 0 mu)) (seq 0 sigma))
    as (f & ls & RUN & LEN & [C1 C2] & g & G1 & G2 & G3).
  - exact N.
  - apply seq_NoDup.
  - intros k K. apply POS. lia.
  - intros k K1 K2. apply MON; lia.
  - intros H. unfold finest_points in *. rewrite rows_selected in R by auto. pose proof (LAST ltac:(lia)). lia.
  - exists f, ls. split; [exact RUN|]. split; [lia|]. split; [|split; auto].
    exists g. split; [auto|]. rewrite G2, G3. split; auto.
Qed.

Lemma descend_endless : forall wanted level mu sigma fuel, poly_ok mu poly ->
  length poly < mu + dim * sigma -> mu + dim * sigma < wanted (S level) + length poly ->
  run fuel wanted (S level) (finest_points mu poly) (seq 0 sigma) = None.
Proof.
  intros wanted level mu sigma fuel PO H1 H2. pose proof (finest_rows dim mu sigma poly PO) as R. cbn [descend].
  destruct OK as (RO & SO & AR & NE & TO & LR & DR).
  destruct (domains dim sub sort fuel (finest_points mu poly) (seq 0 sigma) poly); auto.
  rewrite choose_endless; auto.
  - intros q Q. destruct (TO q Q) as (c & C & _). apply nth_error_Some. congruence.
  - apply (some_candidate dim). lia.
  - lia.
Qed.
End Build.

(** ** The numbers asked for *)
Local Open Scope R_scope.
Lemma last_third : forall rows k, (1 <= rows)%nat -> n_levels rows = S (S (S k)) ->
  3 * level_size rows (S (S (S k))) (S (S k)) <= INR rows.
Proof.
  intros rows k R1 E. pose proof E as E'. apply (levels_exact rows (S k)) in E'; auto. destruct E' as [LO _].
  destruct (level_sizes rows (S k) R1 E) as (S1 & SN & q & [Q1 Q2] & STEP). set (size := level_size rows (S (S (S k)))) in *.
  assert (POW : forall j, size (S j) = q ^ j * 2048).
  { induction j as [|j IH]; [cbn [pow]; rewrite S1; ring|]. rewrite STEP, IH. cbn [pow]. ring. }
  assert (SP : 0 < size (S (S k))) by (rewrite POW; apply Rmult_lt_0_compat; [apply Rfunctions.pow_lt; lra|lra]).
  destruct (Rle_dec 3 q) as [Q|Q].
  - rewrite STEP in SN. nra.
  - exfalso. assert (B : q ^ S (S k) <= 3 ^ S (S k)) by (apply Rfunctions.pow_incr; lra).
    assert (T : 3 ^ S (S k) <= 10 ^ S k).
    { clear. induction k as [|k IH]; [cbn; lra|]. cbn [pow] in *. assert (0 < 10 ^ k) by (apply Rfunctions.pow_lt; lra). nra. }
    rewrite POW in SN. nra.
Qed.
Local Close Scope R_scope.

Lemma asked_counts : forall n npoly, 1 <= n -> npoly <= 10 -> ~ (2048 < n < 2048 + npoly) -> counts_ok n npoly (asked n) (n_levels n).
Proof.
  intros n npoly N1 NP B. pose proof (levels_pos n) as LP. unfold counts_ok.
  destruct (n_levels n) as [|[|k]] eqn:E; [lia|repeat split; intros; lia|].
  destruct (coarse_sizes n k N1 E) as [C1 C2]. unfold asked. rewrite E. split; [|split].
  - intros j J. destruct (C2 j) as [X _]; lia.
  - intros j J1 J2. destruct (C2 j) as [X Y]; lia.
  - intros _. replace (S (S k) - 1) with (S k) by lia. destruct k as [|k].
    + rewrite C1. assert (2048 < n); [|lia].
      apply (levels_exact n 0) in E; auto. destruct E as [E _]. cbn [pow] in E. apply INR_lt.
      replace (INR 2048) with 2048%R by (rewrite INR_IZR_INZ; f_equal; reflexivity). lra.
    + pose proof (last_third n k N1 E) as T. destruct (C2 (S (S k))) as [[X1 X2] _]; [lia|].
      set (c := n_coarse_points n (S (S (S k))) (S (S k))) in *.
      assert (F : (IZR c <= level_size n (S (S (S k))) (S (S k)))%R) by (unfold c, n_coarse_points; apply base_Int_part).
      assert (3 * c <= Z.of_nat n)%Z by (apply le_IZR; rewrite mult_IZR, <- INR_IZR_INZ; lra). lia.
Qed.

Lemma hierarchy_spec : forall dim sub sort arrange nearest pick level_read drain poly mu sigma, 1 <= dim <= 3 ->
  orders_ok sub sort arrange nearest pick level_read drain -> poly_ok mu poly -> length poly <= 10 -> 1 <= mu + dim * sigma ->
  let n := mu + dim * sigma in
  ~ (2048 < n < 2048 + length poly) ->
  exists fuel0 ls, (forall fuel, fuel0 <= fuel -> hierarchy dim sub sort arrange nearest pick level_read drain poly fuel mu sigma = Some (Ok ls)) /\
    hierarchy_of dim mu sigma poly (asked n) (n_levels n) ls.
Proof.
  intros dim sub sort arrange nearest pick level_read drain poly mu sigma D OK PO P10 N1 n B.
  destruct (descend_hierarchy dim sub sort arrange nearest pick level_read drain poly D OK (proj1 PO) (asked n) (n_levels n) mu sigma PO)
    as (f & ls & RUN & H); [apply levels_pos|apply asked_counts; auto|].
  exists f, ls. split; [|exact H]. intros fuel F. unfold hierarchy. fold n. destruct n as [|n'] eqn:E; [lia|]. apply RUN. exact F.
Qed.

Lemma hierarchy_endless : forall dim sub sort arrange nearest pick level_read drain poly mu sigma fuel, 1 <= dim <= 3 ->
  orders_ok sub sort arrange nearest pick level_read drain -> poly_ok mu poly -> length poly <= 10 ->
  2048 < mu + dim * sigma < 2048 + length poly ->
  hierarchy dim sub sort arrange nearest pick level_read drain poly fuel mu sigma = None.
Proof.
  intros dim sub sort arrange nearest pick level_read drain poly mu sigma fuel D OK PO P10 B.
  unfold hierarchy. set (n := mu + dim * sigma) in *. destruct n as [|n'] eqn:E; [lia|]. rewrite <- E in *.
  assert (L : n_levels n = 2).
  { apply (levels_exact n 0); [lia|]. cbn [pow]. split.
    - rewrite !Rmult_1_r. replace 2048%R with (INR 2048) by (rewrite INR_IZR_INZ; f_equal; reflexivity). apply lt_INR. lia.
    - rewrite Rmult_1_r. assert (X : (INR n <= INR 2058)%R) by (apply le_INR; lia).
      replace (INR 2058) with 2058%R in X by (rewrite INR_IZR_INZ; f_equal; reflexivity). lra. }
  rewrite L. change (2 - 1) with 1. apply descend_endless; auto; fold n; [lia|].
  unfold asked. rewrite L. destruct (coarse_sizes n 0 ltac:(lia) L) as [C1 _]. rewrite C1. lia.
Qed.

Lemma coarsest_rows : forall dim mu sigma poly ls coarse, 1 <= dim <= 3 -> poly_ok mu poly -> 1 <= mu + dim * sigma ->
  let n := mu + dim * sigma in
  hierarchy_of dim mu sigma poly (asked n) (n_levels n) ls -> nth_error ls 0 = Some coarse ->
  length (g_points coarse) + dim * length (g_grads coarse) <= 2052 + length poly.
Proof.
  intros dim mu sigma poly ls coarse D PO N1 n (LEN & (f & F1 & F2 & F3) & _ & NEXT) C.
  pose proof (levels_pos n) as LP. destruct (n_levels n) as [|[|k]] eqn:E; [lia| |].
  - change (1 - 1) with 0 in F1. rewrite F1 in C. injection C as <-. apply Permutation_length in F2. rewrite seq_length in F2.
    rewrite F2, F3, seq_length. apply (levels_exact n 0) in E; [|lia].
    assert (n <= 2048); [|unfold n in *; lia].
    apply INR_le. replace (INR 2048) with 2048%R by (rewrite INR_IZR_INZ; f_equal; reflexivity). exact E.
  - destruct (nth_error ls 1) as [fine|] eqn:FE; [|apply nth_error_None in FE; lia].
    destruct (NEXT 0 coarse fine C FE) as (_ & (r & -> & _ & _ & _ & _ & _ & X) & _ & _).
    assert (A : asked n 1 = 2048).
    { unfold asked. rewrite E. destruct (coarse_sizes n k ltac:(lia) E) as [C1 _]. rewrite C1. reflexivity. }
    rewrite A in X. rewrite app_length.
    assert (M : most dim (g_grads fine) <= 3) by (destruct (g_grads fine); cbn [most]; lia). lia.
Qed.

(** ** Rows *)
Lemma in_rows : forall dim pidx gidx base i, In i (Grid.rows dim pidx gidx base) <->
  In i pidx \/ exists g j, In g gidx /\ j < dim /\ i = base + dim * g + j.
Proof.
  intros. unfold Grid.rows. rewrite in_app_iff, in_flat_map. split; (intros [H|H]; [left; exact H|right]).
  - destruct H as (g & G & H). apply in_map_iff in H as (j & <- & J). apply in_seq in J. exists g, j. repeat split; auto; lia.
  - destruct H as (g & j & G & J & ->). exists g. split; auto. apply in_map_iff. exists j. split; auto. apply in_seq. lia.
Qed.
Lemma hierarchy_nested : forall dim mu sigma poly wanted levels ls, hierarchy_of dim mu sigma poly wanted levels ls ->
  RasPreconditioner.nested (mu + dim * sigma) levels (level_rows dim mu ls).
Proof.
  intros dim mu sigma poly wanted levels ls (LEN & (f & F1 & F2 & F3) & ALL & NEXT).
  assert (RNG : forall j k g, k + j = levels - 1 -> k < levels -> nth_error ls k = Some g ->
    (forall i, In i (g_points g) -> i < mu) /\ (forall i, In i (g_grads g) -> i < sigma)).
  { induction j as [|j IH]; intros k g E K G.
    - assert (k = levels - 1) by lia. subst k. rewrite F1 in G. injection G as <-. split; intros i I.
      + apply (Permutation_in _ F2), in_seq in I. lia.
      + rewrite F3 in I. apply in_seq in I. lia.
    - destruct (nth_error ls (S k)) as [fine|] eqn:FE; [|apply nth_error_None in FE; lia].
      destruct (IH (S k) fine ltac:(lia) ltac:(lia) FE) as [I1 I2]. destruct (NEXT k g fine G FE) as (_ & _ & S1 & S2).
      split; intros i I; [apply I1, S1; auto|apply I2, S2; auto]. }
  assert (GET : forall k, k < levels -> exists g, nth_error ls k = Some g).
  { intros k K. destruct (nth_error ls k) eqn:E; eauto. apply nth_error_None in E. lia. }
  unfold level_rows. split; [|split].
  - intros k K. destruct (GET k K) as [g G]. rewrite G. destruct (ALL k g G) as (N1 & N2 & _).
    destruct (RNG (levels - 1 - k) k g ltac:(lia) K G) as [R1 R2]. split.
    + apply Grid.rows_nodup; auto.
    + intros i I. apply in_rows in I as [I|(x & j & X & J & ->)]; [apply R1 in I; lia|]. apply R2 in X. nia.
  - intros k K. destruct (GET k ltac:(lia)) as [g G]. destruct (GET (S k) K) as [fine FE]. rewrite G, FE.
    destruct (NEXT k g fine G FE) as (_ & _ & S1 & S2). intros i I. apply in_rows in I. apply in_rows.
    destruct I as [I|(x & j & X & J & ->)]; [left; apply S1; auto|right; exists x, j; auto].
  - intros i I. rewrite F1. apply in_rows. destruct (lt_dec i mu) as [H|H].
    + left. apply (Permutation_in _ (Permutation_sym F2)), in_seq. lia.
    + right. assert (D : dim <> 0) by (intros ->; lia). exists ((i - mu) / dim), ((i - mu) mod dim).
      pose proof (Nat.div_mod (i - mu) dim D). pose proof (Nat.mod_upper_bound (i - mu) dim D).
      rewrite F3. split; [apply in_seq; split; [lia|]|split; [lia|lia]]. apply Nat.div_lt_upper_bound; lia.
Qed.
